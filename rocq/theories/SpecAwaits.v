(** * Specification for C59: where and why the analysis of a script stops. *)
From Verif Require Import Base Sets Errors ParserData SpecGrammar SpecParser SpecScript SpecRules SpecLanguage.

Section awaits.
Context {I : Type} (rs : list (arule I)).
Notation element := (str * ElementType)%type.
(** What comes next: a name is to be begun, or a char of a quoted text is to be read. *)
Inductive goal := Begin (x : str) | Read (c : char).
(** The lookaheads with which it can go on. *)
Definition listed (g : goal) (a : SetMember) : Prop :=
  match g with
  | Begin x => exists i w, says rs x i w /\ nchoose rs x w a
  | Read c => a = MChar c
  end.
(** The trees [ts] in front of [s]: each one is chosen in front of what follows it. *)
Fixpoint trees_before (ts : list ntree) (s : str) : Prop :=
  match ts with
  | [] => True
  | t :: ts' => nderivation rs t /\ stands_before rs t (look (concat (map nyield ts') ++ s)) /\ trees_before ts' s
  end.
(** Of the text of [e], [before] has been read and [rest] is left of the script; [g] is next. *)
Inductive awaits : element -> str -> str -> goal -> Prop :=
| aw_name x rest : defined rs x -> awaits (x, NonTerminal) [] rest (Begin x)
| aw_text b c b' rest : awaits (b ++ c :: b', Terminal) b rest (Read c)
| aw_inside x i done e after before rest g :
    says rs x i (map nroot done ++ e :: after) ->
    nchoose rs x (map nroot done ++ e :: after) (look (concat (map nyield done) ++ before ++ rest)) ->
    trees_before done (before ++ rest) ->
    awaits e before rest g ->
    awaits (x, NonTerminal) (concat (map nyield done) ++ before) rest g.
(** The analysis of the script stops behind [before]: the rest does not begin as it should. *)
Definition stops (script before rest : str) (g : goal) : Prop :=
  script = before ++ rest /\ awaits (lit "start", NonTerminal) before rest g /\ ~ listed g (look rest).
(** The error for it. *)
Definition error_for (before rest : str) (g : goal) (e : ParserError) : Prop :=
  match g, rest with
  | Begin _, _ => exists keys, NoDup keys /\ (forall a, a ∈ keys <-> listed g a) /\
      e = UnexpectedCharError (match rest with c :: _ => c | [] => 35%N end) (length before) (SpecScript.joined (lit ";") (map member_text keys))
  | Read c, d :: _ => e = UnexpectedCharError d (length before) [c]
  | Read _, [] => e = EndOfCharsError (length before)
  end.
End awaits.
