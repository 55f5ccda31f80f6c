(** * Why a grammar is refused, by names (C69).
    Which defect of a grammar [rs], as written, a panic message of new_from_text points at.
    The numbers in the messages count the names and quoted texts of the text in the order of
    their first occurrence. *)
From Verif Require Import Base Tree Errors Sets ParserData SpecWeave SpecRules SpecLanguage Payload.

Section complaint.
Context {I : Type} (rs : list (arule I)).
(** [x] is the [k]-th different element of the text. *)
Definition numbered (k : nat) (x : str) : Prop := firsts [] (concat (map mentioned rs)) !! k = Some (x, NonTerminal).
(** [y] stands on the right-hand side of a rule (IGNORE in place) but has no rule. *)
Definition wanted_but_missing (y : str) : Prop := exists x i w, says rs x i w /\ (y, NonTerminal) ∈ w /\ ~ defined rs y.
(** The word before the char in the message of a clash: the terminal at the start of the
    later alternative, else the word follow_set. *)
Definition clash_word (w : list (str * ElementType)) : str :=
  match w with (n, Terminal) :: _ => n | _ => lit "follow_set" end.
(** '#' stands for the end of the script, but is also a char. *)
Definition clash_char (a : SetMember) : char := match a with MChar c => c | MTerminate => 35%N end.

Inductive because : complaint -> Prop :=
| because_ignored x y z k : ignores rs x y -> rtc (uses rs) y z -> ~ defined rs z -> numbered k z ->
    because (AboutText (InternalError k))
| because_production y k : wanted_but_missing y -> numbered k y -> because (AboutGrammar (MissingProduction k))
| because_first y k : wanted_but_missing y -> numbered k y -> because (AboutGrammar (MissingFirstSet k))
| because_node y k : wanted_but_missing y -> numbered k y -> because (AboutGrammar (GraphNodeDoesNotExistsError k))
| because_start k : ~ defined rs (lit "start") -> numbered k (lit "start") -> because (AboutGrammar (GraphNodeDoesNotExistsError k))
| because_nothing : (lit "start", NonTerminal) ∉ concat (map mentioned rs) -> because AboutStart
| because_clash x i j w w' a k : says rs x i w -> says rs x j w' -> i < j -> nchoose rs x w a -> nchoose rs x w' a -> numbered k x ->
    because (AboutGrammar (SteuerSetsNotDistinct (clash_word w') (clash_char a) k)).
End complaint.
