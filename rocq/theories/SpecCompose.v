(** * Specification for C87: grammars put together from parts. *)
From Verif Require Import Base Sets ParserData Vm ScriptParser SpecRules SpecLanguage.

Section compose.
Context {I : Type}.
(** Rules [P] that define all they use and ignore, [a] among others, and do not define start. *)
Record part (P : list (arule I)) (a : str) : Prop := {
  pt_entry : defined P a;
  pt_no_start : ~ defined P (lit "start");
  pt_uses : forall x y, uses P x y -> defined P y;
  pt_ignores : forall x y, ignores P x y -> defined P y;
}.
(** Parts without a common name. *)
Definition apart (P Q : list (arule I)) : Prop := forall x, defined P x -> defined Q x -> False.
(** A rule for start in front. *)
Definition starting (alts : list (list (str * ElementType))) (is : list I) (P : list (arule I)) : list (arule I) :=
  mkARule (lit "start") OvAbsent alts is :: P.
(** [start -> a;] *)
Definition alone (a : str) (is : list I) (P : list (arule I)) := starting [[(a, NonTerminal)]] is P.
(** [start -> a | b;] *)
Definition either (a b : str) (is : list I) (P Q : list (arule I)) := starting [[(a, NonTerminal)]; [(b, NonTerminal)]] is (P ++ Q).
(** [start -> a b;] *)
Definition in_turn (a b : str) (is : list I) (P Q : list (arule I)) := starting [[(a, NonTerminal); (b, NonTerminal)]] is (P ++ Q).
(** [start -> a start | #;] *)
Definition repeated (a : str) (is : list I) (P : list (arule I)) := starting [[(a, NonTerminal); (lit "start", NonTerminal)]; []] is P.

(** The lookaheads that announce [a]: its first chars and, if it can be empty, what can follow it. *)
Definition announces (rs : list (arule I)) (a : str) (l : SetMember) : Prop :=
  (exists c, l = MChar c /\ nfirst rs [(a, NonTerminal)] c) \/ (nnullable rs [(a, NonTerminal)] /\ nfollow rs (a, NonTerminal) l).
(** Where the text may end, one alternative of [x] is taken at the end, another one in front of [c]. *)
Definition goes_on (rs : list (arule I)) (c : char) : Prop :=
  exists x i j w w', says rs x i w /\ says rs x j w' /\ i <> j /\ nchoose rs x w MTerminate /\ nchoose rs x w' (MChar c).
End compose.

(** The tree of [repeated] for a list of trees. *)
Fixpoint listed (ts : list ntree) : ntree := match ts with [] => NNode (lit "start") [] | t :: ts => NNode (lit "start") [t; listed ts] end.

(** One script after the other is parsed, from the state left by the one before. *)
Inductive one_by_one {H : HashOrder} {vm : VM} (ps : Parser (vm_instr vm)) (fuel : nat) : list str -> vm_state vm -> vm_state vm -> Prop :=
| obo_nil v : one_by_one ps fuel [] v v
| obo_cons s ss v tr v1 v2 : parse vm ps fuel s v = (Ok tr, v1) -> one_by_one ps fuel ss v1 v2 -> one_by_one ps fuel (s :: ss) v v2.
