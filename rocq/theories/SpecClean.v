(** * Specification for C110: grammar texts without overrides, repetitions and useless parts. *)
From Verif Require Import Base ParserData SpecRules SpecLanguage.

(** Every name is defined once, and no rule has an override. *)
Definition written_plainly {I} (rs : list (arule I)) : Prop := NoDup (map ar_name rs) /\ forall r, r ∈ rs -> ar_override r = OvAbsent.
(** The same names with the same alternatives, in the same order, and the same instructions. *)
Definition says_the_same {I} (rs rs' : list (arule I)) : Prop := forall x,
  (defined rs x <-> defined rs' x) /\ instructions_for rs x = instructions_for rs' x /\ forall i w, says rs x i w <-> says rs' x i w.
(** Every alternative occurs in the tree of some sentence. *)
Definition every_part_used {I} (rs : list (arule I)) : Prop := forall x i w, says rs x i w ->
  exists nt path subs, nderivation rs nt /\ nroot nt = (lit "start", NonTerminal) /\ nsubtree nt path = Some (NNode x subs) /\ map nroot subs = w.
