(** * Specification for C85: grammars with fewer alternatives. *)
From Verif Require Import Base ParserData SpecRules SpecLanguage.

(** Each alternative of [rs] is one of [rs'], different ones being different ones. *)
Definition fewer_alternatives {I} (rs rs' : list (arule I)) : Prop :=
  forall x, exists f : nat -> nat, (forall i j, f i = f j -> i = j) /\ forall i w, says rs x i w -> says rs' x (f i) w.
