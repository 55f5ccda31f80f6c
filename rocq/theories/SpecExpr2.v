(** * Specification for C118: arithmetic expressions for the calculators. *)
From Verif Require Import Base SpecText SpecScript SpecVm SpecRpn.
Local Open Scope Z_scope.

(** Expressions of decimal numbers, sums and differences, their exact values, and how they
    are written for the calculators: the operands one after the other, then the operation. *)
Inductive expr := Lit (digits : str) | Sum (a b : expr) | Difference (a b : expr).
Fixpoint value (e : expr) : Z :=
  match e with Lit ds => Z.of_N (dec_value ds) | Sum a b => value a + value b | Difference a b => value a - value b end.
Fixpoint postfix (e : expr) : list item :=
  match e with
  | Lit ds => [Num ds]
  | Sum a b => postfix a ++ postfix b ++ [Plus]
  | Difference a b => postfix a ++ postfix b ++ [Minus]
  end.
(** Every number is written with at least one digit, and at most [n]. *)
Fixpoint numbers_within (n : Z) (e : expr) : Prop :=
  match e with
  | Lit ds => ds <> [] /\ Forall digit_char ds /\ Z.of_nat (length ds) <= n
  | Sum a b | Difference a b => numbers_within n a /\ numbers_within n b
  end.
(** The values of the expression and of all its parts are words. *)
Fixpoint fits (lo : Z) (e : expr) : Prop :=
  in_word lo (value e) /\ match e with Lit _ => True | Sum a b | Difference a b => fits lo a /\ fits lo b end.
(** Several expressions, one after the other. *)
Definition postfixes (es : list expr) : list item := concat (map postfix es).
(** How many of the items are "print", and how many are numbers. *)
Definition is_print (i : item) : bool := match i with Print => true | _ => false end.
Definition is_literal (i : item) : bool := match i with Num _ => true | _ => false end.
Definition count (p : item -> bool) (l : list item) : nat := length (List.filter p l).
