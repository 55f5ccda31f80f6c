(** * Specification for C89: grammars that accept whole scripts only. *)
From Verif Require Import Base Sets ParserData Vm SpecRules SpecLanguage SpecCompose.

(** [e -> #;] *)
Definition end_rule {I} (e : str) : arule I := mkARule e OvAbsent [[]] [].
(** [start -> a e;] and [e -> #;] around the rules [P]. *)
Definition whole {I} (a e : str) (is : list I) (P : list (arule I)) : list (arule I) :=
  starting [[(a, NonTerminal); (e, NonTerminal)]] is (P ++ [end_rule e]).
