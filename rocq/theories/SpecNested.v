(** * Specification for C96: parts in brackets. *)
From Verif Require Import Base Sets ParserData Vm SpecRules SpecLanguage SpecCompose.

(** [start -> "op" start "cl" | a;] *)
Definition nested {I} (a op cl : str) (is : list I) (P : list (arule I)) :=
  starting [[(op, Terminal); (lit "start", NonTerminal); (cl, Terminal)]; [(a, NonTerminal)]] is P.
(** A text in [n] pairs of brackets. *)
Fixpoint bracketed (op cl : str) (n : nat) (s : str) : str := match n with 0 => s | S n => op ++ bracketed op cl n s ++ cl end.
(** Its tree. *)
Fixpoint nested_tree (op cl : str) (n : nat) (t : ntree) : ntree :=
  match n with 0 => NNode (lit "start") [t] | S n => NNode (lit "start") [NLeaf op; nested_tree op cl n t; NLeaf cl] end.
