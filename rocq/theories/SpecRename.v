(** * Specification for C74: renaming nonterminals. *)
From Verif Require Import Base ParserData SpecGrammar SpecRules.

Section rename.
Context (f : str -> str).
(** Only nonterminals have a name of their own; a terminal is its text. *)
Definition rename_el (e : str * ElementType) : str * ElementType :=
  match e with (x, NonTerminal) => (f x, NonTerminal) | (s, Terminal) => (s, Terminal) end.
Definition rename_override (o : override) : override :=
  match o with OvIgnore x => OvIgnore (f x) | _ => o end.
(** The rule with every nonterminal renamed, with the same instructions. *)
Definition renamed {I} (r : arule I) : arule I :=
  mkARule (f (ar_name r)) (rename_override (ar_override r)) (map (map rename_el) (ar_alts r)) (ar_instr r).
(** Different names stay different. *)
Definition injective : Prop := forall x y, f x = f y -> x = y.
End rename.
(** Parser data that differ at most in the names of nonterminals. *)
Definition same_but_names {I} (pd pd' : ParserData I) : Prop :=
  element_types pd = element_types pd' /\ length (element_data pd) = length (element_data pd') /\
  (forall e s, is_terminal pd e s <-> is_terminal pd' e s) /\ pd_rules pd = pd_rules pd'.
