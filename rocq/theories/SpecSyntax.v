(** * Specification for C73: what a grammar says apart from its instructions. *)
From Verif Require Import Base Tree Errors Sets ParserData Vm SteuerMap ScriptParser SpecScript SpecRules SpecNames SpecLanguage.

(** [alts] are the alternatives of [x], in order (after repeated definitions are joined and
    ignored elements are put in place). *)
Definition all_said {I} (rs : list (arule I)) (x : str) (alts : list (list (str * ElementType))) : Prop :=
  forall i w, alts !! i = Some w <-> says rs x i w.
(** Two grammars, maybe for different VMs, with the same names and the same alternatives in
    some order; their instructions may differ. *)
Definition same_syntax {I J} (rs : list (arule I)) (rs' : list (arule J)) : Prop := forall x,
  (defined rs x <-> defined rs' x) /\
  forall alts alts', all_said rs x alts -> all_said rs' x alts' -> alts ≡ₚ alts'.
(** Parser data with the same elements and the same productions, in the same order. *)
Definition same_productions {I J} (pd : ParserData I) (pd' : ParserData J) : Prop :=
  element_types pd = element_types pd' /\ element_data pd = element_data pd' /\
  forall A, option_map possible_productions (pd_rules pd !! A) = option_map possible_productions (pd_rules pd' !! A).
(** Parser data with the same rules by name, up to the order of alternatives and up to the
    instructions. *)
Definition same_named {I J} (pd : ParserData I) (pd' : ParserData J) : Prop :=
  (forall x alts is, rule_named pd x alts is -> exists alts' is', alts' ≡ₚ alts /\ rule_named pd' x alts' is') /\
  (forall x alts is, rule_named pd' x alts is -> exists alts' is', alts' ≡ₚ alts /\ rule_named pd x alts' is').
(** Neither result is a panic nor out of fuel. *)
Definition finished {A E} (o : outcome E A) : Prop := match o with Ok _ | Err _ => True | Panic | Diverge => False end.
