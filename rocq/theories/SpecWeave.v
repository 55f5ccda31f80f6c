(** * Specification of the IGNORE mechanism (C15, C16) *)
From Verif Require Import Base ParserData SpecGrammar.

(** The ignored element [ig] between every two neighbours and nowhere else. *)
Fixpoint interleave {X} (ig : X) (els : list X) : list X :=
  match els with
  | [] => []
  | [x] => [x]
  | x :: rest => x :: ig :: interleave ig rest
  end.
Definition interleaved (ig : nat) (p : Production) : Production :=
  match p with NotEmpty els => NotEmpty (interleave ig els) | Empty => Empty end.

Section spec.
Context {I : Type} (pd : ParserData I).
(** [a] has a rule and derives a sentential form containing [b]. *)
Definition can_derive (a b : nat) : Prop := has_rule pd a /\ exists u v, derives pd [a] (u ++ b :: v).
(** Every index used by the rules is an element. *)
Definition indices_ok : Prop :=
  (forall A w e, alternative pd A w -> e ∈ w -> is_Some (get_element_verbose pd e)) /\
  (forall A r ig, pd_rules pd !! A = Some r -> ntr_ignore r = Some ig -> is_Some (get_element_verbose pd ig)).
(** [ig] needs a nonterminal nobody defined. *)
Definition needs_undefined (ig : nat) : Prop :=
  exists x u v, derives pd [ig] (u ++ x :: v) /\ is_nonterminal pd x /\ ~ has_rule pd x.

(** What parse_rules makes of the rule [r] of nonterminal [A] when the text is read. *)
Inductive edited (A : nat) (r : NonTerminalRules I) : NonTerminalRules I -> Prop :=
| ed_none : ntr_ignore r = None -> edited A r r
| ed_inside ig : ntr_ignore r = Some ig -> can_derive ig A ->
    edited A r (mkNTR (possible_productions r) None (instruction r))
| ed_woven ig : ntr_ignore r = Some ig -> ~ can_derive ig A ->
    edited A r (mkNTR (map (interleaved ig) (possible_productions r)) (Some ig) (instruction r)).

(** The data [pd'] are [pd] with every rule edited and nothing else changed. *)
Record edited_data (pd' : ParserData I) : Prop := {
  edd_rules : forall A r', pd_rules pd' !! A = Some r' <-> exists r, pd_rules pd !! A = Some r /\ edited A r r';
  edd_domain : forall A, has_rule pd' A <-> has_rule pd A;
  edd_types : element_types pd' = element_types pd;
  edd_names : element_data pd' = element_data pd;
  edd_index : element_verbose_map pd' = element_verbose_map pd;
  edd_global : pr_ignore (parse_rules pd') = pr_ignore (parse_rules pd);
}.
End spec.
