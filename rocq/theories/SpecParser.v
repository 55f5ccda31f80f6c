(** * What a constructed parser is (specification for C24, C26, C29) *)
From Verif Require Import Base Sets ParserData SteuerMap ScriptParser SpecGrammar.

(** The tables of a parser for the grammar [pd] started at [start]: the elements of the
    grammar in order, and for each rule its ignore override, its instructions, and a
    selection table that sends the lookahead [x] to the alternative chosen for [x]. *)
Record parser_table {I} (pd : ParserData I) (start : nat) (ps : Parser I) : Prop := {
  pt_elements : forall e, p_elements ps !! e = get_element_verbose pd e;
  pt_rules : forall A, is_Some (rules_with_steuermaps ps !! A) <-> has_rule pd A;
  pt_entry : forall A r nt, pd_rules pd !! A = Some r -> rules_with_steuermaps ps !! A = Some nt ->
    nt_ignore nt = ntr_ignore r /\ nt_instruction nt = instruction r /\
    forall x p, steuermap nt !! x = Some p <-> p ∈ possible_productions r /\ CHOOSE pd start A p x;
}.
(** Enough loop bounds for the analysis of [pd]. *)
Definition enough {I} (fl : fuels) (pd : ParserData I) : Prop :=
  size (pd_rules pd) + 2 <= first_fuel fl /\
  size (pd_rules pd) * (length (element_data pd) + 1) < follow_fuel fl.
