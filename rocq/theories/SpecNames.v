(** * Grammars by name (specification for C54, C56): what a grammar says when element
    numbers are replaced by the names and kinds of the elements. *)
From Verif Require Import Base ParserData SpecGrammar.

Section named.
Context {I : Type} (pd : ParserData I).
(** The elements numbered [ixs] are called [w]. *)
Definition called (w : list (str * ElementType)) (ixs : list nat) : Prop :=
  Forall2 (fun e ix => get_element_verbose pd ix = Some e) w ixs.
(** The nonterminal called [x] has a rule with the alternatives [alts], in this order,
    and the instructions [is]. *)
Definition rule_named (x : str) (alts : list (list (str * ElementType))) (is : list I) : Prop :=
  exists A r, get_element_verbose pd A = Some (x, NonTerminal) /\ pd_rules pd !! A = Some r /\
    Forall2 (fun a p => called a (right_side p)) alts (possible_productions r) /\ instruction r = is.
(** A name and kind belong to one element at most. *)
Definition names_unique : Prop := forall A B v,
  get_element_verbose pd A = Some v -> get_element_verbose pd B = Some v -> A = B.
(** Every number used in an alternative is an element, and the alternative without
    elements is written [Empty]. *)
Definition proper : Prop :=
  (forall A r p, pd_rules pd !! A = Some r -> p ∈ possible_productions r -> p <> NotEmpty []) /\
  (forall A w e, alternative pd A w -> e ∈ w -> is_Some (get_element_verbose pd e)).
End named.
(** The same rules up to the numbering of the elements, the order of the rules and the
    order of the alternatives within a rule. *)
Definition same_grammar {I} (pd pd' : ParserData I) : Prop :=
  (forall x alts is, rule_named pd x alts is -> exists alts', alts' ≡ₚ alts /\ rule_named pd' x alts' is) /\
  (forall x alts is, rule_named pd' x alts is -> exists alts', alts' ≡ₚ alts /\ rule_named pd x alts' is).
