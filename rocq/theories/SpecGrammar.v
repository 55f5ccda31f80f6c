(** * Textbook grammar notions over the parser data (specification for C20-C39).
    Nothing here refers to the algorithms of the crate: derivation steps, nullable,
    FIRST, FOLLOW, LL(1), derivation trees. *)
From Verif Require Import Base Sets ParserData.

Section grammar.
Context {I : Type} (pd : ParserData I).

(** Terminal [e] with text [s]; nonterminal [e]. *)
Definition is_terminal (e : nat) (s : str) : Prop := get_element_verbose pd e = Some (s, Terminal).
Definition is_nonterminal (e : nat) : Prop := exists s, get_element_verbose pd e = Some (s, NonTerminal).

(** The right side denoted by an alternative. *)
Definition right_side (p : Production) : list nat :=
  match p with NotEmpty els => els | Empty => [] end.
(** [A -> w] is an alternative of the grammar. *)
Definition alternative (A : nat) (w : list nat) : Prop :=
  exists r p, pd_rules pd !! A = Some r /\ p ∈ possible_productions r /\ w = right_side p.
Definition has_rule (A : nat) : Prop := is_Some (pd_rules pd !! A).

(** Grammars as the crate builds them: rules belong to nonterminals, and the two
    element vectors have the same length. *)
Record wf_grammar : Prop := {
  wf_len : length (element_types pd) = length (element_data pd);
  wf_rules : forall A, has_rule A -> is_nonterminal A;
}.
(** Every index in an alternative is an element, every nonterminal used has a rule,
    and a non-empty production has elements. *)
Definition all_defined : Prop :=
  (forall A r p, pd_rules pd !! A = Some r -> p ∈ possible_productions r -> p <> NotEmpty []) /\
  forall A w e, alternative A w -> e ∈ w ->
    (exists s, is_terminal e s) \/ (is_nonterminal e /\ has_rule e).

(** ** Derivations of sentential forms *)
Inductive step : list nat -> list nat -> Prop :=
| step_intro u A v w : alternative A w -> step (u ++ A :: v) (u ++ w ++ v).
Definition derives : list nat -> list nat -> Prop := rtc step.

(** A sentential form that stands for no text at all: only empty terminals. *)
Definition erased (x : list nat) : Prop := Forall (fun e => is_terminal e []) x.
(** [w] derives something that stands for the empty text. *)
Definition NULLABLE (w : list nat) : Prop := exists x, derives w x /\ erased x.
(** [w] derives something whose text starts with a terminal beginning with [c]. *)
Definition FIRST (w : list nat) (c : char) : Prop :=
  exists x t v s, derives w (x ++ t :: v) /\ erased x /\ is_terminal t (c :: s).
(** [A] can be followed by: the char [c], in a sentential form derived from some
    nonterminal with a rule; the end, in one derived from [start]. *)
Definition FOLLOW (start : nat) (A : nat) (x : SetMember) : Prop :=
  match x with
  | MChar c => exists B u v, has_rule B /\ derives [B] (u ++ A :: v) /\ FIRST v c
  | MTerminate => exists u v, derives [start] (u ++ A :: v) /\ NULLABLE v
  end.

(** Prediction (SELECT) set of the alternative [A -> w]. *)
Definition SELECT (start A : nat) (w : list nat) (x : SetMember) : Prop :=
  (exists c, x = MChar c /\ FIRST w c) \/ (NULLABLE w /\ FOLLOW start A x).

(** LL(1): two different alternatives of a nonterminal never share a prediction. *)
Definition LL1 (start : nat) : Prop :=
  forall A r i j p q x, pd_rules pd !! A = Some r ->
    possible_productions r !! i = Some p -> possible_productions r !! j = Some q -> i <> j ->
    SELECT start A (right_side p) x -> SELECT start A (right_side q) x -> False.

(** Left recursion: [A] can call [B] at the leftmost position, behind a nullable
    prefix. *)
Definition left_calls (A B : nat) : Prop :=
  exists u v, alternative A (u ++ B :: v) /\ NULLABLE u /\ is_nonterminal B.
Definition left_recursive (A : nat) : Prop := tc left_calls A A.
End grammar.

(** What the FIRST computation looks at: the elements behind a nullable prefix of an
    alternative.  [left_defined] says these are terminals or have a rule. *)
Definition left_defined {I} (pd : ParserData I) : Prop :=
  (forall A r p, pd_rules pd !! A = Some r -> p ∈ possible_productions r -> p <> NotEmpty []) /\
  forall A u e v, alternative pd A (u ++ e :: v) -> NULLABLE pd u ->
    (exists s, is_terminal pd e s) \/ (is_nonterminal pd e /\ has_rule pd e).

(** A set of lookaheads is the FIRST set of the right side [w]. *)
Definition is_first_set {I} (pd : ParserData I) (w : list nat) (s : gset SetMemberWithEmpty) : Prop :=
  (forall c, EChar c ∈ s <-> FIRST pd w c) /\ (EEmpty ∈ s <-> NULLABLE pd w) /\ ETerminate ∉ s.

(** Grammars that fit a 64-bit address space: at most 2^64 rules, and fewer than 2^64
    element occurrences in the alternatives of one rule. *)
Definition fits_memory {I} (pd : ParserData I) : Prop :=
  (N.of_nat (size (pd_rules pd)) <= 2 ^ 64)%N /\
  forall A r, pd_rules pd !! A = Some r ->
    (N.of_nat (length (concat (map right_side (possible_productions r)))) < 2 ^ 64)%N.

(** The lookaheads under which the crate chooses the alternative [p] of [A]: it looks
    at the first element only.  (Contrast with [SELECT], the textbook set.) *)
Definition CHOOSE {I} (pd : ParserData I) (start A : nat) (p : Production) (x : SetMember) : Prop :=
  match p with
  | Empty => FOLLOW pd start A x
  | NotEmpty [] => False
  | NotEmpty (e :: _) => (exists c, x = MChar c /\ FIRST pd [e] c) \/ (NULLABLE pd [e] /\ FOLLOW pd start e x)
  end.
Definition choices_disjoint {I} (pd : ParserData I) (start : nat) : Prop :=
  forall A r i j p q x, pd_rules pd !! A = Some r ->
    possible_productions r !! i = Some p -> possible_productions r !! j = Some q -> i <> j ->
    CHOOSE pd start A p x -> CHOOSE pd start A q x -> False.
(** An alternative that begins with the empty terminal [""]. *)
Definition starts_with_empty_terminal {I} (pd : ParserData I) (p : Production) : Prop :=
  exists e rest, p = NotEmpty (e :: rest) /\ is_terminal pd e [].
(** When the crate can build a parser. *)
Record constructible {I} (pd : ParserData I) (start : nat) : Prop := {
  con_defined : all_defined pd;
  con_no_left_recursion : forall A, ~ left_recursive pd A;
  con_start : has_rule pd start;
  con_no_empty_terminal : forall A r p, pd_rules pd !! A = Some r -> p ∈ possible_productions r ->
    ~ starts_with_empty_terminal pd p;
  con_disjoint : choices_disjoint pd start;
}.
