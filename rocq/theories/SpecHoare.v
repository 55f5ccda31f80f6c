(** * Specification for C115: contracts for the instructions of a grammar. *)
From Verif Require Import Base Tree ParserData Vm SpecTree SpecRules SpecLanguage SpecEffect SpecHeights.

Section contracts.
Context {vm : VM} (rs : list (arule (vm_instr vm))).
(** For every name: when it may be begun, and what it then does to the state. *)
Record contract := mkContract { pre : str -> vm_state vm -> Prop; post : str -> vm_state vm -> vm_state vm -> Prop }.
Context (C : contract).
(** From state to state along some elements: quoted texts do nothing, names what their
    contract says. *)
Inductive along : list (str * ElementType) -> vm_state vm -> vm_state vm -> Prop :=
| al_nil v : along [] v v
| al_text b w v v' : along w v v' -> along ((b, Terminal) :: w) v v'
| al_name y w v v1 v' : post C y v v1 -> along w v1 v' -> along ((y, NonTerminal) :: w) v v'.
(** What the instructions of a name with this alternative see: the text of the first element,
    or an empty text for a name. *)
Definition first_part (w : list (str * ElementType)) : list ntree :=
  match w with [] => [] | (b, Terminal) :: _ => [NLeaf b] | (y, NonTerminal) :: _ => [NNode y []] end.
Definition instructions_on (x : str) (w : list (str * ElementType)) (v : vm_state vm) : outcome Empty_set (vm_state vm) :=
  own_instructions rs (NNode x (first_part w)) v.
(** The contract is kept, seen from each alternative of each part of [x] on its own: names in
    it are only begun when they may be, and the instructions do what is promised; they panic
    only if that is allowed. *)
Definition kept (panics_allowed : Prop) (x : str) : Prop :=
  forall y i w v, part_of rs x y -> says rs y i w -> pre C y v ->
  (forall w1 z w2 v1, w = w1 ++ (z, NonTerminal) :: w2 -> along w1 v v1 -> pre C z v1) /\
  forall v1, along w v v1 ->
    match instructions_on y w v1 with Ok v2 => post C y v v2 | Panic => panics_allowed | _ => False end.
(** The states in which an [x] that was begun can be left unfinished. *)
Inductive begun : str -> vm_state vm -> vm_state vm -> Prop :=
| be_choice x v : begun x v v
| be_text x i w1 b w2 v v' : says rs x i (w1 ++ (b, Terminal) :: w2) -> along w1 v v' -> begun x v v'
| be_inside x i w1 y w2 v v1 v' : says rs x i (w1 ++ (y, NonTerminal) :: w2) -> along w1 v v1 -> begun y v1 v' -> begun x v v'.
End contracts.
Arguments contract : clear implicits.
(** One parse after the other with the same parser and VM state, going on after errors; [None]
    if one of them panics or is out of fuel. *)
Fixpoint in_a_row {S E A} (run : str -> S -> outcome E A * S) (scripts : list str) (v : S) : option S :=
  match scripts with
  | [] => Some v
  | script :: more => match run script v with (Ok _, v') | (Err _, v') => in_a_row run more v' | _ => None end
  end.
