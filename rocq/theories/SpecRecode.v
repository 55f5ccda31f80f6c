(** * Specification for C93: other characters in the terminals. *)
From Verif Require Import Base Tree Errors Sets ParserData Vm SpecGrammar SpecScript SpecRules.

Section recode.
Context (g : char -> char).
(** Only terminals consist of chars of scripts; a nonterminal keeps its name. *)
Definition recode_el (e : str * ElementType) : str * ElementType :=
  match e with (s, Terminal) => (map g s, Terminal) | (x, NonTerminal) => (x, NonTerminal) end.
(** The rule with every char of every terminal replaced. *)
Definition recoded {I} (r : arule I) : arule I :=
  mkARule (ar_name r) (ar_override r) (map (map recode_el) (ar_alts r)) (ar_instr r).
(** Different chars stay different. *)
Definition one_to_one : Prop := forall c d, g c = g d -> c = d.

(** The tree with every char of every node replaced. *)
Definition recoded_node (n : Node str) : Node str :=
  mkNode (n_parent n) (n_prev n) (n_next n) (n_first n) (n_last n) (n_pk n) (map g (n_data n)).
Definition recoded_tree (t : Tree str) : Tree str := mkTree (map recoded_node (t_nodes t)) (t_free t) (t_counter t).
Definition recode_member (x : SetMember) : SetMember := match x with MChar c => MChar (g c) | MTerminate => MTerminate end.
(** Errors at the same position, the char found and the chars expected replaced, in a script
    of length [n].  At the end of a script the char reported is always [#]. *)
Inductive recoded_error (n : nat) : ParserError -> ParserError -> Prop :=
| re_char c pos l l' : pos < n -> l' ≡ₚ map recode_member l ->
    recoded_error n (UnexpectedCharError c pos (SpecScript.joined (lit ";") (map member_text l))) (UnexpectedCharError (g c) pos (SpecScript.joined (lit ";") (map member_text l')))
| re_end l l' : l' ≡ₚ map recode_member l ->
    recoded_error n (UnexpectedCharError 35%N n (SpecScript.joined (lit ";") (map member_text l))) (UnexpectedCharError 35%N n (SpecScript.joined (lit ";") (map member_text l')))
| re_other e : (forall c pos s, e <> UnexpectedCharError c pos s) -> recoded_error n e e.

Context (vm : VM) (R : vm_state vm -> vm_state vm -> Prop).
(** The VM does with the replaced tree what it does with the tree; [R] relates the states. *)
Definition vm_recodes : Prop := forall t node i v v', R v v' ->
  match vm_execute vm t node i v, vm_execute vm (recoded_tree t) node i v' with
  | Ok (t1, v1), Ok (t2, v2) => t2 = recoded_tree t1 /\ R v1 v2
  | Panic, Panic | Diverge, Diverge => True
  | _, _ => False
  end.
(** What the parses of a script of length [n] and of the replaced script have in common. *)
Definition recoded_result (n : nat) (x y : outcome ParserError (Tree str) * vm_state vm) : Prop :=
  let '(r, v) := x in let '(r', v') := y in
  R v v' /\ match r, r' with
  | Ok t, Ok t' => t' = recoded_tree t
  | Err e, Err e' => recoded_error n e e'
  | Panic, Panic | Diverge, Diverge => True
  | _, _ => False
  end.
End recode.
