(** * Specification for C105: what the tree shows to instructions and callers. *)
From Verif Require Import Base Tree ParserData Vm SpecRules SpecLanguage.

Definition parts_of (nt : ntree) : list ntree := match nt with NLeaf _ => [] | NNode _ subs => subs end.
(** From the node [id] the tree, as seen through get_node and get_children, looks like [nt]:
    the node's data is the text of a leaf and empty otherwise, and its children look like the
    parts, in order. *)
Inductive looks_like (t : Tree str) : NodeId -> ntree -> Prop :=
| looks_intro id nt n ids : get_node t id = Ok n -> n_data n = nlabel nt -> get_children t id = Ok ids ->
    Forall2 (looks_like t) ids (parts_of nt) -> looks_like t id nt.
(** The text under a node: its data, then the texts under its children. *)
Inductive text_under (t : Tree str) : NodeId -> str -> Prop :=
| under_intro id n ids ss : get_node t id = Ok n -> get_children t id = Ok ids ->
    Forall2 (text_under t) ids ss -> text_under t id (n_data n ++ concat ss).

(** The same VM, keeping a list of the tree, the node and the instruction of each call of
    execute. *)
Definition spied (vm : VM) : VM :=
  mkVM (vm_state vm * list (Tree str * NodeId * vm_instr vm)) (vm_instr vm) (vm_parse_instructions vm)
    (fun t id i s => match vm_execute vm t id i (fst s) with
                     | Ok (t', v') => Ok (t', (v', snd s ++ [(t, id, i)]))
                     | Err e => Err e
                     | Panic => Panic
                     | Diverge => Diverge
                     end)
    (vm_new_state vm, []).
