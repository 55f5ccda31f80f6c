(** * Specification for C88: what a parse does to the VM is put together from its parts. *)
From Verif Require Import Base Tree ParserData Vm SpecTree SpecRules SpecLanguage.

(** The text at the node reached from [id] by a path of child numbers. *)
Definition seen (t : Tree str) (id : NodeId) (path : list nat) : outcome TreeError (option str) :=
  let* n := get_by_path_or_none t id path in Ok (option_map n_data n).
(** A VM whose instructions look at nothing but the texts at and below the current node. *)
Definition looks_down (vm : VM) : Prop := forall t t' id id' i s,
  (forall path, seen t id path = seen t' id' path) ->
  match vm_execute vm t id i s, vm_execute vm t' id' i s with
  | Ok (_, s1), Ok (_, s2) => s1 = s2
  | Panic, Panic | Diverge, Diverge => True
  | _, _ => False
  end.
(** ... but the text at the first child of the current node. *)
Definition looks_at_first_child (vm : VM) : Prop := forall t t' id id' i s,
  seen t id [0] = seen t' id' [0] ->
  match vm_execute vm t id i s, vm_execute vm t' id' i s with
  | Ok (_, s1), Ok (_, s2) => s1 = s2
  | Panic, Panic | Diverge, Diverge => True
  | _, _ => False
  end.

(** The tree that has [nt] at NodeId(0,0). *)
Definition own_tree (nt : ntree) : Tree str := snd (do_adds (nhistory 0 None nt) tree_new).
Section effect.
Context {vm : VM} (rs : list (arule (vm_instr vm))).
(** The instructions of a name, on the root of a tree of its own. *)
Definition own_instructions (nt : ntree) (v : vm_state vm) : outcome Empty_set (vm_state vm) :=
  match nt with
  | NLeaf _ => Ok v
  | NNode x _ => ofold (fun v ins => let* '(_t, v') := vm_execute vm (own_tree nt) (mkNodeId 0 0) ins v in Ok v') v (instructions_for rs x)
  end.
(** The effect of a tree: its subtrees from left to right, then its own instructions. *)
Fixpoint effect (nt : ntree) (v : vm_state vm) : outcome Empty_set (vm_state vm) :=
  let* v1 := match nt with
             | NLeaf _ => Ok v
             | NNode _ subs => (fix all (subs : list ntree) (v : vm_state vm) :=
                                  match subs with [] => Ok v | s :: subs' => let* v' := effect s v in all subs' v' end) subs v
             end in own_instructions nt v1.
End effect.
(** No instructions belong to names that are ignored or used to define ignored names. *)
Definition ignored_silent {I} (rs : list (arule I)) : Prop :=
  forall x y z, ignores rs x y -> rtc (fun a b => uses rs a b \/ ignores rs a b) y z -> instructions_for rs z = [].
