(** * Specification for C78: VMs that correspond step by step, and for C79: debug and release builds. *)
From Verif Require Import Base Peekables Tree Errors Sets ParserData Vm SteuerMap ScriptParser SpecRules.

(** [RI] relates the instructions of two VMs, [R] their states. *)
Section vms.
Context (vm vm' : VM) (RI : vm_instr vm -> vm_instr vm' -> Prop) (R : vm_state vm -> vm_state vm' -> Prop).
(** Whatever [vm] does to the tree and to its state, [vm'] does as well. *)
Definition vm_follows : Prop := forall t id i i' s s' t1 s1, RI i i' -> R s s' ->
  vm_execute vm t id i s = Ok (t1, s1) -> exists s1', vm_execute vm' t id i' s' = Ok (t1, s1') /\ R s1 s1'.
(** [vm'] fails when [vm] does, in the same way. *)
Definition vm_fails_too : Prop := forall t id i i' s s', RI i i' -> R s s' ->
  (vm_execute vm t id i s = Panic -> vm_execute vm' t id i' s' = Panic) /\
  (vm_execute vm t id i s = Diverge -> vm_execute vm' t id i' s' = Diverge).

(** Parsers with the same tables and corresponding instructions. *)
Definition same_parsers (ps : Parser (vm_instr vm)) (ps' : Parser (vm_instr vm')) : Prop :=
  p_elements ps = p_elements ps' /\
  forall A, match rules_with_steuermaps ps !! A, rules_with_steuermaps ps' !! A with
            | Some nt, Some nt' => steuermap nt = steuermap nt' /\ Forall2 RI (nt_instruction nt) (nt_instruction nt')
            | None, None => True
            | _, _ => False
            end.
(** Parser data with the same elements and productions and corresponding instructions. *)
Definition same_data (pd : ParserData (vm_instr vm)) (pd' : ParserData (vm_instr vm')) : Prop :=
  (forall e, get_element_verbose pd e = get_element_verbose pd' e) /\
  forall A, match pd_rules pd !! A, pd_rules pd' !! A with
            | Some r, Some r' => possible_productions r = possible_productions r' /\ Forall2 RI (instruction r) (instruction r')
            | None, None => True
            | _, _ => False
            end.
(** Rules written alike, with corresponding instructions. *)
Definition same_written (r : arule (vm_instr vm)) (r' : arule (vm_instr vm')) : Prop :=
  ar_name r = ar_name r' /\ ar_override r = ar_override r' /\ ar_alts r = ar_alts r' /\ Forall2 RI (ar_instr r) (ar_instr r').
End vms.

(** Two VMs in one: instructions and states are pairs.  The second VM sees the tree the
    first one leaves. *)
Definition both (vm1 vm2 : VM) (parse12 : forall S, TPeek S -> str -> PP S -> outcome ParserError (list (vm_instr vm1 * vm_instr vm2)) * PP S) : VM :=
  mkVM (vm_state vm1 * vm_state vm2) (vm_instr vm1 * vm_instr vm2) parse12
    (fun t id i s => let* '(t1, s1) := vm_execute vm1 t id (fst i) (fst s) in
                     let* '(t2, s2) := vm_execute vm2 t1 id (snd i) (snd s) in Ok (t2, (s1, s2)))
    (vm_new_state vm1, vm_new_state vm2).

(** What a release build does ([o']) when the debug build ([o]) does not panic: the same. *)
Definition as_debug {E A} (o o' : outcome E A) : Prop := o <> Panic -> o' = o.
