(** * The contract between the crate and a VM.
    [VM] is the crate's extension point.  The theorems that mention a VM hold for every VM
    with the properties below; the four VMs of the crate have them. *)
From Verif Require Import Base Peekables Tree Errors ParserData Vm SimpleStackVm StackVm
  RuleParsing ScriptParser SpecText SpecTree SpecRules SpecScript.

(** ** Executing instructions *)
(** A VM whose instructions never panic, never loop, when they are executed on a node of
    a tree grown by add_node calls. *)
Definition never_panics (vm : VM) : Prop := forall h n i s, grown h -> n < length h ->
  vm_execute vm (snd (do_adds h tree_new)) (id_of n) i s <> Panic.
Definition always_returns (vm : VM) : Prop := forall h n i s, grown h -> n < length h ->
  vm_execute vm (snd (do_adds h tree_new)) (id_of n) i s <> Diverge.

(** ** Reading instruction sections *)
(** The error carries no position, or this one. *)
Definition error_at (k : nat) (e : ParserError) : Prop :=
  match error_position e with Some j => j = k | None => True end.
(** What [parse_instructions] is given: the rest [w] of the rule text, behind the brace at
    position [n - 1], up to the closing brace. *)
Local Notation outer w n := (mkPP w n None None false).
Definition brace_process (w : str) (n : nat) : PP (PP str) :=
  pp_new_nested (outer w n) (Some 125%N) (Some 92%N) n.
(** [reads name body is]: what the VM makes of the section text [body] of the rule [name]. *)
Record vm_reads {U : Unicode} (vm : VM) (reads : str -> str -> list (vm_instr vm) -> Prop) : Prop := {
  (* it only consumes, never panics nor loops, errors carry the position reached, and
     whatever it accepts in front of a brace is in [reads] *)
  vr_total : forall name w n, exists r g pre rest,
    vm_parse_instructions vm (PP str) (pp_tp base_tp) name (brace_process w n) = (r, g) /\
    pp_inner g = outer rest (n + length pre) /\ w = pre ++ rest /\
    match r with
    | Ok is => forall rest', rest = 125%N :: rest' -> reads name pre is
    | Err e => error_at (n + length pre) e
    | Panic | Diverge => False
    end;
  (* every text in [reads] is accepted (when white space and names are disjoint) *)
  vr_reads : tables_disjoint -> forall name body is n rest, reads name body is -> exists g,
    vm_parse_instructions vm (PP str) (pp_tp base_tp) name (brace_process (body ++ 125%N :: rest) n) = (Ok is, g) /\
    pp_inner g = outer (125%N :: rest) (n + length body);
}.

(** The VMs of the crate, with the instruction texts they read, and any other VM that meets
    the contract. *)
Inductive supported {U : Unicode} : forall vm : VM, (str -> str -> list (vm_instr vm) -> Prop) -> Prop :=
| sh_null : supported NullVm null_reads
| sh_counting m : supported (CountingVm m) counting_reads
| sh_simple m : supported (SimpleStackVm m) simple_reads
| sh_stack m : supported (StackVm m) stack_reads
| sh_custom vm reads : vm_reads vm reads -> keeps_tree vm -> always_returns vm -> supported vm reads.
