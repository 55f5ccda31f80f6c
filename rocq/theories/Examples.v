(** * Model of the example programs (examples/*.rs) *)
From Verif Require Import Base Peekables Tree Errors Sets ParserData Vm SimpleStackVm StackVm RuleParsing FirstSets FollowSets SteuerMap ScriptParser Display DebugFmt SpecText SpecData SpecMath.

Section examples.
Context {U : Unicode} {H : HashOrder} {P : Printable} (m : ovf_mode).
(** The local [script] of all three mains (simple_stack_based_math.rs:22,
    stack_based_math.rs:22, rust_defined_rules.rs:152) *)
Definition example_script : str := lit "1 2 + 3 + 4 - print".

(** main (examples/simple_stack_based_math.rs:8-27 and, with StackVm,
    examples/stack_based_math.rs:8-27).  [file] is the content of the rule file, [None] if
    it cannot be read ([expect] panics).  [lines] is what the VM has printed so far.  The
    result is the end of the program ([Panic]: exit status 101) and the lines on standard output.
    Simplifications: the script is a parameter; [fuel] bounds the recursion depth; writing
    to standard output does not fail; what the process prints on standard error when it
    panics is left out. *)
Definition text_example (vm : VM) (lines : vm_state vm -> list str) (fl : fuels) (fuel : nat) (file : option str) (script : str)
  : outcome Empty_set unit * list str :=
  match file with
  | None => (Panic, [])
  | Some rules =>
      match new_from_text m vm fl rules with
      | Ok parser =>
          let '(r, s) := parse vm parser fuel script (vm_new_state vm) in
          match (unwrap r : outcome Empty_set (Tree str)) with
          | Ok _ => (Ok tt, lines s ++ [lit "ok"])
          | Panic => (Panic, lines s)
          | Diverge => (Diverge, lines s)
          | Err e => match e with end
          end
      | Panic => (Panic, [])
      | Diverge => (Diverge, [])
      | Err e => match e with end
      end
  end.

(** main (examples/rust_defined_rules.rs:8-161): the calls (SpecMath.v), the parser, the
    script, and a match on the result that prints one more line. *)
Definition api_example (vmm : ovf_mode) (fl : fuels) (fuel : nat) (script : str) : outcome Empty_set unit * list str :=
  match new_from_parser_data m (StackVm vmm) fl (pd_history rust_defined_calls) 0 with
  | Ok parser =>
      let '(r, s) := parse (StackVm vmm) parser fuel script (vm_new_state (StackVm vmm)) in
      let printed := map decimal_z (ks_out s) in
      match r with
      | Ok _ => (Ok tt, printed ++ [lit "Parsing successful!"; lit "ok"])
      | Err e => (Ok tt, printed ++ [lit "Parsing error: " ++ debug_parser_error e; lit "ok"])
      | Panic => (Panic, printed)
      | Diverge => (Diverge, printed)
      end
  | Panic => (Panic, [])
  | Diverge => (Diverge, [])
  | Err e => match e with end
  end.

(** [println!("{reg}")] of the two VMs (simple_stack_vm.rs:134-142, stack_vm.rs:158-166) *)
Definition simple_lines (s : SState) : list str := map decimal (ss_out s).
Definition stack_lines (s : KState) : list str := map decimal_z (ks_out s).
Definition simple_math_main (vmm : ovf_mode) := text_example (SimpleStackVm vmm) simple_lines.
Definition stack_math_main (vmm : ovf_mode) := text_example (StackVm vmm) stack_lines.
End examples.
