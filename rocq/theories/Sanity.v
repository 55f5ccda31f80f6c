(** * Sanity tests: the model computes what the repository's examples print (the unit
    tests are in UnitTests.v).  These are tests of the model, not property proofs. *)
From Coq Require Import Ascii String.
From Verif Require Import Base Peekables Tree Errors ParseFuncs ParserData Vm SimpleStackVm
  StackVm Sets RuleParsing FirstSets FollowSets SteuerMap ScriptParser Samples.
#[local] Existing Instance ascii_unicode.
#[local] Existing Instance plain_order.

Definition run_text (vm : VM) (fuel : nat) (rules script : str)
  : outcome ParserError (Tree str) * option (vm_state vm) :=
  match new_from_text Checked vm (mkFuels 100 100) rules with
  | Ok ps => let '(r, v) := parse vm ps fuel script (vm_new_state vm) in (r, Some v)
  | _ => (Panic, None)
  end.

(** examples/simple_stack_based_math.rs prints 2 *)
Example simple_math_prints :
  option_map ss_out (run_text (SimpleStackVm Checked) 200 simple_math_rules math_script).2
  = Some [2%N].
Proof. vm_compute. reflexivity. Qed.
(** examples/stack_based_math.rs prints 2 *)
Example stack_math_prints :
  option_map ks_out (run_text (StackVm Checked) 200 stack_math_rules math_script).2
  = Some [2%Z].
Proof. vm_compute. reflexivity. Qed.
