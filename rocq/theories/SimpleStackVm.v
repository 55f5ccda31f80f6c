(** * Model of src/vms/simple_stack_vm.rs *)
From Verif Require Import Base Peekables Tree Errors Vm.

(** enum Instruction (simple_stack_vm.rs:13-29) *)
Inductive SInstr :=
| SAdd | SRegAddConst (c : N) | SSub | SDigit | SPopToReg | SPopToReg2 | SPopDiscard
| SPushConst (c : N) | SPushFromTree | SPushReg | SPushReg2 | SPrintReg | SPrintReg2
| SPrintError | SPow (base : N).

(** struct SimpleStackVmState (simple_stack_vm.rs:6-11).  The stack is a Vec whose
    top is the end; here the top is the head of the list.  [ss_out] is not a field:
    it records what [println!] wrote to standard output, oldest first. *)
Record SState := mkSState {
  ss_stack : list N;
  ss_reg : N;
  ss_reg2 : N;
  ss_error : N;
  ss_out : list N;
}.

(** parse_instructions (simple_stack_vm.rs:36-65) *)
Definition simple_instrs (prod_name : str) : list SInstr :=
  if decide (prod_name = lit "add") then [SPopToReg; SAdd]
  else if decide (prod_name = lit "sub") then [SPopToReg; SSub]
  else if decide (prod_name = lit "number") then [SPopDiscard]
  else if decide (prod_name = lit "digit") then [SPushFromTree; SPushConst 1]
  else if decide (prod_name = lit "number_s_") then
    [SPopToReg; SPopToReg2; SPopDiscard; SPow 10; SRegAddConst 1; SPushReg]
  else if decide (prod_name = lit "print") then [SPopToReg; SPrintReg]
  else [].
Definition simple_parse (S : Type) (T : TPeek S) (prod_name : str) (p : PP S)
  : outcome ParserError (list SInstr) * PP S :=
  let '(r, p1) := drain_all T p in (let* _u := r in Ok (simple_instrs prod_name), p1).

Definition s_set_stack (s : SState) (st : list N) : SState :=
  mkSState st (ss_reg s) (ss_reg2 s) (ss_error s) (ss_out s).
Definition s_set_error (s : SState) (e : N) : SState :=
  mkSState (ss_stack s) (ss_reg s) (ss_reg2 s) e (ss_out s).
Definition s_print (s : SState) (v : N) : SState :=
  mkSState (ss_stack s) (ss_reg s) (ss_reg2 s) (ss_error s) (ss_out s ++ [v]).

(** [if let Some(var) = state.stack.pop() { .. } else { state.error = 1 }] *)
Definition s_pop (s : SState) (k : N -> SState -> outcome Empty_set SState)
  : outcome Empty_set SState :=
  match ss_stack s with
  | [] => Ok (s_set_error s 1)
  | v :: st => k v (s_set_stack s st)
  end.

(** [tree.get_by_path_or_none(cur, [0]).ok().flatten()]: the data of the first
    child (simple_stack_vm.rs:111-123); shared with stack_vm.rs:135-147. *)
Definition first_child_data (t : Tree str) (cur : NodeId) : outcome Empty_set (option str) :=
  match get_by_path_or_none t cur [0] with
  | Ok (Some n) => Ok (Some (n_data n))
  | Ok None => Ok None
  | Err _ => Ok None
  | Panic => Panic
  | Diverge => Diverge
  end.

(** usize::pow: panics (debug) or wraps (release) on overflow.  [reg as u32]
    truncates. *)
Definition usize_pow (m : ovf_mode) (base : N) (exp : N) : outcome Empty_set N :=
  usize_result m (Z.of_N (base ^ exp)).
Definition as_u32 (n : N) : N := (n mod 2 ^ 32)%N.

(** execute_instruction (simple_stack_vm.rs:67-158) *)
Definition simple_exec (m : ovf_mode) (t : Tree str) (cur : NodeId) (i : SInstr) (s : SState)
  : outcome Empty_set SState :=
  match i with
  | SAdd => s_pop s (fun v s1 =>
              let* r := usize_result m (Z.of_N (ss_reg s) + Z.of_N v) in
              Ok (s_set_stack s1 (r :: ss_stack s1)))
  | SSub => s_pop s (fun v s1 =>
              let* r := usize_result m (Z.of_N v - Z.of_N (ss_reg s)) in
              Ok (s_set_stack s1 (r :: ss_stack s1)))
  | SDigit => Ok s
  | SPopToReg => s_pop s (fun v s1 =>
              Ok (mkSState (ss_stack s1) v (ss_reg2 s1) (ss_error s1) (ss_out s1)))
  | SPopToReg2 => s_pop s (fun v s1 =>
              Ok (mkSState (ss_stack s1) (ss_reg s1) v (ss_error s1) (ss_out s1)))
  | SPushConst c => Ok (s_set_stack s (c :: ss_stack s))
  | SPushFromTree =>
      let* d := first_child_data t cur in
      match d with
      | None => Ok (s_set_error s 1)
      | Some txt =>
          match str_parse_usize txt with
          | Some v => Ok (s_set_stack s (v :: ss_stack s))
          | None => Ok (s_set_error s 2)
          end
      end
  | SPopDiscard => s_pop s (fun _ s1 => Ok s1)
  | SPrintReg => Ok (s_print s (ss_reg s))
  | SPrintReg2 => Ok (s_print s (ss_reg2 s))
  | SPrintError => Ok (s_print s (ss_error s))
  | SPow base => s_pop s (fun v s1 =>
              let* pw := usize_pow m base (as_u32 (ss_reg s)) in
              let* pr := usize_result m (Z.of_N v * Z.of_N pw) in
              let* r := usize_result m (Z.of_N pr + Z.of_N (ss_reg2 s)) in
              Ok (s_set_stack s1 (r :: ss_stack s1)))
  | SPushReg => Ok (s_set_stack s (ss_reg s :: ss_stack s))
  | SPushReg2 => Ok (s_set_stack s (ss_reg2 s :: ss_stack s))
  | SRegAddConst c =>
      let* r := usize_result m (Z.of_N (ss_reg s) + Z.of_N c) in
      Ok (mkSState (ss_stack s) r (ss_reg2 s) (ss_error s) (ss_out s))
  end.
Definition simple_execute (m : ovf_mode) (t : Tree str) (cur : NodeId) (i : SInstr) (s : SState)
  : outcome Empty_set (Tree str * SState) :=
  let* s' := simple_exec m t cur i s in Ok (t, s').

(** SimpleStackVm (simple_stack_vm.rs:31-35, 159-167) *)
Definition SimpleStackVm (m : ovf_mode) : VM :=
  mkVM SState SInstr simple_parse (simple_execute m) (mkSState [] 0 0 0 []).
