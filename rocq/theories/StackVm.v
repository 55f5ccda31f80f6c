(** * Model of src/vms/stack_vm.rs *)
From Verif Require Import Base Peekables Tree Errors ParseFuncs Vm SimpleStackVm.

(** enum Instruction (stack_vm.rs:9-25) *)
Inductive KInstr :=
| KAdd | KRegAddConst (c : Z) | KSub | KDigit | KPopToReg | KPopToReg2 | KPopDiscard
| KPushConst (c : Z) | KPushFromTree | KPushReg | KPushReg2 | KPrintReg | KPrintReg2
| KPrintError | KPow (base : N).

(** struct StackVmState (stack_vm.rs:27-34); the fields instruction_counter and
    instructions are never read or written after creation and are left out.
    [ks_stack]'s head is the top; [ks_out] records [println!]. *)
Record KState := mkKState {
  ks_stack : list Z;
  ks_reg : Z;
  ks_reg2 : Z;
  ks_error : N;
  ks_out : list Z;
}.

Section parse.
Context {U : Unicode} {S : Type} (T : TPeek S).

(** The [match res.as_str()] of parse_instructions (stack_vm.rs:55-84).
    [val as isize] reinterprets the usize. *)
Definition operand (k : N -> KInstr) (acc : list KInstr)
  : st (PP S) ParserError (list KInstr) :=
  do _u <- parse_whitespace T;
  do v <- parse_usize T;
  sret (acc ++ [k v]).
Definition one_instruction (name : str) (acc : list KInstr)
  : st (PP S) ParserError (list KInstr) :=
  if decide (name = lit "Add") then sret (acc ++ [KAdd])
  else if decide (name = lit "RegAddConst") then
    operand (fun v => KRegAddConst (wrap_isize (Z.of_N v))) acc
  else if decide (name = lit "Sub") then sret (acc ++ [KSub])
  else if decide (name = lit "Digit") then sret (acc ++ [KDigit])
  else if decide (name = lit "PopToReg") then sret (acc ++ [KPopToReg])
  else if decide (name = lit "PopToReg2") then sret (acc ++ [KPopToReg2])
  else if decide (name = lit "PopDiscard") then sret (acc ++ [KPopDiscard])
  else if decide (name = lit "PushConst") then
    operand (fun v => KPushConst (wrap_isize (Z.of_N v))) acc
  else if decide (name = lit "PushFromTree") then sret (acc ++ [KPushFromTree])
  else if decide (name = lit "PushReg") then sret (acc ++ [KPushReg])
  else if decide (name = lit "PushReg2") then sret (acc ++ [KPushReg2])
  else if decide (name = lit "PrintReg") then sret (acc ++ [KPrintReg])
  else if decide (name = lit "PrintReg2") then sret (acc ++ [KPrintReg2])
  else if decide (name = lit "PrintError") then sret (acc ++ [KPrintError])
  else if decide (name = lit "Pow") then operand KPow acc
  else sret acc.

(** The [while to_parse.peek().is_some()] loop (stack_vm.rs:52-87).  Fuel: every
    iteration consumes at least one char. *)
Fixpoint stack_parse_loop (fuel : nat) (acc : list KInstr)
  : st (PP S) ParserError (list KInstr) := fun p =>
  match fuel with
  | O => (Diverge, p)
  | Datatypes.S f =>
      let '(o, p1) := pp_peek T p in
      match o with
      | None => (Ok acc, p1)
      | Some _ =>
          (do name <- parse_var_name T;
           do acc' <- one_instruction name acc;
           do _u <- parse_symbol T 59%N (* ';' *);
           do _w <- parse_whitespace T;
           stack_parse_loop f acc') p1
      end
  end.
End parse.

(** parse_instructions (stack_vm.rs:41-89) *)
Definition stack_parse {U : Unicode} (S : Type) (T : TPeek S) (prod_name : str)
  : st (PP S) ParserError (list KInstr) := fun p =>
  (do _u <- parse_whitespace T;
   stack_parse_loop T (Datatypes.S (pp_size T p)) []) p.

Definition k_set_stack (s : KState) (st : list Z) : KState :=
  mkKState st (ks_reg s) (ks_reg2 s) (ks_error s) (ks_out s).
Definition k_set_error (s : KState) (e : N) : KState :=
  mkKState (ks_stack s) (ks_reg s) (ks_reg2 s) e (ks_out s).
Definition k_print (s : KState) (v : Z) : KState :=
  mkKState (ks_stack s) (ks_reg s) (ks_reg2 s) (ks_error s) (ks_out s ++ [v]).
Definition k_pop (s : KState) (k : Z -> KState -> outcome Empty_set KState)
  : outcome Empty_set KState :=
  match ks_stack s with
  | [] => Ok (k_set_error s 1)
  | v :: st => k v (k_set_stack s st)
  end.

(** [state.reg as u32] for an isize: two's complement truncation *)
Definition isize_as_u32 (z : Z) : N := Z.to_N (z mod 2 ^ 32).

(** execute_instruction (stack_vm.rs:91-182) *)
Definition stack_exec (m : ovf_mode) (t : Tree str) (cur : NodeId) (i : KInstr) (s : KState)
  : outcome Empty_set KState :=
  match i with
  | KAdd => k_pop s (fun v s1 =>
              let* r := isize_result m (ks_reg s + v) in
              Ok (k_set_stack s1 (r :: ks_stack s1)))
  | KSub => k_pop s (fun v s1 =>
              let* r := isize_result m (v - ks_reg s) in
              Ok (k_set_stack s1 (r :: ks_stack s1)))
  | KDigit => Ok s
  | KPopToReg => k_pop s (fun v s1 =>
              Ok (mkKState (ks_stack s1) v (ks_reg2 s1) (ks_error s1) (ks_out s1)))
  | KPopToReg2 => k_pop s (fun v s1 =>
              Ok (mkKState (ks_stack s1) (ks_reg s1) v (ks_error s1) (ks_out s1)))
  | KPushConst c => Ok (k_set_stack s (c :: ks_stack s))
  | KPushFromTree =>
      let* d := first_child_data t cur in
      match d with
      | None => Ok (k_set_error s 1)
      | Some txt =>
          match str_parse_isize txt with
          | Some v => Ok (k_set_stack s (v :: ks_stack s))
          | None => Ok (k_set_error s 2)
          end
      end
  | KPopDiscard => k_pop s (fun _ s1 => Ok s1)
  | KPrintReg => Ok (k_print s (ks_reg s))
  | KPrintReg2 => Ok (k_print s (ks_reg2 s))
  | KPrintError => Ok (k_print s (Z.of_N (ks_error s)))
  | KPow base => k_pop s (fun v s1 =>
              let* pw := usize_pow m base (isize_as_u32 (ks_reg s)) in
              let* pr := isize_result m (v * wrap_isize (Z.of_N pw)) in
              let* r := isize_result m (pr + ks_reg2 s) in
              Ok (k_set_stack s1 (r :: ks_stack s1)))
  | KPushReg => Ok (k_set_stack s (ks_reg s :: ks_stack s))
  | KPushReg2 => Ok (k_set_stack s (ks_reg2 s :: ks_stack s))
  | KRegAddConst c =>
      let* r := isize_result m (ks_reg s + c) in
      Ok (mkKState (ks_stack s) r (ks_reg2 s) (ks_error s) (ks_out s))
  end.
Definition stack_execute (m : ovf_mode) (t : Tree str) (cur : NodeId) (i : KInstr) (s : KState)
  : outcome Empty_set (Tree str * KState) :=
  let* s' := stack_exec m t cur i s in Ok (t, s').

(** StackVm (stack_vm.rs:35-40, 184-193) *)
Definition StackVm {U : Unicode} (m : ovf_mode) : VM :=
  mkVM KState KInstr stack_parse (stack_execute m) (mkKState [] 0 0 0 []).
