(** * Model of src/vms.rs and src/vms/counting_vm.rs *)
From Verif Require Import Base Peekables Tree Errors.

(** trait VM (vms.rs:80-170).
    - [vm_parse_instructions] is generic in the inner peekable, as in Rust; it
      returns the new process next to the result ([&mut ParseProcess<T>]).
    - [vm_execute] returns the new tree and state; Rust's signature has no
      [Result], so the error type is empty, but the code can panic. *)
Record VM := mkVM {
  vm_state : Type;
  vm_instr : Type;
  vm_parse_instructions :
    forall (S : Type), TPeek S -> str -> PP S -> outcome ParserError (list vm_instr) * PP S;
  vm_execute :
    Tree str -> NodeId -> vm_instr -> vm_state -> outcome Empty_set (Tree str * vm_state);
  vm_new_state : vm_state;
}.

(** [let mut c = to_parse.next(); while let Some(_) = c { c = to_parse.next() }]
    (vms.rs:237-240, simple_stack_vm.rs:44-47) *)
Fixpoint drain {S} (T : TPeek S) (fuel : nat) (p : PP S) : outcome ParserError unit * PP S :=
  match fuel with
  | O => (Diverge, p)
  | Datatypes.S f =>
      let '(c, p1) := pp_next T p in
      match c with
      | None => (Ok tt, p1)
      | Some _ => drain T f p1
      end
  end.
Definition drain_all {S} (T : TPeek S) (p : PP S) : outcome ParserError unit * PP S :=
  drain T (Datatypes.S (pp_size T p)) p.

(** NullVm (vms.rs:179-272) *)
Definition null_parse (S : Type) (T : TPeek S) (prod_name : str) (p : PP S)
  : outcome ParserError (list N) * PP S :=
  let '(r, p1) := drain_all T p in (let* _u := r in Ok [0%N], p1).
Definition null_execute (t : Tree str) (cur : NodeId) (i : N) (s : N)
  : outcome Empty_set (Tree str * N) := Ok (t, s).
Definition NullVm : VM := mkVM N N null_parse null_execute 0%N.

(** CountingVm (vms/counting_vm.rs:6-43).  [*state += 1] is a usize addition. *)
Definition counting_parse (S : Type) (T : TPeek S) (prod_name : str) (p : PP S)
  : outcome ParserError (list N) * PP S := (Ok [0%N], p).
Definition counting_execute (m : ovf_mode) (t : Tree str) (cur : NodeId) (i : N) (s : N)
  : outcome Empty_set (Tree str * N) :=
  let* s' := usize_result m (Z.of_N s + 1) in Ok (t, s').
Definition CountingVm (m : ovf_mode) : VM :=
  mkVM N N counting_parse (counting_execute m) 0%N.
