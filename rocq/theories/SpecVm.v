(** * Specification of the two stack machines (C48, C50, C51).
    One machine for both: its words are the integers of [lo, lo + 2^64), with [lo = 0] for
    SimpleStackVm (usize) and [lo = - 2^63] for StackVm (isize). *)
From Verif Require Import Base Tree SpecText SpecTree Vm SimpleStackVm StackVm.
Local Open Scope Z_scope.

(** The machine's operations. *)
Inductive op :=
| OAdd | OAddConst (c : Z) | OSub | ONothing | OPopReg | OPopReg2 | ODrop | OPush (c : Z) | OPushChild
| OPushReg | OPushReg2 | OPrintReg | OPrintReg2 | OPrintError | OPow (b : Z).
Record mach := mkMach { stack : list Z; reg : Z; reg2 : Z; err : Z; printed : list Z }.

Definition in_word (lo z : Z) : Prop := lo <= z < lo + 2 ^ 64.
(** Same 64 bits. *)
Definition same_bits (a b : Z) : Prop := exists k, a = b + k * 2 ^ 64.
(** The outcome of an arithmetic operation with mathematical value [z]: the value if it is
    a word; otherwise a panic ([None]) in a debug build, the word with the same low 64 bits
    in a release build. *)
Inductive word (m : ovf_mode) (lo z : Z) : option Z -> Prop :=
| w_fits : in_word lo z -> word m lo z (Some z)
| w_panic : ~ in_word lo z -> m = Checked -> word m lo z None
| w_wraps w : ~ in_word lo z -> m = Wrapping -> in_word lo w -> same_bits w z -> word m lo z (Some w).
(** [Pow b]: [v * b ^ reg + reg2].  The exponent is the low 32 bits of [reg]; the power is
    an unsigned word whose bits are then read as a machine word. *)
Inductive power (m : ovf_mode) (lo b r r2 v : Z) : option Z -> Prop :=
| p_power : word m 0 (b ^ (r mod 2 ^ 32)) None -> power m lo b r r2 v None
| p_product p q : word m 0 (b ^ (r mod 2 ^ 32)) (Some p) -> same_bits q p -> in_word lo q ->
    word m lo (v * q) None -> power m lo b r r2 v None
| p_sum p q x y : word m 0 (b ^ (r mod 2 ^ 32)) (Some p) -> same_bits q p -> in_word lo q ->
    word m lo (v * q) (Some x) -> word m lo (x + r2) y -> power m lo b r r2 v y.
(** The text of a leaf as a number: an optional sign, '-' only for signed words, then at
    least one digit; the value must be a word. *)
Definition reads_number (lo : Z) (txt : str) (z : Z) : Prop :=
  in_word lo z /\ exists ds, ds <> [] /\ Forall digit_char ds /\
    ((txt = ds \/ txt = 43%N :: ds) /\ z = Z.of_N (dec_value ds) \/
     lo < 0 /\ txt = 45%N :: ds /\ z = - Z.of_N (dec_value ds)).

Definition pops (o : op) : Prop :=
  match o with OAdd | OSub | OPopReg | OPopReg2 | ODrop | OPow _ => True | _ => False end.
Definition failing (s : mach) (e : Z) : mach := mkMach (stack s) (reg s) (reg2 s) e (printed s).
Definition stacked (s : mach) (st : list Z) : mach := mkMach st (reg s) (reg2 s) (err s) (printed s).
Definition printing (s : mach) (z : Z) : mach := mkMach (stack s) (reg s) (reg2 s) (err s) (printed s ++ [z]).

(** One operation on a node whose first child has the data [child] ([None]: no child):
    [Some s'] is the new state, [None] a panic. *)
Inductive step (m : ovf_mode) (lo : Z) (child : option str) : op -> mach -> option mach -> Prop :=
| s_empty o s : pops o -> stack s = [] -> step m lo child o s (Some (failing s 1))
| s_add s v st r : stack s = v :: st -> word m lo (v + reg s) r ->
    step m lo child OAdd s (option_map (fun x => stacked s (x :: st)) r)
| s_sub s v st r : stack s = v :: st -> word m lo (v - reg s) r ->
    step m lo child OSub s (option_map (fun x => stacked s (x :: st)) r)
| s_pow b s v st r : stack s = v :: st -> power m lo b (reg s) (reg2 s) v r ->
    step m lo child (OPow b) s (option_map (fun x => stacked s (x :: st)) r)
| s_pop_reg s v st : stack s = v :: st ->
    step m lo child OPopReg s (Some (mkMach st v (reg2 s) (err s) (printed s)))
| s_pop_reg2 s v st : stack s = v :: st ->
    step m lo child OPopReg2 s (Some (mkMach st (reg s) v (err s) (printed s)))
| s_drop s v st : stack s = v :: st -> step m lo child ODrop s (Some (stacked s st))
| s_add_const c s r : word m lo (reg s + c) r ->
    step m lo child (OAddConst c) s (option_map (fun x => mkMach (stack s) x (reg2 s) (err s) (printed s)) r)
| s_nothing s : step m lo child ONothing s (Some s)
| s_push c s : step m lo child (OPush c) s (Some (stacked s (c :: stack s)))
| s_push_child s txt z : child = Some txt -> reads_number lo txt z ->
    step m lo child OPushChild s (Some (stacked s (z :: stack s)))
| s_no_child s : child = None -> step m lo child OPushChild s (Some (failing s 1))
| s_no_number s txt : child = Some txt -> (forall z, ~ reads_number lo txt z) ->
    step m lo child OPushChild s (Some (failing s 2))
| s_push_reg s : step m lo child OPushReg s (Some (stacked s (reg s :: stack s)))
| s_push_reg2 s : step m lo child OPushReg2 s (Some (stacked s (reg2 s :: stack s)))
| s_print_reg s : step m lo child OPrintReg s (Some (printing s (reg s)))
| s_print_reg2 s : step m lo child OPrintReg2 s (Some (printing s (reg2 s)))
| s_print_error s : step m lo child OPrintError s (Some (printing s (err s))).

(** The operation would compute a value that is not a word. *)
Definition overflows (lo : Z) (o : op) (s : mach) : Prop :=
  match o, stack s with
  | OAdd, v :: _ => ~ in_word lo (v + reg s)
  | OSub, v :: _ => ~ in_word lo (v - reg s)
  | OAddConst c, _ => ~ in_word lo (reg s + c)
  | OPow b, v :: _ =>
      let p := b ^ (reg s mod 2 ^ 32) in
      ~ in_word 0 p \/ exists q, same_bits q p /\ in_word lo q /\ (~ in_word lo (v * q) \/ ~ in_word lo (v * q + reg2 s))
  | _, _ => False
  end.

(** The data of the first child of node [n] in the forest [h]. *)
Definition first_child (h : history str) (n : nat) (child : option str) : Prop :=
  match kids h n with
  | [] => child = None
  | k :: _ => exists p d, h !! k = Some (p, d) /\ child = Some d
  end.

(** ** The two machines of the crate: their instructions and states as operations and
    states of the machine above. *)
Definition simple_op (i : SInstr) : op :=
  match i with
  | SAdd => OAdd | SRegAddConst c => OAddConst (Z.of_N c) | SSub => OSub | SDigit => ONothing
  | SPopToReg => OPopReg | SPopToReg2 => OPopReg2 | SPopDiscard => ODrop | SPushConst c => OPush (Z.of_N c)
  | SPushFromTree => OPushChild | SPushReg => OPushReg | SPushReg2 => OPushReg2 | SPrintReg => OPrintReg
  | SPrintReg2 => OPrintReg2 | SPrintError => OPrintError | SPow b => OPow (Z.of_N b)
  end.
Definition simple_view (s : SState) : mach :=
  mkMach (map Z.of_N (ss_stack s)) (Z.of_N (ss_reg s)) (Z.of_N (ss_reg2 s)) (Z.of_N (ss_error s)) (map Z.of_N (ss_out s)).
Definition stack_op (i : KInstr) : op :=
  match i with
  | KAdd => OAdd | KRegAddConst c => OAddConst c | KSub => OSub | KDigit => ONothing
  | KPopToReg => OPopReg | KPopToReg2 => OPopReg2 | KPopDiscard => ODrop | KPushConst c => OPush c
  | KPushFromTree => OPushChild | KPushReg => OPushReg | KPushReg2 => OPushReg2 | KPrintReg => OPrintReg
  | KPrintReg2 => OPrintReg2 | KPrintError => OPrintError | KPow b => OPow (Z.of_N b)
  end.
Definition stack_view (s : KState) : mach := mkMach (ks_stack s) (ks_reg s) (ks_reg2 s) (Z.of_N (ks_error s)) (ks_out s).

(** What the execution of an instruction on node [n] of the forest [h] must do. *)
Definition follows {S} (lo : Z) (view : S -> mach) (m : ovf_mode) (h : history str) (n : nat) (o : op) (s : S)
    (r : outcome Empty_set (Tree str * S)) : Prop :=
  exists child, first_child h n child /\
  match r with
  | Ok (t, s') => t = snd (do_adds h tree_new) /\ step m lo child o (view s) (Some (view s'))
  | Panic => step m lo child o (view s) None
  | _ => False
  end.
