(** * Specification of the calculator examples (C48, C50): reverse Polish programs. *)
From Verif Require Import Base SpecText SpecScript SpecVm.
Local Open Scope Z_scope.

(** A program is a nonempty list of items written with one space between them. *)
Inductive item := Num (digits : str) | Plus | Minus | Print.
Definition good_item (i : item) : Prop := match i with Num ds => ds <> [] /\ Forall digit_char ds | _ => True end.
Definition item_text (i : item) : str :=
  match i with Num ds => ds | Plus => lit "+" | Minus => lit "-" | Print => lit "print" end.
Definition program (l : list item) (text : str) : Prop :=
  l <> [] /\ Forall good_item l /\ text = joined (lit " ") (map item_text l).

(** ** Reverse Polish evaluation.
    [rpn m lo l st st' out]: from the stack [st] (top first) the program [l] leads to the
    stack [st'] and prints [out]; every operation finds its operands and every value is
    that of the word arithmetic [word] (SpecVm.v): in a debug build the exact value, which
    must be a word; in a release build its low 64 bits.  [print] takes the value off the
    stack.  Literals have at most 20 digits in a debug build, at most 2^32 otherwise. *)
Definition short_literal (m : ovf_mode) (ds : str) : Prop :=
  match m with Checked => Z.of_nat (length ds) <= 20 | Wrapping => Z.of_nat (length ds) <= 2 ^ 32 end.
Inductive rpn (m : ovf_mode) (lo : Z) : list item -> list Z -> list Z -> list Z -> Prop :=
| rpn_end st : rpn m lo [] st st []
| rpn_num ds l v st st' out : short_literal m ds -> word m lo (Z.of_N (dec_value ds)) (Some v) ->
    rpn m lo l (v :: st) st' out -> rpn m lo (Num ds :: l) st st' out
| rpn_plus l a b v st st' out : word m lo (a + b) (Some v) ->
    rpn m lo l (v :: st) st' out -> rpn m lo (Plus :: l) (b :: a :: st) st' out
| rpn_minus l a b v st st' out : word m lo (a - b) (Some v) ->
    rpn m lo l (v :: st) st' out -> rpn m lo (Minus :: l) (b :: a :: st) st' out
| rpn_print l v st st' out : rpn m lo l st st' out -> rpn m lo (Print :: l) (v :: st) st' (v :: out).

(** ** What the examples do with any program at all, operand or not, overflow or not.
    The value of a literal is computed from its last digit on; a number of two or more
    digits leaves its length and the value of its tail in the registers. *)
Definition digit (c : char) : Z := Z.of_N (c - 48).
Inductive literal (m : ovf_mode) (lo : Z) : str -> option Z -> Prop :=
| lit_one c : literal m lo [c] (Some (digit c))
| lit_more c ds v r : ds <> [] -> literal m lo ds (Some v) ->
    power m lo 10 (Z.of_nat (length ds)) v (digit c) r -> literal m lo (c :: ds) r
| lit_fail c ds : literal m lo ds None -> literal m lo (c :: ds) None.
Inductive does (m : ovf_mode) (lo : Z) : item -> mach -> option mach -> Prop :=
| do_digit c s : does m lo (Num [c]) s (Some (stacked s (digit c :: stack s)))
| do_number c ds t v s : literal m lo ds (Some t) -> literal m lo (c :: ds) (Some v) ->
    does m lo (Num (c :: ds)) s (Some (mkMach (v :: stack s) (Z.of_nat (length (c :: ds))) t (err s) (printed s)))
| do_number_overflow ds s : literal m lo ds None -> does m lo (Num ds) s None
| do_plus a b st s r : stack s = b :: a :: st -> word m lo (a + b) r ->
    does m lo Plus s (option_map (fun v => mkMach (v :: st) b (reg2 s) (err s) (printed s)) r)
| do_minus a b st s r : stack s = b :: a :: st -> word m lo (a - b) r ->
    does m lo Minus s (option_map (fun v => mkMach (v :: st) b (reg2 s) (err s) (printed s)) r)
| do_plus_one b s : stack s = [b] -> does m lo Plus s (Some (mkMach [] b (reg2 s) 1 (printed s)))
| do_minus_one b s : stack s = [b] -> does m lo Minus s (Some (mkMach [] b (reg2 s) 1 (printed s)))
| do_plus_none s : stack s = [] -> does m lo Plus s (Some (mkMach [] (reg s) (reg2 s) 1 (printed s)))
| do_minus_none s : stack s = [] -> does m lo Minus s (Some (mkMach [] (reg s) (reg2 s) 1 (printed s)))
| do_print v st s : stack s = v :: st -> does m lo Print s (Some (mkMach st v (reg2 s) (err s) (printed s ++ [v])))
| do_print_none s : stack s = [] -> does m lo Print s (Some (mkMach [] (reg s) (reg2 s) 1 (printed s ++ [reg s]))).
Inductive does_all (m : ovf_mode) (lo : Z) : list item -> mach -> option mach -> Prop :=
| da_nil s : does_all m lo [] s (Some s)
| da_cons i l s s1 r : does m lo i s (Some s1) -> does_all m lo l s1 r -> does_all m lo (i :: l) s r
| da_panic i l s : does m lo i s None -> does_all m lo (i :: l) s None.

(** Does every operation find its operands on a stack of [n] values? *)
Fixpoint operands (l : list item) (n : nat) : bool :=
  match l with
  | [] => true
  | Num _ :: l' => operands l' (S n)
  | (Plus | Minus) :: l' => match n with S (S k) => operands l' (S k) | _ => false end
  | Print :: l' => match n with S k => operands l' k | O => false end
  end.
