(** * Specification for C117: the two calculators side by side. *)
From Verif Require Import Base Errors SpecText SpecScript SpecVm SpecRpn SpecCalc.
Local Open Scope Z_scope.

(** The number [b] is what the unsigned word [a] is when it is read as a signed word. *)
Definition reads_signed (a b : Z) : Prop := 0 <= a < 2 ^ 64 /\ b = if a <? 2 ^ 63 then a else a - 2 ^ 64.
(** A state of the signed machine that is a state of the unsigned one, each number read as signed. *)
Definition signed_state (s s' : mach) : Prop :=
  Forall2 reads_signed (stack s) (stack s') /\ reads_signed (reg s) (reg s') /\ reads_signed (reg2 s) (reg2 s') /\
  err s = err s' /\ Forall2 reads_signed (printed s) (printed s').
(** Two answers to the same text. *)
Definition same_reply (r r' : reply) : Prop :=
  match r, r' with Accepted, Accepted => True | Refused e, Refused e' => same_error e e' | _, _ => False end.
(** No twenty digits stand next to each other. *)
Definition short_numbers (text : str) : Prop :=
  forall p ds q, text = p ++ ds ++ q -> Forall digit_char ds -> (length ds <= 19)%nat.
