(** * Specification for C114: a static check of the stack heights.
    Every name [x] is given a usage: how many values its parts and instructions take from the
    stack, and how many they leave there instead. *)
From Verif Require Import Base Tree ParserData Vm SpecTree SpecRules SpecLanguage SpecVm.

(** Values taken from and put on the stack by an operation. *)
Definition usage (o : op) : nat * nat :=
  match o with
  | OAdd | OSub | OPow _ => (1, 1)
  | OPopReg | OPopReg2 | ODrop => (1, 0)
  | OPush _ | OPushChild | OPushReg | OPushReg2 => (0, 1)
  | OAddConst _ | ONothing | OPrintReg | OPrintReg2 | OPrintError => (0, 0)
  end.
(** The height reached from [h] along a list of usages; [None] if some step wants to take more
    than there is. *)
Fixpoint height (h : nat) (l : list (nat * nat)) : option nat :=
  match l with
  | [] => Some h
  | (n, k) :: l' => if decide (n <= h) then height (h - n + k) l' else None
  end.

Section check.
Context {I : Type} (opof : I -> op) (lo : Z) (rs : list (arule I)) (types : str -> nat * nat).
Definition element_usage (e : str * ElementType) : nat * nat := match e with (x, NonTerminal) => types x | (_, Terminal) => (0, 0) end.
(** [y] is [x] or a part of it. *)
Definition part_of : str -> str -> Prop := rtc (fun x y => exists i w, says rs x i w /\ (y, NonTerminal) ∈ w).
(** The check for [x] and all its parts: every alternative, followed by the instructions,
    leads from the height announced to the height announced, and PushFromTree meets a number. *)
Record heights_fit (x : str) : Prop := {
  hf_heights : forall y i w, part_of x y -> says rs y i w ->
    height (types y).1 (map element_usage w ++ map (fun ins => usage (opof ins)) (instructions_for rs y)) = Some (types y).2;
  hf_numbers : forall y i w ins, part_of x y -> says rs y i w -> ins ∈ instructions_for rs y -> opof ins = OPushChild ->
    exists b w' z, w = (b, Terminal) :: w' /\ reads_number lo b z;
}.
(** The same with lower bounds: every alternative leads at least to the height announced. *)
Record heights_reach (x : str) : Prop := {
  hr_heights : forall y i w, part_of x y -> says rs y i w ->
    exists h, height (types y).1 (map element_usage w ++ map (fun ins => usage (opof ins)) (instructions_for rs y)) = Some h /\ (types y).2 <= h;
  hr_numbers : forall y i w ins, part_of x y -> says rs y i w -> ins ∈ instructions_for rs y -> opof ins = OPushChild ->
    exists b w' z, w = (b, Terminal) :: w' /\ reads_number lo b z;
}.
End check.
