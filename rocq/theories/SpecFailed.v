(** * Specification for C113: what a parse that fails has done. *)
From Verif Require Import Base Tree ParserData Vm SpecTree SpecRules SpecLanguage SpecEffect.

Section unfinished.
Context {I : Type} (rs : list (arule I)).
(** The parts of an [x] that is begun and cannot be finished: the complete parts, from left
    to right, and the piece of a quoted text read behind them. *)
Inductive unfinished : str -> list ntree -> str -> Prop :=
(* no alternative can be begun *)
| un_choice x : defined rs x -> unfinished x [] []
(* behind some complete parts of an alternative a quoted text breaks off *)
| un_text x i parts b more k : says rs x i (map nroot parts ++ (b, Terminal) :: more) -> Forall (nderivation rs) parts -> k < length b ->
    unfinished x parts (take k b)
(* ... or a name cannot be finished *)
| un_inside x i parts y more later read : says rs x i (map nroot parts ++ (y, NonTerminal) :: more) -> Forall (nderivation rs) parts ->
    unfinished y later read -> unfinished x (parts ++ later) read.
End unfinished.
(** One after the other. *)
Definition effect_all {vm : VM} (rs : list (arule (vm_instr vm))) (parts : list ntree) (v : vm_state vm) : outcome Empty_set (vm_state vm) :=
  ofold (fun v s => effect rs s v) v parts.
