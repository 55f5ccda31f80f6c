(** * Specification for C71: how large a tree may become. *)
From Verif Require Import Base Tree ParserData Vm SpecGrammar.

(** Every alternative has at most [b] elements. *)
Definition at_most_wide {I} (pd : ParserData I) (b : nat) : Prop := forall A w, alternative pd A w -> length w <= b.
(** The factor of the grammar, for [r] rules of at most [b] elements per alternative. *)
Definition factor (r b : nat) : nat := 1 + r * (1 + b * (1 + b) ^ r).
(** The same VM, counting the instructions it has executed. *)
Definition metered (vm : VM) : VM :=
  mkVM (vm_state vm * nat) (vm_instr vm) (vm_parse_instructions vm)
    (fun t id i s => match vm_execute vm t id i (fst s) with
                     | Ok (t', v') => Ok (t', (v', S (snd s)))
                     | Err e => Err e
                     | Panic => Panic
                     | Diverge => Diverge
                     end)
    (vm_new_state vm, 0).
