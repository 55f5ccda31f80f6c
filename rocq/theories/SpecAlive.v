(** * Specification for C109: whether a grammar describes any text, and what is repeated in long sentences. *)
From Verif Require Import Base ParserData SpecRules SpecLanguage.

(** [x] turns out to stand for some text in [k] rounds: in each round those names join that
    have an alternative all of whose names have joined before (ignored elements included). *)
Fixpoint found_in {I} (rs : list (arule I)) (k : nat) (x : str) : Prop :=
  match k with
  | 0 => False
  | S k => exists i w, says rs x i w /\ forall y, (y, NonTerminal) ∈ w -> found_in rs k y
  end.

(** [n] copies of a text. *)
Definition copies (n : nat) (s : str) : str := concat (repeat s n).
