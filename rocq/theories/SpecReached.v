(** * Specification for C107: how far a parse gets. *)
From Verif Require Import Base Tree Errors ParserData SpecRules SpecLanguage SpecScript SpecWalk.

(** A parse that succeeds gets to the end of the text under the root of its tree, one that
    fails to the position of its error. *)
Definition gets_to (o : outcome ParserError (Tree str)) (p : nat) : Prop :=
  match o with
  | Ok tr => exists s, text_under tr (mkNodeId 0 0) s /\ p = length s
  | Err e => error_position e = Some p
  | _ => False
  end.
(** The same sentences. *)
Definition same_sentences {I I'} (rs : list (arule I)) (rs' : list (arule I')) : Prop := forall s, sentence rs s <-> sentence rs' s.
