(** * Specification for C111: scripts that notice lost alternatives. *)
From Verif Require Import Base Tree ParserData SpecRules SpecLanguage SpecWalk.

(** The number of alternatives written in a grammar text. *)
Definition alternatives_in {I} (rs : list (arule I)) : nat := length (concat (map ar_alts rs)).
(** The same trees from start. *)
Definition same_trees {I I'} (rs : list (arule I)) (rs' : list (arule I')) : Prop := forall nt, nroot nt = (lit "start", NonTerminal) -> (nderivation rs nt <-> nderivation rs' nt).
