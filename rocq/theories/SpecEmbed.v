(** * Specification for C99: a grammar as a part of another. *)
From Verif Require Import Base ParserData SpecRules SpecRename.

(** start gets the name [x]; the other names stay. *)
Definition called (x y : str) : str := if decide (y = lit "start") then x else y.
Definition embedded {I} (x : str) (G : list (arule I)) : list (arule I) := map (renamed (called x)) G.
(** A name that does not stand in the rules. *)
Definition unused {I} (x : str) (G : list (arule I)) : Prop := x <> lit "start" /\ (x, NonTerminal) ∉ concat (map mentioned G).
