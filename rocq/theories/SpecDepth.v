(** * Specification for C102: how deep a parse recurses. *)
From Verif Require Import Base ParserData SpecRules SpecLanguage.

(** How many names are nested in one another in a tree. *)
Fixpoint nested_names (t : ntree) : nat :=
  match t with NLeaf _ => 0 | NNode _ subs => S (foldr max 0 (map nested_names subs)) end.

(** [y] stands in some alternative of [x] (ignored elements included). *)
Definition contains {I} (rs : list (arule I)) (x y : str) : Prop := exists i w, says rs x i w /\ (y, NonTerminal) ∈ w.
(** No name is contained in itself, neither directly nor through others. *)
Definition not_recursive {I} (rs : list (arule I)) : Prop := forall x, ~ tc (contains rs) x x.
