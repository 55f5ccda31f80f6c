(** * Specification for C80: another name in the place of start. *)
From Verif Require Import Base ParserData SpecGrammar SpecRules SpecLanguage.

(** [D] occurs in a form derived from [start]. *)
Definition reached {I} (pd : ParserData I) (start D : nat) : Prop := exists u v, derives pd [start] (u ++ D :: v).
(** Every rule has an alternative. *)
Definition no_empty_rule {I} (pd : ParserData I) : Prop := forall A r, pd_rules pd !! A = Some r -> possible_productions r <> [].
(** The name [x] occurs in a form derived from start. *)
Definition name_reached {I} (rs : list (arule I)) (x : str) : Prop :=
  exists u v, nderives rs [(lit "start", NonTerminal)] (u ++ (x, NonTerminal) :: v).
