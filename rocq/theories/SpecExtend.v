(** * Specification for C75: a grammar with rules for further names. *)
From Verif Require Import Base ParserData SpecRules SpecLanguage.

(** [rs'] has the rules of [rs], and maybe rules for names that [rs] does not define,
    anywhere in the text. *)
Definition extends {I} (rs rs' : list (arule I)) : Prop := forall x, defined rs x -> rules_for x rs' = rules_for x rs.
(** Everything needed is there. *)
Definition self_contained {I} (rs : list (arule I)) : Prop :=
  defined rs (lit "start") /\ (forall x y, uses rs x y -> defined rs y) /\ (forall x y, ignores rs x y -> defined rs y).
