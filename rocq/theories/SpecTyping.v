(** * Specification for C104: scripts that are not finished. *)
From Verif Require Import Base ParserData SpecRules SpecLanguage.

(** Something can be written behind [s] (possibly nothing) so that it is a sentence. *)
Definition can_go_on {I} (rs : list (arule I)) (s : str) : Prop := exists more, sentence rs (s ++ more).
