(** * Specification for C106: how a sentence may go on. *)
From Verif Require Import Base ParserData SpecRules SpecLanguage.

(** A text of an element: a quoted text stands for itself, a name for the texts of its trees. *)
Definition element_text {I} (rs : list (arule I)) (z : str * ElementType) (s : str) : Prop :=
  match z.2 with Terminal => s = z.1 | NonTerminal => derives_text rs z.1 s end.
(** One text for each of the elements. *)
Definition texts_of {I} (rs : list (arule I)) (zs : list (str * ElementType)) (ss : list str) : Prop := Forall2 (element_text rs) zs ss.

(** [n] times the char [c]. *)
Definition times (n : nat) (c : char) : str := repeat c n.
