(** * Specification: computing a value for every node of a derivation tree (C76).

    A language implementer gives, for every rule with braces, a function from the values of
    the node's children to the value of the node; the function may depend on the name of the
    rule and on the text between its braces.  A child is given by its value, or, if it has
    none (terminals, and rules without braces), by its text. *)
From Verif Require Import Base Tree ParserData SpecRules SpecLanguage.

(** What is said about a rule: its name and the text between its braces. *)
Notation section_note := (str * str)%type (only parsing).

(** The texts that may stand between braces, and what is kept of them. *)
Definition noted (name body : str) (is : list section_note) : Prop :=
  brace_free body /\ is = [(name, body)].

Section meaning.
Context {V : Type} (alg : str -> str -> list (str + V) -> V) (rs : list (arule section_note)).
(** The value of a tree: bottom up. *)
Fixpoint meaning (nt : ntree) : str + V :=
  match nt with
  | NLeaf b => inl b
  | NNode x subs =>
      match instructions_for rs x with
      | [] => inl []
      | (name, body) :: _ => inr (alg name body (map meaning subs))
      end
  end.
End meaning.
(** The value of a node, if it has one. *)
Definition value_of {V} alg rs (nt : ntree) : option V := match meaning alg rs nt with inr v => Some v | inl _ => None end.
(** The nodes of a tree, in the order in which they are added: a node stands before its
    children, and these from left to right.  The k-th has the NodeId k of the k-th node added. *)
Fixpoint nodes_of (nt : ntree) : list ntree :=
  match nt with
  | NLeaf _ => [nt]
  | NNode _ subs => nt :: concat (map nodes_of subs)
  end.
