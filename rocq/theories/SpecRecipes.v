(** * Specification for C97 and C98: rewriting rules that are not accepted. *)
From Verif Require Import Base Sets ParserData Vm SpecRules SpecLanguage.
Notation element := (str * ElementType)%type.

Section recipes.
Context {I : Type}.
Definition nothing_ignored (rs : list (arule I)) : Prop := forall r, r ∈ rs -> forall y, ar_override r <> OvIgnore y.
(** [n] does not occur in the rules. *)
Definition new_name (rs : list (arule I)) (n : str) : Prop := n <> lit "start" /\ ~ defined rs n /\ forall x, ~ uses rs x n.
Context (x : str) (is : list I) (L R : list (arule I)).
(** [x -> A | p q1 | p q2 | ...;] among the rules L, R *)
Definition common (p : list element) (A Q : list (list element)) : list (arule I) := L ++ mkARule x OvAbsent (A ++ map (app p) Q) is :: R.
(** [x -> A | p n; n -> q1 | q2 | ...;] *)
Definition factored (n : str) (p : list element) (A Q : list (list element)) : list (arule I) :=
  L ++ mkARule x OvAbsent (A ++ [p ++ [(n, NonTerminal)]]) is :: mkARule n OvAbsent Q [] :: R.
(** [x -> x q1 | x q2 | ... | b1 | b2 | ...;] *)
Definition recursive (Q B : list (list element)) : list (arule I) := L ++ mkARule x OvAbsent (map (cons (x, NonTerminal)) Q ++ B) is :: R.
(** [x -> b1 n | b2 n | ...; n -> q1 n | q2 n | ... | #;] *)
Definition iterated (n : str) (Q B : list (list element)) : list (arule I) :=
  L ++ mkARule x OvAbsent (map (fun b => b ++ [(n, NonTerminal)]) B) is :: mkARule n OvAbsent (map (fun q => q ++ [(n, NonTerminal)]) Q ++ [[]]) [] :: R.
End recipes.
(** A tree without the nodes named [n]: their children take their place. *)
Fixpoint spliced (n : str) (t : ntree) : list ntree :=
  match t with
  | NLeaf b => [NLeaf b]
  | NNode y subs => let subs' := concat (map (spliced n) subs) in if decide (y = n) then subs' else [NNode y subs']
  end.
