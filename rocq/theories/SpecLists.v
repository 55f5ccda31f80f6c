(** * Specification for C94: optional parts and lists with separators. *)
From Verif Require Import Base Sets ParserData Vm ScriptParser SpecRules SpecLanguage SpecCompose.

Section lists.
Context {I : Type}.
(** [start -> a | #;] *)
Definition optional (a : str) (is : list I) (P : list (arule I)) := starting [[(a, NonTerminal)]; []] is P.
(** [start -> a more; more -> "sep" a more | #;] *)
Definition more_rule (a more sep : str) (is : list I) : arule I :=
  mkARule more OvAbsent [[(sep, Terminal); (a, NonTerminal); (more, NonTerminal)]; []] is.
Definition separated (a more sep : str) (is is' : list I) (P : list (arule I)) := starting [[(a, NonTerminal); (more, NonTerminal)]] is (more_rule a more sep is' :: P).
End lists.
(** Texts with a separator between neighbours. *)
Fixpoint with_separator (sep : str) (s : str) (ss : list str) : str := match ss with [] => s | s' :: ss => s ++ sep ++ with_separator sep s' ss end.
(** The tree of a list. *)
Fixpoint more_tree (more sep : str) (ts : list ntree) : ntree := match ts with [] => NNode more [] | t :: ts => NNode more [NLeaf sep; t; more_tree more sep ts] end.
Definition list_tree (more sep : str) (t : ntree) (ts : list ntree) : ntree := NNode (lit "start") [t; more_tree more sep ts].
