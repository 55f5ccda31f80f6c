(** * What a grammar text says, by names only (C57, C58).
    An abstract grammar [rs] (SpecRules.v) is a list of rules as they stand in the text.
    This file defines, without element numbers and without parser data: the alternatives
    of a nonterminal after repeated definitions are joined and IGNORE elements are put in
    place; derivation trees; the texts they stand for; the strings and the semantic actions
    a parse of that tree goes along with. *)
From Verif Require Import Base Tree Sets ParserData Vm SpecTree SpecWeave SpecRules.

Section language.
Context {I : Type} (rs : list (arule I)).

(** The alternatives of all definitions of [x], in textual order. *)
Definition alternatives_for (x : str) : list (list (str * ElementType)) := concat (map ar_alts (rules_for x rs)).
Definition defined (x : str) : Prop := rules_for x rs <> [].
(** The first definition of [x] has the override $[IGNORE:y]. *)
Definition ignores (x y : str) : Prop := exists r0 more, rules_for x rs = r0 :: more /\ ar_override r0 = OvIgnore y.
(** [x] is needed to define [y]: reachable from [y] through the rules as written. *)
Definition uses (x y : str) : Prop := exists w, w ∈ alternatives_for x /\ (y, NonTerminal) ∈ w.
Definition inside (y x : str) : Prop := defined y /\ rtc uses y x.
(** The [i]-th alternative of [x]: as written, or with the ignored element between
    neighbours when [x] ignores something it is not itself a part of. *)
Inductive says (x : str) (i : nat) : list (str * ElementType) -> Prop :=
| says_plain w : alternatives_for x !! i = Some w -> (forall y, ignores x y -> inside y x) -> says x i w
| says_woven w y : alternatives_for x !! i = Some w -> ignores x y -> ~ inside y x -> says x i (interleave (y, NonTerminal) w).

(** Derivation trees: a piece of text, or a name with subtrees. *)
Inductive ntree := NLeaf (b : str) | NNode (x : str) (subtrees : list ntree).
Definition nroot (t : ntree) : str * ElementType := match t with NLeaf b => (b, Terminal) | NNode x _ => (x, NonTerminal) end.
Inductive nderivation : ntree -> Prop :=
| nder_leaf b : nderivation (NLeaf b)
| nder_node x i subs : says x i (map nroot subs) -> Forall nderivation subs -> nderivation (NNode x subs).
(** The text of a tree. *)
Fixpoint nyield (t : ntree) : str := match t with NLeaf b => b | NNode _ subs => concat (map nyield subs) end.
(** The texts of the grammar. *)
Definition derives_text (x : str) (s : str) : Prop := exists t, nderivation t /\ nroot t = (x, NonTerminal) /\ nyield t = s.
Definition sentence (s : str) : Prop := derives_text (lit "start") s.

(** What callers of the tree API see: at a path of child numbers from NodeId(0,0) the node
    of that subtree, with the terminal's text, or the empty string at inner nodes. *)
Fixpoint nsubtree (t : ntree) (path : list nat) : option ntree :=
  match path with
  | [] => Some t
  | k :: path' =>
      match t with
      | NLeaf _ => None
      | NNode _ subs => match subs !! k with Some s => nsubtree s path' | None => None end
      end
  end.
Definition nlabel (t : ntree) : str := match t with NLeaf b => b | NNode _ _ => [] end.
Definition tree_shows (t : Tree str) (nt : ntree) : Prop :=
  forall path, match nsubtree nt path with
  | Some s => exists n, get_by_path_or_none t (mkNodeId 0 0) path = Ok (Some n) /\ n_data n = nlabel s
  | None => get_by_path_or_none t (mkNodeId 0 0) path = Ok None
  end.

(** The semantic actions.  Nodes are numbered parent first, children left to right. *)
Fixpoint ncount (t : ntree) : nat :=
  match t with NLeaf _ => 1 | NNode _ subs => S (list_sum (map ncount subs)) end.
Fixpoint nhistory (n : nat) (parent : option nat) (t : ntree) : history str :=
  match t with
  | NLeaf b => [(parent, b)]
  | NNode x subs =>
      (parent, []) ::
      (fix all (n' : nat) (subs : list ntree) : history str :=
         match subs with
         | [] => []
         | s :: subs' => nhistory n' (Some n) s ++ all (n' + ncount s) subs'
         end) (S n) subs
  end.
(** Inner nodes in post-order: number, name, and how many nodes there are by then. *)
Fixpoint npost_order (n : nat) (t : ntree) : list (nat * str * nat) :=
  match t with
  | NLeaf _ => []
  | NNode x subs =>
      (fix all (n' : nat) (subs : list ntree) : list (nat * str * nat) :=
         match subs with
         | [] => []
         | s :: subs' => npost_order n' s ++ all (n' + ncount s) subs'
         end) (S n) subs ++ [(n, x, n + ncount t)]
  end.
(** The instructions of a name: those of its first definition. *)
Definition instructions_for (x : str) : list I :=
  match rules_for x rs with r0 :: _ => ar_instr r0 | [] => [] end.
End language.
(** Run the actions of a tree: for each inner node in post-order its instructions, on that
    node, in the tree of the nodes added so far. *)
Definition run_tree {vm : VM} (rs : list (arule (vm_instr vm))) (nt : ntree) (s : vm_state vm) : outcome Empty_set (vm_state vm) :=
  ofold (fun s '((i, x, k) : nat * str * nat) =>
           ofold (fun s ins => let* '(_t, s') := vm_execute vm (snd (do_adds (take k (nhistory 0 None nt)) tree_new)) (id_of i) ins s in Ok s')
             s (instructions_for rs x)) s (npost_order 0 nt).

(** ** When a parser can be built from a grammar (C58) *)
Section build.
Context {I : Type} (rs : list (arule I)).
Notation element := (str * ElementType)%type.
(** Derivation steps of sentential forms. *)
Inductive nstep : list element -> list element -> Prop :=
| nstep_intro u x v i w : says rs x i w -> nstep (u ++ (x, NonTerminal) :: v) (u ++ w ++ v).
Definition nderives : list element -> list element -> Prop := rtc nstep.
(** Forms that stand for no text; forms that can become one; the first chars of a form. *)
Definition nerased (w : list element) : Prop := Forall (fun e => e = ([], Terminal)) w.
Definition nnullable (w : list element) : Prop := exists x, nderives w x /\ nerased x.
Definition nfirst (w : list element) (c : char) : Prop :=
  exists x s v, nderives w (x ++ (c :: s, Terminal) :: v) /\ nerased x.
(** What can follow [e]: a char, in a form derived from some defined name; the end, in a
    form derived from start. *)
Definition nfollow (e : element) (a : SetMember) : Prop :=
  match a with
  | MChar c => exists x u v, defined rs x /\ nderives [(x, NonTerminal)] (u ++ e :: v) /\ nfirst v c
  | MTerminate => exists u v, nderives [(lit "start", NonTerminal)] (u ++ e :: v) /\ nnullable v
  end.
(** The lookaheads for which the alternative [w] of [x] is taken: looking at the first
    element of [w] only. *)
Definition nchoose (x : str) (w : list element) (a : SetMember) : Prop :=
  match w with
  | [] => nfollow (x, NonTerminal) a
  | e :: _ => (exists c, a = MChar c /\ nfirst [e] c) \/ (nnullable [e] /\ nfollow e a)
  end.
Definition nleft_calls (x y : str) : Prop :=
  exists i u v, says rs x i (u ++ (y, NonTerminal) :: v) /\ nnullable u.
(** Reaching a name again without a char before it. *)
Definition left_recursive_name (x : str) : Prop := tc nleft_calls x x.
Record parsable : Prop := {
  pa_start : defined rs (lit "start");
  pa_defined : forall x y, uses rs x y -> defined rs y;
  pa_ignored : forall x y, ignores rs x y -> defined rs y;
  pa_no_left_recursion : forall x, ~ tc nleft_calls x x;
  pa_no_empty_terminal : forall x i w, says rs x i w -> head w <> Some ([], Terminal);
  pa_distinct : forall x i j w w' a, says rs x i w -> says rs x j w' -> i <> j -> nchoose x w a -> nchoose x w' a -> False;
}.
End build.

(** ** What may stand behind a sentence (C61) *)
(** In the tree [t] the name [y], with children [w], stands for the empty text and nothing
    of the tree's text follows it. *)
Inductive ends_in_empty : ntree -> str -> list (str * ElementType) -> Prop :=
| ee_here x subs : nyield (NNode x subs) = [] -> ends_in_empty (NNode x subs) x (map nroot subs)
| ee_inside x l s r y w : concat (map nyield r) = [] -> ends_in_empty s y w -> ends_in_empty (NNode x (l ++ s :: r)) y w.
(** [t] is chosen in front of the lookahead [a]: its trailing empty parts are. *)
Definition stands_before {I} (rs : list (arule I)) (t : ntree) (a : SetMember) : Prop :=
  forall y w, ends_in_empty t y w -> nchoose rs y w a.
