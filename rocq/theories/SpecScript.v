(** * Specification of parsing (C29-C39): derivation trees, their text, their shape as
    a tree of strings, the order of the semantic actions, failed derivations. *)
From Verif Require Import Base Tree Sets ParserData Vm SpecGrammar SpecTree.

(** A derivation tree: a terminal leaf, or a nonterminal with its subtrees. *)
Inductive ptree := PLeaf (t : nat) | PNode (A : nat) (subtrees : list ptree).
Definition root (pt : ptree) : nat := match pt with PLeaf t => t | PNode A _ => A end.

Section spec.
Context {I : Type} (pd : ParserData I).

(** The text of a terminal. *)
Definition text_of (t : nat) : str :=
  match get_element_verbose pd t with Some (s, _) => s | None => [] end.

(** [derivation pt]: every inner node with its children is an alternative of the grammar
    and every leaf is a terminal. *)
Inductive derivation : ptree -> Prop :=
| der_leaf t s : is_terminal pd t s -> derivation (PLeaf t)
| der_node A subs : alternative pd A (map root subs) -> Forall derivation subs -> derivation (PNode A subs).

(** The text a derivation tree stands for. *)
Fixpoint yield (pt : ptree) : str :=
  match pt with
  | PLeaf t => text_of t
  | PNode _ subs => concat (map yield subs)
  end.
Fixpoint nodes_count (pt : ptree) : nat :=
  match pt with
  | PLeaf _ => 1
  | PNode _ subs => S (list_sum (map nodes_count subs))
  end.

(** The same tree as calls of add_node, the next free call number being [n]: inner
    nodes carry the empty string, leaves the text of the terminal; parent first,
    children left to right. *)
Fixpoint tree_history (n : nat) (parent : option nat) (pt : ptree) : history str :=
  match pt with
  | PLeaf t => [(parent, text_of t)]
  | PNode A subs =>
      (parent, []) ::
      (fix all (n' : nat) (subs : list ptree) : history str :=
         match subs with
         | [] => []
         | s :: subs' => tree_history n' (Some n) s ++ all (n' + nodes_count s) subs'
         end) (S n) subs
  end.

(** Inner nodes in post-order: (node number, nonterminal, number of nodes that exist when
    the node is complete). *)
Fixpoint post_order (n : nat) (pt : ptree) : list (nat * nat * nat) :=
  match pt with
  | PLeaf _ => []
  | PNode A subs =>
      (fix all (n' : nat) (subs : list ptree) : list (nat * nat * nat) :=
         match subs with
         | [] => []
         | s :: subs' => post_order n' s ++ all (n' + nodes_count s) subs'
         end) (S n) subs ++ [(n, A, n + nodes_count pt)]
  end.

(** The subtree at a path of child numbers. *)
Fixpoint subtree (pt : ptree) (path : list nat) : option ptree :=
  match path with
  | [] => Some pt
  | k :: path' =>
      match pt with
      | PLeaf _ => None
      | PNode _ subs => match subs !! k with Some s => subtree s path' | None => None end
      end
  end.
Definition label (pt : ptree) : str := match pt with PLeaf t => text_of t | PNode _ _ => [] end.

(** An element stands for some text. *)
Definition productive (e : nat) : Prop := exists pt, derivation pt /\ root pt = e.

(** The next lookahead. *)
Definition look (s : str) : SetMember := match s with [] => MTerminate | c :: _ => MChar c end.

(** A failed derivation: no alternative of [A] for the lookahead; or a terminal whose
    first [k] chars were there; or, inside an alternative of [A], the failure of one
    element after the completed subtrees before it, with the elements after it. *)
Inductive stuck :=
| StuckChoice (A : nat)
| StuckTerm (t k : nat)
| StuckIn (A : nat) (completed : list ptree) (s : stuck) (after : list nat).
Definition stuck_root (s : stuck) : nat :=
  match s with StuckChoice A => A | StuckTerm t _ => t | StuckIn A _ _ _ => A end.
Inductive failed_derivation : stuck -> Prop :=
| fd_choice A : has_rule pd A -> failed_derivation (StuckChoice A)
| fd_term t s k : is_terminal pd t s -> k < length s -> failed_derivation (StuckTerm t k)
| fd_in A completed s after : alternative pd A (map root completed ++ stuck_root s :: after) ->
    Forall derivation completed -> failed_derivation s -> failed_derivation (StuckIn A completed s after).
(** The text read before the failure. *)
Fixpoint consumed (s : stuck) : str :=
  match s with
  | StuckChoice _ => []
  | StuckTerm t k => take k (text_of t)
  | StuckIn _ completed s' _ => concat (map yield completed) ++ consumed s'
  end.
(** The nodes added, and the inner nodes completed, before the failure. *)
Fixpoint stuck_history (n : nat) (parent : option nat) (s : stuck) : history str :=
  match s with
  | StuckChoice _ | StuckTerm _ _ => []
  | StuckIn A completed s' _ =>
      (parent, []) ::
      (fix all (n' : nat) (subs : list ptree) : history str :=
         match subs with
         | [] => stuck_history n' (Some n) s'
         | s :: subs' => tree_history n' (Some n) s ++ all (n' + nodes_count s) subs'
         end) (S n) completed
  end.
Fixpoint stuck_post_order (n : nat) (s : stuck) : list (nat * nat * nat) :=
  match s with
  | StuckChoice _ | StuckTerm _ _ => []
  | StuckIn A completed s' _ =>
      (fix all (n' : nat) (subs : list ptree) : list (nat * nat * nat) :=
         match subs with
         | [] => stuck_post_order n' s'
         | s :: subs' => post_order n' s ++ all (n' + nodes_count s) subs'
         end) (S n) completed
  end.
End spec.

(** [st] is the element of the nonterminal named "start", where parse begins. *)
Definition start_element {I} (pd : ParserData I) (st : nat) : Prop :=
  forall e, get_element_verbose pd e = Some (lit "start", NonTerminal) <-> e = st.
(** A recursion depth that suffices for [text]. *)
Definition enough_depth {I} (pd : ParserData I) (text : str) (fuel : nat) : Prop :=
  (length text + 1) * size (pd_rules pd) <= fuel.
(** What the callers of the tree API see of a tree that represents [pt]: following child
    numbers from the root NodeId(0,0) finds the node of that subtree with its label, and
    nothing where there is no subtree. *)
Definition shows {I} (pd : ParserData I) (t : Tree str) (pt : ptree) : Prop :=
  forall path, match subtree pt path with
  | Some s => exists n, get_by_path_or_none t (mkNodeId 0 0) path = Ok (Some n) /\ n_data n = label pd s
  | None => get_by_path_or_none t (mkNodeId 0 0) path = Ok None
  end.
(** ** Running the instructions *)
(** A VM that does not edit the tree. *)
Definition keeps_tree (vm : VM) : Prop :=
  forall t id i s t' s', vm_execute vm t id i s = Ok (t', s') -> t' = t.
(** The instructions of a nonterminal. *)
Definition instructions_of {I} (pd : ParserData I) (A : nat) : list I :=
  match pd_rules pd !! A with Some r => instruction r | None => [] end.
Definition run_list {vm : VM} (t : Tree str) (id : NodeId) (l : list (vm_instr vm)) (s : vm_state vm)
  : outcome Empty_set (vm_state vm) :=
  ofold (fun s i => let* '(_t, s') := vm_execute vm t id i s in Ok s') s l.
(** The semantic actions: for each completed inner node in the given order, its
    instructions are run on it, in the tree of the nodes added so far. *)
Definition run_actions {vm : VM} (pd : ParserData (vm_instr vm)) (h : history str)
    (nodes : list (nat * nat * nat)) (s : vm_state vm) : outcome Empty_set (vm_state vm) :=
  ofold (fun s '((i, A, k) : nat * nat * nat) =>
           run_list (snd (do_adds (take k h) tree_new)) (id_of i) (instructions_of pd A) s) s nodes.

(** ** What is reported when parsing is stuck with [rest] unread at position [pos] *)
Fixpoint joined (sep : str) (l : list str) : str :=
  match l with
  | [] => []
  | [x] => x
  | x :: l' => x ++ sep ++ joined sep l'
  end.
Definition member_text (x : SetMember) : str := match x with MChar c => [c] | MTerminate => lit "terminate" end.
Fixpoint reports {I} (pd : ParserData I) (start : nat) (s : stuck) (rest : str) (pos : nat) (e : Errors.ParserError) : Prop :=
  match s with
  | StuckChoice A => exists keys r, NoDup keys /\ pd_rules pd !! A = Some r /\
      (forall x, x ∈ keys <-> exists p, p ∈ possible_productions r /\ CHOOSE pd start A p x) /\
      e = Errors.UnexpectedCharError (match rest with c :: _ => c | [] => 35%N end) pos (joined (lit ";") (map member_text keys))
  | StuckTerm t k =>
      match rest with
      | [] => e = Errors.EndOfCharsError pos
      | x :: _ => exists c, text_of pd t !! k = Some c /\ x <> c /\ e = Errors.UnexpectedCharError x pos [c]
      end
  | StuckIn _ _ s' _ => reports pd start s' rest pos e
  end.
(** Two errors that differ at most in the order of an "expected" listing. *)
Definition same_error (e e' : Errors.ParserError) : Prop :=
  e = e' \/ exists c pos l l', l ≡ₚ l' /\
    e = Errors.UnexpectedCharError c pos (joined (lit ";") (map member_text l)) /\ e' = Errors.UnexpectedCharError c pos (joined (lit ";") (map member_text l')).
