(** * Model of src/tree.rs *)
From Verif Require Import Base.

(** struct NodeId (tree.rs:8-17).  NodePtr and NodePk are usize; unbounded here. *)
Record NodeId := mkNodeId { node_ptr : nat; node_pk : nat }.
Global Instance NodeId_eq_dec : EqDecision NodeId.
Proof. solve_decision. Defined.

(** enum TreeError (tree.rs:293-298) *)
Inductive TreeError :=
| NodeDoesNotExist (id : NodeId)
| NodeWasRemoved (id : NodeId)
| ChildDoesNotExists (nth : nat).

(** struct Node (tree.rs:35-44) *)
Record Node (T : Type) := mkNode {
  n_parent : option nat;
  n_prev : option nat;        (* previous_sibling *)
  n_next : option nat;        (* next_sibling *)
  n_first : option nat;       (* first_child *)
  n_last : option nat;        (* last_child *)
  n_pk : nat;
  n_data : T;
}.
Arguments mkNode {T}. Arguments n_parent {T}. Arguments n_prev {T}.
Arguments n_next {T}. Arguments n_first {T}. Arguments n_last {T}.
Arguments n_pk {T}. Arguments n_data {T}.

(** struct Tree (tree.rs:28-33).  [t_free] is a Vec used as a stack whose top is
    the end of the list.  [t_counter] is an AtomicUsize, used single-threaded
    through [&mut self]; unbounded here. *)
Record Tree (T : Type) := mkTree {
  t_nodes : list (Node T);
  t_free : list nat;          (* free_node_indexes *)
  t_counter : nat;
}.
Arguments mkTree {T}. Arguments t_nodes {T}. Arguments t_free {T}. Arguments t_counter {T}.

Section tree.
Context {T : Type}.
Implicit Types (t : Tree T) (id : NodeId).

(** Field writes through [&mut Node]. *)
Definition with_next (n : Node T) (x : option nat) : Node T :=
  mkNode (n_parent n) (n_prev n) x (n_first n) (n_last n) (n_pk n) (n_data n).
Definition with_prev (n : Node T) (x : option nat) : Node T :=
  mkNode (n_parent n) x (n_next n) (n_first n) (n_last n) (n_pk n) (n_data n).
Definition with_first (n : Node T) (x : option nat) : Node T :=
  mkNode (n_parent n) (n_prev n) (n_next n) x (n_last n) (n_pk n) (n_data n).
Definition with_last (n : Node T) (x : option nat) : Node T :=
  mkNode (n_parent n) (n_prev n) (n_next n) (n_first n) x (n_pk n) (n_data n).

(** Node::new (tree.rs:46-61) *)
Definition node_new (parent : option nat) (data : T) (pk : nat) (prev : option nat) : Node T :=
  mkNode parent prev None None None pk data.

(** Tree::new (tree.rs:65-71) *)
Definition tree_new : Tree T := mkTree [] [] 0.

Definition contains (x : nat) (l : list nat) : bool := existsb (Nat.eqb x) l.

(** Vec::pop *)
Definition pop_last (l : list nat) : option (nat * list nat) :=
  match last l with Some x => Some (x, removelast l) | None => None end.

(** Tree::get_node (tree.rs:195-207).  Note the second check looks for the
    node_pk in the list of free *indexes*, as in the source. *)
Definition get_node t id : outcome TreeError (Node T) :=
  if length (t_nodes t) <=? node_ptr id then Err (NodeDoesNotExist id)
  else if contains (node_pk id) (t_free t) then Err (NodeWasRemoved id)
  else match t_nodes t !! node_ptr id with
       | None => Panic
       | Some n => if n_pk n =? node_pk id then Ok n else Err (NodeDoesNotExist id)
       end.

(** Tree::get_node_mut (tree.rs:208-220): checks node_ptr.  The model returns the
    node; writes through the reference are done by the caller. *)
Definition get_node_mut t id : outcome TreeError (Node T) :=
  if length (t_nodes t) <=? node_ptr id then Err (NodeDoesNotExist id)
  else if contains (node_ptr id) (t_free t) then Err (NodeWasRemoved id)
  else match t_nodes t !! node_ptr id with
       | None => Panic
       | Some n => if n_pk n =? node_pk id then Ok n else Err (NodeDoesNotExist id)
       end.

(** Tree::node_exists (tree.rs:221-233) *)
Definition node_exists t id : bool :=
  if length (t_nodes t) <=? node_ptr id then false
  else if contains (node_pk id) (t_free t) then false
  else match t_nodes t !! node_ptr id with
       | None => false             (* unreachable: the index is in bounds *)
       | Some n => n_pk n =? node_pk id
       end.

(** [self.nodes[i] = n] or [self.nodes.push(n)] (tree.rs:89-93, 117-121); an
    out-of-bounds index panics. *)
Definition place (nodes : list (Node T)) (reused : bool) (i : nat) (n : Node T)
  : outcome TreeError (list (Node T)) :=
  if reused then (if i <? length nodes then Ok (<[i := n]> nodes) else Panic)
  else Ok (nodes ++ [n]).

(** Tree::add_node (tree.rs:72-127).  The free index popped at tree.rs:75 and the
    counter incremented at tree.rs:100-102 stay consumed when an error is
    returned afterwards. *)
Definition add_node (data : T) (parent : option NodeId) : st (Tree T) TreeError NodeId :=
  fun t =>
  let '(next_index, reused, free') :=
    match pop_last (t_free t) with
    | None => (length (t_nodes t), false, t_free t)
    | Some (i, f) => (i, true, f)
    end in
  let t1 := mkTree (t_nodes t) free' (t_counter t) in
  match parent with
  | None =>
      let pk := t_counter t1 in
      let new_node := node_new None data pk None in
      match place (t_nodes t1) reused next_index new_node with
      | Ok nodes => (Ok (mkNodeId next_index pk), mkTree nodes free' (pk + 1))
      | _ => (Panic, t1)
      end
  | Some pid =>
      if negb (node_exists t1 pid) then (Err (NodeDoesNotExist pid), t1) else
      let pk := t_counter t1 in
      let t2 := mkTree (t_nodes t1) free' (pk + 1) in
      match get_node_mut t2 pid with
      | Ok parent_node =>
          let new_node := node_new (Some (node_ptr pid)) data pk (n_last parent_node) in
          let last_child_index := n_last parent_node in
          let parent1 := match n_first parent_node with
                         | None => with_first parent_node (Some next_index)
                         | Some _ => parent_node
                         end in
          let parent2 := with_last parent1 (Some next_index) in
          let nodes1 := <[node_ptr pid := parent2]> (t_nodes t2) in
          let nodes2 :=
            match last_child_index with
            | None => Some nodes1
            | Some lci =>
                match nodes1 !! lci with
                | None => None
                | Some ln => Some (<[lci := with_next ln (Some next_index)]> nodes1)
                end
            end in
          match nodes2 with
          | None => (Panic, t2)
          | Some nodes2 =>
              match place nodes2 reused next_index new_node with
              | Ok nodes3 => (Ok (mkNodeId next_index pk), mkTree nodes3 free' (pk + 1))
              | _ => (Panic, t2)
              end
          end
      | Err e => (Err e, t2)
      | Panic => (Panic, t2)
      | Diverge => (Diverge, t2)
      end
  end.

(** The [while let] loop of get_children (tree.rs:143-148): it follows
    next_sibling links.  Fuel: a chain longer than the number of nodes repeats a
    node, so the real loop would then never end. *)
Fixpoint sibling_loop (fuel : nat) (nodes : list (Node T)) (cur : option nat)
  : outcome TreeError (list NodeId) :=
  match cur with
  | None => Ok []
  | Some i =>
      match fuel with
      | O => Diverge
      | S f =>
          match nodes !! i with
          | None => Panic
          | Some n =>
              let* rest := sibling_loop f nodes (n_next n) in
              Ok (mkNodeId i (n_pk n) :: rest)
          end
      end
  end.

(** Tree::get_children (tree.rs:140-151) *)
Definition get_children t id : outcome TreeError (list NodeId) :=
  match t_nodes t !! node_ptr id with
  | None => Panic
  | Some n => sibling_loop (length (t_nodes t)) (t_nodes t) (n_first n)
  end.

(** Tree::get_descendants (tree.rs:129-138): children first, then the descendants
    of each child in turn.  Fuel bounds the recursion depth: a branch deeper than
    the number of nodes repeats a node and the real recursion would not end. *)
Fixpoint descendants_rec (fuel : nat) t id : outcome TreeError (list NodeId) :=
  match fuel with
  | O => Diverge
  | S f =>
      let* children := get_children t id in
      ofold (fun acc child =>
               let* ds := descendants_rec f t child in Ok (acc ++ ds))
            children children
  end.
Definition get_descendants t id : outcome TreeError (list NodeId) :=
  descendants_rec (S (length (t_nodes t))) t id.

(** Iterator Children (tree.rs:272-291) driven by the loops of get_nth_child and
    get_nth_child_or_none (tree.rs:153-176): step [nth] links forward.  [fuel] as
    for [sibling_loop]; since the loop stops at child number [nth] it cannot run
    forever and recursion is on [nth]. *)
Fixpoint nth_child_loop (nodes : list (Node T)) (cur : option nat) (nth : nat)
  : outcome TreeError (option (Node T)) :=
  match cur with
  | None => Ok None
  | Some i =>
      match nodes !! i with
      | None => Panic
      | Some n =>
          match nth with
          | O => Ok (Some n)
          | S k => nth_child_loop nodes (n_next n) k
          end
      end
  end.

(** Tree::get_nth_child (tree.rs:153-164) *)
Definition get_nth_child t (n : Node T) (nth : nat) : outcome TreeError (Node T) :=
  let* r := nth_child_loop (t_nodes t) (n_first n) nth in
  match r with Some c => Ok c | None => Err (ChildDoesNotExists nth) end.

(** Tree::get_nth_child_or_none (tree.rs:165-176) *)
Definition get_nth_child_or_none t (n : Node T) (nth : nat)
  : outcome TreeError (option (Node T)) :=
  nth_child_loop (t_nodes t) (n_first n) nth.

(** Tree::get_by_path_or_none (tree.rs:177-193); the iterator [ids] is a list. *)
Fixpoint path_loop t (n : Node T) (ids : list nat) : outcome TreeError (option (Node T)) :=
  match ids with
  | [] => Ok (Some n)
  | i :: ids' =>
      let* r := get_nth_child_or_none t n i in
      match r with
      | Some c => path_loop t c ids'
      | None => Ok None
      end
  end.
Definition get_by_path_or_none t (source : NodeId) (ids : list nat)
  : outcome TreeError (option (Node T)) :=
  let* n := get_node t source in path_loop t n ids.

(** [self.nodes[i].field = v]; out of bounds panics. *)
Definition update_at (nodes : list (Node T)) (i : nat) (f : Node T -> Node T)
  : outcome TreeError (list (Node T)) :=
  match nodes !! i with
  | None => Panic
  | Some n => Ok (<[i := f n]> nodes)
  end.

Definition opt_eqb (a : option nat) (b : nat) : bool :=
  match a with Some x => x =? b | None => false end.

(** Tree::remove_branch (tree.rs:235-269).  node_ptr is pushed onto the free list
    twice (tree.rs:243-244), as in the source. *)
Definition remove_branch id : st (Tree T) TreeError unit := fun t =>
  let r :=
    let* node := get_node t id in
    let* ds := get_descendants t id in
    let to_free := map node_ptr ds ++ [node_ptr id; node_ptr id] in
    let next_id := n_next node in
    let prev_id := n_prev node in
    let* nodes1 :=
      match n_parent node with
      | None => Ok (t_nodes t)
      | Some p =>
          update_at (t_nodes t) p (fun pn =>
            let pn1 := if opt_eqb (n_first pn) (node_ptr id) then with_first pn next_id else pn in
            if opt_eqb (n_last pn1) (node_ptr id) then with_last pn1 prev_id else pn1)
      end in
    let* nodes2 :=
      match prev_id with
      | None => Ok nodes1
      | Some i => update_at nodes1 i (fun n => with_next n next_id)
      end in
    let* nodes3 :=
      match next_id with
      | None => Ok nodes2
      | Some i => update_at nodes2 i (fun n => with_prev n prev_id)
      end in
    Ok (mkTree nodes3 (t_free t ++ to_free) (t_counter t)) in
  match r with
  | Ok t' => (Ok tt, t')
  | Err e => (Err e, t)
  | Panic => (Panic, t)
  | Diverge => (Diverge, t)
  end.
End tree.
