(** * Model of src/named_graph.rs *)
From Verif Require Import Base Tree Errors SimpleGraph.

(** struct GraphNamedNodes (named_graph.rs:41-44); names : HashMap<usize, usize> *)
Record GraphNamedNodes (T : Type) := mkNamed {
  ng_graph : Graph T;
  ng_names : gmap nat nat;
}.
Arguments mkNamed {T}. Arguments ng_graph {T}. Arguments ng_names {T}.

Section named.
Context {T : Type}.
Implicit Types (g : GraphNamedNodes T).
Notation res := (outcome GrammarError).

(** GraphNamedNodes::new (named_graph.rs:53-58) *)
Definition named_new : GraphNamedNodes T := mkNamed graph_new ∅.

(** add_node (named_graph.rs:59-70) *)
Definition named_add_node (node_name : nat) (data : T) g : res (nat * GraphNamedNodes T) :=
  match ng_names g !! node_name with
  | Some _ => Err (GraphNodeAlreadyExistsError node_name)
  | None =>
      let '(index, gr) := graph_add_node (ng_graph g) data in
      Ok (index, mkNamed gr (<[node_name := index]> (ng_names g)))
  end.

(** get_index_of_node (named_graph.rs:72-78) *)
Definition get_index_of_node g (node_name : nat) : res nat :=
  match ng_names g !! node_name with
  | Some i => Ok i
  | None => Err (GraphNodeDoesNotExistsError node_name)
  end.

(** get_node_by_index and get_node_mut_by_index (named_graph.rs:80-94).
    [self.graph.nodes.len() - 1] with no nodes panics in a debug build; in a
    release build it wraps to usize::MAX, the guard passes and the indexing
    [self.graph.nodes[index]] panics. *)
Definition get_node_by_index (m : ovf_mode) g (index : nat) : res (NodeData T) :=
  let* bound := usize_result m (Z.of_nat (length (gr_nodes (ng_graph g))) - 1) in
  if N.ltb bound (N.of_nat index) then Err (GraphIndexOutOfBounds index)
  else match gr_nodes (ng_graph g) !! index with
       | None => Panic
       | Some n => Ok n
       end.

(** get_node and get_node_mut (named_graph.rs:96-106) *)
Definition named_get_node g (node_name : nat) : res (NodeData T) :=
  let* index := get_index_of_node g node_name in
  match gr_nodes (ng_graph g) !! index with
  | None => Panic
  | Some n => Ok n
  end.

(** Writing [.data] through the [&mut NodeData] returned by get_node_mut /
    get_node_mut_by_index. *)
Definition update_node_data g (index : nat) (f : T -> T) : GraphNamedNodes T :=
  match gr_nodes (ng_graph g) !! index with
  | None => g
  | Some n => mkNamed (mkGraph (<[index := mkNodeData (nd_first n) (f (nd_data n))]>
                                  (gr_nodes (ng_graph g)))
                               (gr_edges (ng_graph g)))
                      (ng_names g)
  end.
Definition modify_node g (node_name : nat) (f : T -> T) : res (GraphNamedNodes T) :=
  let* index := get_index_of_node g node_name in
  match gr_nodes (ng_graph g) !! index with
  | None => Panic
  | Some _ => Ok (update_node_data g index f)
  end.
Definition modify_node_by_index (m : ovf_mode) g (index : nat) (f : T -> T)
  : res (GraphNamedNodes T) :=
  let* _n := get_node_by_index m g index in Ok (update_node_data g index f).

(** add_edge (named_graph.rs:107-116) *)
Definition named_add_edge (m : ovf_mode) g (source target : nat) : res (GraphNamedNodes T) :=
  let* source_index := get_index_of_node g source in
  let* target_index := get_index_of_node g target in
  let* gr := graph_add_edge m (ng_graph g) source_index target_index in
  Ok (mkNamed gr (ng_names g)).

(** successor_indices (named_graph.rs:118-124) *)
Definition successor_indices g (node_name : nat) : res (list nat) :=
  let* index := get_index_of_node g node_name in
  successors (ng_graph g) index.

(** successors and its iterator SuccessorsData (named_graph.rs:126-158): pairs of
    target index and target node; an edge to a missing node panics. *)
Fixpoint with_nodes g (targets : list nat) : res (list (nat * NodeData T)) :=
  match targets with
  | [] => Ok []
  | i :: l =>
      match gr_nodes (ng_graph g) !! i with
      | None => Panic
      | Some n => let* r := with_nodes g l in Ok ((i, n) :: r)
      end
  end.
Definition named_successors g (node_name : nat) : res (list (nat * NodeData T)) :=
  let* targets := successor_indices g node_name in with_nodes g targets.
End named.
