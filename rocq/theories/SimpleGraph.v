(** * Model of src/simple_graph.rs *)
From Verif Require Import Base.

(** struct NodeData (simple_graph.rs:19-22) *)
Record NodeData (T : Type) := mkNodeData {
  nd_first : option nat;       (* first_outgoing_edge *)
  nd_data : T;
}.
Arguments mkNodeData {T}. Arguments nd_first {T}. Arguments nd_data {T}.

(** struct EdgeData (simple_graph.rs:27-31).  Indices are [nat]; the edge id is a
    usize that the code increments, so it is an [N] with the 64-bit bound. *)
Record EdgeData := mkEdgeData {
  ed_target : nat;
  ed_id : N;
  ed_next : option nat;        (* next_outgoing_edge *)
}.

(** struct Graph (simple_graph.rs:12-15) *)
Record Graph (T : Type) := mkGraph {
  gr_nodes : list (NodeData T);
  gr_edges : list EdgeData;
}.
Arguments mkGraph {T}. Arguments gr_nodes {T}. Arguments gr_edges {T}.

Section graph.
Context {T E : Type}.
Implicit Types (g : Graph T).

(** Graph::new (simple_graph.rs:41-46) *)
Definition graph_new : Graph T := mkGraph [] [].

(** Graph::add_node (simple_graph.rs:48-55) *)
Definition graph_add_node g (data : T) : nat * Graph T :=
  (length (gr_nodes g), mkGraph (gr_nodes g ++ [mkNodeData None data]) (gr_edges g)).

Definition set_first_edge (nodes : list (NodeData T)) (i : nat) (e : option nat)
  : list (NodeData T) :=
  match nodes !! i with
  | None => nodes
  | Some n => <[i := mkNodeData e (nd_data n)]> nodes
  end.

(** Graph::add_edge (simple_graph.rs:57-71).  Indexing [self.nodes[source]] and
    [edges.get(..).unwrap()] can panic, and so can [id + 1] in a debug build. *)
Definition graph_add_edge (m : ovf_mode) g (source target : nat) : outcome E (Graph T) :=
  let edge_index := length (gr_edges g) in
  match gr_nodes g !! source with
  | None => Panic
  | Some node_data =>
      let* new_id :=
        match nd_first node_data with
        | None => Ok 0%N
        | Some index =>
            match gr_edges g !! index with
            | None => Panic
            | Some e => usize_result m (Z.of_N (ed_id e) + 1)
            end
        end in
      Ok (mkGraph (set_first_edge (gr_nodes g) source (Some edge_index))
                  (gr_edges g ++ [mkEdgeData target new_id (nd_first node_data)]))
  end.

(** Iterator ConnectedEdges (simple_graph.rs:216-234) driven by the loop of
    try_add_edge_with_id (simple_graph.rs:82-92).  Result: [None] when the id is
    already present, otherwise [previous] (the source node or an edge) and
    [next_edge_index].  Fuel: longer than the number of edges means a cycle. *)
Inductive thing := TNode (i : nat) | TEdge (i : nat).   (* simple_graph.rs:7-10 *)

Fixpoint insert_loop (fuel : nat) (edges : list EdgeData) (cur : option nat) (id : N)
    (previous : thing) (next_edge_index : option nat)
  : outcome E (option (thing * option nat)) :=
  match cur with
  | None => Ok (Some (previous, next_edge_index))
  | Some i =>
      match fuel with
      | O => Diverge
      | S f =>
          match edges !! i with
          | None => Panic
          | Some e =>
              if N.eqb (ed_id e) id then Ok None
              else if N.ltb id (ed_id e)
              then insert_loop f edges (ed_next e) id (TEdge i) (ed_next e)
              else Ok (Some (previous, next_edge_index))
          end
      end
  end.

(** Graph::try_add_edge_with_id (simple_graph.rs:73-108) *)
Definition try_add_edge_with_id g (source target : nat) (id : N) : outcome E (bool * Graph T) :=
  match gr_nodes g !! source with
  | None => Panic
  | Some n =>
      let* r := insert_loop (length (gr_edges g)) (gr_edges g) (nd_first n) id
                            (TNode source) (nd_first n) in
      match r with
      | None => Ok (false, g)
      | Some (previous, next_edge_index) =>
          let edge_index := length (gr_edges g) in
          match previous with
          | TNode node =>
              Ok (true, mkGraph (set_first_edge (gr_nodes g) node (Some edge_index))
                                (gr_edges g ++ [mkEdgeData target id next_edge_index]))
          | TEdge edge =>
              match gr_edges g !! edge with
              | None => Panic
              | Some pe =>
                  Ok (true, mkGraph (gr_nodes g)
                       (<[edge := mkEdgeData (ed_target pe) (ed_id pe) (Some edge_index)]>
                          (gr_edges g)
                        ++ [mkEdgeData target id next_edge_index]))
              end
          end
      end
  end.

(** Graph::find_node_index (simple_graph.rs:110-121) *)
Fixpoint find_loop (fuel : nat) (edges : list EdgeData) (cur : option nat) (id : N)
  : outcome E (option nat) :=
  match cur with
  | None => Ok None
  | Some i =>
      match fuel with
      | O => Diverge
      | S f =>
          match edges !! i with
          | None => Panic
          | Some e =>
              if N.eqb (ed_id e) id then Ok (Some (ed_target e))
              else if N.ltb (ed_id e) id then Ok None
              else find_loop f edges (ed_next e) id
          end
      end
  end.
Definition find_node_index g (source : nat) (id : N) : outcome E (option nat) :=
  match gr_nodes g !! source with
  | None => Panic
  | Some n => find_loop (length (gr_edges g)) (gr_edges g) (nd_first n) id
  end.

(** Graph::find_node_index_by_path (simple_graph.rs:122-137) *)
Fixpoint find_path_loop g (cur : option nat) (ids : list N) : outcome E (option nat) :=
  match ids with
  | [] => Ok cur
  | id :: ids' =>
      match cur with
      | None => Ok None
      | Some cni => let* c := find_node_index g cni id in find_path_loop g c ids'
      end
  end.
Definition find_node_index_by_path g (source : nat) (ids : list N) : outcome E (option nat) :=
  find_path_loop g (Some source) ids.

(** [map(|index| &self.nodes[index])] *)
Definition node_at g (o : option nat) : outcome E (option (NodeData T)) :=
  match o with
  | None => Ok None
  | Some i => match gr_nodes g !! i with None => Panic | Some n => Ok (Some n) end
  end.
(** Graph::find_node (simple_graph.rs:140-143) *)
Definition find_node g (source : nat) (id : N) : outcome E (option (NodeData T)) :=
  let* o := find_node_index g source id in node_at g o.
(** Graph::find_node_by_path (simple_graph.rs:145-152) *)
Definition find_node_by_path g (source : nat) (ids : list N) : outcome E (option (NodeData T)) :=
  let* o := find_node_index_by_path g source ids in node_at g o.

(** Iterators ConnectedEdges and Successors (simple_graph.rs:154-169, 196-234),
    run to the end. *)
Fixpoint edge_chain (fuel : nat) (edges : list EdgeData) (cur : option nat)
  : outcome E (list nat) :=
  match cur with
  | None => Ok []
  | Some i =>
      match fuel with
      | O => Diverge
      | S f =>
          match edges !! i with
          | None => Panic
          | Some e => let* rest := edge_chain f edges (ed_next e) in Ok (i :: rest)
          end
      end
  end.
Definition connected_edges g (source : nat) : outcome E (list nat) :=
  match gr_nodes g !! source with
  | None => Panic
  | Some n => edge_chain (length (gr_edges g)) (gr_edges g) (nd_first n)
  end.

Fixpoint target_chain (fuel : nat) (edges : list EdgeData) (cur : option nat)
  : outcome E (list nat) :=
  match cur with
  | None => Ok []
  | Some i =>
      match fuel with
      | O => Diverge
      | S f =>
          match edges !! i with
          | None => Panic
          | Some e => let* rest := target_chain f edges (ed_next e) in Ok (ed_target e :: rest)
          end
      end
  end.
Definition successors g (source : nat) : outcome E (list nat) :=
  match gr_nodes g !! source with
  | None => Panic
  | Some n => target_chain (length (gr_edges g)) (gr_edges g) (nd_first n)
  end.

(** Graph::add_graph_at_node (simple_graph.rs:171-193) *)
Definition shift_node (edge_offset : nat) (n : NodeData T) : NodeData T :=
  mkNodeData (option_map (fun ei => edge_offset + ei) (nd_first n)) (nd_data n).
Definition shift_edge (node_offset edge_offset : nat) (e : EdgeData) : EdgeData :=
  mkEdgeData (node_offset + ed_target e) (ed_id e)
             (option_map (fun ei => edge_offset + ei) (ed_next e)).
Definition add_graph_at_node (m : ovf_mode) g (other_graph : Graph T) (this other : nat)
  : outcome E (Graph T) :=
  let node_offset := length (gr_nodes g) in
  let edge_offset := length (gr_edges g) in
  let g1 := mkGraph (gr_nodes g ++ map (shift_node edge_offset) (gr_nodes other_graph))
                    (gr_edges g ++ map (shift_edge node_offset edge_offset)
                                       (gr_edges other_graph)) in
  graph_add_edge m g1 this (other + node_offset).
End graph.
