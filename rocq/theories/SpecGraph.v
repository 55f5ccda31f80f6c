(** * Specification of the graphs (C44-C47): a graph is a list of nodes, each with its
    data and a finite map from edge ids to target indices. *)
From Coq Require Export Sorted.
From Verif Require Import Base Errors SimpleGraph NamedGraph.

Notation agraph T := (list (T * gmap N nat)) (only parsing).

Section spec.
Context {T : Type}.

(** The id the next [add_edge] at a node uses: 0 for the first, else one more than the
    largest id in use. *)
Definition next_edge_id (es : gmap N nat) (id : N) : Prop :=
  (es = ∅ /\ id = 0%N) \/
  (exists k, is_Some (es !! k) /\ (forall k', is_Some (es !! k') -> k' <= k)%N /\ id = (k + 1)%N).

Inductive gcall := GAddNode (d : T) | GAddEdge (source target : nat)
                 | GTryAddEdge (source target : nat) (id : N).
Inductive ganswer := AIndex (i : nat) | ADone | ABool (b : bool).

(** One call on the abstract graph.  An id must fit a usize. *)
Inductive gspec : agraph T -> gcall -> ganswer -> agraph T -> Prop :=
| gspec_node a d : gspec a (GAddNode d) (AIndex (length a)) (a ++ [(d, ∅)])
| gspec_edge a s t d es id : a !! s = Some (d, es) -> next_edge_id es id -> (id < 2 ^ 64)%N ->
    gspec a (GAddEdge s t) ADone (<[s := (d, <[id := t]> es)]> a)
| gspec_try_new a s t d es id : a !! s = Some (d, es) -> es !! id = None ->
    gspec a (GTryAddEdge s t id) (ABool true) (<[s := (d, <[id := t]> es)]> a)
| gspec_try_old a s t d es id : a !! s = Some (d, es) -> is_Some (es !! id) ->
    gspec a (GTryAddEdge s t id) (ABool false) a.
Inductive gspec_run : agraph T -> list gcall -> list ganswer -> agraph T -> Prop :=
| gspec_nil a : gspec_run a [] [] a
| gspec_cons a c r a1 l rs a2 : gspec a c r a1 -> gspec_run a1 l rs a2 ->
    gspec_run a (c :: l) (r :: rs) a2.

(** The same calls on the model. *)
Definition gcall_do (m : ovf_mode) (g : Graph T) (c : gcall) : outcome Empty_set (ganswer * Graph T) :=
  match c with
  | GAddNode d => let '(i, g') := graph_add_node g d in Ok (AIndex i, g')
  | GAddEdge s t => let* g' := graph_add_edge m g s t in Ok (ADone, g')
  | GTryAddEdge s t id => let* '(b, g') := try_add_edge_with_id g s t id in Ok (ABool b, g')
  end.
Fixpoint gcalls_do (m : ovf_mode) (g : Graph T) (l : list gcall)
  : outcome Empty_set (list ganswer * Graph T) :=
  match l with
  | [] => Ok ([], g)
  | c :: l' => let* '(r, g1) := gcall_do m g c in
               let* '(rs, g2) := gcalls_do m g1 l' in Ok (r :: rs, g2)
  end.

(** A list of (id, target) pairs lists a map with ids strictly decreasing. *)
Definition lists_decreasing (ps : list (N * nat)) (es : gmap N nat) : Prop :=
  StronglySorted (fun p q => q.1 < p.1)%N ps /\
  forall id t, (id, t) ∈ ps <-> es !! id = Some t.

(** Every query of [g] is answered as the abstract graph says. *)
Definition answers_like (g : Graph T) (a : agraph T) : Prop :=
  length (gr_nodes g) = length a /\
  forall s d es, a !! s = Some (d, es) ->
    (exists n, gr_nodes g !! s = Some n /\ nd_data n = d) /\
    (forall id, find_node_index (E := Empty_set) g s id = Ok (es !! id)) /\
    exists ixs ps,
      connected_edges (E := Empty_set) g s = Ok ixs /\
      Forall2 (fun i p => exists e, gr_edges g !! i = Some e /\ p = (ed_id e, ed_target e)) ixs ps /\
      successors (E := Empty_set) g s = Ok ps.*2 /\
      lists_decreasing ps es.
End spec.
Arguments gcall : clear implicits.

(** Following a list of edge ids in the abstract graph. *)
Fixpoint apath {T} (a : agraph T) (s : nat) (ids : list N) : option nat :=
  match ids with
  | [] => Some s
  | id :: ids' =>
      match a !! s with
      | Some (_, es) => match es !! id with Some t => apath a t ids' | None => None end
      | None => None
      end
  end.
(** Every edge leads to a node. *)
Definition closed {T} (a : agraph T) : Prop :=
  forall s d es id t, a !! s = Some (d, es) -> es !! id = Some t -> t < length a.
(** Renumbering of a graph that is appended to one with [k] nodes. *)
Definition shifted {T} (k : nat) (b : agraph T) : agraph T :=
  map (fun '(d, es) => (d, (fun t => k + t) <$> es)) b.

(** ** Plans: graphs built by calls and by grafting other graphs built the same way, in any
    order and nesting.  The answers of the calls are collected in the order in which they are
    made. *)
Inductive gplan (T : Type) :=
| PNew
| PCall (p : gplan T) (c : gcall T)
| PGraft (p q : gplan T) (this other : nat).
Arguments PNew {T}. Arguments PCall {T}. Arguments PGraft {T}.
Inductive plan_spec {T} : gplan T -> list ganswer -> agraph T -> Prop :=
| ps_new : plan_spec PNew [] []
| ps_call p rs a c r a' : plan_spec p rs a -> gspec a c r a' -> plan_spec (PCall p c) (rs ++ [r]) a'
| ps_graft p rs a q rs' b this other a' : plan_spec p rs a -> plan_spec q rs' b ->
    gspec (a ++ shifted (length a) b) (GAddEdge this (length a + other)) ADone a' ->
    plan_spec (PGraft p q this other) (rs ++ rs') a'.
Fixpoint plan_do {T} (m : ovf_mode) (p : gplan T) : outcome Empty_set (list ganswer * Graph T) :=
  match p with
  | PNew => Ok ([], graph_new)
  | PCall p c => let* '(rs, g) := plan_do m p in let* '(r, g') := gcall_do m g c in Ok (rs ++ [r], g')
  | PGraft p q this other =>
      let* '(rs, g) := plan_do m p in let* '(rs', o) := plan_do m q in
      let* g' := add_graph_at_node m g o this other in Ok (rs ++ rs', g')
  end.

(** ** Named graphs: a finite map from names to data and successor names, newest edge
    first.  The answer of a call is success with a value or one of the two errors. *)

Section named_spec.
Context {T : Type}.
Notation ngraph := (gmap nat (T * list nat)).
Inductive ncall := NAddNode (name : nat) (d : T) | NAddEdge (source target : nat)
                 | NWrite (name : nat) (f : T -> T).     (* through get_node_mut *)
Inductive nspec : ngraph -> ncall -> option GrammarError -> ngraph -> Prop :=
| nspec_node a x d : a !! x = None -> nspec a (NAddNode x d) None (<[x := (d, [])]> a)
| nspec_node_dup a x d : is_Some (a !! x) ->
    nspec a (NAddNode x d) (Some (GraphNodeAlreadyExistsError x)) a
| nspec_edge a s t d ss : a !! s = Some (d, ss) -> is_Some (a !! t) ->
    (N.of_nat (length ss) < 2 ^ 64)%N ->
    nspec a (NAddEdge s t) None (<[s := (d, t :: ss)]> a)
| nspec_edge_source a s t : a !! s = None ->
    nspec a (NAddEdge s t) (Some (GraphNodeDoesNotExistsError s)) a
| nspec_edge_target a s t : is_Some (a !! s) -> a !! t = None ->
    nspec a (NAddEdge s t) (Some (GraphNodeDoesNotExistsError t)) a
| nspec_write a x f d ss : a !! x = Some (d, ss) -> nspec a (NWrite x f) None (<[x := (f d, ss)]> a)
| nspec_write_none a x f : a !! x = None ->
    nspec a (NWrite x f) (Some (GraphNodeDoesNotExistsError x)) a.
Inductive nspec_run : ngraph -> list ncall -> list (option GrammarError) -> ngraph -> Prop :=
| nspec_nil a : nspec_run a [] [] a
| nspec_cons a c r a1 l rs a2 : nspec a c r a1 -> nspec_run a1 l rs a2 ->
    nspec_run a (c :: l) (r :: rs) a2.

Definition ncall_do (m : ovf_mode) (g : GraphNamedNodes T) (c : ncall)
  : outcome GrammarError (GraphNamedNodes T) :=
  match c with
  | NAddNode x d => let* '(_i, g') := named_add_node x d g in Ok g'
  | NAddEdge s t => named_add_edge m g s t
  | NWrite x f => modify_node g x f
  end.
(** A history: an error leaves the graph as it was; a panic ends it. *)
Fixpoint ncalls_do (m : ovf_mode) (g : GraphNamedNodes T) (l : list ncall)
  : option (list (option GrammarError) * GraphNamedNodes T) :=
  match l with
  | [] => Some ([], g)
  | c :: l' =>
      let next r g1 := match ncalls_do m g1 l' with
                       | Some (rs, g2) => Some (r :: rs, g2)
                       | None => None
                       end in
      match ncall_do m g c with
      | Ok g1 => next None g1
      | Err e => next (Some e) g
      | _ => None
      end
  end.

Definition named_answers_like (g : GraphNamedNodes T) (a : ngraph) : Prop :=
  (forall x, a !! x = None ->
     named_get_node g x = Err (GraphNodeDoesNotExistsError x) /\
     named_successors g x = Err (GraphNodeDoesNotExistsError x) /\
     get_index_of_node g x = Err (GraphNodeDoesNotExistsError x)) /\
  (forall x d ss, a !! x = Some (d, ss) ->
     (exists i n, get_index_of_node g x = Ok i /\ named_get_node g x = Ok n /\ nd_data n = d /\
                  forall m, get_node_by_index m g i = Ok n) /\
     exists succ, named_successors g x = Ok succ /\
       Forall2 (fun y '(i, n) => get_index_of_node g y = Ok i /\ named_get_node g y = Ok n) ss succ) /\
  (forall x y i, get_index_of_node g x = Ok i -> get_index_of_node g y = Ok i -> x = y).
End named_spec.
Arguments ncall : clear implicits.
