(** * Model of src/follow_sets.rs *)
From Verif Require Import Base Tree Errors Sets ParserData SimpleGraph NamedGraph FirstSets.

Section follow_sets.
Context {H : HashOrder} {I : Type} (m : ovf_mode) (pd : ParserData I).
Notation res := (outcome GrammarError).

(** type Graph (follow_sets.rs:21) *)
Notation FGraph := (GraphNamedNodes (gset SetMember)).

(** make_graph_with_index (follow_sets.rs:58-67) *)
Definition make_graph_with_index : res FGraph :=
  ofold (fun g name => let* '(_i, g') := named_add_node name ∅ g in Ok g')
        named_new (ho_iter [4] (map_to_list (pd_rules pd)).*1).

(** graph_marking_for_rightside_elements (follow_sets.rs:108-150): one iteration of
    the [for] loop per element; [rest] is [prod[i + 1..]]. *)
Fixpoint mark_loop (prod : list nat) (fs : NamedSets) (left_side : nat) (g : FGraph)
  : res FGraph :=
  match prod with
  | [] => Ok g
  | el :: rest =>
      match get_element pd el with
      | None => Err (MissingElementForIndex el)
      | Some (_, Terminal) => mark_loop rest fs left_side g
      | Some (_, NonTerminal) =>
          let* '(add_edge, g1) :=
            match rest with
            | [] => Ok (true, g)
            | _ =>
                let* following := first_set_of_partial pd rest fs in
                let has_empty := bool_decide (EEmpty ∈ following) in
                let following' := if has_empty then following ∖ {[EEmpty]} else following in
                let* extra := (match named_get_node g el with
                               | Ok _ => collect_members following'
                               | Err e => Err e
                               | Panic => Panic
                               | Diverge => Diverge
                               end) in
                let* g1 := modify_node g el (fun d => extra ∪ d) in
                Ok (has_empty, g1)
            end in
          let* g2 := if add_edge : bool then named_add_edge m g1 left_side el else Ok g1 in
          mark_loop rest fs left_side g2
      end
  end.

(** One round of the [while changes] loop of make_follow_sets_from_marked_graph
    (follow_sets.rs:69-106): first collect what is missing in every successor, then
    add it.  Duplicate entries are kept, as in the Vec of the source. *)
Definition collect_missing (g : FGraph) (node : NodeData (gset SetMember))
    (succs : list (nat * NodeData (gset SetMember))) : list (nat * gset SetMember) :=
  flat_map (fun '(si, sn) =>
              if decide (nd_data node ⊆ nd_data sn) then []
              else [(si, nd_data node ∖ nd_data sn)]) succs.
Definition missing_of_all (g : FGraph) : res (list (nat * gset SetMember)) :=
  ofold (fun acc '(name, ix) =>
           let* node := get_node_by_index m g ix in
           let* succs := named_successors g name in
           Ok (acc ++ collect_missing g node succs))
        [] (ho_iter [6] (map_to_list (ng_names g))).
Definition apply_missing (g : FGraph) (l : list (nat * gset SetMember)) : res FGraph :=
  ofold (fun g '(ix, extra) => modify_node_by_index m g ix (fun d => extra ∪ d)) g l.

(** The [while] loop.  Its fuel is an argument of the analysis; a theorem shows how
    much is always enough. *)
Fixpoint propagate (fuel : nat) (g : FGraph) : res FGraph :=
  match fuel with
  | O => Diverge
  | S f =>
      let* l := missing_of_all g in
      match l with
      | [] => Ok g
      | _ => let* g' := apply_missing g l in propagate f g'
      end
  end.
Definition make_follow_sets_from_marked_graph (fuel : nat) (g : FGraph)
  : res NamedSetsNoEmpty :=
  let* g' := propagate fuel g in
  ofold (fun sets '(name, ix) =>
           let* node := get_node_by_index m g' ix in
           Ok (<[name := nd_data node]> sets))
        ∅ (ho_iter [7] (map_to_list (ng_names g'))).

(** The marking loops of get_follow_sets (follow_sets.rs:41-54) *)
Definition mark_all (fs : NamedSets) (g : FGraph) : res FGraph :=
  ofold (fun g '(el, r) =>
           ofold (fun g p =>
                    match p with
                    | NotEmpty prod => mark_loop prod fs el g
                    | Empty => Ok g
                    end) g (possible_productions r))
        g (ho_iter [5] (map_to_list (pd_rules pd))).

(** get_follow_sets (follow_sets.rs:28-56) *)
Definition get_follow_sets (fuel : nat) (start : nat) (fs : NamedSets) : res NamedSetsNoEmpty :=
  let* g0 := make_graph_with_index in
  let* g1 := modify_node g0 start (fun d => {[MTerminate]} ∪ d) in
  let* g2 := mark_all fs g1 in
  make_follow_sets_from_marked_graph fuel g2.
End follow_sets.
