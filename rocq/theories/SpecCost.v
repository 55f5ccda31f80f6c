(** * Specification for C86: the work of building a parser, counted. *)
From Verif Require Import Base Tree Errors Sets ParserData SimpleGraph NamedGraph FirstSets FollowSets SpecGrammar.

(** An outcome and the number of calls (or comparisons) made on the way to it. *)
Definition counted (E A : Type) : Type := nat * outcome E A.
Definition cbind {E A B} (m : counted E A) (k : A -> counted E B) : counted E B :=
  match m with
  | (n, Ok a) => let '(n', r) := k a in (n + n', r)
  | (n, Err e) => (n, Err e)
  | (n, Panic) => (n, Panic)
  | (n, Diverge) => (n, Diverge)
  end.
Fixpoint cfold {E A B} (f : B -> A -> counted E B) (b : B) (l : list A) : counted E B :=
  match l with
  | [] => (0, Ok b)
  | a :: l' => cbind (f b a) (fun b' => cfold f b' l')
  end.

Section counted.
Context {H : HashOrder} {I : Type} (m : ovf_mode) (pd : ParserData I).
Notation eset := (gset SetMemberWithEmpty).
Notation cres := (counted GrammarError).

(** get_first_sets with the number of calls of get_set_first_set_of_element: as in
    FirstSets.v (C86_first_counter: the outcome is the same). *)
Section loops.
Variable call : nat -> NamedSets -> cres (eset * NamedSets).
Fixpoint skip_counted (els : list nat) (acc : eset) (fs : NamedSets) : cres (eset * NamedSets) :=
  match els with
  | [] => (0, Ok (acc, fs))
  | e :: els' =>
      cbind (call e fs) (fun '(cur, fs') =>
        if decide (EEmpty ∈ cur) then skip_counted els' (cur ∪ acc) fs' else (0, Ok ((cur ∪ acc) ∖ {[EEmpty]}, fs')))
  end.
Definition production_counted (p : Production) (fs : NamedSets) : cres (eset * NamedSets) :=
  match p with
  | Empty => (0, Ok ({[EEmpty]}, fs))
  | NotEmpty [] => (0, Panic)
  | NotEmpty (e :: els) =>
      cbind (call e fs) (fun '(cur, fs') => if decide (EEmpty ∈ cur) then skip_counted els cur fs' else (0, Ok (cur, fs')))
  end.
Fixpoint productions_counted (ps : list Production) (set : eset) (fs : NamedSets) : cres (eset * NamedSets) :=
  match ps with
  | [] => (0, Ok (set, fs))
  | p :: ps' => cbind (production_counted p fs) (fun '(rus, fs') => productions_counted ps' (rus ∪ set) fs')
  end.
End loops.
Fixpoint first_counted (fuel : nat) (ix : nat) (fs : NamedSets) {struct fuel} : cres (eset * NamedSets) :=
  match fuel with
  | O => (1, Diverge)
  | S f =>
      match get_first_set_of_element pd ix fs with
      | Ok (Some x) => (1, Ok (x, fs))
      | Ok None =>
          match pd_rules pd !! ix with
          | None => (1, Err (MissingProduction ix))
          | Some r =>
              let '(n, o) := productions_counted (first_counted f) (possible_productions r) ∅ fs in
              (S n, let* '(set, fs') := o in Ok (set, <[ix := set]> fs'))
          end
      | Err e => (1, Err e)
      | Panic => (1, Panic)
      | Diverge => (1, Diverge)
      end
  end.
Definition get_first_sets_counted (fuel : nat) : cres NamedSets :=
  cfold (fun fs ix => cbind (first_counted fuel ix fs) (fun '(_, fs') => (0, Ok fs'))) ∅ (ho_iter [3] (map_to_list (pd_rules pd)).*1).

(** The propagation loop of get_follow_sets with the number of edges it looks at. *)
Notation FGraph := (GraphNamedNodes (gset SetMember)).
Definition missing_counted (g : FGraph) : cres (list (nat * gset SetMember)) :=
  cfold (fun acc '(name, ix) =>
           match (let* node := get_node_by_index m g ix in let* succs := named_successors g name in Ok (node, succs)) with
           | Ok (node, succs) => (length succs, Ok (acc ++ collect_missing g node succs))
           | Err e => (0, Err e)
           | Panic => (0, Panic)
           | Diverge => (0, Diverge)
           end)
        [] (ho_iter [6] (map_to_list (ng_names g))).
Fixpoint propagate_counted (fuel : nat) (g : FGraph) : cres FGraph :=
  match fuel with
  | O => (0, Diverge)
  | S f => cbind (missing_counted g) (fun l =>
      match l with
      | [] => (0, Ok g)
      | _ => cbind (0, apply_missing m g l) (propagate_counted f)
      end)
  end.
Definition get_follow_sets_counted (fuel : nat) (start : nat) (fs : NamedSets) : cres NamedSetsNoEmpty :=
  cbind (0, let* g0 := make_graph_with_index pd in let* g1 := modify_node g0 start (fun d => {[MTerminate]} ∪ d) in mark_all m pd fs g1) (fun g =>
  cbind (propagate_counted fuel g) (fun g' =>
  (0, ofold (fun sets '(name, ix) => let* node := get_node_by_index m g' ix in Ok (<[name := nd_data node]> sets)) ∅ (ho_iter [7] (map_to_list (ng_names g')))))).

(** The size of a grammar: the elements on the right sides of its rules. *)
Definition rule_elements (r : NonTerminalRules I) : nat := length (concat (map right_side (possible_productions r))).
Definition grammar_elements : nat := sum_list (map (fun p => rule_elements p.2) (map_to_list (pd_rules pd))).
End counted.
