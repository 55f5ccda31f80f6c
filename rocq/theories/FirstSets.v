(** * Model of src/first_sets.rs *)
From Verif Require Import Base Tree Errors Sets ParserData.

Section first_sets.
Context {H : HashOrder} {I : Type} (pd : ParserData I).
Notation res := (outcome GrammarError).
Notation eset := (gset SetMemberWithEmpty).

(** get_first_set_of_element (first_sets.rs:83-104).  [element_types[el_ix]] and
    [get_element_data(el_ix).unwrap()] panic when out of bounds. *)
Definition get_first_set_of_element (ix : nat) (fs : NamedSets) : res (option eset) :=
  match element_types pd !! ix with
  | None => Panic
  | Some NonTerminal => Ok (fs !! ix)
  | Some Terminal =>
      match get_element_data pd ix with
      | None => Panic
      | Some d => match ed_name d with
                  | [] => Ok (Some {[EEmpty]})
                  | c :: _ => Ok (Some {[EChar c]})
                  end
      end
  end.

(** first_set_of_partial (first_sets.rs:21-43) *)
Fixpoint partial_loop (els : list nat) (fs : NamedSets) (set : eset) : res eset :=
  match els with
  | [] => Ok set
  | ix :: els' =>
      let* o := get_first_set_of_element ix fs in
      match o with
      | None => Err (MissingFirstSet ix)
      | Some cur =>
          let set' := cur ∪ set in
          if decide (EEmpty ∈ cur) then partial_loop els' fs set'
          else Ok (set' ∖ {[EEmpty]})
      end
  end.
Definition first_set_of_partial (els : list nat) (fs : NamedSets) : res eset :=
  partial_loop els fs ∅.

(** get_set_first_set_of_element and get_first_set_of_production
    (first_sets.rs:56-81, 106-132), mutually recursive, threading the [&mut]
    first_sets.  The recursion has no bound in the source (a left-recursive grammar
    overflows the stack), so the fuel is an argument of the whole analysis.
    [skip_loop] is the [for el_ix in el_ixs.iter().skip(1)] loop. *)
Fixpoint first_of_element (fuel : nat) (ix : nat) (fs : NamedSets) {struct fuel}
  : res (eset * NamedSets) :=
  match fuel with
  | O => Diverge
  | S f =>
      let* o := get_first_set_of_element ix fs in
      match o with
      | Some x => Ok (x, fs)
      | None =>
          match pd_rules pd !! ix with
          | None => Err (MissingProduction ix)
          | Some r =>
              let skip_loop := fix skip_loop (els : list nat) (acc : eset) (fs : NamedSets)
                : res (eset * NamedSets) :=
                match els with
                | [] => Ok (acc, fs)
                | e :: els' =>
                    let* '(cur, fs') := first_of_element f e fs in
                    let acc' := cur ∪ acc in
                    if decide (EEmpty ∈ cur) then skip_loop els' acc' fs'
                    else Ok (acc' ∖ {[EEmpty]}, fs')
                end in
              let of_production (p : Production) (fs : NamedSets) : res (eset * NamedSets) :=
                match p with
                | Empty => Ok ({[EEmpty]}, fs)
                | NotEmpty [] => Panic
                | NotEmpty (e :: els) =>
                    let* '(first_menge, fs') := first_of_element f e fs in
                    if decide (EEmpty ∈ first_menge) then skip_loop els first_menge fs'
                    else Ok (first_menge, fs')
                end in
              let prods_loop := fix prods_loop (prods : list Production) (set : eset)
                  (fs : NamedSets) : res (eset * NamedSets) :=
                match prods with
                | [] => Ok (set, fs)
                | p :: prods' =>
                    let* '(rus, fs') := of_production p fs in
                    prods_loop prods' (rus ∪ set) fs'
                end in
              let* '(set, fs') := prods_loop (possible_productions r) ∅ fs in
              Ok (set, <[ix := set]> fs')
          end
      end
  end.

(** get_first_sets (first_sets.rs:45-54) *)
Definition get_first_sets (fuel : nat) : res NamedSets :=
  ofold (fun fs ix => let* '(_s, fs') := first_of_element fuel ix fs in Ok fs')
        ∅ (ho_iter [3] (map_to_list (pd_rules pd)).*1).
End first_sets.
