(** * Model of src/steuer_sets.rs and src/steuer_map.rs *)
From Verif Require Import Base Tree Errors Sets ParserData.

Section steuer.
Context {H : HashOrder} {I : Type}.
Notation res := (outcome GrammarError).

(** get_steuer_sets (steuer_sets.rs:12-31) *)
Definition get_steuer_sets (fs : NamedSets) (fo : NamedSetsNoEmpty) : res NamedSetsNoEmpty :=
  ofold (fun sets '(name, first) =>
           let* steuer := collect_members (first ∖ {[EEmpty]}) in
           let* steuer' :=
             if decide (EEmpty ∈ first) then
               match fo !! name with
               | None => Err (MissingFollowSet name)
               | Some follow => Ok (follow ∪ steuer)
               end
             else Ok steuer in
           Ok (<[name := steuer']> sets))
        ∅ (ho_iter [9] (map_to_list fs)).

(** type Steuermap (steuer_map.rs:28) *)
Definition Steuermap := gmap SetMember Production.

(** struct NTRules (steuer_map.rs:19-26) *)
Record NTRules := mkNTRules {
  steuermap : Steuermap;
  nt_ignore : option nat;
  nt_instruction : list I;
}.

(** fill_with_steuer_set (steuer_map.rs:114-134) *)
Definition fill_char (x : SetMember) : char :=
  match x with MChar c => c | MTerminate => 35%N (* '#' *) end.
Definition fill_with_steuer_set (site : list nat) (set : gset SetMember) (sm : Steuermap)
    (prod : Production) (rule : nat) : res Steuermap :=
  ofold (fun sm x =>
           match sm !! x with
           | Some _ => Err (SteuerSetsNotDistinct (lit "follow_set") (fill_char x) rule)
           | None => Ok (<[x := prod]> sm)
           end)
        sm (ho_iter site (elements set)).

(** steuermap_of_production (steuer_map.rs:64-112).  [el[0]], [el_data.get(..)
    .unwrap()] and [name.chars().next().unwrap()] can panic. *)
Definition steuermap_of_production (ss fo : NamedSetsNoEmpty) (sm : Steuermap)
    (prod : Production) (rule : nat) (types : list ElementType) (data : list ElementData)
    (site : list nat) : res Steuermap :=
  match prod with
  | NotEmpty [] => Panic
  | NotEmpty (first :: _) =>
      match types !! first with
      | None => Err (MissingElementForIndex first)
      | Some Terminal =>
          match data !! first with
          | None => Panic
          | Some d =>
              match ed_name d with
              | [] => Panic
              | c :: _ =>
                  match sm !! MChar c with
                  | Some _ => Err (SteuerSetsNotDistinct (ed_name d) c rule)
                  | None => Ok (<[MChar c := prod]> sm)
                  end
              end
          end
      | Some NonTerminal =>
          match ss !! first with
          | None => Err (MissingSteuerSet first)
          | Some s => fill_with_steuer_set site s sm prod rule
          end
      end
  | Empty =>
      match fo !! rule with
      | None => Err (MissingFollowSet rule)
      | Some s => fill_with_steuer_set site s sm prod rule
      end
  end.

(** get_steuermaps (steuer_map.rs:30-62).  The inner loop numbers the productions
    only to name the hash-iteration site. *)
Fixpoint steuermap_loop (ss fo : NamedSetsNoEmpty) (types : list ElementType)
    (data : list ElementData) (rule : nat) (k : nat) (prods : list Production)
    (sm : Steuermap) : res Steuermap :=
  match prods with
  | [] => Ok sm
  | p :: prods' =>
      let* sm' := steuermap_of_production ss fo sm p rule types data [11; rule; k] in
      steuermap_loop ss fo types data rule (S k) prods' sm'
  end.
Definition get_steuermaps (fs : NamedSets) (fo : NamedSetsNoEmpty) (pd : ParserData I)
  : res (gmap nat NTRules) :=
  let* ss := get_steuer_sets fs fo in
  ofold (fun maps '(rule, r) =>
           let* sm := steuermap_loop ss fo (element_types pd) (element_data pd) rule 0
                                     (possible_productions r) ∅ in
           Ok (<[rule := mkNTRules sm (ntr_ignore r) (instruction r)]> maps))
        ∅ (ho_iter [10] (map_to_list (pd_rules pd))).
End steuer.
Arguments NTRules : clear implicits.
Arguments mkNTRules {I}. Arguments steuermap {I}. Arguments nt_ignore {I}.
Arguments nt_instruction {I}.
