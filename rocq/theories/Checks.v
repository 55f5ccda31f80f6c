(** * Decision procedures for concrete grammars, used in examples *)
From Verif Require Import Base Tree Errors Sets ParserData FirstSets FollowSets SteuerMap Vm ScriptParser
  SpecGrammar SpecParser Grammar_proofs First_proofs Follow_proofs Samples.

Section checks.
Context {I : Type} (pd : ParserData I).
Definition wf_check : bool :=
  bool_decide (length (element_types pd) = length (element_data pd)) &&
  forallb (fun A => match get_element_verbose pd A with Some (_, NonTerminal) => true | _ => false end)
    (map_to_list (pd_rules pd)).*1.
Lemma wf_check_ok : wf_check = true -> wf_grammar pd.
Proof.
  intros H. apply andb_prop in H as [H1 H2]. apply bool_decide_eq_true in H1. split; [assumption|].
  intros A [r Hr]. rewrite forallb_forall in H2. specialize (H2 A). destruct (get_element_verbose pd A) as [[n [|]]|] eqn:E.
  1,3: exfalso; cut (false = true); [discriminate|apply H2]; apply elem_of_list_In, elem_of_list_fmap; exists (A, r);
    (split; [reflexivity|apply elem_of_map_to_list; assumption]).
  exists n. assumption.
Qed.
Definition fits_check : bool :=
  bool_decide (N.of_nat (size (pd_rules pd)) <= 2 ^ 64)%N &&
  forallb (fun p : nat * NonTerminalRules I =>
    bool_decide (N.of_nat (length (concat (map right_side (possible_productions p.2)))) < 2 ^ 64)%N) (map_to_list (pd_rules pd)).
Lemma fits_check_ok : fits_check = true -> fits_memory pd.
Proof.
  intros H. apply andb_prop in H as [H1 H2]. apply bool_decide_eq_true in H1. split; [assumption|].
  intros A r Hr. rewrite forallb_forall in H2. specialize (H2 (A, r)). apply (bool_decide_unpack _). apply Is_true_true. apply H2.
  apply elem_of_list_In, elem_of_map_to_list. assumption.
Qed.

Definition no_empty_start_check : bool :=
  forallb (fun q : nat * NonTerminalRules I => forallb (fun p => match p with
       | NotEmpty (e :: _) => match get_element_verbose pd e with Some ([], Terminal) => false | _ => true end | _ => true end)
       (possible_productions q.2)) (map_to_list (pd_rules pd)).
Lemma no_empty_start_check_ok : no_empty_start_check = true ->
  forall A r p, pd_rules pd !! A = Some r -> p ∈ possible_productions r -> ~ starts_with_empty_terminal pd p.
Proof.
  intros Hc A r p Hr Hp (e & rest & -> & Ht). unfold no_empty_start_check in Hc.
  rewrite forallb_forall in Hc. specialize (Hc (A, r)). simpl in Hc.
  rewrite forallb_forall in Hc. apply elem_of_map_to_list, elem_of_list_In in Hr. apply elem_of_list_In in Hp.
  specialize (Hc Hr _ Hp). simpl in Hc. unfold is_terminal in Ht. rewrite Ht in Hc. discriminate.
Qed.

(** textbook prediction sets by computation *)
Definition select_set (fs : NamedSets) (fw : NamedSetsNoEmpty) (A : nat) (p : Production) : option (gset SetMember) :=
  let first := match right_side p with
               | [] => Some {[EEmpty]}
               | w => match first_set_of_partial pd w fs with Ok s => Some s | _ => None end
               end in
  match first with
  | None => None
  | Some s =>
      let chars := list_to_set (omap try_from (elements s)) in
      if decide (EEmpty ∈ s) then match fw !! A with Some f => Some (chars ∪ f) | None => None end
      else Some chars
  end.
Fixpoint pairwise_disjoint (l : list (gset SetMember)) : bool :=
  match l with
  | [] => true
  | s :: l' => forallb (fun t => bool_decide (s ∩ t = ∅)) l' && pairwise_disjoint l'
  end.
Definition rule_check (fs : NamedSets) (fw : NamedSetsNoEmpty) (A : nat) (r : NonTerminalRules I) : bool :=
  match mapM (select_set fs fw A) (possible_productions r) with
  | Some l => pairwise_disjoint l
  | None => false
  end.
Definition ll1_check (start fuel1 fuel2 : nat) : bool :=
  match @get_first_sets plain_order I pd fuel1 with
  | Ok fs => match @get_follow_sets plain_order I Checked pd fuel2 start fs with
             | Ok fw => forallb (fun p => rule_check fs fw p.1 p.2) (map_to_list (pd_rules pd))
             | _ => false
             end
  | _ => false
  end.

Lemma pairwise_spec l : pairwise_disjoint l = true ->
  forall i j s t x, l !! i = Some s -> l !! j = Some t -> i <> j -> x ∈ s -> x ∈ t -> False.
Proof.
  induction l as [|a l IH]; intros Hp; [intros i j s t x Hi; rewrite lookup_nil in Hi; discriminate|].
  simpl in Hp. apply andb_prop in Hp as [P1 P2]. specialize (IH P2). rewrite forallb_forall in P1.
  assert (forall t j x, l !! j = Some t -> x ∈ a -> x ∈ t -> False) as Hx.
  { intros t j x Hj Ha Ht. assert (a ∩ t = ∅) as E.
    { specialize (P1 t). apply bool_decide_eq_true in P1; [assumption|]. apply elem_of_list_In. eapply elem_of_list_lookup_2; eauto. }
    assert (x ∈ a ∩ t) as K by (apply elem_of_intersection; auto). rewrite E in K. apply elem_of_empty in K. assumption. }
  intros [|i] [|j] s t x Hi Hj Hne Hs Ht; simpl in *.
  - congruence.
  - injection Hi as <-. eauto.
  - injection Hj as <-. eauto.
  - apply (IH i j s t x); auto.
Qed.

Lemma ll1_check_ok start fuel1 fuel2 : wf_grammar pd -> fits_memory pd -> ll1_check start fuel1 fuel2 = true ->
  LL1 pd start /\ all_defined pd /\ has_rule pd start /\ (forall A, ~ left_recursive pd A).
Proof.
  intros Hwf Hfit Hc. unfold ll1_check in Hc. destruct (get_first_sets pd fuel1) as [fs| | |] eqn:Hfs; try discriminate.
  destruct (get_first_sets_exact pd Hwf _ _ Hfs) as (F1 & F2 & _).
  destruct (get_first_sets_grounded pd Hwf _ _ Hfs) as [[Hne _] Hnr].
  pose proof (get_follow_sets_spec (H := plain_order) Checked pd Hwf start fs fuel2 F1 F2 Hfit) as Hfo.
  destruct (get_follow_sets Checked pd fuel2 start fs) as [fw| | |]; try discriminate.
  destruct Hfo as (Hst & Hg & W1 & W2). split; [|split; [exact (conj Hne Hg)|split; assumption]].
  rewrite forallb_forall in Hc.
  intros A r i j p q x Hr Hi Hj Hij Hp Hq.
  specialize (Hc (A, r)). simpl in Hc. assert (rule_check fs fw A r = true) as Hrc.
  { apply Hc, elem_of_list_In, elem_of_map_to_list. assumption. }
  clear Hc. unfold rule_check in Hrc. destruct (mapM (select_set fs fw A) (possible_productions r)) as [l|] eqn:El; [|discriminate].
  apply mapM_Some in El.
  assert (forall p s, select_set fs fw A p = Some s -> SELECT pd start A (right_side p) x -> x ∈ s) as Hsel.
  { clear p q Hi Hj Hp Hq. intros p s Hs Hx. unfold select_set in Hs.
    assert (match match right_side p with [] => Some {[EEmpty]} | w => match first_set_of_partial pd w fs with Ok s => Some s | _ => None end end with
            | Some s => exacts pd (right_side p) s | None => True end) as Hex.
    { destruct (right_side p) as [|e w].
      - split; [|split].
        + intros c. split; [set_solver|]. intros Hf. exfalso. eapply fsts_nil; eauto.
        + split; [intros _; constructor|set_solver].
        + set_solver.
      - destruct (first_set_of_partial pd (e :: w) fs) as [s'| | |] eqn:Es; try exact Logic.I.
        eapply first_set_of_partial_exact; eauto. }
    destruct (match right_side p with [] => _ | _ => _ end) as [s'|]; [|discriminate].
    destruct Hex as (E1 & E2 & E3).
    assert (forall c, FIRST pd (right_side p) c -> MChar c ∈ (list_to_set (omap try_from (elements s')) : gset SetMember)) as Hch.
    { intros c Hf. apply FIRST_fsts, E1 in Hf. apply elem_of_list_to_set, elem_of_list_omap. exists (EChar c).
      split; [apply elem_of_elements; assumption|reflexivity]. }
    destruct (decide (EEmpty ∈ s')) as [He|He].
    - destruct (fw !! A) as [f|] eqn:Ef; [|discriminate]. injection Hs as <-. apply elem_of_union.
      destruct Hx as [(c & -> & Hf)|[_ Hf]]; [left; auto|]. right. apply (W2 A f Ef), FOLLOW_fol. assumption.
    - injection Hs as <-. destruct Hx as [(c & -> & Hf)|[Hn _]]; [auto|]. exfalso. apply He, E2, NULLABLE_nuls. assumption. }
  destruct (Forall2_lookup_l _ _ _ _ _ El Hi) as (s & Hsi & Hs).
  destruct (Forall2_lookup_l _ _ _ _ _ El Hj) as (t & Htj & Ht).
  eapply (pairwise_spec l Hrc i j s t x); eauto.
Qed.
End checks.
