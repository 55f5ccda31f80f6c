(** * Property theorems: the work of analysing a grammar (C86) *)
From Verif Require Import Base Tree Errors Sets ParserData SimpleGraph NamedGraph FirstSets FollowSets SpecGrammar SpecCost Grammar_proofs First_proofs Named_proofs Follow_proofs Props_first Props_follow Samples Cost_proofs.

(** ** FIRST sets.  [get_first_sets_counted] is get_first_sets with a counter. *)
Theorem C86_first_counter : forall (H : HashOrder) (I : Type) (pd : ParserData I) fuel, snd (get_first_sets_counted pd fuel) = get_first_sets pd fuel.
Proof. intros H I pd fuel. apply get_first_counted_snd. Qed.
Print Assumptions C86_first_counter.
(** One call for each rule and at most one for each element on a right side, whatever the
    outcome. *)
Theorem C86_first_calls : forall (H : HashOrder) (I : Type) (pd : ParserData I) fuel, wf_grammar pd -> (forall A, ~ left_recursive pd A) ->
  fst (get_first_sets_counted pd fuel) <= size (pd_rules pd) + grammar_elements pd.
Proof. intros H I pd fuel Hwf Hno. apply (first_calls pd Hwf Hno). Qed.
Print Assumptions C86_first_calls.
(** ** FOLLOW sets.  [get_follow_sets_counted] is get_follow_sets with a counter for the edges
    the propagation looks at. *)
Theorem C86_follow_counter : forall (H : HashOrder) (I : Type) m (pd : ParserData I) fuel start fs,
  snd (get_follow_sets_counted m pd fuel start fs) = get_follow_sets m pd fuel start fs.
Proof. intros H I m pd fuel start fs. apply follow_counted_snd. Qed.
Print Assumptions C86_follow_counter.
(** [U] is any finite set that contains every member of every FOLLOW set. *)
Theorem C86_follow_edges : forall (H : HashOrder) (I : Type) m (pd : ParserData I) fuel1 fuel2 start fs (U : gset SetMember),
  wf_grammar pd -> fits_memory pd -> get_first_sets pd fuel1 = Ok fs ->
  (forall A x, has_rule pd A -> FOLLOW pd start A x -> x ∈ U) ->
  fst (get_follow_sets_counted m pd fuel2 start fs) <= (size (pd_rules pd) * size U + 1) * grammar_elements pd.
Proof.
  intros H I m pd fuel1 fuel2 start fs U Hwf Hfit Hfs HU. destruct (get_first_sets_exact pd Hwf fuel1 fs Hfs) as (X1 & X2 & _).
  apply (follow_cost m pd Hwf); auto. intros A x HA Hf. apply (HU A); [assumption|]. apply FOLLOW_fol. assumption.
Qed.
Print Assumptions C86_follow_edges.
Theorem C86_follow_edges_elements : forall (H : HashOrder) (I : Type) m (pd : ParserData I) fuel1 fuel2 start fs,
  wf_grammar pd -> fits_memory pd -> get_first_sets pd fuel1 = Ok fs ->
  fst (get_follow_sets_counted m pd fuel2 start fs) <= (size (pd_rules pd) * (length (element_data pd) + 1) + 1) * grammar_elements pd.
Proof.
  intros H I m pd fuel1 fuel2 start fs Hwf Hfit Hfs. etransitivity; [eapply (C86_follow_edges H I m pd fuel1 fuel2 start fs (follow_universe pd)); eauto|].
  - intros A x HA Hf. eapply follow_universe_ok; [assumption|exact HA|]. apply FOLLOW_fol. exact Hf.
  - apply Nat.mul_le_mono_r. pose proof (Nat.mul_le_mono_l _ _ (size (pd_rules pd)) (follow_universe_size pd Hwf)). lia.
Qed.
Print Assumptions C86_follow_edges_elements.

(** ** Non-vacuity: the grammar of C20_example has three rules with six elements.  Its FIRST
    sets take 9 calls, the most that the bound allows. *)
Example C86_example : wf_grammar first_pd /\ fits_memory first_pd /\ (forall A, ~ left_recursive first_pd A) /\
  size (pd_rules first_pd) + grammar_elements first_pd = 9 /\ fst (@get_first_sets_counted plain_order nat first_pd 5) = 9 /\
  match @get_first_sets plain_order nat first_pd 5 with Ok fs => fst (@get_follow_sets_counted plain_order nat Checked first_pd 19 0 fs) = 9 | _ => False end.
Proof.
  split; [apply first_pd_wf|]. split; [apply first_pd_fits|]. split; [apply C21_example|]. split; [vm_compute; reflexivity|]. split; [vm_compute; reflexivity|]. vm_compute. reflexivity.
Qed.
