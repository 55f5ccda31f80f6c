(** * Property theorems, FOLLOW sets: C22, C23.  FOLLOW is defined by derivations in
    SpecGrammar.v. *)
From Coq Require Import Ascii String.
From Verif Require Import Base Errors Sets ParserData SimpleGraph NamedGraph FirstSets FollowSets SpecData
  ParserData_proofs SpecGrammar Grammar_proofs First_proofs Follow_proofs Samples Props_first.

(** ** C22 *)
Theorem C22_follow_sets_exact : forall (H : HashOrder) (I : Type) m (pd : ParserData I) fuel1 fuel2 start fs fw,
  wf_grammar pd -> fits_memory pd ->
  get_first_sets pd fuel1 = Ok fs -> get_follow_sets m pd fuel2 start fs = Ok fw ->
  (forall A, is_Some (fw !! A) <-> has_rule pd A) /\
  (forall A s, fw !! A = Some s -> forall x, x ∈ s <-> FOLLOW pd start A x).
Proof.
  intros H I m pd fuel1 fuel2 start fs fw Hwf Hfit Hfs Hfw.
  destruct (get_first_sets_exact pd Hwf fuel1 fs Hfs) as (H1 & H2 & _).
  pose proof (get_follow_sets_spec m pd Hwf start fs fuel2 H1 H2 Hfit) as Hs. rewrite Hfw in Hs.
  destruct Hs as (_ & _ & H3 & H4). split; [assumption|]. intros A s HA x. rewrite FOLLOW_fol. eauto.
Qed.
Print Assumptions C22_follow_sets_exact.
(** FOLLOW is the least solution of the textbook equations. *)
Definition follow_equations {I} (pd : ParserData I) (start : nat) (S : nat -> SetMember -> Prop) : Prop :=
  S start MTerminate /\
  (forall B u A v c, alternative pd B (u ++ A :: v) -> FIRST pd v c -> S A (MChar c)) /\
  (forall B u A v x, alternative pd B (u ++ A :: v) -> NULLABLE pd v -> S B x -> S A x).
Theorem C22_least_solution : forall (I : Type) (pd : ParserData I) start,
  follow_equations pd start (FOLLOW pd start) /\
  forall S, follow_equations pd start S -> forall A x, FOLLOW pd start A x -> S A x.
Proof.
  intros I pd start. split; [split; [|split]|].
  - apply FOLLOW_fol. constructor.
  - intros B u A v c Ha Hf. apply FOLLOW_fol. eapply fol_first; [exact Ha|]. apply FIRST_fsts. assumption.
  - intros B u A v x Ha Hn Hf. apply FOLLOW_fol. eapply fol_prop; [exact Ha| |apply FOLLOW_fol; exact Hf].
    apply NULLABLE_nuls. assumption.
  - intros S (S1 & S2 & S3) A x Hf. apply FOLLOW_fol in Hf.
    induction Hf as [|B u A v c Ha Hfi|B u A v x Ha Hn Hf IH].
    + assumption.
    + eapply S2; [exact Ha|]. apply FIRST_fsts. assumption.
    + eapply S3; [exact Ha| |exact IH]. apply NULLABLE_nuls. assumption.
Qed.
Print Assumptions C22_least_solution.
(** It succeeds exactly when the start has a rule and nothing is undefined (given
    enough rounds, C23). *)
Theorem C22_succeeds_iff : forall (H : HashOrder) (I : Type) m (pd : ParserData I) fuel1 fuel2 start fs,
  wf_grammar pd -> fits_memory pd ->
  get_first_sets pd fuel1 = Ok fs -> size (pd_rules pd) * (length (element_data pd) + 1) < fuel2 ->
  ((exists fw, get_follow_sets m pd fuel2 start fs = Ok fw) <-> has_rule pd start /\ all_defined pd).
Proof.
  intros H I m pd fuel1 fuel2 start fs Hwf Hfit Hfs Hfuel.
  destruct (get_first_sets_exact pd Hwf fuel1 fs Hfs) as (H1 & H2 & _).
  destruct (get_first_sets_grounded pd Hwf fuel1 fs Hfs) as [[Hne _] _].
  pose proof (get_follow_sets_spec m pd Hwf start fs fuel2 H1 H2 Hfit) as Hs. split.
  - intros [fw Hfw]. rewrite Hfw in Hs. destruct Hs as (Hst & Hg & _). split; [assumption|]. split; [assumption|exact Hg].
  - intros [Hst [_ Hg]]. destruct (get_follow_sets m pd fuel2 start fs) as [fw| | |]; [eauto|exfalso; apply Hs; split; assumption..|].
    exfalso. specialize (Hs (follow_universe pd) (follow_universe_ok pd Hwf start)).
    pose proof (Nat.mul_le_mono_l _ _ (size (pd_rules pd)) (follow_universe_size pd Hwf)). lia.
Qed.
Print Assumptions C22_succeeds_iff.

(** ** C23.  [U] is any finite set that contains every member of every FOLLOW set. *)
Theorem C23_terminates : forall (H : HashOrder) (I : Type) m (pd : ParserData I) fuel1 fuel2 start fs (U : gset SetMember),
  wf_grammar pd -> fits_memory pd -> get_first_sets pd fuel1 = Ok fs ->
  (forall A x, has_rule pd A -> FOLLOW pd start A x -> x ∈ U) ->
  size (pd_rules pd) * size U + 1 <= fuel2 ->
  get_follow_sets m pd fuel2 start fs <> Diverge.
Proof.
  intros H I m pd fuel1 fuel2 start fs U Hwf Hfit Hfs HU Hfuel Hd.
  destruct (get_first_sets_exact pd Hwf fuel1 fs Hfs) as (H1 & H2 & _).
  pose proof (get_follow_sets_spec m pd Hwf start fs fuel2 H1 H2 Hfit) as Hs. rewrite Hd in Hs.
  specialize (Hs U ltac:(intros A x HA Hf; apply (HU A); [assumption|apply FOLLOW_fol; assumption])). lia.
Qed.
Print Assumptions C23_terminates.
(** A bound in terms of the grammar only. *)
Theorem C23_terminates_elements : forall (H : HashOrder) (I : Type) m (pd : ParserData I) fuel1 fuel2 start fs,
  wf_grammar pd -> fits_memory pd -> get_first_sets pd fuel1 = Ok fs ->
  size (pd_rules pd) * (length (element_data pd) + 1) < fuel2 ->
  get_follow_sets m pd fuel2 start fs <> Diverge.
Proof.
  intros H I m pd fuel1 fuel2 start fs Hwf Hfit Hfs Hfuel.
  eapply (C23_terminates _ _ _ _ _ _ _ _ (follow_universe pd)); eauto.
  - intros A x HA Hf. eapply follow_universe_ok; [assumption|exact HA|]. apply FOLLOW_fol. exact Hf.
  - pose proof (Nat.mul_le_mono_l _ _ (size (pd_rules pd)) (follow_universe_size pd Hwf)). lia.
Qed.
Print Assumptions C23_terminates_elements.
(** The bound on the rounds changes no answer. *)
Theorem C23_rounds_irrelevant : forall (H : HashOrder) (I : Type) m (pd : ParserData I) f f' start fs,
  f <= f' -> get_follow_sets m pd f start fs <> Diverge ->
  get_follow_sets m pd f' start fs = get_follow_sets m pd f start fs.
Proof. intros H I m pd f f' start fs Hle Hn. apply get_follow_sets_mono; assumption. Qed.
Print Assumptions C23_rounds_irrelevant.

(** ** Example: the grammar of C20_example *)
Example C22_example :
  match @get_first_sets plain_order nat first_pd 5 with
  | Ok fs =>
      match @get_follow_sets plain_order nat Checked first_pd 19 0 fs with
      | Ok fw => bool_decide (fw !! 0 = Some {[MTerminate]}) &&
                 bool_decide (fw !! 1 = Some {[MChar 97; MChar 98; MTerminate]}) &&
                 bool_decide (fw !! 4 = Some {[MTerminate]})
      | _ => false
      end
  | _ => false
  end = true.
Proof. vm_compute. reflexivity. Qed.
Lemma first_pd_fits : fits_memory first_pd.
Proof.
  split; [vm_compute; discriminate|]. intros A r HA. apply elem_of_map_to_list in HA.
  assert (Forall (fun p => (N.of_nat (length (concat (map right_side (possible_productions p.2)))) < 2 ^ 64)%N)
    (map_to_list (pd_rules first_pd))) as Hall.
  { apply (bool_decide_unpack _). vm_compute. exact Logic.I. }
  rewrite Forall_forall in Hall. exact (Hall _ HA).
Qed.
Example C23_example : size (pd_rules first_pd) * (length (element_data first_pd) + 1) < 19 /\
  wf_grammar first_pd /\ fits_memory first_pd.
Proof. split; [vm_compute; lia|]. split; [apply first_pd_wf|apply first_pd_fits]. Qed.
