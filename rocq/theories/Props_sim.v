(** * Property theorems: VMs that correspond step by step (C78) *)
From Verif Require Import Base Peekables Tree Errors Sets ParserData Vm SimpleStackVm StackVm RuleParsing FirstSets FollowSets SteuerMap ScriptParser
  SpecText SpecData SpecGrammar SpecParser SpecTree SpecScript SpecContract SpecWeave SpecRules SpecNames SpecLanguage SpecSyntax SpecSim
  Grammar_proofs Construct_proofs Checks Tree_proofs Script_proofs Parse_proofs
  Weave_proofs Names_proofs RuleBuild_proofs RuleText_proofs Language_proofs Syntax_proofs Bare_proofs Sim_proofs
  Props_steuer Props_script Props_weave Props_rules Props_vm Props_names Props_language Props_same Props_syntax Props_count Props_modes Samples.

(** ** Every parser value *)
(** [vm'] follows [vm]: unless an instruction of [vm] fails, both parse calls return the
    same, also the same error, and the states correspond. *)
Theorem C78_refinement : forall (H : HashOrder) (vm vm' : VM) RI R ps ps' fuel text v v',
  vm_follows vm vm' RI R -> same_parsers vm vm' RI ps ps' -> R v v' ->
  finished (fst (parse vm ps fuel text v)) ->
  fst (parse vm' ps' fuel text v') = fst (parse vm ps fuel text v) /\
  R (snd (parse vm ps fuel text v)) (snd (parse vm' ps' fuel text v')).
Proof.
  intros H vm vm' RI R ps ps' fuel text v v' Hf Hs HR Hfin.
  apply (steps_parse vm vm' RI R ps ps' Hs Hf false false); [discriminate..|exact HR|]. destruct (fst _); exact Hfin || destruct Hfin.
Qed.
Print Assumptions C78_refinement.
(** If failures correspond too then also panics do. *)
Theorem C78_simulation : forall (H : HashOrder) (vm vm' : VM) RI R ps ps' fuel text v v',
  vm_follows vm vm' RI R -> vm_fails_too vm vm' RI R -> same_parsers vm vm' RI ps ps' -> R v v' ->
  fst (parse vm' ps' fuel text v') = fst (parse vm ps fuel text v) /\
  R (snd (parse vm ps fuel text v)) (snd (parse vm' ps' fuel text v')).
Proof.
  intros H vm vm' RI R ps ps' fuel text v v' Hf Hft Hs HR.
  apply (steps_parse vm vm' RI R ps ps' Hs Hf true true); [intros _ t id i i' s s' Hi Hss; apply (Hft t id i i' s s' Hi Hss)..|exact HR|]. destruct (fst _); exact Logic.I || reflexivity.
Qed.
Print Assumptions C78_simulation.

(** ** Parsers built with the API from parser data with the same elements and productions *)
Theorem C78_parser_data : forall (H : HashOrder) m m' (vm vm' : VM) RI R fl fl' pd pd' start ps ps' fuel text v v',
  vm_follows vm vm' RI R -> same_data vm vm' RI pd pd' -> built m vm fl pd start ps -> built m' vm' fl' pd' start ps' -> R v v' ->
  (finished (fst (parse vm ps fuel text v)) \/ vm_fails_too vm vm' RI R ->
   fst (parse vm' ps' fuel text v') = fst (parse vm ps fuel text v) /\
   R (snd (parse vm ps fuel text v)) (snd (parse vm' ps' fuel text v'))).
Proof.
  intros H m m' vm vm' RI R fl fl' pd pd' start ps ps' fuel text v v' Hf Hs Hb Hb' HR Hx.
  apply built_spec in Hb as (_ & _ & T). apply built_spec in Hb' as (_ & _ & T'). pose proof (data_parsers vm vm' RI pd pd' start ps ps' Hs T T') as Hp.
  destruct Hx as [Hfin|Hft]; [eapply C78_refinement; eassumption|eapply C78_simulation; eassumption].
Qed.
Print Assumptions C78_parser_data.

(** ** Parsers read from texts *)
(** ** Rules read from a text *)
Section texts.
Context (vm vm' : VM) (RI : vm_instr vm -> vm_instr vm' -> Prop).
Notation alike := (same_written vm vm' RI).
Lemma alike_mentioned rs rs' : Forall2 alike rs rs' -> map mentioned rs = map mentioned rs'.
Proof. induction 1 as [|r r' rs rs' (H1 & H2 & H3 & _) _ IH]; [reflexivity|]. cbn [map]. f_equal; [|exact IH]. unfold mentioned. rewrite H1, H2, H3. reflexivity. Qed.
Lemma alike_alts rs rs' : Forall2 alike rs rs' -> map ar_alts rs = map ar_alts rs'.
Proof. induction 1 as [|r r' rs rs' (H1 & H2 & H3 & _) _ IH]; [reflexivity|]. cbn [map]. f_equal; assumption. Qed.
Lemma alike_for x rs rs' : Forall2 alike rs rs' -> Forall2 alike (rules_for x rs) (rules_for x rs').
Proof.
  unfold rules_for. induction 1 as [|r r' rs rs' Hr _ IH]; [constructor|]. pose proof Hr as (E & _).
  destruct (decide (ar_name r = x)) as [Ex|Ex].
  - rewrite !filter_cons_True by congruence. constructor; assumption.
  - rewrite !filter_cons_False by congruence. exact IH.
Qed.
Lemma stands_same {I J} (pd : ParserData I) (pd' : ParserData J) a p : (forall e, get_element_verbose pd e = get_element_verbose pd' e) -> stands_for pd a p -> stands_for pd' a p.
Proof. intros Hv (ixs & Ha & Hf). exists ixs. split; [assumption|]. eapply Forall2_impl; [exact Hf|]. intros e ix He. cbn. rewrite <- Hv. exact He. Qed.
Context (pd pe : ParserData (vm_instr vm)) (pd' pe' : ParserData (vm_instr vm')).
Definition same_fully (r : NonTerminalRules (vm_instr vm)) (r' : NonTerminalRules (vm_instr vm')) : Prop :=
  possible_productions r = possible_productions r' /\ ntr_ignore r = ntr_ignore r' /\ Forall2 RI (instruction r) (instruction r').
Context (rs : list (arule (vm_instr vm))) (rs' : list (arule (vm_instr vm'))) (Hrs : Forall2 alike rs rs').
Context (D : described pd rs) (D' : described pd' rs').
Lemma texts_verbose e : get_element_verbose pd e = get_element_verbose pd' e.
Proof. rewrite (described_verbose pd rs e D), (described_verbose pd' rs' e D'), (alike_mentioned rs rs' Hrs). reflexivity. Qed.
Lemma texts_rule A r : pd_rules pd !! A = Some r -> exists r', pd_rules pd' !! A = Some r' /\ same_fully r r'.
Proof.
  intros HA. destruct (described_rule pd rs D A r HA) as (r0 & more & Hx & Hrf & Hf & Hi & Hin).
  pose proof (alike_for (ar_name r0) rs rs' Hrs) as Hal. rewrite Hrf in Hal. destruct (rules_for (ar_name r0) rs') as [|r0' more'] eqn:Hrf'; [inversion Hal|].
  apply Forall2_cons in Hal as [Hal Hals]. destruct (de_rule pd' rs' D' _ r0' more' Hrf') as (r' & Hr' & Hf' & Hi' & Hin').
  unfold get_rule_by_element_verbose in Hr'. rewrite texts_verbose in Hx. rewrite (proj2 (de_numbers pd' rs' D' _ A) Hx) in Hr'. exists r'. split; [exact Hr'|].
  destruct Hal as (_ & Ho & Ha & Hins). split; [|split; [|rewrite Hin, Hin'; exact Hins]].
  - assert (concat (map ar_alts (r0 :: more)) = concat (map ar_alts (r0' :: more'))) as E by (cbn [map]; rewrite Ha, (alike_alts _ _ Hals); reflexivity).
    rewrite E in Hf. clear -Hf Hf' Hrs D D'. revert Hf Hf'. generalize (concat (map ar_alts (r0' :: more'))), (possible_productions r), (possible_productions r').
    induction l as [|a l IH]; intros q q' Hf Hf'; inversion Hf as [|? p ? ps Hp Hps]; inversion Hf' as [|? p' ? ps' Hp' Hps']; subst; [reflexivity|].
    f_equal; [|eauto]. apply (stands_for_det pd' rs' D' a); [|exact Hp']. eapply stands_same; [exact texts_verbose|exact Hp].
  - rewrite Ho in Hi. destruct (ar_override r0'); cbn in *; try congruence. destruct Hi as (ix & -> & Hix), Hi' as (ix' & -> & Hix').
    rewrite texts_verbose in Hix. apply (de_numbers pd' rs' D') in Hix, Hix'. congruence.
Qed.
End texts.
Section edited.
Context (vm vm' : VM) (RI : vm_instr vm -> vm_instr vm' -> Prop).
Lemma alike_sym rs rs' : Forall2 (same_written vm vm' RI) rs rs' -> Forall2 (same_written vm' vm (fun i i' => RI i' i)) rs' rs.
Proof.
  intros Hf. apply Forall2_flip. eapply Forall2_impl; [exact Hf|]. intros r r' (H1 & H2 & H3 & H4). split; [auto|]. split; [auto|]. split; [auto|]. apply Forall2_flip. exact H4.
Qed.
Context (pd pe : ParserData (vm_instr vm)) (pd' pe' : ParserData (vm_instr vm')).
Context (rs : list (arule (vm_instr vm))) (rs' : list (arule (vm_instr vm'))) (Hrs : Forall2 (same_written vm vm' RI) rs rs').
Context (D : described pd rs) (D' : described pd' rs').
Lemma texts_derive a b : can_derive pd a b <-> can_derive pd' a b.
Proof.
  split; apply sd_can_derive.
  - intros A r Hr. destruct (texts_rule vm vm' RI pd pd' rs rs' Hrs D D' A r Hr) as (r' & Hr' & E & _). eauto.
  - intros A r Hr. destruct (texts_rule vm' vm (fun i i' => RI i' i) pd' pd rs' rs (alike_sym _ _ Hrs) D' D A r Hr) as (r' & Hr' & E & _). eauto.
Qed.
Lemma texts_edited A r r' q q' : same_fully vm vm' RI r r' -> edited pd A r q -> edited pd' A r' q' -> same_fully vm vm' RI q q'.
Proof.
  intros (E1 & E2 & E3) Hq Hq'. destruct Hq as [H|ig H Hc|ig H Hc], Hq' as [H'|ig' H' Hc'|ig' H' Hc']; rewrite E2, H' in H; try discriminate;
    try (injection H as <-; apply texts_derive in Hc; contradiction); try (injection H as <-; apply texts_derive in Hc'; contradiction).
  - split; [assumption|]. split; [congruence|assumption].
  - split; [assumption|]. split; [reflexivity|assumption].
  - injection H as ->. split; [cbn; rewrite E1; reflexivity|]. split; [reflexivity|assumption].
Qed.
Lemma texts_same : edited_data pd pe -> edited_data pd' pe' -> same_data vm vm' RI pe pe'.
Proof.
  intros Ed Ed'. split.
  - intros e. rewrite (ed_verbose _ _ Ed), (ed_verbose _ _ Ed'). eapply texts_verbose; eassumption.
  - intros A. destruct (pd_rules pe !! A) as [q|] eqn:Eq.
    + apply (edd_rules _ _ Ed) in Eq as (r & Hr & Hq). destruct (texts_rule vm vm' RI pd pd' rs rs' Hrs D D' A r Hr) as (r' & Hr' & Hs).
      destruct (proj2 (edd_domain _ _ Ed' A)) as [q' Eq']; [eexists; exact Hr'|]. rewrite Eq'. apply (edd_rules _ _ Ed') in Eq' as (r2 & Hr2 & Hq').
      assert (r2 = r') as -> by congruence. destruct (texts_edited A r r' q q' Hs Hq Hq') as (X1 & _ & X3). split; assumption.
    + destruct (pd_rules pe' !! A) as [q'|] eqn:Eq'; [|exact Logic.I].
      apply (edd_rules _ _ Ed') in Eq' as (r' & Hr' & _).
      destruct (texts_rule vm' vm (fun i i' => RI i' i) pd' pd rs' rs (alike_sym _ _ Hrs) D' D A r' Hr') as (r & Hr & _).
      destruct (proj2 (edd_domain _ _ Ed A)) as [q Eq2]; [eexists; exact Hr|]. congruence.
Qed.
End edited.

(** Two rule texts that describe the same rules but for the instructions, each read by its
    VM, with corresponding instructions.  The hash orders may be different: then the order
    in a listing of expected characters may be. *)
Theorem C78_texts : forall (U : Unicode) (H H' : HashOrder) m m' (vm vm' : VM) RI R rs rs' t t' ps ps',
  vm_follows vm vm' RI R -> @read_from U H m vm rs t ps -> @read_from U H' m' vm' rs' t' ps' -> Forall2 (same_written vm vm' RI) rs rs' ->
  forall fuel text v v', R v v' -> finished (fst (@parse H vm ps fuel text v)) ->
  same_outcome (fst (@parse H vm ps fuel text v)) (fst (@parse H' vm' ps' fuel text v')) /\
  R (snd (@parse H vm ps fuel text v)) (snd (@parse H' vm' ps' fuel text v')).
Proof.
  intros U H H' m m' vm vm' RI R rs rs' t t' ps ps' Hf Hr Hr' Hrs fuel text v v' HR Hfin.
  destruct (@read_from_built U H m vm rs t ps Hr) as (pd & pe & start & f1 & D1 & E1 & S1 & B1 & _).
  destruct (@read_from_built U H' m' vm' rs' t' ps' Hr') as (pd' & pe' & start' & f2 & D2 & E2 & S2 & B2 & _).
  pose proof (texts_same vm vm' RI pd pe pd' pe' rs rs' Hrs D1 D2 E1 E2) as Hs.
  assert (start' = start) as -> by (apply S1; rewrite (proj1 Hs); apply S2; reflexivity).
  pose proof B2 as (Hwf & Hfit & _). pose proof (@built_spec H' _ _ _ _ _ _ B2) as (_ & Hc & _).
  destruct (proj2 (proj1 (C26_construction H m' vm' (large pe') pe' start Hwf Hfit (large_enough pe'))) Hc) as [qs Hq].
  assert (@built H m' vm' (large pe') pe' start qs) as B3 by (split; [exact Hwf|split; [exact Hfit|exact Hq]]).
  destruct (C78_parser_data H m m' vm vm' RI R f1 (large pe') pe pe' start ps qs fuel text v v' Hf Hs B1 B3 HR (or_introl Hfin)) as [X1 X2].
  assert (names_unique pe') as Hu by (eapply ed_unique; eassumption).
  assert (same_result (@parse H vm' qs fuel text v') (@parse H' vm' ps' fuel text v')) as Hm.
  { apply (C56_same_results H H' m' m' vm' (large pe') f2 pe' pe' start start); try assumption. split; intros x alts is Hx; exists alts; split; auto. }
  rewrite <- X1 in Hfin |- *.
  destruct (@parse H vm' qs fuel text v') as [r1 s1], (@parse H' vm' ps' fuel text v') as [r2 s2]. cbn [fst snd] in *.
  destruct Hm as [Es Hm]. subst s2. split; [|exact X2]. destruct r1, r2; cbn in *; try contradiction; try discriminate; [congruence|exact Hm].
Qed.
Print Assumptions C78_texts.

(** ** Two VMs in one pass *)
Definition map_parser {I J} (f : I -> J) (ps : Parser I) : Parser J :=
  mkParser ((fun nt => mkNTRules (steuermap nt) (nt_ignore nt) (map f (nt_instruction nt))) <$> rules_with_steuermaps ps) (p_elements ps).
Lemma map_parsers (vm vm' : VM) (f : vm_instr vm -> vm_instr vm') ps : same_parsers vm vm' (fun i i' => f i = i') ps (map_parser f ps).
Proof.
  split; [reflexivity|]. intros A. cbn. rewrite lookup_fmap. destruct (rules_with_steuermaps ps !! A) as [nt|]; [|exact Logic.I]. cbn. split; [reflexivity|].
  induction (nt_instruction nt); constructor; auto.
Qed.
(** A pass with both VMs is a pass with the first and a pass with the second, on their own
    instructions and states, provided neither of them edits the tree. *)
Theorem C78_two_at_once : forall (H : HashOrder) (vm1 vm2 : VM) parse12 (ps : Parser (vm_instr (both vm1 vm2 parse12))) fuel text v r v1,
  keeps_tree vm1 -> keeps_tree vm2 -> parse (both vm1 vm2 parse12) ps fuel text v = (r, v1) -> finished r ->
  parse vm1 (map_parser fst ps) fuel text (fst v) = (r, fst v1) /\ parse vm2 (map_parser snd ps) fuel text (snd v) = (r, snd v1).
Proof.
  intros H vm1 vm2 parse12 ps fuel text v r v1 Hk1 Hk2 Hp Hfin. set (b := both vm1 vm2 parse12) in *.
  assert (vm_follows b vm1 (fun i i' => fst i = i') (fun s s' => fst s = s')) as F1.
  { intros t id i i' s s' t1 s1 <- <-. cbn. destruct (vm_execute vm1 t id (fst i) (fst s)) as [[ta sa]|[]| |] eqn:Ea; try discriminate. cbn [obind].
    destruct (vm_execute vm2 ta id (snd i) (snd s)) as [[tb sb]|[]| |] eqn:Eb; try discriminate. cbn. intros E. injection E as <- <-. apply Hk2 in Eb as ->. eauto. }
  assert (vm_follows b vm2 (fun i i' => snd i = i') (fun s s' => snd s = s')) as F2.
  { intros t id i i' s s' t1 s1 <- <-. cbn. destruct (vm_execute vm1 t id (fst i) (fst s)) as [[ta sa]|[]| |] eqn:Ea; try discriminate. cbn [obind].
    destruct (vm_execute vm2 ta id (snd i) (snd s)) as [[tb sb]|[]| |] eqn:Eb; try discriminate. cbn. intros E. injection E as <- <-. apply Hk1 in Ea as ->. eauto. }
  pose proof (C78_refinement H b vm1 _ _ ps (map_parser fst ps) fuel text v (fst v) F1 (map_parsers b vm1 fst ps) eq_refl) as X1.
  pose proof (C78_refinement H b vm2 _ _ ps (map_parser snd ps) fuel text v (snd v) F2 (map_parsers b vm2 snd ps) eq_refl) as X2.
  rewrite Hp in X1, X2. destruct (X1 Hfin) as [Y1 Z1]. destruct (X2 Hfin) as [Y2 Z2]. cbn [fst snd] in *.
  destruct (parse vm1 _ fuel text (fst v)), (parse vm2 _ fuel text (snd v)). cbn [fst snd] in *. subst. split; reflexivity.
Qed.
Print Assumptions C78_two_at_once.

(** ** Instances.  A counter that started [k] later: CountingVm in a release build. *)
Definition later (k : N) (s s' : N) : Prop := (s < 2 ^ 64)%N /\ s' = ((s + k) mod 2 ^ 64)%N.
Lemma counting_follows k : vm_follows (CountingVm Wrapping) (CountingVm Wrapping) eq (later k) /\ vm_fails_too (CountingVm Wrapping) (CountingVm Wrapping) eq (later k).
Proof.
  assert (forall s, (s < 2 ^ 64)%N -> usize_result (E := Empty_set) Wrapping (Z.of_N s + 1) = Ok ((s + 1) mod 2 ^ 64)%N) as Hu.
  { intros s Hs. unfold usize_result. replace (0 <=? Z.of_N s + 1)%Z with true by (symmetry; apply Z.leb_le; lia). cbn [andb].
    destruct (Z.ltb_spec (Z.of_N s + 1) (2 ^ 64)); f_equal; [rewrite N.mod_small by lia; lia|]. rewrite Z2N.inj_mod by lia. f_equal. lia. }
  assert (forall s, (s mod 2 ^ 64 < 2 ^ 64)%N) as Hm by (intros s; apply N.mod_lt; discriminate).
  split; intros t id i i' s s'; [intros t1 s1|]; intros <- [Hs ->]; cbn; unfold counting_execute; rewrite ?Hu by auto; cbn.
  - intros E. injection E as <- <-. eexists. split; [reflexivity|]. split; [apply Hm|]. rewrite !N.add_mod_idemp_l by discriminate. f_equal. lia.
  - split; discriminate.
Qed.
Section example.
Local Existing Instance ascii_unicode.
Local Existing Instance plain_order.
Example C78_example : exists ps : Parser N, read_from Checked (CountingVm Wrapping) ct_rules ct_text ps /\
  Forall2 (same_written (CountingVm Wrapping) (CountingVm Wrapping) eq) ct_rules ct_rules /\
  vm_follows (CountingVm Wrapping) (CountingVm Wrapping) eq (later 5) /\ later 5 0 5 /\
  exists tr, parse (CountingVm Wrapping) ps 20 (lit "aab") 0%N = (Ok tr, 2%N).
Proof.
  assert (exists ps : Parser N, new_from_text Checked (CountingVm Wrapping) (mkFuels 60 2200) ct_text = Ok ps /\
    exists tr, parse (CountingVm Wrapping) ps 20 (lit "aab") 0%N = (Ok tr, 2%N)) as (ps & Hps & Hrun).
  { apply (counts_check (fun ps => parse (CountingVm Wrapping) ps 20 (lit "aab") 0%N)). vm_compute. reflexivity. }
  exists ps. split; [|split; [|split; [|split; [|exact Hrun]]]].
  - exists counting_reads, (mkFuels 60 2200). split; [constructor|]. split; [apply ascii_tables|]. split; [apply ct_text_ok|]. split; [vm_compute; reflexivity|].
    split; [split; cbn [first_fuel follow_fuel]; apply Nat.leb_le || apply Nat.ltb_lt; vm_compute; reflexivity|exact Hps].
  - repeat (apply Forall2_cons; split; [repeat split; repeat constructor|]). constructor.
  - apply counting_follows.
  - split; [reflexivity|reflexivity].
Qed.
End example.
