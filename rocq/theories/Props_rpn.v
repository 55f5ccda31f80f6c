(** * C48, C50: the calculator examples evaluate reverse Polish programs *)
From Verif Require Import Base Peekables Tree Errors Sets ParserData Vm SimpleStackVm StackVm RuleParsing FirstSets FollowSets SteuerMap ScriptParser
  SpecText SpecData SpecGrammar SpecParser SpecTree SpecScript SpecContract SpecWeave SpecRules SpecNames SpecMath SpecVm SpecRpn
  Grammar_proofs Script_proofs Parse_proofs Construct_proofs Checks Names_proofs RuleBuild_proofs RuleText_proofs Math_proofs Vm_proofs Rpn_proofs
  Props_data Props_steuer Props_script Props_weave Props_rules Props_names Props_math Props_vm Samples.

(** 14 rules *)
Lemma math_size {I} (pd : ParserData I) ins : math_grammar pd ins -> names_unique pd -> proper pd -> wf_grammar pd -> size (pd_rules pd) <= 14.
Proof.
  intros Hm Hu Hpr Hwf. set (name_of := fun A : nat => match get_element_verbose pd A with Some (x, _) => x | None => [] end).
  assert (forall A r, pd_rules pd !! A = Some r -> get_element_verbose pd A = Some (name_of A, NonTerminal) /\ name_of A ∈ map fst math_rules) as Hk.
  { intros A r Hr. destruct (wf_rules pd Hwf A) as [x Hx]; [exists r; exact Hr|]. unfold name_of. rewrite Hx. split; [reflexivity|].
    destruct (alts_exist pd r A Hpr Hr) as [alts Halts]. assert (rule_named pd x alts (instruction r)) as Hrn by (exists A, r; auto).
    apply Hm in Hrn as [Hin _]. apply elem_of_list_fmap. exists (x, alts). auto. }
  set (keys := map fst (map_to_list (pd_rules pd))). assert (length keys = size (pd_rules pd)) as <- by (unfold keys; rewrite map_length; reflexivity).
  assert (NoDup (map name_of keys)) as Hnd.
  { assert (NoDup keys) as Hn by apply NoDup_fst_map_to_list.
    assert (forall A, A ∈ keys -> exists r, pd_rules pd !! A = Some r) as Hin.
    { intros A HA. apply elem_of_list_fmap in HA as ([A' r] & -> & HA). apply elem_of_map_to_list in HA. eauto. }
    clearbody keys. induction keys as [|A keys IH]; [constructor|]. apply NoDup_cons in Hn as [Hn1 Hn2]. simpl. apply NoDup_cons. split.
    - intros HA. apply elem_of_list_fmap in HA as (B & HB & HBk). destruct (Hin A ltac:(left)) as [r Hr]. destruct (Hin B ltac:(right; assumption)) as [r' Hr'].
      destruct (Hk _ _ Hr) as [HA _]. destruct (Hk _ _ Hr') as [HB' _]. rewrite HB in HA. rewrite (Hu _ _ _ HA HB') in Hn1. contradiction.
    - apply IH; [assumption|]. intros B HB. apply Hin. right. assumption. }
  rewrite <- (map_length name_of). change 14 with (length (map fst math_rules)). apply submseteq_length, NoDup_submseteq; [assumption|].
  intros x Hx. apply elem_of_list_fmap in Hx as (A & -> & HA). unfold keys in HA. apply elem_of_list_fmap in HA as ([A' r] & -> & HA). apply elem_of_map_to_list in HA.
  exact (proj2 (Hk _ _ HA)).
Qed.

(** What a parse with a calculator does with a script, see C48_simple_calculator. *)
Definition calculates {vm : VM} (m : ovf_mode) (lo : Z) (view : vm_state vm -> mach)
    (run : nat -> str -> vm_state vm -> outcome ParserError (Tree str) * vm_state vm) : Prop :=
  forall fuel text s, (length text + 1) * 14 <= fuel -> (Z.of_nat (length text) < 2 ^ 63)%Z ->
  (* a program is run *)
  (forall l, program l text -> match run fuel text s with
   | (Ok _, s') => does_all m lo l (view s) (Some (view s'))
   | (Panic, _) => does_all m lo l (view s) None
   | _ => False
   end) /\
  (* anything else is not accepted *)
  (forall t s', run fuel text s = (Ok t, s') -> exists l, program l text).
Lemma calculator {H : HashOrder} m' (vm : VM) fl pd start ps m lo view opof ins :
  built m' vm fl pd start ps -> start_element pd start -> names_unique pd -> proper pd -> math_grammar pd ins ->
  (forall x, map opof (ins x) = math_ops x) -> keeps_tree vm -> always_returns vm -> (lo = 0 \/ lo = - 2 ^ 63)%Z ->
  (forall h n i s, SpecTree.grown h -> n < length h -> follows lo view m h n (opof i) s (vm_execute vm (snd (do_adds h tree_new)) (id_of n) i s)) ->
  calculates (vm := vm) m lo view (parse vm ps).
Proof.
  intros Hb Hst Hu Hpr Hm Hops Hkt Har Hlo Hfol fuel text s Hfuel Hlen.
  pose proof (built_spec m' vm fl pd start ps Hb) as (Hwf & Hcon & Htab).
  pose proof (math_size pd ins Hm Hu Hpr Hwf) as Hsz. pose proof (proj2 (Hst start) eq_refl) as Hstart. split.
  - intros l Hprog. destruct (grows_program pd ins opof Hm Hu Hops m lo Hlo l text Hprog Hlen) as (pt & Hr & Hd & Hy & Hrun).
    assert (root pt = start) as Hroot by (apply Hst; exact Hr).
    assert (enough_depth pd (yield pd pt ++ []) fuel) as Hen by (unfold enough_depth; rewrite app_nil_r, Hy; nia).
    pose proof (C31_sentences_are_parsed H m' vm fl pd start ps fuel pt [] s Hb Hst Hkt Har Hd Hroot (or_introl eq_refl) Hen) as Hp.
    rewrite app_nil_r, Hy in Hp.
    destruct (does_all_exists m lo l (proj1 (proj2 Hprog)) (view s)) as [r Hr1]. pose proof (Hrun _ _ Hr1) as Hr2.
    pose proof (whole_tree_actions vm pd m lo view opof Hfol pt s) as Hag.
    destruct (run_actions pd (tree_history pd 0 None pt) (post_order 0 pt) s) as [v'| | |]; simpl in Hag; try contradiction.
    + destruct Hp as (t & -> & _). pose proof (proj1 (tree_run_det m lo _ _) _ _ _ Hag _ Hr2) as E. rewrite E. exact Hr1.
    + destruct (parse vm ps fuel text s) as [o s']; simpl in Hp; subst o.
      pose proof (proj1 (tree_run_det m lo _ _) _ _ _ Hag _ Hr2) as E. rewrite E. exact Hr1.
  - intros t s' Hp.
    pose proof (parse_run_spec vm pd start ps Hwf Hcon Htab Hkt start fuel text s Hst (con_start _ _ Hcon)) as Hs.
    unfold parse in Hp. destruct (parse_run vm ps fuel text s) as [o s1]. injection Hp as -> <-.
    destruct Hs as (pt & rest & v' & Hpred & -> & -> & _).
    pose proof (proj1 (whole_text pd ins Hm Hpr Hwf start Hstart) _ _ _ _ Hpred) as Hrest.
    apply pred_sound in Hpred as (D1 & D2 & D3). rewrite Hrest in D3 by (exists (nt (lit "start")); split; [exact Hstart|left]).
    rewrite app_nil_r in D3. subst text. apply (start_yield pd ins Hm Hpr Hwf); [rewrite D2; exact Hstart|assumption].
Qed.

(** The rules of examples/simple_stack_based_math.txt as API calls (only to see that a
    parser can be built). *)
Definition to_simple (i : KInstr) : SInstr :=
  match i with
  | KAdd => SAdd | KRegAddConst c => SRegAddConst (Z.to_N c) | KSub => SSub | KDigit => SDigit
  | KPopToReg => SPopToReg | KPopToReg2 => SPopToReg2 | KPopDiscard => SPopDiscard | KPushConst c => SPushConst (Z.to_N c)
  | KPushFromTree => SPushFromTree | KPushReg => SPushReg | KPushReg2 => SPushReg2 | KPrintReg => SPrintReg
  | KPrintReg2 => SPrintReg2 | KPrintError => SPrintError | KPow b => SPow b
  end.
Definition simple_calls : list (pd_call SInstr) :=
  map (fun c => match c with
    | GetOrAdd s t => GetOrAdd s t | AddProduction a b => AddProduction a b
    | SetProductions a b => SetProductions a b | AddInstructions a b => AddInstructions a (map to_simple b) end) rust_defined_calls.
Notation simple_data := (pd_history simple_calls).
Lemma simple_math : math_grammar simple_data simple_instrs.
Proof. apply (math_check_ok (I := SInstr) (EqDecision0 := SInstr_eq) simple_data simple_instrs). vm_compute. reflexivity. Qed.
Lemma simple_wf : wf_grammar simple_data.
Proof. apply wf_check_ok. vm_compute. reflexivity. Qed.
Lemma simple_fits : fits_memory simple_data.
Proof. apply fits_check_ok. vm_compute. reflexivity. Qed.
Lemma simple_unique : names_unique simple_data.
Proof. apply history_unique. Qed.
Lemma simple_start : start_element simple_data 0.
Proof.
  intros e. split; [|intros ->; vm_compute; reflexivity]. intros He. eapply simple_unique; [exact He|]. vm_compute. reflexivity.
Qed.
Lemma simple_constructible : constructible simple_data 0.
Proof.
  assert (enough (mkFuels 16 407) simple_data) as Hen by (split; vm_compute; lia).
  apply (C26_construction plain_order Checked (SimpleStackVm Checked) (mkFuels 16 407) simple_data 0 simple_wf simple_fits Hen).
  assert (forall r : outcome Empty_set (Parser SInstr), is_ok r = true -> exists ps, r = Ok ps) as Hok by (intros [ps| | |]; [eauto|discriminate..]).
  apply Hok. vm_compute. reflexivity.
Qed.

(** ** C48.  The parser of examples/simple_stack_based_math.rs can be built, and with any
    state of its VM: a program (numbers, '+', '-', 'print' with single spaces) is run, an
    overflow in a debug build is a panic, everything else is not accepted. *)
Theorem C48_simple_calculator : forall (U : Unicode) (H : HashOrder) m m' fl, enough_for_text fl simple_math_rules ->
  exists ps, new_from_text m' (SimpleStackVm m) fl simple_math_rules = Ok ps /\
    calculates (vm := SimpleStackVm m) m 0 simple_view (parse (SimpleStackVm m) ps).
Proof.
  intros U H m m' fl Hfl. destruct (@simple_text_math U H m) as (s & rs & E & Ht & Hdes & Hm).
  assert (N.of_nat (length simple_math_rules) < 2 ^ 63)%N as Hlen by (vm_compute; reflexivity).
  destruct (@math_text_buildable U H m' (SimpleStackVm m) simple_reads fl simple_math_rules s rs simple_instrs simple_data 0 (sh_simple m) Hlen Hfl E Hdes Hm
    simple_wf simple_unique simple_math simple_start simple_constructible) as (ps & st & Hps & Hst & Hb).
  exists ps. split; [assumption|].
  eapply (calculator m' (SimpleStackVm m) fl (rp_pd s) st ps m 0 simple_view simple_op simple_instrs Hb Hst);
    eauto using described_unique, described_proper, simple_math_ops, simple_keeps_tree, simple_returns, C51_simple_machine.
Qed.
Print Assumptions C48_simple_calculator.
(** ** C50.  The same for examples/stack_based_math.rs and signed words. *)
Theorem C50_stack_calculator : forall (U : Unicode) (H : HashOrder) m m' fl, enough_for_text fl stack_math_rules ->
  exists ps, new_from_text m' (StackVm m) fl stack_math_rules = Ok ps /\
    calculates (vm := StackVm m) m (- 2 ^ 63) stack_view (parse (StackVm m) ps).
Proof.
  intros U H m m' fl Hfl. destruct (@stack_text_math U H m) as (s & rs & E & Ht & Hdes & Hm).
  assert (N.of_nat (length stack_math_rules) < 2 ^ 63)%N as Hlen by (vm_compute; reflexivity).
  destruct (@math_text_buildable U H m' (StackVm m) stack_reads fl stack_math_rules s rs stack_instrs api_data 0 (sh_stack m) Hlen Hfl E Hdes Hm
    api_wf api_unique api_math api_start api_constructible) as (ps & st & Hps & Hst & Hb).
  exists ps. split; [assumption|].
  eapply (calculator m' (StackVm m) fl (rp_pd s) st ps m (- 2 ^ 63) stack_view stack_op stack_instrs Hb Hst);
    eauto using described_unique, described_proper, stack_math_ops, stack_keeps_tree, stack_returns, C51_stack_machine.
Qed.
Print Assumptions C50_stack_calculator.

(** Reverse Polish evaluation: what is printed and left on the stack. *)
Definition evaluates {vm : VM} (m : ovf_mode) (lo : Z) (view : vm_state vm -> mach)
    (run : nat -> str -> vm_state vm -> outcome ParserError (Tree str) * vm_state vm) : Prop :=
  forall fuel l text s st out, (length text + 1) * 14 <= fuel -> (Z.of_nat (length text) < 2 ^ 63)%Z ->
  program l text -> rpn m lo l (stack (view s)) st out ->
  exists t s', run fuel text s = (Ok t, s') /\ stack (view s') = st /\
    printed (view s') = printed (view s) ++ out /\ err (view s') = err (view s).
Lemma evaluates_from {vm : VM} m lo view run : (lo = 0 \/ lo = - 2 ^ 63)%Z -> calculates (vm := vm) m lo view run -> evaluates (vm := vm) m lo view run.
Proof.
  intros Hlo Hc fuel l text s st out Hf Hlen Hp Hr. destruct (Hc fuel text s Hf Hlen) as [Hrun _]. specialize (Hrun l Hp).
  destruct (rpn_does m lo Hlo l _ st out Hr (proj1 (proj2 Hp)) (view s) eq_refl) as (s' & D & E1 & E2 & E3).
  destruct (run fuel text s) as [[t| | |] s1]; try contradiction; pose proof (does_all_det m lo _ _ _ _ Hrun D) as E; [|discriminate].
  injection E as E. exists t, s1. rewrite E. auto.
Qed.
Theorem C48_evaluates : forall (U : Unicode) (H : HashOrder) m m' fl, enough_for_text fl simple_math_rules ->
  exists ps, new_from_text m' (SimpleStackVm m) fl simple_math_rules = Ok ps /\
    evaluates (vm := SimpleStackVm m) m 0 simple_view (parse (SimpleStackVm m) ps).
Proof.
  intros U H m m' fl Hfl. destruct (C48_simple_calculator U H m m' fl Hfl) as (ps & Hps & Hc). exists ps. split; [assumption|].
  apply evaluates_from; auto.
Qed.
Print Assumptions C48_evaluates.
Theorem C50_evaluates : forall (U : Unicode) (H : HashOrder) m m' fl, enough_for_text fl stack_math_rules ->
  exists ps, new_from_text m' (StackVm m) fl stack_math_rules = Ok ps /\
    evaluates (vm := StackVm m) m (- 2 ^ 63) stack_view (parse (StackVm m) ps).
Proof.
  intros U H m m' fl Hfl. destruct (C50_stack_calculator U H m m' fl Hfl) as (ps & Hps & Hc). exists ps. split; [assumption|].
  apply evaluates_from; auto.
Qed.
Print Assumptions C50_evaluates.

(** The error register: after an accepted program it is 1 exactly when some operation did
    not find its operands; otherwise it is as before. *)
Theorem C48_error_register : forall m lo l s s', does_all m lo l s (Some s') ->
  err s' = if operands l (length (stack s)) then err s else 1%Z.
Proof. intros m lo l s s'. apply does_all_err. Qed.
Print Assumptions C48_error_register.
(** Conversely, what is computed when the operands are there is reverse Polish evaluation,
    for literals of at most 2^32 digits, and at most 19 for signed words in a debug build. *)
Theorem C48_only_evaluation : forall m lo l s s', (lo = 0 \/ lo = - 2 ^ 63)%Z -> Forall good_item l ->
  Forall (fun i => match i with Num ds => (Z.of_nat (length ds) <= 2 ^ 32 /\ (m = Checked -> lo < 0 -> Z.of_nat (length ds) <= 19))%Z | _ => True end) l ->
  does_all m lo l s (Some s') -> operands l (length (stack s)) = true ->
  exists out, rpn m lo l (stack s) (stack s') out /\ printed s' = printed s ++ out.
Proof. intros m lo l s s' Hlo Hg He Hd Ho. exact (does_rpn m lo Hlo l Hg He s s' Hd Ho). Qed.
Print Assumptions C48_only_evaluation.
(** Without that bound it is not: in a debug build StackVm silently takes the 20-digit
    literal 10000000000000000000 for 10^19 - 2^64. *)
Theorem C50_long_literals_refuted : forall s,
  does_all Checked (- 2 ^ 63) [Num (lit "10000000000000000000")] s
    (Some (mkMach ((10 ^ 19 - 2 ^ 64)%Z :: stack s) 20 0 (err s) (printed s))) /\
  ~ exists st out, rpn Checked (- 2 ^ 63) [Num (lit "10000000000000000000")] (stack s) st out.
Proof.
  intros s. split.
  - eapply da_cons; [|apply da_nil].
    assert (forall n, (1 <= n <= 19)%nat -> literal Checked (- 2 ^ 63) (replicate n 48%N) (Some 0%Z)) as Hz.
    { induction n as [|n IH]; intros Hn; [lia|]. destruct n as [|n]; [apply (lit_one _ _ 48%N)|].
      change (replicate (S (S n)) 48%N) with (48%N :: replicate (S n) 48%N). eapply lit_more; [discriminate|apply IH; lia|].
      rewrite replicate_length. set (L := Z.of_nat (S n)). assert (1 <= L <= 18)%Z as HL by lia.
      assert (10 ^ L <= 10 ^ 18)%Z as HL2 by (apply Z.pow_le_mono_r; lia). assert (0 < 10 ^ L)%Z as HL3 by (apply Z.pow_pos_nonneg; lia).
      change (digit 48%N) with 0%Z.
      apply (p_sum _ _ _ _ _ _ (10 ^ L)%Z (10 ^ L)%Z 0%Z); [rewrite (Z.mod_small L) by lia; apply w_fits; unfold in_word; lia|apply same_bits_refl|unfold in_word; lia|rewrite Z.mul_0_l; apply w_fits; unfold in_word; lia|].
      apply w_fits. unfold in_word. lia. }
    change (lit "10000000000000000000") with (49%N :: replicate 19 48%N).
    eapply (do_number _ _ 49%N (replicate 19 48%N) 0); [apply Hz; lia|]. eapply lit_more; [discriminate|apply Hz; lia|].
    change (Z.of_nat (length (replicate 19 48%N))) with 19%Z. change (digit 49%N) with 1%Z.
    apply (p_sum _ _ _ _ _ _ (10 ^ 19)%Z (10 ^ 19 - 2 ^ 64)%Z (10 ^ 19 - 2 ^ 64)%Z);
      [apply w_fits; unfold in_word; simpl; lia|exists (-1)%Z; reflexivity|unfold in_word; lia|apply w_fits; unfold in_word; lia|].
    rewrite Z.add_0_r. apply w_fits. unfold in_word. lia.
  - intros (st & out & Hr). inversion Hr as [|? ? ? ? ? ? _ Hw _| | |]; subst. apply word_some in Hw as [_ Hw]. vm_compute in Hw. destruct Hw as [_ Hw]. discriminate.
Qed.
Print Assumptions C50_long_literals_refuted.

(** The hypotheses are met: "3 4 - print 2" with an empty stack. *)
Example C50_example_program : program [Num (lit "3"); Num (lit "14"); Minus; Print; Num (lit "2")] (lit "3 14 - print 2") /\
  (forall m, rpn m (- 2 ^ 63) [Num (lit "3"); Num (lit "14"); Minus; Print; Num (lit "2")] [] [2%Z] [(-11)%Z]).
Proof.
  split.
  - split; [discriminate|]. split; [|reflexivity].
    assert (forall ds, forallb (fun c => ((48 <=? c) && (c <=? 57))%N) ds = true -> Forall digit_char ds) as Hd.
    { intros ds Hds. apply Forall_forall. intros c Hc. rewrite forallb_forall in Hds. apply elem_of_list_In, Hds, andb_prop in Hc as [H1 H2]. apply N.leb_le in H1, H2. split; assumption. }
    apply Forall_cons. split; [split; [discriminate|apply Hd; vm_compute; reflexivity]|]. apply Forall_cons. split; [split; [discriminate|apply Hd; vm_compute; reflexivity]|].
    apply Forall_cons. split; [exact Logic.I|]. apply Forall_cons. split; [exact Logic.I|].
    apply Forall_cons. split; [split; [discriminate|apply Hd; vm_compute; reflexivity]|]. apply Forall_nil. exact Logic.I.
  - intros m. assert (forall z, (-100 <= z <= 100)%Z -> word m (- 2 ^ 63) z (Some z)) as Hw by (intros z Hz; apply w_fits; unfold in_word; lia).
    eapply rpn_num; [destruct m; vm_compute; discriminate|apply Hw; vm_compute; split; discriminate|].
    eapply rpn_num; [destruct m; vm_compute; discriminate|apply Hw; vm_compute; split; discriminate|].
    eapply rpn_minus; [apply Hw; vm_compute; split; discriminate|]. apply rpn_print.
    eapply rpn_num; [destruct m; vm_compute; discriminate|apply Hw; vm_compute; split; discriminate|]. apply rpn_end.
Qed.
Example C48_example_fuels : exists fl, enough_for_text fl simple_math_rules /\ enough_for_text fl stack_math_rules.
Proof.
  exists (mkFuels (length simple_math_rules + length stack_math_rules + 2)
    (S (length simple_math_rules * (length simple_math_rules + 1) + length stack_math_rules * (length stack_math_rules + 1)))).
  unfold enough_for_text. cbn [first_fuel follow_fuel].
  generalize (length simple_math_rules) (length stack_math_rules). intros a b. nia.
Qed.

(** The hypotheses of C34_whole_sentences_when_ends_checked are met by this grammar. *)
Lemma math_ends_checked {I} (pd : ParserData I) ins start : math_grammar pd ins -> proper pd -> wf_grammar pd -> start_element pd start ->
  ends_checked pd start (is_tail pd).
Proof.
  intros Hm Hpr Hwf Hst. pose proof (proj2 (Hst start) eq_refl) as Hs. split; [exists (nt (lit "start")); split; [exact Hs|left]|]. split; [|split].
  - intros A (y & Hy & Ht). exists y.1. rewrite Hy. f_equal. unfold tails in Ht.
    repeat (apply elem_of_cons in Ht as [->|Ht]; [reflexivity|]). apply elem_of_nil in Ht. contradiction.
  - intros A w Ha (y & Hy & Ht). destruct (alt_names pd ins Hm Hpr Hwf _ _ Ha) as (x & alts & alt & Hx & Has & Hin & Hcl).
    assert (y = nt x) as -> by congruence. pose proof (proj2 (math_tails x alts alt Has Hin) Ht) as He.
    unfold called in Hcl. destruct w as [|e0 w] using rev_ind; [left; reflexivity|]. right. exists w, e0. split; [reflexivity|].
    apply Forall2_app_inv_r in Hcl as (a1 & a2 & _ & H2 & ->). inversion H2 as [|z ? ? ? Hz H3]; subst. inversion H3; subst.
    unfold ends_tail in He. rewrite last_snoc in He. apply bool_decide_eq_true in He. exists z. auto.
  - intros A u B v Ha HT. exact (tail_position pd ins Hm Hpr Hwf A u B v Ha HT).
Qed.
Example C34_example : ends_checked simple_data 0 (is_tail simple_data) /\ ends_checked api_data 0 (is_tail api_data).
Proof.
  split; [apply (math_ends_checked _ simple_instrs)|apply (math_ends_checked _ stack_instrs)].
  - exact simple_math.
  - exact (all_defined_proper _ (con_defined _ _ simple_constructible)).
  - exact simple_wf.
  - exact simple_start.
  - exact api_math.
  - exact (all_defined_proper _ (con_defined _ _ api_constructible)).
  - exact api_wf.
  - exact api_start.
Qed.
