(** * Property theorems: how often a parse reads the script (C103) *)
From Verif Require Import Base Peekables Tree Errors Sets ParserData Vm SimpleStackVm StackVm RuleParsing FirstSets FollowSets SteuerMap ScriptParser
  SpecText SpecData SpecGrammar SpecParser SpecTree SpecScript SpecSize SpecContract SpecWeave SpecRules SpecNames SpecLanguage SpecIgnore SpecDepth SpecReads Grammar_proofs Construct_proofs Checks Tree_proofs Script_proofs Parse_proofs Size_proofs Depth_proofs Reads_proofs
  Weave_proofs Names_proofs RuleBuild_proofs RuleText_proofs Language_proofs Ignore_proofs Accept_proofs Props_steuer Props_script Props_weave Props_rules Props_vm Props_names Props_language Props_errors Props_main SpecRecipes Recipes_proofs Props_recipes Props_depth Samples.
Notation start := (lit "start").

Lemma calls_nodes pt : calls_of pt <= nodes_count pt.
Proof.
  induction pt as [t|A subs IH] using ptree_rect'; [cbn; lia|]. cbn [calls_of]. rewrite nodes_count_node. apply le_n_S. induction IH as [|s subs Hs _ IHs]; [cbn; lia|].
  rewrite forest_count_cons. unfold list_sum in *. cbn [map foldr]. lia.
Qed.
Lemma forest_calls_nodes subs : list_sum (map calls_of subs) <= forest_count subs.
Proof. induction subs as [|s subs IH]; [cbn; lia|]. rewrite forest_count_cons. unfold list_sum in *. cbn [map foldr]. pose proof (calls_nodes s). lia. Qed.
Lemma stuck_calls_count s : stuck_calls s <= stuck_count s + 1.
Proof. induction s as [A|t k|A subs s IH after]; cbn [stuck_calls stuck_count]; [lia..|]. pose proof (forest_calls_nodes subs). lia. Qed.
Lemma factor_mono r r' b : r <= r' -> factor r b <= factor r' b.
Proof. intros Hr. unfold factor. apply le_n_S, Nat.mul_le_mono; [assumption|]. apply le_n_S, Nat.mul_le_mono_l, Nat.pow_le_mono_r; [discriminate|assumption]. Qed.
Lemma named_names {I} (pd : ParserData I) pt : names_in (named pd pt) = calls_of pt.
Proof. induction pt as [t|A subs IH] using ptree_rect'; [reflexivity|]. cbn [named names_in calls_of]. rewrite map_map. do 2 f_equal. apply map_ext_Forall'. assumption. Qed.
Lemma wide_rules {vm : VM} {rs : list (arule (vm_instr vm))} {pd pd'} (Hd : described pd rs) (Hed : edited_data pd pd') b :
  (forall x i w, says rs x i w -> length w <= b) -> at_most_wide pd' b.
Proof.
  intros Hb A w (r & p & Hr & Hp & ->).
  pose proof Hr as HA. apply (edd_rules _ _ Hed) in HA as (nr & HA & _). destruct (described_nonterminal pd rs Hd A ltac:(eexists; exact HA)) as [x Hx].
  apply elem_of_list_lookup in Hp as [i Hi]. destruct (says_rule pd pd' rs Hd Hed A r _ i Hx Hr) as (_ & Hs & _).
  destruct (Hs p Hi) as (w & Hw & Hst). apply stands_right in Hst. rewrite <- (Forall2_length _ _ _ Hst). eapply Hb, Hw.
Qed.

(** ** C103.  Counting the calls of peek and next on the script changes nothing else. *)
Theorem C103_same : forall (H : HashOrder) (vm : VM) ps fuel script v, fst (parse_reads vm ps fuel script v) = parse vm ps fuel script v.
Proof. intros H vm ps fuel script v. apply fg_parse. Qed.
Print Assumptions C103_same.

(** A script that is accepted is peeked at once per name of the tree and once per char of
    the part that was parsed, and advanced once per char. *)
Theorem C103_accepted : forall (U : Unicode) (H : HashOrder) m (vm : VM) rs t ps, read_from m vm rs t ps ->
  forall script nt rest v v', accepts_prefix rs script nt rest -> run_tree rs nt v = Ok v' ->
  forall fuel, nested_names nt <= fuel ->
  exists tr, parse_reads vm ps fuel script v = (Ok tr, v', names_in nt + 2 * length (nyield nt)).
Proof.
  intros U H m vm rs t ps Hr script nt rest v v' Ha Hrt fuel Hf.
  destruct (proj1 (C102_depth U H m vm rs t ps Hr script nt rest v v' Ha Hrt fuel) Hf) as (tr & Hp & _). destruct (read_from_vm m vm rs t ps Hr) as [Hk Hret].
  destruct (read_from_built m vm rs t ps Hr) as (pd & pd' & st & fl & Hd & Hed & Hst & Hb & Hsz). apply built_spec in Hb as (Hwf & Hcon & Htab).
  apply (accepts_pred script nt rest Hd Hed Hwf Hcon Hst) in Ha as (pt & -> & Hpt & Hpr).
  pose proof (parse_count vm pd' st ps Hwf Hcon Htab Hk st fuel script v Hst (con_start _ _ Hcon)) as Hc. rewrite <- C103_same in Hp.
  destruct (parse_reads vm ps fuel script v) as [[o v1] n]. cbn [fst] in Hp. injection Hp as -> ->. exists tr. rewrite (Hc _ _ Hpr).
  unfold tree_reads. rewrite named_names, named_yield. reflexivity.
Qed.
Print Assumptions C103_accepted.

(** Accepted or refused: the number of reads is at most linear in the length of the script,
    with a factor given by the number of rules and the length of their alternatives. *)
Theorem C103_linear : forall (U : Unicode) (H : HashOrder) m (vm : VM) rs t ps, read_from m vm rs t ps ->
  forall b, (forall x i w, says rs x i w -> length w <= b) ->
  forall fuel script v o v' n, parse_reads vm ps fuel script v = (o, v', n) -> (exists tr, o = Ok tr) \/ (exists e, o = Err e) ->
  n <= factor (length rs) b * (length script + 1) + 2 * length script + 2.
Proof.
  intros U H m vm rs t ps Hr b Hw fuel script v o v' n Hp Ho. destruct (read_from_vm m vm rs t ps Hr) as [Hk Hret].
  destruct (read_from_built m vm rs t ps Hr) as (pd & pd' & st & fl & Hd & Hed & Hst & Hb & Hsz). apply built_spec in Hb as (Hwf & Hcon & Htab).
  pose proof (wide_rules Hd Hed b Hw) as Hwide. pose proof (factor_mono _ _ b (rules_few Hd Hed)) as Hfac.
  pose proof (parse_count vm pd' st ps Hwf Hcon Htab Hk st fuel script v Hst (con_start _ _ Hcon)) as Hc. rewrite Hp in Hc.
  pose proof (parse_run_spec vm pd' st ps Hwf Hcon Htab Hk st fuel script v Hst (con_start _ _ Hcon)) as Hs.
  pose proof (C103_same H vm ps fuel script v) as Hsame. rewrite Hp in Hsame. cbn [fst] in Hsame. unfold parse in Hsame.
  destruct (parse_run vm ps fuel script v) as [o1 s1] eqn:E. cbn [fst] in *. destruct Ho as [[tr ->]|[e ->]]; injection Hsame as <- _.
  - destruct Hs as (pt & rest & v1 & Hpr & _ & _ & _). rewrite (Hc _ _ Hpr). apply pred_sound in Hpr as (Hdp & _ & Ey). unfold tree_reads.
    pose proof (tree_size pd' Hwf (con_no_left_recursion _ _ Hcon) b Hwide pt Hdp) as Ht. pose proof (calls_nodes pt).
    assert (length (yield pd' pt) <= length script) by (rewrite Ey, app_length; lia). nia.
  - destruct Hs as (stk & rest & v1 & Hf & _). rewrite (Hc _ _ Hf).
    apply fails_sound in Hf as (Hfd & _ & Ey); [|intros _; apply (wf_rules pd' Hwf), (con_start _ _ Hcon)|apply (wf_rules pd' Hwf)].
    unfold stuck_reads. pose proof (stuck_nodes pd' Hwf (con_no_left_recursion _ _ Hcon) b Hwide stk Hfd). pose proof (stuck_calls_count stk).
    assert (length (consumed pd' stk) <= length script) by (rewrite Ey, app_length; lia). nia.
Qed.
Print Assumptions C103_linear.

(** ** Non-vacuity: a list of n members is read in 3n+1 steps; one that is refused. *)
Section example.
Local Existing Instance ascii_unicode.
Local Existing Instance plain_order.
Lemma list_names n : names_in (list_tree n) = S n.
Proof. induction n as [|n IH]; [reflexivity|]. cbn [list_tree names_in map]. unfold list_sum in *. cbn [foldr]. rewrite IH. cbn [names_in]. lia. Qed.
Theorem C103_lists : forall ps, read_from Checked NullVm list_rules list_text ps -> forall n fuel v, n < fuel ->
  exists tr, parse_reads NullVm ps fuel (repeat 49%N n) v = (Ok tr, v, 3 * n + 1).
Proof.
  intros ps Hr n fuel v Hf. destruct (list_tree_ok n) as (D & R & Y & E). pose proof (sentence_accepts _ _ _ _ _ _ Hr D R) as Ha. rewrite Y in Ha.
  destruct (C103_accepted _ _ Checked NullVm _ _ _ Hr _ _ _ v v Ha (null_actions_succeed _ _ _) fuel ltac:(lia)) as [tr Ht]. exists tr. rewrite Ht, list_names, Y, repeat_length.
  f_equal. lia.
Qed.
Print Assumptions C103_lists.
Definition refused_after (r : outcome Empty_set (Parser (vm_instr NullVm))) (script : str) (n : nat) : bool :=
  match r with Ok ps => match parse_reads NullVm ps 60 script 0%N with (Err _, _, k) => Nat.eqb k n | _ => false end | _ => false end.
Lemma refused_after_ok r script n : refused_after r script n = true -> exists ps, r = Ok ps /\ exists e v', parse_reads NullVm ps 60 script 0%N = (Err e, v', n).
Proof.
  unfold refused_after. destruct r as [ps| | |]; try discriminate. intros E. exists ps. split; [reflexivity|].
  destruct (parse_reads NullVm ps 60 script 0%N) as [[[tr|e| |] v'] k]; try discriminate. apply Nat.eqb_eq in E as ->. eauto.
Qed.
Example C103_example : (exists ps, read_from Checked NullVm list_rules list_text ps /\ exists e v', parse_reads NullVm ps 60 (lit "112") 0%N = (Err e, v', 8)) /\
  (forall x i w, says list_rules x i w -> length w <= 2) /\ factor (length list_rules) 2 = 8.
Proof.
  split; [|split; [|reflexivity]].
  - destruct (refused_after_ok (new_from_text Checked NullVm (mkFuels 60 2200) list_text) (lit "112") 8) as (ps & Eps & He); [vm_compute; reflexivity|]. exists ps. split; [|exact He].
    apply (read_null list_rules list_text _ list_text_ok eq_refl ltac:(split; cbn [first_fuel follow_fuel]; apply Nat.leb_le || apply Nat.ltb_lt; vm_compute; reflexivity) Eps). reflexivity.
  - intros x i w Hw. apply Recipes_proofs.plain_says in Hw; [|apply one_rule_plain]. unfold list_rules in Hw. rewrite Recipes_proofs.alts_cons in Hw. cbn [ar_name ar_alts] in Hw.
    apply elem_of_list_lookup_2 in Hw. apply elem_of_app in Hw as [Hw|Hw]; [|inversion Hw]. destruct (decide (start = x)) as [<-|]; [|inversion Hw].
    apply elem_of_cons in Hw as [->|Hw]; [cbn; lia|]. apply elem_of_list_singleton in Hw as ->. cbn. lia.
Qed.
End example.
