(** * Property theorems: the names of nonterminals do not matter (C74) *)
From Verif Require Import Base Peekables Tree Errors Sets ParserData Vm SimpleStackVm StackVm RuleParsing FirstSets FollowSets SteuerMap ScriptParser
  SpecText SpecData SpecGrammar SpecParser SpecTree SpecScript SpecContract SpecWeave SpecRules SpecNames SpecLanguage SpecSyntax SpecRename Grammar_proofs Construct_proofs Checks Tree_proofs Script_proofs Parse_proofs
  Weave_proofs Names_proofs RuleBuild_proofs RuleText_proofs Language_proofs Syntax_proofs Rename_proofs
  Props_steuer Props_script Props_weave Props_rules Props_vm Props_names Props_language Props_same Props_syntax Samples.

(** ** Built with the API: grammars that differ in the names of nonterminals only.  The
    parsers do exactly the same, if "start" is the same element. *)
Theorem C74_same_buildable : forall (H H' : HashOrder) m m' (vm : VM) fl fl' (pd pd' : ParserData (vm_instr vm)) start,
  same_but_names pd pd' -> wf_grammar pd -> fits_memory pd -> enough fl pd -> enough fl' pd' ->
  (exists ps, @new_from_parser_data H m vm fl pd start = Ok ps) <-> (exists ps', @new_from_parser_data H' m' vm fl' pd' start = Ok ps').
Proof.
  intros H H' m m' vm fl fl' pd pd' start Hs Hwf Hfit Hen Hen'.
  rewrite (proj1 (@C26_construction H m vm fl pd start Hwf Hfit Hen)).
  rewrite (proj1 (@C26_construction H' m' vm fl' pd' start (sb_wf _ _ Hs Hwf) (sb_fits _ _ Hs Hfit) Hen')).
  split; apply sb_constructible; [|apply sb_sym]; assumption.
Qed.
Print Assumptions C74_same_buildable.
Theorem C74_same_parse : forall (H : HashOrder) m m' (vm : VM) fl fl' (pd pd' : ParserData (vm_instr vm)) start ps ps',
  same_but_names pd pd' -> built m vm fl pd start ps -> built m' vm fl' pd' start ps' -> start_element pd start -> start_element pd' start ->
  forall fuel text v, parse vm ps' fuel text v = parse vm ps fuel text v.
Proof.
  intros H m m' vm fl fl' pd pd' start ps ps' Hs Hb Hb' Hst Hst' fuel text v.
  apply built_spec in Hb as (_ & _ & T). apply built_spec in Hb' as (_ & _ & T').
  apply rn_parse.
  - eapply sb_tables; eassumption.
  - intros e. rewrite (pt_elements _ _ _ T), (pt_elements _ _ _ T'). apply (sb_verbose pd pd' Hs).
  - rewrite (position_start vm pd start ps T start Hst), (position_start vm pd' start ps' T' start Hst'). reflexivity.
Qed.
Print Assumptions C74_same_parse.

(** ** Read from texts *)
Section texts.
Context (f : str -> str) (Hf : injective f) (Hstart : f (lit "start") = lit "start").
Lemma ren_parsable {vm : VM} (pd pe : ParserData (vm_instr vm)) rs : described pd rs -> edited_data pd pe -> wf_grammar pe ->
  defined rs (lit "start") -> (forall x y, ignores rs x y -> defined rs y) -> parsable rs <-> parsable (map (renamed f) rs).
Proof.
  intros D E Hwf Hd Hig. destruct (defined_element pd rs D _ Hd) as (start & Hst & _). rewrite <- (ed_verbose pd pe E) in Hst.
  pose proof (ren_same f pe (eq_sym (wf_len _ Hwf))) as Hs.
  rewrite <- (constructible_parsable pd pe rs D E start Hst Hig).
  rewrite <- (constructible_parsable (rename_data f pd) (rename_data f pe) (map (renamed f) rs) (ren_described f Hf pd rs D) (ren_edited_data f pd pe E) start).
  - split; apply sb_constructible; [|apply sb_sym]; exact Hs.
  - rewrite ren_verbose, Hst. cbn [option_map rename_el]. rewrite Hstart. reflexivity.
  - intros x y Hxy. apply (ren_ignores_inv f Hf) in Hxy as (x0 & y0 & -> & -> & Hxy). apply ren_defined; eauto.
Qed.
Lemma ren_start {I} (pe : ParserData I) start : start_element pe start -> start_element (rename_data f pe) start.
Proof.
  intros Hst e. rewrite ren_verbose. split.
  - destruct (get_element_verbose pe e) as [[x []]|] eqn:E; try discriminate. cbn [option_map rename_el]. intros [= Hx]. apply Hst. rewrite E. rewrite <- Hstart in Hx. apply Hf in Hx. congruence.
  - intros ->. rewrite (proj2 (Hst start) eq_refl). cbn [option_map rename_el]. rewrite Hstart. reflexivity.
Qed.
(** Nonterminals renamed one to one, start keeping its name. *)
Theorem C74_texts : forall (U : Unicode) (H H' : HashOrder) m m' (vm : VM) reads fl fl' rs t t', supported vm reads -> tables_disjoint ->
  grammar_text reads rs t -> (N.of_nat (length t) < 2 ^ 63)%N -> enough_for_text fl t ->
  grammar_text reads (map (renamed f) rs) t' -> (N.of_nat (length t') < 2 ^ 63)%N -> enough_for_text fl' t' ->
  ((exists ps, @new_from_text U H m vm fl t = Ok ps) <-> (exists ps', @new_from_text U H' m' vm fl' t' = Ok ps')) /\
  (forall ps ps', @new_from_text U H m vm fl t = Ok ps -> @new_from_text U H' m' vm fl' t' = Ok ps' ->
   forall fuel text v, same_result (@parse H vm ps fuel text v) (@parse H' vm ps' fuel text v)).
Proof.
  intros U H H' m m' vm reads fl fl' rs t t' Hs Hd Ht Hlen Hfl Ht' Hlen' Hfl'. split.
  - rewrite (C58_buildable_iff_parsable U H m vm reads rs t fl Hs Hd Ht Hlen Hfl), (C58_buildable_iff_parsable U H' m' vm reads _ t' fl' Hs Hd Ht' Hlen' Hfl').
    assert ((forall x y, uses rs x y -> defined rs y) -> (forall x y, ignores rs x y -> defined rs y) -> defined rs (lit "start") -> parsable rs <-> parsable (map (renamed f) rs)) as Hgo.
    { intros Hu Hi Hst. destruct (text_edited vm reads Hs Hd H rs t fl Ht Hlen Hfl Hu Hi) as (pd & pe & D & E & Hwf & _). exact (ren_parsable pd pe rs D E Hwf Hst Hi). }
    split; intros Hp; apply Hgo; try exact Hp; try apply Hp.
    + intros x y Hxy. apply (ren_defined f Hf), (pa_defined _ Hp (f x)). apply (ren_uses f Hf). exact Hxy.
    + intros x y Hxy. apply (ren_defined f Hf), (pa_ignored _ Hp (f x)). apply (ren_ignores f Hf). exact Hxy.
    + apply (ren_defined f Hf). rewrite Hstart. apply Hp.
  - intros ps ps' Hps Hps' fuel text v.
    destruct (@read_from_built U H m vm rs t ps) as (pd & pe & start & f1 & D1 & E1 & S1 & B1 & _); [exists reads, fl; auto 10|].
    destruct (@read_from_built U H' m' vm (map (renamed f) rs) t' ps') as (pd' & pe' & start' & f2 & D2 & E2 & S2 & B2 & _); [exists reads, fl'; auto 10|].
    pose proof (ren_same f pe (eq_sym (wf_len _ (proj1 B1)))) as Hsame.
    assert (enough (large pe) (rename_data f pe)) as Hen.
    { pose proof (large_enough pe) as He. unfold enough in *. rewrite <- (proj1 (proj2 Hsame)). exact He. }
    destruct (proj1 (C74_same_buildable H H m m vm (large pe) (large pe) pe (rename_data f pe) start Hsame (proj1 B1) (proj1 (proj2 B1)) (large_enough pe) Hen)) as [qs Hq].
    { apply (proj1 (C26_construction H m vm (large pe) pe start (proj1 B1) (proj1 (proj2 B1)) (large_enough pe))). apply built_spec in B1. apply B1. }
    assert (@built H m vm (large pe) (rename_data f pe) start qs) as B3.
    { split; [apply (sb_wf _ _ Hsame), B1|]. split; [apply (sb_fits _ _ Hsame), B1|assumption]. }
    rewrite <- (C74_same_parse H m m vm f1 (large pe) pe (rename_data f pe) start ps qs Hsame B1 B3 S1 (ren_start pe start S1) fuel text v).
    pose proof (ren_described f Hf pd rs D1) as D3. pose proof (ren_edited_data f pd pe E1) as E3.
    apply (C56_same_results H H' m m' vm (large pe) f2 (rename_data f pe) pe' start start'); eauto using ed_unique, ren_start.
    assert (same_meaning (map (renamed f) rs) (map (renamed f) rs)) as Hm.
    { intros x. split; [reflexivity|]. split; [reflexivity|]. intros a a' Ha Ha'. rewrite (lists_unique _ _ _ _ Ha Ha'). reflexivity. }
    split; [exact (same_half _ _ _ _ _ _ D3 E3 D2 E2 Hm)|exact (same_half _ _ _ _ _ _ D2 E2 D3 E3 Hm)].
Qed.
End texts.
Print Assumptions C74_texts.

(** ** Non-vacuity: the text of C57_example with ws and gap exchanged. *)
Section example.
Local Existing Instance ascii_unicode.
Definition swap_names (x : str) : str := if decide (x = lit "ws") then lit "gap" else if decide (x = lit "gap") then lit "ws" else x.
Lemma swap_names_inj : injective swap_names.
Proof. intros x y. unfold swap_names. repeat destruct (decide _); congruence. Qed.
Definition gap_text : str := lit "start->$[IGNORE:gap]""a"" ""b"";gap->"" ""|#;".
Lemma gap_text_ok : grammar_text null_reads (map (renamed swap_names) ig_rules) gap_text.
Proof.
  apply (gr_cons null_reads _ (lit "start->$[IGNORE:gap]""a"" ""b"";") [] _ (lit "gap->"" ""|#;")); [constructor| |].
  - apply (rule_intro null_reads (mkARule (lit "start") (OvIgnore (lit "gap")) [[(lit "a", Terminal); (lit "b", Terminal)]] []) [] [] [] [] []
      (lit "$[IGNORE:gap]") (lit """a"" ""b""") []); try (constructor; fail); try apply two_names; try (split; [reflexivity|repeat constructor]).
    + apply (ov_ignore [] (lit "gap")); [constructor|]. split; [reflexivity|repeat constructor].
    + apply alts_one, alt_elements. apply (els_cons _ (lit """a""") (lit " ") _ (lit """b""")); [apply one_quoted; discriminate|repeat constructor|apply els_one, one_quoted; discriminate|discriminate].
  - apply (gr_cons null_reads _ (lit "gap->"" ""|#;") [] _ []); [constructor| |apply gr_end; constructor].
    apply (rule_intro null_reads (mkARule (lit "gap") OvAbsent [[(lit " ", Terminal)]; []] []) [] [] [] [] []
      [] (lit """ ""|#") []); try (constructor; fail); try (split; [reflexivity|repeat constructor]).
    apply (alts_cons _ (lit """ """) [] [] _ (lit "#")); [apply alt_elements, els_one, one_quoted; discriminate|constructor..|apply alts_one, alt_empty].
Qed.
Example C74_example : injective swap_names /\ swap_names (lit "start") = lit "start" /\ ig_text <> gap_text /\
  grammar_text null_reads ig_rules ig_text /\ grammar_text null_reads (map (renamed swap_names) ig_rules) gap_text /\
  enough_for_text (mkFuels 60 2400) ig_text /\ enough_for_text (mkFuels 60 2400) gap_text /\
  (exists ps, @new_from_text _ plain_order Checked NullVm (mkFuels 60 2400) ig_text = Ok ps).
Proof.
  split; [apply swap_names_inj|]. split; [vm_compute; reflexivity|]. split; [vm_compute; discriminate|]. split; [apply ig_text_ok|]. split; [apply gap_text_ok|].
  split; [|split].
  1,2: split; cbn [first_fuel follow_fuel]; apply Nat.leb_le || apply Nat.ltb_lt; vm_compute; reflexivity.
  assert (forall r : outcome Empty_set (Parser (vm_instr NullVm)), is_ok r = true -> exists ps, r = Ok ps) as Hok by (intros [ps| | |]; [eauto|discriminate..]).
  apply Hok. vm_compute. reflexivity.
Qed.
End example.
