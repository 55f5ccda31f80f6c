(** * C54, C56: numbers of elements, order of rules and alternatives do not matter *)
From Verif Require Import Base Peekables Tree Errors Sets ParserData Vm SimpleStackVm StackVm RuleParsing FirstSets FollowSets SteuerMap ScriptParser
  SpecText SpecData SpecGrammar SpecParser SpecTree SpecScript SpecContract SpecWeave SpecRules SpecNames Grammar_proofs Construct_proofs Checks Tree_proofs Script_proofs Parse_proofs
  Names_proofs RuleBuild_proofs RuleText_proofs Props_steuer Props_script Props_weave Props_rules Samples.

(** What two runs of parse have in common: the state of the VM, and the same tree, the
    same error (up to the order of the expected characters), the same panic. *)
Definition same_result {vm : VM} (x y : outcome ParserError (Tree str) * vm_state vm) : Prop :=
  let '(r, v) := x in let '(r', v') := y in
  v = v' /\ match r, r' with
  | Err e, Err e' => same_error e e'
  | Err _, _ | _, Err _ => False
  | _, _ => r = r'
  end.

(** ** C56.  Parsers built for two grammars with the same rules agree on every script. *)
Theorem C56_same_results : forall (H H' : HashOrder) m m' (vm : VM) fl fl' pd pd' start start' ps ps' fuel text v,
  @built H m vm fl pd start ps -> @built H' m' vm fl' pd' start' ps' ->
  start_element pd start -> start_element pd' start' -> names_unique pd -> names_unique pd' -> same_grammar pd pd' ->
  same_result (@parse H vm ps fuel text v) (@parse H' vm ps' fuel text v).
Proof.
  intros H H' m m' vm fl fl' pd pd' start start' ps ps' fuel text v Hb Hb' Hst Hst' Hu Hu' Hsame.
  apply (@built_spec H) in Hb as (Hwf & Hcon & Htab). apply (@built_spec H') in Hb' as (Hwf' & Hcon' & Htab').
  pose proof (same_grammar_sets pd pd' (all_defined_proper _ (con_defined _ _ Hcon)) (all_defined_proper _ (con_defined _ _ Hcon')) Hsame) as Hsets.
  assert (rn pd pd' start start') as Hrn by (exists (lit "start", NonTerminal); split; [apply Hst|apply Hst']; reflexivity).
  unfold parse, parse_run. rewrite (position_start vm pd start ps Htab start Hst), (position_start vm pd' start' ps' Htab' start' Hst').
  destruct (parse_rn H H' vm pd pd' start start' ps ps' Hwf Hwf' Hcon Hcon' Htab Htab' Hu Hu' Hsets Hrn fuel start start' None
    (mkPS (pp_new text None None) v tree_new) Hrn (con_start _ _ Hcon)) as [H1 H2].
  destruct (@parse_nonterminal H _ _ _ _ _ _) as [o s1], (@parse_nonterminal H' _ _ _ _ _ _) as [o' s1']. cbn [fst snd] in H1, H2. subst s1'.
  cbn. split; [reflexivity|]. destruct o as [a|e| |], o' as [a'|e'| |]; try discriminate; cbn in *; auto; contradiction.
Qed.
Print Assumptions C56_same_results.

(** A parser can be built for one iff for the other. *)
Theorem C56_same_buildable : forall (H H' : HashOrder) m m' (vm : VM) fl fl' (pd pd' : ParserData (vm_instr vm)) start start' name,
  wf_grammar pd -> fits_memory pd -> enough fl pd -> proper pd -> names_unique pd ->
  wf_grammar pd' -> fits_memory pd' -> enough fl' pd' -> proper pd' -> names_unique pd' ->
  same_grammar pd pd' -> get_element_verbose pd start = Some name -> get_element_verbose pd' start' = Some name ->
  (exists ps, @new_from_parser_data H m vm fl pd start = Ok ps) <-> (exists ps, @new_from_parser_data H' m' vm fl' pd' start' = Ok ps).
Proof.
  intros H H' m m' vm fl fl' pd pd' start start' name Hwf Hfit Hen Hp Hu Hwf' Hfit' Hen' Hp' Hu' Hsame Hst Hst'.
  rewrite (proj1 (C26_construction H m vm fl pd start Hwf Hfit Hen)), (proj1 (C26_construction H' m' vm fl' pd' start' Hwf' Hfit' Hen')).
  split; apply constructible_fwd; auto using same_grammar_sym; exists name; auto.
Qed.
Print Assumptions C56_same_buildable.

(** ** The same for texts: rules may be moved, split, renumbered, laid out differently,
    and alternatives reordered, as long as every name keeps its alternatives and the
    instructions of its first rule. *)
Definition same_text_rules {I} (rs rs' : list (arule I)) : Prop := forall x,
  match rules_for x rs, rules_for x rs' with
  | [], [] => True
  | r :: more, r' :: more' => concat (map ar_alts (r :: more)) ≡ₚ concat (map ar_alts (r' :: more')) /\ ar_instr r = ar_instr r'
  | _, _ => False
  end.
Definition no_ignore {I} (rs : list (arule I)) : Prop := forall r x, r ∈ rs -> ar_override r <> OvIgnore x.

Lemma stands_called {I} (pd : ParserData I) a p : stands_for pd a p <-> p <> NotEmpty [] /\ called pd a (right_side p).
Proof.
  unfold stands_for, called, alternative_of. split.
  - intros (ixs & [[-> ->]|[Hne ->]] & Hf); (split; [|exact Hf]); congruence.
  - intros [Hne Hf]. exists (right_side p). split; [|exact Hf]. destruct p as [[|e l]|]; [congruence|right; split; [discriminate|reflexivity]|left; auto].
Qed.
Lemma described_unique {I} (pd : ParserData I) rs : described pd rs -> names_unique pd.
Proof. intros Hd A B v HA HB. apply (de_numbers pd rs Hd) in HA, HB. congruence. Qed.
Lemma described_proper {I} (pd : ParserData I) rs : described pd rs -> proper pd.
Proof.
  intros Hd. split.
  - intros A r p HA Hp. destruct (described_rule pd rs Hd A r HA) as (r0 & more & _ & _ & Hf & _).
    apply elem_of_list_lookup in Hp as [i Hi]. destruct (Forall2_lookup_r _ _ _ _ _ Hf Hi) as (a & _ & Ha). apply stands_called in Ha. tauto.
  - intros A w e Ha He. eapply described_alternative; eauto.
Qed.
Lemma described_half {I} (pd pd' : ParserData I) rs rs' : described pd rs -> described pd' rs' -> same_text_rules rs rs' ->
  forall x alts is, rule_named pd x alts is -> exists alts', alts' ≡ₚ alts /\ rule_named pd' x alts' is.
Proof.
  intros Hd Hd' Hs x alts is (A & r & HA & Hr & Halts & Hi). destruct (described_rule pd rs Hd A r Hr) as (r0 & more & HA' & Hrf & Hf & _ & Hin).
  assert (x = ar_name r0) as -> by congruence. specialize (Hs (ar_name r0)). rewrite Hrf in Hs. destruct (rules_for (ar_name r0) rs') as [|r' more'] eqn:E'; [contradiction|].
  destruct Hs as [Hp He]. destruct (de_rule pd' rs' Hd' _ r' more' E') as (nr' & Hnr & Hf' & _ & Hin').
  exists (concat (map ar_alts (r' :: more'))). split.
  - rewrite <- Hp. apply reflexive_eq. clear -Halts Hf. revert alts Halts. induction Hf as [|a p l ps Ha _ IH]; intros alts Halts; inversion Halts as [|a' ? l' ? Ha' Hl]; subst; [reflexivity|].
    f_equal; [|auto]. apply stands_called in Ha as [_ Ha]. eapply called_unique; eauto.
  - unfold get_rule_by_element_verbose in Hnr. destruct (get_element_index pd' (ar_name r0, NonTerminal)) as [A'|] eqn:EA; [|discriminate].
    apply (de_numbers pd' rs' Hd') in EA. exists A', nr'. split; [assumption|]. split; [exact Hnr|]. split; [|congruence].
    eapply Forall2_impl; [exact Hf'|]. intros a p Ha. apply stands_called in Ha. tauto.
Qed.
Lemma same_text_rules_sym {I} (rs rs' : list (arule I)) : same_text_rules rs rs' -> same_text_rules rs' rs.
Proof.
  intros Hs x. specialize (Hs x). destruct (rules_for x rs), (rules_for x rs'); auto. destruct Hs as [H1 H2]. split; [symmetry; assumption|congruence].
Qed.
Lemma described_same {I} (pd pd' : ParserData I) rs rs' : described pd rs -> described pd' rs' -> same_text_rules rs rs' -> same_grammar pd pd'.
Proof. intros Hd Hd' Hs. split; eapply described_half; eauto using same_text_rules_sym. Qed.
(** what a parser made from a text without IGNORE was built for *)
Lemma text_built {U : Unicode} {H : HashOrder} m (vm : VM) reads fl rs t ps : supported vm reads -> tables_disjoint -> grammar_text reads rs t -> no_ignore rs ->
  (N.of_nat (length t) < 2 ^ 63)%N -> enough_for_text fl t -> new_from_text m vm fl t = Ok ps ->
  exists pd start, described pd rs /\ start_element pd start /\ built m vm fl pd start ps.
Proof.
  intros Hs Hd Ht Hno Hlen Hfl Hps. apply new_from_text_ok in Hps as (s & start & els & E & Est & _ & Hnew).
  destruct (C11_without_ignore U H vm reads rs t Hs Hd Ht Hno) as (s' & E' & Hdes). rewrite E in E'. injection E' as <-.
  destruct (text_data vm reads t s fl Hs Hlen Hfl E) as (Hwf & Hfit & _). exists (rp_pd s), start. split; [assumption|]. split; [|split; auto].
  intros e. change (get_element_index (rp_pd s) (lit "start", NonTerminal) = Some start) in Est. split; [|intros ->; apply (de_numbers _ _ Hdes); exact Est].
  intros He. apply (de_numbers _ _ Hdes) in He. congruence.
Qed.
Lemma text_buildable {U : Unicode} {H H' : HashOrder} m m' (vm : VM) reads fl fl' rs rs' t t' ps : supported vm reads -> tables_disjoint ->
  grammar_text reads rs t -> no_ignore rs -> (N.of_nat (length t) < 2 ^ 63)%N -> enough_for_text fl t ->
  grammar_text reads rs' t' -> no_ignore rs' -> (N.of_nat (length t') < 2 ^ 63)%N -> enough_for_text fl' t' ->
  same_text_rules rs rs' -> @new_from_text U H m vm fl t = Ok ps -> exists ps', @new_from_text U H' m' vm fl' t' = Ok ps'.
Proof.
  intros Hs Hd Ht Hno Hlen Hfl Ht' Hno' Hlen' Hfl' Hsame Hps.
  destruct (@text_built U H m vm reads fl rs t ps Hs Hd Ht Hno Hlen Hfl Hps) as (pd & start & Hdes & Hst & Hb). apply (@built_spec H) in Hb as (Hwf & Hcon & _).
  destruct (C11_without_ignore U H' vm reads rs' t' Hs Hd Ht' Hno') as (s' & E' & Hdes').
  destruct (text_data vm reads t' s' fl' Hs Hlen' Hfl' E') as (Hwf' & Hfit' & Hen' & els & Hels).
  pose proof (described_same _ _ rs rs' Hdes Hdes' Hsame) as Hsg.
  assert (exists start', get_element_verbose (rp_pd s') start' = Some (lit "start", NonTerminal)) as [start' Hst'].
  { destruct (con_start _ _ Hcon) as [r Hr]. pose proof (proj2 (Hst start) eq_refl) as Hv.
    destruct (alts_exist pd r start (described_proper pd rs Hdes) Hr) as [alts Halts].
    destruct (proj1 Hsg (lit "start") alts (instruction r)) as (_ & _ & A' & _ & HA' & _); [exists start, r; auto|]. eauto. }
  assert (constructible (rp_pd s') start') as Hcon'.
  { eapply (constructible_fwd pd (rp_pd s') start start'); eauto using described_proper, described_unique.
    exists (lit "start", NonTerminal). split; [apply Hst; reflexivity|assumption]. }
  apply (C26_construction H' m' vm fl' (rp_pd s') start' Hwf' Hfit' Hen') in Hcon' as [ps' Hps'].
  exists ps'. apply new_from_text_ok. exists s', start', els. split; [assumption|]. split; [|auto].
  apply (de_numbers _ _ Hdes') in Hst'. exact Hst'.
Qed.
Theorem C56_texts : forall (U : Unicode) (H H' : HashOrder) m m' (vm : VM) reads fl fl' rs rs' t t', supported vm reads -> tables_disjoint ->
  grammar_text reads rs t -> no_ignore rs -> (N.of_nat (length t) < 2 ^ 63)%N -> enough_for_text fl t ->
  grammar_text reads rs' t' -> no_ignore rs' -> (N.of_nat (length t') < 2 ^ 63)%N -> enough_for_text fl' t' ->
  same_text_rules rs rs' ->
  ((exists ps, @new_from_text U H m vm fl t = Ok ps) <-> (exists ps', @new_from_text U H' m' vm fl' t' = Ok ps')) /\
  (forall ps ps', @new_from_text U H m vm fl t = Ok ps -> @new_from_text U H' m' vm fl' t' = Ok ps' ->
   forall fuel text v, same_result (@parse H vm ps fuel text v) (@parse H' vm ps' fuel text v)).
Proof.
  intros U H H' m m' vm reads fl fl' rs rs' t t' Hs Hd Ht Hno Hlen Hfl Ht' Hno' Hlen' Hfl' Hsame. split; [split|].
  - intros [ps Hps]. eapply (@text_buildable U H H' m m' vm reads fl fl' rs rs'); eassumption.
  - intros [ps Hps]. eapply (@text_buildable U H' H m' m vm reads fl' fl rs' rs); try eassumption. apply same_text_rules_sym. assumption.
  - intros ps ps' Hps Hps' fuel text v.
    destruct (@text_built U H m vm reads fl rs t ps Hs Hd Ht Hno Hlen Hfl Hps) as (pd & start & Hdes & Hst & Hb).
    destruct (@text_built U H' m' vm reads fl' rs' t' ps' Hs Hd Ht' Hno' Hlen' Hfl' Hps') as (pd' & start' & Hdes' & Hst' & Hb').
    eapply (C56_same_results H H'); eauto using described_unique, described_same.
Qed.
Print Assumptions C56_texts.

(** ** Non-vacuity: two texts of the same grammar with rules and alternatives moved. *)
Section example.
Local Existing Instance ascii_unicode.
Definition one_letter (x : str) (c : char) : arule (vm_instr NullVm) := mkARule x OvAbsent [[([c], Terminal)]] [].
Lemma one_letter_text x c : valid_name x -> c <> 34%N -> c <> 92%N ->
  rule_text null_reads (one_letter x c) (x ++ lit "->" ++ 34%N :: c :: lit """;").
Proof.
  intros Hx Hc1 Hc2. apply (rule_intro null_reads (one_letter x c) [] [] [] [] [] [] (34%N :: [c] ++ [34%N]) []); try (constructor; fail); try assumption.
  apply alts_one, alt_elements, els_one, el_quoted. apply qb_plain; auto using qb_nil.
Qed.
Lemma two_names : valid_name (lit "start") /\ valid_name (lit "w").
Proof. split; (split; [reflexivity|repeat constructor]). Qed.
Definition text1 : str := lit "start->""a"";w->""c"";start->""b"";".
Definition text2 : str := lit "w->""c"";start->""b"";start->""a"";".
Definition rules1 := [one_letter (lit "start") 97; one_letter (lit "w") 99; one_letter (lit "start") 98].
Definition rules2 := [one_letter (lit "w") 99; one_letter (lit "start") 98; one_letter (lit "start") 97].
Example C56_example : grammar_text null_reads rules1 text1 /\ grammar_text null_reads rules2 text2 /\ no_ignore rules1 /\ no_ignore rules2 /\
  same_text_rules rules1 rules2 /\ (exists ps, @new_from_text _ plain_order Checked NullVm (mkFuels 40 1500) text1 = Ok ps) /\
  enough_for_text (mkFuels 40 1500) text1 /\ enough_for_text (mkFuels 40 1500) text2.
Proof.
  destruct two_names as [Hs Hw].
  assert (forall x c rs t, valid_name x -> c <> 34%N -> c <> 92%N -> grammar_text null_reads rs t ->
    grammar_text null_reads (one_letter x c :: rs) ((x ++ lit "->" ++ 34%N :: c :: lit """;") ++ t)) as Hcons.
  { intros x c rs t Hx H1 H2 Hr. apply (gr_cons null_reads _ _ []); [constructor|apply one_letter_text; assumption|assumption]. }
  assert (grammar_text null_reads ([] : list (arule (vm_instr NullVm))) []) as Hnil by (apply gr_end; constructor).
  split; [|split; [|split; [|split; [|split; [|split]]]]].
  - apply (Hcons (lit "start") 97%N); try assumption; try discriminate. apply (Hcons (lit "w") 99%N); try assumption; try discriminate.
    apply (Hcons (lit "start") 98%N _ []); try assumption; discriminate.
  - apply (Hcons (lit "w") 99%N); try assumption; try discriminate. apply (Hcons (lit "start") 98%N); try assumption; try discriminate.
    apply (Hcons (lit "start") 97%N _ []); try assumption; discriminate.
  - intros r x Hr. unfold rules1 in Hr. repeat (apply elem_of_cons in Hr as [->|Hr]; [discriminate|]). inversion Hr.
  - intros r x Hr. unfold rules2 in Hr. repeat (apply elem_of_cons in Hr as [->|Hr]; [discriminate|]). inversion Hr.
  - intros x. unfold rules_for, rules1, rules2. destruct (decide (x = lit "start")) as [->|N1]; [vm_compute; split; [constructor|reflexivity]|].
    destruct (decide (x = lit "w")) as [->|N2]; [vm_compute; split; [reflexivity|reflexivity]|].
    repeat (rewrite filter_cons_False by (cbn [ar_name one_letter]; congruence)). exact Logic.I.
  - assert (forall r : outcome Empty_set (Parser (vm_instr NullVm)), is_ok r = true -> exists ps, r = Ok ps) as Hok by (intros [ps| | |]; [eauto|discriminate..]).
    apply Hok. vm_compute. reflexivity.
  - split; (split; cbn [first_fuel follow_fuel]; apply Nat.leb_le || apply Nat.ltb_lt; vm_compute; reflexivity).
Qed.
End example.
