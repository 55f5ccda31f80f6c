(** * Property theorems: C56 for texts with IGNORE overrides.  Two texts that say the same
    about every name (SpecLanguage.v: alternatives after repeated definitions are joined and
    ignored elements are put in place) give the same parser. *)
From Verif Require Import Base Peekables Tree Errors Sets ParserData Vm SimpleStackVm StackVm RuleParsing FirstSets FollowSets SteuerMap ScriptParser
  SpecText SpecData SpecGrammar SpecParser SpecTree SpecScript SpecContract SpecWeave SpecRules SpecNames SpecLanguage Grammar_proofs Construct_proofs Checks Tree_proofs Script_proofs Parse_proofs
  Weave_proofs Names_proofs RuleBuild_proofs RuleText_proofs Language_proofs Props_steuer Props_script Props_weave Props_rules Props_vm Props_names Props_language Samples.

(** [alts] are the alternatives of [x], in order. *)
Definition lists {I} (rs : list (arule I)) (x : str) (alts : list (list (str * ElementType))) : Prop :=
  forall i w, alts !! i = Some w <-> says rs x i w.
(** Two grammars say the same: they define the same names, with the same alternatives in
    some order, and with the same instructions. *)
Definition same_meaning {I} (rs rs' : list (arule I)) : Prop := forall x,
  (defined rs x <-> defined rs' x) /\ instructions_for rs x = instructions_for rs' x /\
  forall alts alts', lists rs x alts -> lists rs' x alts' -> alts ≡ₚ alts'.

Lemma same_meaning_sym {I} (rs rs' : list (arule I)) : same_meaning rs rs' -> same_meaning rs' rs.
Proof. intros Hs x. destruct (Hs x) as (H1 & H2 & H3). split; [tauto|]. split; [congruence|]. intros a a' Ha Ha'. symmetry. auto. Qed.

(** Either nothing is ignored, or one name. *)
Lemma ignores_dec {I} (rs : list (arule I)) x : (forall y, ~ ignores rs x y) \/ exists y, ignores rs x y /\ forall z, ignores rs x z -> z = y.
Proof.
  unfold ignores. destruct (rules_for x rs) as [|r0 more]; [left; intros y (? & ? & E & _); discriminate|].
  destruct (ar_override r0) as [| |y|y] eqn:Ho; try (left; intros z (r & m & [= <- <-] & E); congruence).
  right. exists y. split; [eauto|]. intros z (r & m & [= <- <-] & E). congruence.
Qed.
(** What [x] says, once it is known whether the ignored element contains it. *)
Lemma lists_cases {I} (rs : list (arule I)) x :
  ((forall y, ignores rs x y -> inside rs y x) -> lists rs x (alternatives_for rs x)) /\
  (forall y, ignores rs x y -> ~ inside rs y x -> lists rs x (map (interleave (y, NonTerminal)) (alternatives_for rs x))).
Proof.
  split.
  - intros Hin i w. split; [intros Hw; apply says_plain; assumption|]. intros [w0 Hw _|w0 y Hw Hy Hno]; [assumption|]. destruct (Hno (Hin y Hy)).
  - intros y Hy Hno i w. rewrite list_lookup_fmap. split.
    + destruct (alternatives_for rs x !! i) as [w0|] eqn:E; [|discriminate]. intros [= <-]. apply says_woven; assumption.
    + intros [w0 Hw Hall|w0 z Hw Hz _]; [destruct (Hno (Hall y Hy))|]. rewrite Hw. cbn.
      destruct (ignores_dec rs x) as [Hn|(z' & _ & Hu)]; [destruct (Hn y Hy)|]. rewrite (Hu y Hy), (Hu z Hz). reflexivity.
Qed.
Lemma lists_unique {I} (rs : list (arule I)) x a b : lists rs x a -> lists rs x b -> a = b.
Proof.
  intros Ha Hb. apply list_eq. intros i. destruct (a !! i) as [w|] eqn:Ea.
  - apply Ha, Hb in Ea. congruence.
  - destruct (b !! i) as [w|] eqn:Eb; [|reflexivity]. apply Hb, Ha in Eb. congruence.
Qed.
Lemma lists_nn {I} (rs : list (arule I)) x : ~ ~ exists alts, lists rs x alts.
Proof.
  intros Hno. destruct (lists_cases rs x) as [H1 H2]. destruct (ignores_dec rs x) as [Hn|(y & Hy & Hu)].
  - apply Hno. eexists. apply H1. intros y Hy. destruct (Hn y Hy).
  - assert (~ inside rs y x) as Hni. { intros Hi. apply Hno. eexists. apply H1. intros z Hz. rewrite (Hu z Hz). assumption. }
    apply Hno. eexists. apply (H2 y); assumption.
Qed.

(** moving rules and alternatives around keeps what is said *)
Lemma moved_alternatives {I} (rs rs' : list (arule I)) x : same_text_rules rs rs' -> alternatives_for rs x ≡ₚ alternatives_for rs' x.
Proof.
  intros Hs. specialize (Hs x). unfold alternatives_for. destruct (rules_for x rs), (rules_for x rs'); try contradiction; [reflexivity|]. apply Hs.
Qed.
Lemma moved_inside {I} (rs rs' : list (arule I)) y x : same_text_rules rs rs' -> inside rs y x -> inside rs' y x.
Proof.
  intros Hs [Hd Hr]. split.
  - unfold defined in *. specialize (Hs y). destruct (rules_for y rs), (rules_for y rs'); try contradiction; auto; discriminate.
  - clear Hd. induction Hr as [|y z x (w & Hw & Hz) _ IH]; [apply rtc_refl|]. eapply rtc_l; [|exact IH]. exists w. split; [|assumption].
    rewrite <- (moved_alternatives rs rs' y Hs). assumption.
Qed.
Theorem C56_moved_rules_say_the_same : forall I (rs rs' : list (arule I)),
  same_text_rules rs rs' -> (forall x y, ignores rs x y <-> ignores rs' x y) -> same_meaning rs rs'.
Proof.
  intros I rs rs' Hs Hig x. pose proof (Hs x) as Hx. pose proof (same_text_rules_sym rs rs' Hs) as Hs'. split; [|split].
  - unfold defined. destruct (rules_for x rs), (rules_for x rs'); try contradiction; [tauto|]. split; discriminate.
  - unfold instructions_for. destruct (rules_for x rs), (rules_for x rs'); try contradiction; [reflexivity|]. apply Hx.
  - intros a a' Ha Ha'. destruct (decide (a ≡ₚ a')) as [|Hne]; [assumption|exfalso].
    pose proof (moved_alternatives rs rs' x Hs) as Hp. destruct (lists_cases rs x) as [H1 H2], (lists_cases rs' x) as [H1' H2'].
    assert (forall b b', b ≡ₚ b' -> lists rs x b -> lists rs' x b' -> False) as Hend.
    { intros b b' Hbb Hb Hb'. apply Hne. rewrite (lists_unique rs x a b Ha Hb), (lists_unique rs' x a' b' Ha' Hb'). assumption. }
    destruct (ignores_dec rs x) as [Hn|(y & Hy & Hu)].
    + apply (Hend _ _ Hp); [apply H1|apply H1']; intros y Hy; exfalso; [|apply Hig in Hy]; exact (Hn y Hy).
    + assert (~ inside rs y x) as Hni.
      { intros Hi. apply (Hend _ _ Hp); [apply H1|apply H1']; intros z Hz; [|apply Hig in Hz]; rewrite (Hu z Hz); [assumption|]. eapply moved_inside; eassumption. }
      eapply Hend; [|apply (H2 y); assumption|apply (H2' y)]; [apply fmap_Permutation; assumption|apply Hig; assumption|].
      intros Hi. apply Hni. eapply moved_inside; eassumption.
Qed.
Print Assumptions C56_moved_rules_say_the_same.

(** the data of two texts that say the same *)
Section data.
Context {vm : VM} (pd pd' pe pe' : ParserData (vm_instr vm)) (rs rs' : list (arule (vm_instr vm))).
Hypothesis (Hd : described pd rs) (Hed : edited_data pd pe) (Hd' : described pd' rs') (Hed' : edited_data pd' pe').

Lemma rule_lists (qd qe : ParserData (vm_instr vm)) qs A r x : described qd qs -> edited_data qd qe -> get_element_verbose qe A = Some (x, NonTerminal) -> pd_rules qe !! A = Some r ->
  exists alts, lists qs x alts /\ Forall2 (fun a p => called qe a (right_side p)) alts (possible_productions r) /\ instruction r = instructions_for qs x.
Proof.
  intros Hq Hqe HA Hr. rewrite (ed_verbose qd qe Hqe) in HA. pose proof (fun i => says_rule qd qe qs Hq Hqe A r x i HA Hr) as Hsay.
  assert (forall ps k, (forall i p, ps !! i = Some p -> possible_productions r !! (k + i) = Some p) ->
    exists alts, Forall2 (fun a p => called qe a (right_side p)) alts ps /\ forall i w, alts !! i = Some w -> says qs x (k + i) w) as Hgo.
  { induction ps as [|p ps IH]; intros k Hk; [exists []; split; [constructor|intros i w Hw; discriminate]|].
    destruct (IH (S k)) as (alts & Hf & Hs). { intros i q Hq'. replace (S k + i) with (k + S i) by lia. apply Hk. exact Hq'. }
    pose proof (Hk 0 p eq_refl) as Hp. rewrite Nat.add_0_r in Hp. destruct (proj1 (proj2 (Hsay k)) p Hp) as (w & Hw & Hst).
    exists (w :: alts). split.
    - constructor; [|assumption]. apply stands_called in Hst. tauto.
    - intros [|i] w' Hw'; [rewrite Nat.add_0_r; injection Hw' as <-; assumption|]. replace (k + S i) with (S k + i) by lia. apply Hs. exact Hw'. }
  destruct (Hgo (possible_productions r) 0) as (alts & Hf & Hs); [auto|]. exists alts. split; [|split; [assumption|apply (Hsay 0)]].
  intros i w. split; [apply Hs|]. intros Hw. destruct (proj1 (Hsay i) w Hw) as (p & Hp & _).
  destruct (Forall2_lookup_r _ _ _ _ _ Hf Hp) as (w' & Hw' & _). rewrite Hw'. apply Hs in Hw'. cbn in Hw'. f_equal.
  destruct Hw as [w Hw Hall|w y Hw Hy Hno], Hw' as [w' Hw' Hall'|w' y' Hw' Hy' Hno'].
  - congruence.
  - destruct (Hno' (Hall _ Hy')).
  - destruct (Hno (Hall' _ Hy)).
  - destruct (ignores_dec qs x) as [Hn|(z & _ & Hu)]; [destruct (Hn y Hy)|]. rewrite (Hu y Hy), (Hu y' Hy'). congruence.
Qed.
Lemma same_half : same_meaning rs rs' -> forall x alts is, rule_named pe x alts is -> exists alts', alts' ≡ₚ alts /\ rule_named pe' x alts' is.
Proof.
  intros Hs x alts is (A & r & HA & Hr & Hf & Hi). destruct (rule_lists pd pe rs A r x Hd Hed HA Hr) as (b & Hb & Hfb & Hib).
  assert (alts = b) as ->.
  { clear -Hf Hfb. revert b Hfb. induction Hf as [|a p l ps Ha _ IH]; intros b Hb; inversion Hb as [|a' ? l' ? Ha' Hl]; subst; [reflexivity|].
    f_equal; [eapply called_unique; eauto|auto]. }
  destruct (Hs x) as (H1 & H2 & H3).
  assert (defined rs x) as Hdx. { rewrite (ed_verbose pd pe Hed) in HA. apply (has_rule_defined pd rs Hd A x HA). apply (edd_domain _ _ Hed). eexists. exact Hr. }
  apply H1 in Hdx. destruct (defined_element pd' rs' Hd' x Hdx) as (A' & HA' & Hr'). rewrite <- (ed_verbose pd' pe' Hed') in HA'.
  apply (edd_domain _ _ Hed') in Hr' as [r' Hr']. destruct (rule_lists pd' pe' rs' A' r' x Hd' Hed' HA' Hr') as (b' & Hb' & Hfb' & Hib').
  exists b'. split; [symmetry; auto|]. exists A', r'. split; [assumption|]. split; [assumption|]. split; [assumption|congruence].
Qed.
Lemma edited_proper : proper pe.
Proof.
  split.
  - intros A r p Hr Hp. destruct (rule_element pd pe rs Hd Hed A) as [x Hx]; [eexists; exact Hr|]. apply elem_of_list_lookup in Hp as [i Hi].
    destruct (proj1 (proj2 (says_rule pd pe rs Hd Hed A r x i Hx Hr)) p Hi) as (w & _ & Hw). apply stands_called in Hw. tauto.
  - intros A w e Ha He. destruct (rule_element pd pe rs Hd Hed A) as [x Hx]; [destruct Ha as (r & p & Hr & _); eexists; exact Hr|].
    destruct (alternative_says pd pe rs Hd Hed A x w Hx Ha) as (i & n & _ & Hc). apply elem_of_list_lookup in He as [j Hj].
    destruct (Forall2_lookup_r _ _ _ _ _ Hc Hj) as (v & _ & Hv). eauto.
Qed.
End data.

(** ** C56 for texts with IGNORE overrides *)
Lemma meaning_parsable {vm : VM} (rs rs' : list (arule (vm_instr vm))) : same_meaning rs rs' -> parsable rs -> forall x y, uses rs' x y -> defined rs' y.
Proof.
  intros Hs Hp x y (w & Hw & Hy) Hund. apply (lists_nn rs x). intros [a Ha]. apply (lists_nn rs' x). intros [a' Ha'].
  destruct (Hs x) as (_ & _ & Hperm). specialize (Hperm a a' Ha Ha'). apply elem_of_list_lookup in Hw as [i Hi].
  assert (~ exists w', says rs' x i w' /\ (y, NonTerminal) ∈ w') as Hno.
  { intros (w' & Hw' & Hy'). apply Ha' in Hw'. assert (w' ∈ a) as Hin by (rewrite Hperm; apply elem_of_list_lookup; eauto).
    apply elem_of_list_lookup in Hin as [j Hj]. apply Ha in Hj. assert (defined rs y) as Hdy.
    { destruct (says_elem rs x j w' (y, NonTerminal) Hj Hy') as [(w0 & Hw0 & Hy0)|(z & Hz & [= ->])].
      - apply (pa_defined rs Hp x). exists w0. auto.
      - apply (pa_ignored rs Hp x z Hz). }
    apply (Hs y) in Hdy. exact (Hdy Hund). }
  destruct (ignores_dec rs' x) as [Hn|(z & Hz & Hu)].
  - apply Hno. exists w. split; [|assumption]. apply says_plain; [assumption|]. intros z Hz. destruct (Hn z Hz).
  - assert (~ inside rs' z x) as Hni.
    { intros Hi'. apply Hno. exists w. split; [|assumption]. apply says_plain; [assumption|]. intros z' Hz'. rewrite (Hu z' Hz'). assumption. }
    apply Hno. exists (interleave (z, NonTerminal) w). split; [apply says_woven; assumption|]. apply elem_interleave. assumption.
Qed.
Section texts.
Context {U : Unicode} (vm : VM) (reads : str -> str -> list (vm_instr vm) -> Prop).
Hypothesis (Hs : supported vm reads) (Htab : tables_disjoint).
(** the data read from a text without missing names *)
Lemma text_edited (H : HashOrder) rs t fl : grammar_text reads rs t -> (N.of_nat (length t) < 2 ^ 63)%N -> enough_for_text fl t ->
  (forall x y, uses rs x y -> defined rs y) -> (forall x y, ignores rs x y -> defined rs y) ->
  exists pd pe, described pd rs /\ edited_data pd pe /\ wf_grammar pe /\
    forall m ps, new_from_text m vm fl t = Ok ps -> exists start, start_element pe start /\ built m vm fl pe start ps.
Proof.
  intros Ht Hlen Hfl Hu Hg. pose proof (parse_rendering vm reads (supported_reads vm reads Hs) rs t Htab Ht) as E.
  pose proof (data_described vm rs) as Hdes. pose proof (data_wf vm rs) as Hwf0. pose proof (data_indices vm rs) as Hix.
  pose proof (C15_edited_rules H vm _ Hwf0 Hix) as Hed. destruct (parsable_edits _ rs Hwf0 Hix Hdes Hu Hg) as [pe Hpe]. rewrite Hpe in *.
  destruct (text_data vm reads t _ fl Hs Hlen Hfl E) as (Hwf & Hfit & _). cbn [rp_pd] in *.
  exists (fold_left (build_rule vm) rs pd_new), pe. split; [assumption|]. split; [assumption|]. split; [assumption|].
  intros m ps Hps. apply new_from_text_ok in Hps as (s & start & els & E' & Est & _ & Hnew). rewrite E in E'. injection E' as <-. cbn [rp_pd] in *.
  exists start. split; [|split; auto]. intros e. rewrite (ed_verbose _ _ Hed). rewrite <- (de_numbers _ _ Hdes). unfold get_element_nt_index in Est.
  assert (get_element_index (fold_left (build_rule vm) rs pd_new) (lit "start", NonTerminal) = Some start) as E2.
  { unfold get_element_index in *. rewrite <- (edd_index _ _ Hed). exact Est. }
  rewrite E2. split; [congruence|intros ->; reflexivity].
Qed.
Lemma meaning_transfer (H H' : HashOrder) fl fl' rs rs' t t' : grammar_text reads rs t -> (N.of_nat (length t) < 2 ^ 63)%N -> enough_for_text fl t ->
  grammar_text reads rs' t' -> (N.of_nat (length t') < 2 ^ 63)%N -> enough_for_text fl' t' ->
  same_meaning rs rs' -> (forall x y, ignores rs' x y -> defined rs' y) -> parsable rs -> parsable rs'.
Proof.
  intros Ht Hlen Hfl Ht' Hlen' Hfl' Hsame Hig' Hp. pose proof (meaning_parsable rs rs' Hsame Hp) as Hu'.
  destruct (text_edited H rs t fl Ht Hlen Hfl (pa_defined _ Hp) (pa_ignored _ Hp)) as (pd & pe & Hd & Hed & Hwf & _).
  destruct (text_edited H' rs' t' fl' Ht' Hlen' Hfl' Hu' Hig') as (pd' & pe' & Hd' & Hed' & Hwf' & _).
  destruct (defined_element pd rs Hd _ (pa_start rs Hp)) as (start & Hst & _). rewrite <- (ed_verbose pd pe Hed) in Hst.
  destruct (defined_element pd' rs' Hd' (lit "start")) as (start' & Hst' & _); [apply Hsame, (pa_start rs Hp)|]. rewrite <- (ed_verbose pd' pe' Hed') in Hst'.
  apply (constructible_parsable pd' pe' rs' Hd' Hed' start' Hst' Hig').
  apply (constructible_fwd pe pe' start start'); eauto using edited_proper, ed_unique.
  - split; [apply (same_half pd pd' pe pe' rs rs')|apply (same_half pd' pd pe' pe rs' rs)]; auto using same_meaning_sym.
  - exists (lit "start", NonTerminal). auto.
  - apply (constructible_parsable pd pe rs Hd Hed start Hst (pa_ignored _ Hp)). assumption.
Qed.
End texts.
(** A parser can be built from one text iff from the other (if no undefined name is
    ignored), and the parsers agree on every script. *)
Theorem C56_same_meaning : forall (U : Unicode) (H H' : HashOrder) m m' (vm : VM) reads fl fl' rs rs' t t', supported vm reads -> tables_disjoint ->
  grammar_text reads rs t -> (N.of_nat (length t) < 2 ^ 63)%N -> enough_for_text fl t ->
  grammar_text reads rs' t' -> (N.of_nat (length t') < 2 ^ 63)%N -> enough_for_text fl' t' ->
  same_meaning rs rs' ->
  ((forall x y, ignores rs x y -> defined rs y) -> (forall x y, ignores rs' x y -> defined rs' y) ->
   (exists ps, @new_from_text U H m vm fl t = Ok ps) <-> (exists ps', @new_from_text U H' m' vm fl' t' = Ok ps')) /\
  (forall ps ps', @new_from_text U H m vm fl t = Ok ps -> @new_from_text U H' m' vm fl' t' = Ok ps' ->
   forall fuel text v, same_result (@parse H vm ps fuel text v) (@parse H' vm ps' fuel text v)).
Proof.
  intros U H H' m m' vm reads fl fl' rs rs' t t' Hs Hd Ht Hlen Hfl Ht' Hlen' Hfl' Hsame. split.
  - intros Hig Hig'. rewrite (C58_buildable_iff_parsable U H m vm reads rs t fl Hs Hd Ht Hlen Hfl), (C58_buildable_iff_parsable U H' m' vm reads rs' t' fl' Hs Hd Ht' Hlen' Hfl').
    split; [eapply (meaning_transfer vm reads Hs Hd H H')|eapply (meaning_transfer vm reads Hs Hd H' H)]; eauto using same_meaning_sym.
  - intros ps ps' Hps Hps' fuel text v.
    destruct (@read_from_built U H m vm rs t ps) as (pd & pe & start & f1 & D1 & E1 & S1 & B1 & _); [exists reads, fl; auto 10|].
    destruct (@read_from_built U H' m' vm rs' t' ps') as (pd' & pe' & start' & f2 & D2 & E2 & S2 & B2 & _); [exists reads, fl'; auto 10|].
    apply (C56_same_results H H' m m' vm f1 f2 pe pe' start start'); eauto using ed_unique.
    split; [apply (same_half pd pd' pe pe' rs rs')|apply (same_half pd' pd pe' pe rs' rs)]; auto using same_meaning_sym.
Qed.
Print Assumptions C56_same_meaning.

(** ** Non-vacuity: the text with the IGNORE override of C57_example, and the same grammar
    with the ignored element written out and the alternatives of ws exchanged. *)
Section example.
Local Existing Instance ascii_unicode.
Definition ex_rules : list (arule (vm_instr NullVm)) :=
  [mkARule (lit "ws") OvAbsent [[]; [(lit " ", Terminal)]] [];
   mkARule (lit "start") OvAbsent [[(lit "a", Terminal); (lit "ws", NonTerminal); (lit "b", Terminal)]] []].
Definition ex_text : str := lit "ws->#|"" "";start->""a""ws""b"";".
Lemma ex_text_ok : grammar_text null_reads ex_rules ex_text.
Proof.
  apply (gr_cons null_reads _ (lit "ws->#|"" "";") [] _ (lit "start->""a""ws""b"";")); [constructor| |].
  - apply (rule_intro null_reads (mkARule (lit "ws") OvAbsent [[]; [(lit " ", Terminal)]] []) [] [] [] [] []
      [] (lit "#|"" """) []); try (constructor; fail); try (split; [reflexivity|repeat constructor]).
    apply (alts_cons _ (lit "#") [] [] _ (lit """ """)); [apply alt_empty|constructor..|apply alts_one, alt_elements, els_one, one_quoted; discriminate].
  - apply (gr_cons null_reads _ (lit "start->""a""ws""b"";") [] _ []); [constructor| |apply gr_end; constructor].
    apply (rule_intro null_reads (mkARule (lit "start") OvAbsent [[(lit "a", Terminal); (lit "ws", NonTerminal); (lit "b", Terminal)]] []) [] [] [] [] []
      [] (lit """a""ws""b""") []); try (constructor; fail); try (split; [reflexivity|repeat constructor]).
    apply alts_one, alt_elements, (els_cons _ (lit """a""") [] _ (lit "ws""b""")); [apply one_quoted; discriminate|constructor| |discriminate].
    apply (els_cons _ (lit "ws") [] _ (lit """b""")); [apply el_name; split; [reflexivity|repeat constructor]|constructor|apply els_one, one_quoted; discriminate|].
    intros _ [E|E]; vm_compute in E; discriminate.
Qed.
Lemma ex_meaning : same_meaning ig_rules ex_rules.
Proof.
  assert (forall x y, ignores ex_rules x y -> False) as Hno.
  { intros x y (r0 & more & E & Ho). assert (r0 ∈ rules_for x ex_rules) as Hin by (rewrite E; left). apply elem_of_list_filter in Hin as [_ Hin].
    apply elem_of_cons in Hin as [->|Hin]; [discriminate|]. apply elem_of_list_singleton in Hin as ->. discriminate. }
  assert (~ inside ig_rules (lit "ws") (lit "start")) as Hni.
  { intros [_ Hr]. assert (forall y, rtc (uses ig_rules) (lit "ws") y -> y = lit "ws") as Hws.
    { intros y Hy. inversion Hy as [|x z y' Hu _]; subst; [reflexivity|]. destruct Hu as (w & Hw & Hz).
      change (w ∈ [[(lit " ", Terminal)]; []]) in Hw. repeat (apply elem_of_cons in Hw as [->|Hw]; [repeat (apply elem_of_cons in Hz as [Hz|Hz]; [discriminate|]); inversion Hz|]). inversion Hw. }
    apply Hws in Hr. discriminate. }
  assert (forall x, lists ex_rules x (alternatives_for ex_rules x)) as Hex by (intros x; apply lists_cases; intros y Hy; destruct (Hno x y Hy)).
  intros x. destruct (decide (x = lit "start")) as [->|N1]; [|destruct (decide (x = lit "ws")) as [->|N2]].
  - split; [split; vm_compute; discriminate|]. split; [reflexivity|]. intros a a' Ha Ha'.
    rewrite (lists_unique _ _ _ _ Ha' (Hex _)). rewrite (lists_unique _ _ _ _ Ha (proj2 (lists_cases ig_rules (lit "start")) (lit "ws") (ex_intro _ _ (ex_intro _ _ (conj eq_refl eq_refl))) Hni)).
    vm_compute. reflexivity.
  - split; [split; vm_compute; discriminate|]. split; [reflexivity|]. intros a a' Ha Ha'.
    rewrite (lists_unique _ _ _ _ Ha' (Hex _)).
    assert (lists ig_rules (lit "ws") (alternatives_for ig_rules (lit "ws"))) as Hl.
    { apply lists_cases. intros y (r0 & more & E & Ho). change (rules_for (lit "ws") ig_rules) with [mkARule (lit "ws") OvAbsent [[(lit " ", Terminal)]; []] ([] : list (vm_instr NullVm))] in E. injection E as <- <-. discriminate. }
    rewrite (lists_unique _ _ _ _ Ha Hl). vm_compute. apply perm_swap.
  - assert (rules_for x ig_rules = [] /\ rules_for x ex_rules = []) as [E1 E2].
    { unfold rules_for, ig_rules, ex_rules. split; repeat (rewrite filter_cons_False; [|cbn [ar_name]; congruence]); reflexivity. }
    unfold defined, instructions_for. rewrite E1, E2. split; [tauto|]. split; [reflexivity|]. intros a a' Ha Ha'.
    assert (forall (r : list (arule (vm_instr NullVm))) b, rules_for x r = [] -> lists r x b -> b = []) as Hnil.
    { intros r b Er Hb. destruct b as [|w b]; [reflexivity|]. assert (says r x 0 w) as Hw by (apply Hb; reflexivity).
      assert (alternatives_for r x = []) as Ea by (unfold alternatives_for; rewrite Er; reflexivity). destruct Hw as [w Hw|w y Hw]; rewrite Ea in Hw; discriminate. }
    rewrite (Hnil _ _ E1 Ha), (Hnil _ _ E2 Ha'). reflexivity.
Qed.
Example C56_meaning_example : grammar_text null_reads ig_rules ig_text /\ grammar_text null_reads ex_rules ex_text /\ same_meaning ig_rules ex_rules /\
  ignores ig_rules (lit "start") (lit "ws") /\ (forall x y, ~ ignores ex_rules x y) /\
  (exists ps, @new_from_text _ plain_order Checked NullVm (mkFuels 60 2200) ig_text = Ok ps) /\
  enough_for_text (mkFuels 60 2200) ig_text /\ enough_for_text (mkFuels 60 2200) ex_text.
Proof.
  split; [apply ig_text_ok|]. split; [apply ex_text_ok|]. split; [apply ex_meaning|]. split; [eexists _, _; split; reflexivity|]. split.
  - intros x y (r0 & more & E & Ho). assert (r0 ∈ rules_for x ex_rules) as Hin by (rewrite E; left). apply elem_of_list_filter in Hin as [_ Hin].
    apply elem_of_cons in Hin as [->|Hin]; [discriminate|]. apply elem_of_list_singleton in Hin as ->. discriminate.
  - split; [|split; split; cbn [first_fuel follow_fuel]; apply Nat.leb_le || apply Nat.ltb_lt; vm_compute; reflexivity].
    assert (forall r : outcome Empty_set (Parser (vm_instr NullVm)), is_ok r = true -> exists ps, r = Ok ps) as Hok by (intros [ps| | |]; [eauto|discriminate..]).
    apply Hok. vm_compute. reflexivity.
Qed.
End example.
