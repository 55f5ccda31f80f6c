(** * Property theorems: instructions and VMs do not influence the syntax analysis (C73) *)
From Verif Require Import Base Peekables Tree Errors Sets ParserData Vm SimpleStackVm StackVm RuleParsing FirstSets FollowSets SteuerMap ScriptParser
  SpecText SpecData SpecGrammar SpecParser SpecTree SpecScript SpecContract SpecWeave SpecRules SpecNames SpecLanguage SpecSyntax Grammar_proofs Construct_proofs Checks Tree_proofs Script_proofs Parse_proofs
  Weave_proofs Names_proofs RuleBuild_proofs RuleText_proofs Language_proofs Syntax_proofs Bare_proofs
  Props_steuer Props_script Props_weave Props_rules Props_vm Props_names Props_language Props_same SpecMath Math_proofs Props_math Props_rpn Props_examples Samples.

(** ** Built with the API: two grammars with the same elements and the same productions.
    Their instructions, and even their VMs, may be different. *)
Theorem C73_same_buildable : forall (H H' : HashOrder) m m' (vm vm' : VM) fl fl' (pd : ParserData (vm_instr vm)) (pd' : ParserData (vm_instr vm')) start,
  same_productions pd pd' -> wf_grammar pd -> fits_memory pd -> enough fl pd -> enough fl' pd' ->
  (exists ps, @new_from_parser_data H m vm fl pd start = Ok ps) <-> (exists ps', @new_from_parser_data H' m' vm' fl' pd' start = Ok ps').
Proof.
  intros H H' m m' vm vm' fl fl' pd pd' start Hs Hwf Hfit Hen Hen'.
  rewrite (proj1 (@C26_construction H m vm fl pd start Hwf Hfit Hen)).
  rewrite (proj1 (@C26_construction H' m' vm' fl' pd' start (sp_wf _ _ Hs Hwf) (sp_fits _ _ Hs Hfit) Hen')).
  split; apply sp_constructible; [|apply sp_sym]; assumption.
Qed.
Print Assumptions C73_same_buildable.

(** The VMs of the crate but StackVm in debug mode, and others, never fail on an
    instruction. *)
Definition never_fails (vm : VM) : Prop := forall t id i v, exists r, vm_execute vm t id i v = Ok r.
(** Unless an instruction fails, the tree or the error is the same. *)
Theorem C73_same_analysis : forall (H : HashOrder) m m' (vm vm' : VM) fl fl' (pd : ParserData (vm_instr vm)) (pd' : ParserData (vm_instr vm')) start ps ps' fuel text v v',
  same_productions pd pd' -> built m vm fl pd start ps -> built m' vm' fl' pd' start ps' -> keeps_tree vm -> keeps_tree vm' ->
  finished (fst (parse vm ps fuel text v)) -> never_fails vm' \/ finished (fst (parse vm' ps' fuel text v')) ->
  fst (parse vm' ps' fuel text v') = fst (parse vm ps fuel text v).
Proof.
  intros H m m' vm vm' fl fl' pd pd' start ps ps' fuel text v v' Hs Hb Hb' Hk Hk' F F'.
  apply built_spec in Hb as (_ & _ & T). apply built_spec in Hb' as (_ & _ & T').
  apply (agree_parse vm vm' Hk Hk' ps ps'); [eapply tables_same; eassumption|assumption|assumption].
Qed.
Print Assumptions C73_same_analysis.

(** What two runs with different VMs have in common, if they finish: the same tree, or the
    same error up to the order of a listing. *)
Definition same_outcome (x y : outcome ParserError (Tree str)) : Prop :=
  match x, y with
  | Ok t, Ok t' => t = t'
  | Err e, Err e' => same_error e e'
  | _, _ => False
  end.
Lemma same_syntax_sym {I I'} (rs : list (arule I)) (rs' : list (arule I')) : same_syntax rs rs' -> same_syntax rs' rs.
Proof. intros Hs x. destruct (Hs x) as [H1 H2]. split; [symmetry; exact H1|]. intros a a' Ha Ha'. symmetry. auto. Qed.
Lemma null_quiet : quiet NullVm. Proof. intros t id i v. eexists. reflexivity. Qed.
Notation N0 := (vm_instr NullVm).
Definition large {I} (pd : ParserData I) : fuels := mkFuels (size (pd_rules pd) + 2) (S (size (pd_rules pd) * (length (element_data pd) + 1))).
Lemma large_enough {I} (pd : ParserData I) : enough (large pd) pd.
Proof. split; cbn; lia. Qed.
Lemma bare_meaning {I I'} (rs : list (arule I)) (rs' : list (arule I')) : same_syntax rs rs' -> same_meaning (I := N0) (map bare rs) (map bare rs').
Proof.
  intros Hs x. destruct (Hs x) as [H1 H2]. split; [rewrite !bare_defined; exact H1|]. split.
  - unfold instructions_for. rewrite !bare_rules_for. destruct (rules_for x rs), (rules_for x rs'); reflexivity.
  - intros a a' Ha Ha'. apply H2; intros i w; [rewrite (Ha i w); apply (bare_says rs)|rewrite (Ha' i w); apply (bare_says rs')].
Qed.
Lemma bare_built {H : HashOrder} m vm fl (pe : ParserData (vm_instr vm)) start ps : built m vm fl pe start ps ->
  exists qs, built m NullVm (large pe) (bare_data pe : ParserData N0) start qs.
Proof.
  intros (Hwf & Hfit & Hps). pose proof (bare_same (J := N0) pe) as Hs.
  assert (constructible pe start) as Hc by (pose proof (construct_spec m vm fl pe start Hwf Hfit) as Hx; rewrite Hps in Hx; tauto).
  assert (enough (large pe) (bare_data pe : ParserData N0)) as Hen.
  { pose proof (large_enough pe) as He. unfold enough in *. rewrite (sp_size _ _ Hs). exact He. }
  destruct (proj2 (proj1 (C26_construction H m NullVm (large pe) (bare_data pe) start (sp_wf _ _ Hs Hwf) (sp_fits _ _ Hs Hfit) Hen))) as [qs Hq].
  - apply (sp_constructible _ _ Hs). assumption.
  - exists qs. split; [apply (sp_wf _ _ Hs); assumption|]. split; [apply (sp_fits _ _ Hs); assumption|assumption].
Qed.
(** ** The same rules by name: element numbers and the order of rules and alternatives do
    not matter either. *)
Lemma bare_named {I J} (pd : ParserData I) (pd' : ParserData J) :
  (forall x alts is, rule_named pd x alts is -> exists alts' is', alts' ≡ₚ alts /\ rule_named pd' x alts' is') ->
  forall x alts is, rule_named (bare_data pd : ParserData N0) x alts is -> exists alts', alts' ≡ₚ alts /\ rule_named (bare_data pd' : ParserData N0) x alts' is.
Proof.
  intros Hs x alts is (A & r & HA & Hr & Hf & Hi). rewrite bare_lookup in Hr. apply fmap_Some in Hr as (q & Hq & ->).
  destruct (Hs x alts (instruction q)) as (alts' & is' & Hp & A' & r' & HA' & Hr' & Hf' & _); [exists A, q; auto|].
  exists alts'. split; [assumption|]. exists A', (bare_ntr r'). split; [exact HA'|]. split; [rewrite bare_lookup, Hr'; reflexivity|]. split; [exact Hf'|exact Hi].
Qed.
Theorem C73_by_name : forall (H H' : HashOrder) m m' (vm vm' : VM) fl fl' (pd : ParserData (vm_instr vm)) (pd' : ParserData (vm_instr vm')) start start' ps ps',
  @built H m vm fl pd start ps -> @built H' m' vm' fl' pd' start' ps' -> start_element pd start -> start_element pd' start' ->
  names_unique pd -> names_unique pd' -> same_named pd pd' -> keeps_tree vm -> keeps_tree vm' ->
  forall fuel text v v', finished (fst (@parse H vm ps fuel text v)) -> finished (fst (@parse H' vm' ps' fuel text v')) ->
  same_outcome (fst (@parse H vm ps fuel text v)) (fst (@parse H' vm' ps' fuel text v')).
Proof.
  intros H H' m m' vm vm' f1 f2 pe pe' start start' ps ps' B1 B2 S1 S2 U1 U2 [Hs1 Hs2] Hk Hk' fuel text v v' F F'.
  destruct (@bare_built H m vm f1 pe start ps B1) as [qs Q]. destruct (@bare_built H' m' vm' f2 pe' start' ps' B2) as [qs' Q'].
  pose proof (@C73_same_analysis H m m vm NullVm _ _ _ _ _ ps qs fuel text v 0%N (bare_same pe) B1 Q Hk null_keeps_tree F (or_introl null_quiet)) as A1.
  pose proof (@C73_same_analysis H' m' m' vm' NullVm _ _ _ _ _ ps' qs' fuel text v' 0%N (bare_same pe') B2 Q' Hk' null_keeps_tree F' (or_introl null_quiet)) as A2.
  assert (same_result (@parse H NullVm qs fuel text 0%N) (@parse H' NullVm qs' fuel text 0%N)) as Hm.
  { apply (C56_same_results H H' m m' NullVm (large pe) (large pe') (bare_data pe) (bare_data pe') start start');
      [exact Q|exact Q'|exact S1|exact S2|exact U1|exact U2|].
    split; apply bare_named; assumption. }
  rewrite <- A1 in F |- *. rewrite <- A2 in F' |- *. clear A1 A2.
  destruct (@parse H NullVm qs fuel text 0%N) as [r1 s1], (@parse H' NullVm qs' fuel text 0%N) as [r2 s2]. cbn [fst] in *.
  destruct Hm as [_ Hm]. destruct r1 as [a1|a1| |], r2 as [a2|a2| |]; cbn in *; try contradiction; try discriminate; [congruence|exact Hm].
Qed.
Print Assumptions C73_by_name.

(** ** Read from texts: two texts for two VMs, with the same names and alternatives (in any
    order, with IGNORE or written out). *)
Lemma texts_named {vm vm' : VM} (pd pe : ParserData (vm_instr vm)) (pd' pe' : ParserData (vm_instr vm')) rs rs' :
  described pd rs -> edited_data pd pe -> described pd' rs' -> edited_data pd' pe' -> same_syntax rs rs' ->
  forall x alts is, rule_named pe x alts is -> exists alts' is', alts' ≡ₚ alts /\ rule_named pe' x alts' is'.
Proof.
  intros D1 E1 D2 E2 Hs x alts is (A & r & HA & Hr & Hf & Hi).
  pose proof (bare_described (J := N0) pd rs D1) as D3. pose proof (bare_described (J := N0) pd' rs' D2) as D4.
  pose proof (bare_edited_data (J := N0) pd pe E1) as E3. pose proof (bare_edited_data (J := N0) pd' pe' E2) as E4.
  destruct (same_half (vm := NullVm) _ _ _ _ _ _ D3 E3 D4 E4 (bare_meaning rs rs' Hs) x alts []) as (alts' & Hp & A' & r' & HA' & Hr' & Hf' & _).
  { exists A, (bare_ntr r). split; [exact HA|]. split; [rewrite bare_lookup, Hr; reflexivity|]. split; [exact Hf|reflexivity]. }
  rewrite bare_lookup in Hr'. apply fmap_Some in Hr' as (q & Hq & ->). exists alts', (instruction q). split; [assumption|]. exists A', q. auto.
Qed.
Theorem C73_texts : forall (U : Unicode) (H H' : HashOrder) m m' (vm vm' : VM) rs rs' t t' ps ps',
  @read_from U H m vm rs t ps -> @read_from U H' m' vm' rs' t' ps' -> same_syntax rs rs' ->
  forall fuel text v v', finished (fst (@parse H vm ps fuel text v)) -> finished (fst (@parse H' vm' ps' fuel text v')) ->
  same_outcome (fst (@parse H vm ps fuel text v)) (fst (@parse H' vm' ps' fuel text v')).
Proof.
  intros U H H' m m' vm vm' rs rs' t t' ps ps' Hr Hr' Hs fuel text v v' F F'.
  destruct (@read_from_vm _ _ _ _ _ _ _ Hr) as [Hk _]. destruct (@read_from_vm _ _ _ _ _ _ _ Hr') as [Hk' _].
  destruct (@read_from_built U H m vm rs t ps Hr) as (pd & pe & start & f1 & D1 & E1 & S1 & B1 & _).
  destruct (@read_from_built U H' m' vm' rs' t' ps' Hr') as (pd' & pe' & start' & f2 & D2 & E2 & S2 & B2 & _).
  apply (C73_by_name H H' m m' vm vm' f1 f2 pe pe' start start' ps ps'); eauto using ed_unique.
  split; [exact (texts_named pd pe pd' pe' rs rs' D1 E1 D2 E2 Hs)|exact (texts_named pd' pe' pd pe rs' rs D2 E2 D1 E1 (same_syntax_sym _ _ Hs))].
Qed.
Print Assumptions C73_texts.

(** A parser can be built from one text iff from the other (if no undefined name is
    ignored). *)
Section transfer.
Context {I I' : Type} (rs : list (arule I)) (rs' : list (arule I')).
Hypothesis (Hsay : forall x i w, says rs x i w <-> says rs' x i w) (Hdef : forall x, defined rs x <-> defined rs' x).
Lemma tr_derives u w : nderives rs u w <-> nderives rs' u w.
Proof. split; (intros Hd; eapply rtc_subrel; [|exact Hd]); intros a b [u' x v' i w' Hw]; econstructor; apply Hsay; exact Hw. Qed.
Lemma tr_nullable w : nnullable rs w <-> nnullable rs' w.
Proof. unfold nnullable. setoid_rewrite tr_derives. reflexivity. Qed.
Lemma tr_first w c : nfirst rs w c <-> nfirst rs' w c.
Proof. unfold nfirst. setoid_rewrite tr_derives. reflexivity. Qed.
Lemma tr_follow e a : nfollow rs e a <-> nfollow rs' e a.
Proof. destruct a; cbn; [setoid_rewrite tr_first; setoid_rewrite Hdef|setoid_rewrite tr_nullable]; setoid_rewrite tr_derives; reflexivity. Qed.
Lemma tr_choose x w a : nchoose rs x w a <-> nchoose rs' x w a.
Proof. destruct w; cbn [nchoose]; [apply tr_follow|]. setoid_rewrite tr_first. rewrite tr_nullable, tr_follow. reflexivity. Qed.
Lemma tr_left x y : nleft_calls rs x y <-> nleft_calls rs' x y.
Proof. unfold nleft_calls. setoid_rewrite Hsay. setoid_rewrite tr_nullable. reflexivity. Qed.
Lemma tr_parsable : (forall x y, uses rs' x y -> uses rs x y) -> (forall x y, ignores rs' x y -> ignores rs x y) -> parsable rs -> parsable rs'.
Proof.
  intros Hu Hi [P1 P2 P3 P4 P5 P6]. split.
  - apply Hdef. exact P1.
  - intros x y Hxy. apply Hdef. eauto.
  - intros x y Hxy. apply Hdef. eauto.
  - intros x Hx. apply (P4 x). revert Hx. generalize x at 2 4. intros y. induction 1 as [a b Hc|a b c Hc _ IH]; [apply tc_once; apply tr_left; exact Hc|].
    eapply tc_l; [apply tr_left; exact Hc|exact IH].
  - intros x i w Hw. apply Hsay in Hw. eauto.
  - intros x i j w w' a Hw Hw' Hne C1 C2. apply Hsay in Hw, Hw'. apply tr_choose in C1, C2. eauto.
Qed.
End transfer.
Lemma bare_parsable {I I'} (rs : list (arule I)) : parsable rs <-> parsable (map bare rs : list (arule I')).
Proof.
  split; apply tr_parsable.
  - intros. symmetry. apply bare_says.
  - intros. symmetry. apply bare_defined.
  - intros x y. apply bare_uses.
  - intros x y. apply bare_ignores.
  - intros. apply bare_says.
  - intros. apply bare_defined.
  - intros x y. apply bare_uses.
  - intros x y. apply bare_ignores.
Qed.
Lemma syntax_transfer (U : Unicode) (H H' : HashOrder) vm vm' reads reads' fl fl' rs rs' t t' :
  supported vm reads -> supported vm' reads' -> tables_disjoint ->
  grammar_text reads rs t -> (N.of_nat (length t) < 2 ^ 63)%N -> enough_for_text fl t ->
  grammar_text reads' rs' t' -> (N.of_nat (length t') < 2 ^ 63)%N -> enough_for_text fl' t' ->
  same_syntax rs rs' -> (forall x y, ignores rs' x y -> defined rs' y) -> parsable rs -> parsable rs'.
Proof.
  intros Hv Hv' Htab Ht Hlen Hfl Ht' Hlen' Hfl' Hsame Hig' Hp. pose proof (bare_meaning rs rs' Hsame) as Hm.
  assert (forall x y, uses rs' x y -> defined rs' y) as Hu'.
  { intros x y Hxy. apply (bare_defined (J := N0)). eapply (meaning_parsable (vm := NullVm) (map bare rs)); [exact Hm|apply (proj1 (bare_parsable (I' := N0) rs)); exact Hp|].
    apply bare_uses. exact Hxy. }
  destruct (text_edited vm reads Hv Htab H rs t fl Ht Hlen Hfl (pa_defined _ Hp) (pa_ignored _ Hp)) as (pd & pe & Hd & Hed & Hwf & _).
  destruct (text_edited vm' reads' Hv' Htab H' rs' t' fl' Ht' Hlen' Hfl' Hu' Hig') as (pd' & pe' & Hd' & Hed' & Hwf' & _).
  destruct (defined_element pd rs Hd _ (pa_start rs Hp)) as (start & Hst & _). rewrite <- (ed_verbose pd pe Hed) in Hst.
  destruct (defined_element pd' rs' Hd' (lit "start")) as (start' & Hst' & _); [apply Hsame, (pa_start rs Hp)|]. rewrite <- (ed_verbose pd' pe' Hed') in Hst'.
  pose proof (bare_described (J := N0) pd rs Hd) as D3. pose proof (bare_described (J := N0) pd' rs' Hd') as D4.
  pose proof (bare_edited_data (J := N0) pd pe Hed) as E3. pose proof (bare_edited_data (J := N0) pd' pe' Hed') as E4.
  apply (constructible_parsable pd' pe' rs' Hd' Hed' start' Hst' Hig').
  apply (sp_constructible _ _ (sp_sym _ _ (bare_same (J := N0) pe'))).
  apply (constructible_fwd (bare_data pe : ParserData N0) (bare_data pe' : ParserData N0) start start').
  all: try exact (edited_proper (vm := NullVm) _ _ _ D3 E3); try exact (edited_proper (vm := NullVm) _ _ _ D4 E4).
  all: try exact (ed_unique (vm := NullVm) _ _ _ D3 E3); try exact (ed_unique (vm := NullVm) _ _ _ D4 E4).
  all: try exact (sp_wf _ _ (bare_same pe) Hwf); try exact (sp_wf _ _ (bare_same pe') Hwf').
  - split; [exact (same_half (vm := NullVm) _ _ _ _ _ _ D3 E3 D4 E4 Hm)|exact (same_half (vm := NullVm) _ _ _ _ _ _ D4 E4 D3 E3 (same_meaning_sym _ _ Hm))].
  - exists (lit "start", NonTerminal). split; assumption.
  - apply (sp_constructible _ _ (bare_same (J := N0) pe)). apply (constructible_parsable pd pe rs Hd Hed start Hst (pa_ignored _ Hp)). assumption.
Qed.
Theorem C73_texts_buildable : forall (U : Unicode) (H H' : HashOrder) m m' (vm vm' : VM) reads reads' fl fl' rs rs' t t',
  supported vm reads -> supported vm' reads' -> tables_disjoint ->
  grammar_text reads rs t -> (N.of_nat (length t) < 2 ^ 63)%N -> enough_for_text fl t ->
  grammar_text reads' rs' t' -> (N.of_nat (length t') < 2 ^ 63)%N -> enough_for_text fl' t' ->
  same_syntax rs rs' -> (forall x y, ignores rs x y -> defined rs y) -> (forall x y, ignores rs' x y -> defined rs' y) ->
  (exists ps, @new_from_text U H m vm fl t = Ok ps) <-> (exists ps', @new_from_text U H' m' vm' fl' t' = Ok ps').
Proof.
  intros U H H' m m' vm vm' reads reads' fl fl' rs rs' t t' Hs Hs' Hd Ht Hlen Hfl Ht' Hlen' Hfl' Hsame Hig Hig'.
  rewrite (C58_buildable_iff_parsable U H m vm reads rs t fl Hs Hd Ht Hlen Hfl), (C58_buildable_iff_parsable U H' m' vm' reads' rs' t' fl' Hs' Hd Ht' Hlen' Hfl').
  split; [exact (syntax_transfer U H H' vm vm' reads reads' fl fl' rs rs' t t' Hs Hs' Hd Ht Hlen Hfl Ht' Hlen' Hfl' Hsame Hig')|].
  exact (syntax_transfer U H' H vm' vm reads' reads fl' fl rs' rs t' t Hs' Hs Hd Ht' Hlen' Hfl' Ht Hlen Hfl (same_syntax_sym _ _ Hsame) Hig).
Qed.
Print Assumptions C73_texts_buildable.

(** ** Checking a grammar with NullVm.  The same text, read for NullVm, has the same
    syntax, if every instruction section ends where NullVm thinks it ends. *)
Definition sections_end {U : Unicode} {I} (reads : str -> str -> list I -> Prop) : Prop := forall name body is, reads name body is -> brace_free body.
Lemma clean_brace_free (body : str) : Forall (fun c => c <> 125%N /\ c <> 92%N) body -> brace_free body.
Proof.
  intros Hf. split.
  - intros i Hi. apply (Forall_lookup_1 _ _ _ _ Hf) in Hi as [Hi _]. congruence.
  - right. split; [reflexivity|]. intros Hl. apply last_Some in Hl as [l ->]. apply Forall_app in Hf as [_ Hf]. apply Forall_inv in Hf as [_ Hf]. congruence.
Qed.
Lemma white_clean {U : Unicode} c : white c -> c <> 125%N /\ c <> 92%N.
Proof. unfold white, is_whitespace, in_range. intros Hw. split; intros ->; vm_compute in Hw; discriminate. Qed.
Lemma name_clean {U : Unicode} c : namechar c -> c <> 125%N /\ c <> 92%N.
Proof. unfold namechar, is_alphanumeric. intros [Hw|Hw]; split; intros ->; vm_compute in Hw; discriminate. Qed.
Lemma stack_clean {U : Unicode} is t : instrs_text is t -> Forall (fun c => c <> 125%N /\ c <> 92%N) t.
Proof.
  induction 1 as [|is t l is' t' Hi Hl _ IH]; [constructor|]. apply Forall_app. split; [|constructor; [split; discriminate|apply Forall_app; split; [eapply Forall_impl; [exact Hl|apply white_clean]|exact IH]]].
  destruct Hi as [x i Hx|x k l0 ds Hx Hl0 _ _ Hds _|x Hx _ _].
  - unfold plain_names in Hx. repeat (apply elem_of_cons in Hx as [[= -> ->]|Hx]; [repeat constructor; discriminate|]). inversion Hx.
  - apply Forall_app. split.
    + unfold operand_names in Hx. repeat (apply elem_of_cons in Hx as [[= -> ->]|Hx]; [repeat constructor; discriminate|]). inversion Hx.
    + apply Forall_app. split; [eapply Forall_impl; [exact Hl0|apply white_clean]|]. eapply Forall_impl; [exact Hds|]. intros c Hc. unfold digit_char in Hc. lia.
  - destruct x as [|c cs]; [contradiction|]. destruct Hx as [Hc Hcs]. constructor; [|eapply Forall_impl; [exact Hcs|apply name_clean]].
    apply name_clean. left. unfold is_alphanumeric. rewrite Hc. reflexivity.
Qed.
Theorem C73_crate_sections_end : forall U : Unicode,
  sections_end null_reads /\ sections_end counting_reads /\ sections_end simple_reads /\ sections_end stack_reads.
Proof.
  intros U. split; [intros ? ? ? [? _]; assumption|]. split; [intros ? ? ? [-> _]; apply clean_brace_free; constructor|]. split; [intros ? ? ? [? _]; assumption|].
  intros name body is (l & t & Hl & -> & Ht). apply clean_brace_free, Forall_app. split; [eapply Forall_impl; [exact Hl|apply white_clean]|eapply stack_clean; exact Ht].
Qed.
Print Assumptions C73_crate_sections_end.
Definition alike {I J} (r : arule I) (r' : arule J) : Prop := ar_name r = ar_name r' /\ ar_override r = ar_override r' /\ ar_alts r = ar_alts r'.
Lemma alike_bare {I J} (rs : list (arule I)) (rs' : list (arule J)) : Forall2 alike rs rs' -> (map bare rs : list (arule N0)) = map bare rs'.
Proof.
  induction 1 as [|r r' l l' (H1 & H2 & H3) _ IH]; [reflexivity|]. cbn [map]. f_equal; [|exact IH]. unfold bare. rewrite H1, H2, H3. reflexivity.
Qed.
Lemma alike_syntax {I J} (rs : list (arule I)) (rs' : list (arule J)) : Forall2 alike rs rs' -> same_syntax rs rs'.
Proof.
  intros Hf. pose proof (alike_bare rs rs' Hf) as E.
  intros x. split; [rewrite <- (bare_defined (J := N0) rs), <- (bare_defined (J := N0) rs'), E; reflexivity|].
  intros a a' Ha Ha'. assert (a = a') as ->; [|reflexivity]. apply (lists_unique (map bare rs : list (arule N0)) x).
  - intros i w. rewrite (Ha i w). symmetry. apply bare_says.
  - intros i w. rewrite (Ha' i w), E. symmetry. apply bare_says.
Qed.
Lemma null_text {U : Unicode} {I} (reads : str -> str -> list I -> Prop) rs t : sections_end reads -> grammar_text reads rs t ->
  exists rs0, grammar_text null_reads rs0 t /\ Forall2 alike rs rs0.
Proof.
  intros He. induction 1 as [l Hl|r t l rs t' Hl Hr _ (rs0 & G & F)]; [exists []; split; [constructor; assumption|constructor]|].
  destruct Hr as [l1 l2 l3 l4 l5 to ta ts H1 H2 H3 H4 B1 B2 B3 B4 B5].
  assert (exists is, section_text null_reads (ar_name r) is ts) as [is Hs].
  { destruct H4 as [|l0 body is0 Q1 Q2 Q3]; [exists []; constructor|]. exists [0%N]. constructor; [assumption..|]. split; [eapply He; exact Q3|reflexivity]. }
  exists (mkARule (ar_name r) (ar_override r) (ar_alts r) is :: rs0). split; [|constructor; [split; [|split]; reflexivity|assumption]].
  apply gr_cons; [assumption| |assumption]. apply (rule_intro null_reads (mkARule (ar_name r) (ar_override r) (ar_alts r) is)); assumption.
Qed.
Theorem C73_null_vm_checks_syntax : forall (U : Unicode) (H H' : HashOrder) m m' (vm : VM) reads fl fl' rs t,
  supported vm reads -> sections_end reads -> tables_disjoint -> grammar_text reads rs t -> (N.of_nat (length t) < 2 ^ 63)%N ->
  enough_for_text fl t -> enough_for_text fl' t ->
  ((exists ps, @new_from_text U H m vm fl t = Ok ps) <-> (exists ps', @new_from_text U H' m' NullVm fl' t = Ok ps')) /\
  (forall ps ps', @new_from_text U H m vm fl t = Ok ps -> @new_from_text U H' m' NullVm fl' t = Ok ps' ->
   forall fuel text v v', (length text + 1) * length t <= fuel ->
     fst (@parse H vm ps fuel text v) = Panic \/ same_outcome (fst (@parse H vm ps fuel text v)) (fst (@parse H' NullVm ps' fuel text v'))).
Proof.
  intros U H H' m m' vm reads fl fl' rs t Hs He Hd Ht Hlen Hfl Hfl'. destruct (null_text reads rs t He Ht) as (rs0 & Ht0 & Hal).
  pose proof (alike_syntax rs rs0 Hal) as Hsame. split.
  - rewrite (C58_buildable_iff_parsable U H m vm reads rs t fl Hs Hd Ht Hlen Hfl), (C58_buildable_iff_parsable U H' m' NullVm null_reads rs0 t fl' sh_null Hd Ht0 Hlen Hfl').
    rewrite (bare_parsable (I' := N0) rs), (bare_parsable (I' := N0) rs0), (alike_bare rs rs0 Hal). reflexivity.
  - intros ps ps' Hps Hps' fuel text v v' Hfuel.
    assert (@read_from U H m vm rs t ps) as Hr by (exists reads, fl; auto 10).
    assert (@read_from U H' m' NullVm rs0 t ps') as Hr' by (exists null_reads, fl'; split; [apply sh_null|auto 10]).
    pose proof (@C73_texts U H H' m m' vm NullVm rs rs0 t t ps ps' Hr Hr' Hsame fuel text v v') as Ha.
    destruct (@read_from_vm _ _ _ _ _ _ _ Hr) as [Hk Hret].
    destruct (@read_from_built U H m vm rs t ps Hr) as (pd & pe & start & f1 & D1 & E1 & S1 & B1 & Z1).
    destruct (@read_from_built U H' m' NullVm rs0 t ps' Hr') as (pd' & pe' & start' & f2 & D2 & E2 & S2 & B2 & Z2).
    destruct (@C33_terminates H m vm f1 pe start ps fuel text v B1 S1 Hk Hret) as [Hnd _]; [unfold enough_depth; nia|].
    pose proof (@C53_null_state H' m' f2 pe' start' ps' fuel text v' B2 S2) as Hn.
    assert (enough_depth pe' text fuel) as Hdep by (unfold enough_depth; nia). specialize (Hn Hdep).
    destruct (@parse H vm ps fuel text v) as [o s1], (@parse H' NullVm ps' fuel text v') as [o' s1']. cbn [fst] in *.
    destruct o; [right; apply Ha|right; apply Ha|left; reflexivity|contradiction]; try exact Logic.I; destruct o'; try contradiction; exact Logic.I.
Qed.
Print Assumptions C73_null_vm_checks_syntax.

(** ** Non-vacuity: the two calculators of the examples directory.  The one with
    SimpleStackVm and the one with StackVm print different numbers for some scripts, but
    find the same trees and report the same errors, unless an instruction panics. *)
Theorem C73_calculators : forall (U : Unicode) (H H' : HashOrder) m m' k k' fl fl', enough_for_text fl simple_math_rules -> enough_for_text fl' stack_math_rules ->
  exists ps ps', @new_from_text U H m (SimpleStackVm k) fl simple_math_rules = Ok ps /\ @new_from_text U H' m' (StackVm k') fl' stack_math_rules = Ok ps' /\
    forall fuel text v v', finished (fst (@parse H _ ps fuel text v)) -> finished (fst (@parse H' _ ps' fuel text v')) ->
      same_outcome (fst (@parse H _ ps fuel text v)) (fst (@parse H' _ ps' fuel text v')).
Proof.
  intros U H H' m m' k k' fl fl' Hfl Hfl'. destruct (@simple_text_math U H k) as (s & rs & E & Ht & Hdes & Hm). destruct (@stack_text_math U H' k') as (s' & rs' & E' & Ht' & Hdes' & Hm').
  assert (N.of_nat (length simple_math_rules) < 2 ^ 63)%N as Hlen by (vm_compute; reflexivity).
  assert (N.of_nat (length stack_math_rules) < 2 ^ 63)%N as Hlen' by (vm_compute; reflexivity).
  destruct (@math_text_buildable U H m (SimpleStackVm k) simple_reads fl simple_math_rules s rs simple_instrs simple_data 0 (sh_simple k) Hlen Hfl E Hdes Hm
    simple_wf simple_unique simple_math simple_start simple_constructible) as (ps & st & Hps & Hst & Hb).
  destruct (@math_text_buildable U H' m' (StackVm k') stack_reads fl' stack_math_rules s' rs' stack_instrs api_data 0 (sh_stack k') Hlen' Hfl' E' Hdes' Hm'
    api_wf api_unique api_math api_start api_constructible) as (ps' & st' & Hps' & Hst' & Hb').
  exists ps, ps'. split; [assumption|]. split; [assumption|].
  apply (C73_by_name H H' m m' (SimpleStackVm k) (StackVm k') fl fl' (rp_pd s) (rp_pd s') st st' ps ps'); eauto using described_unique, simple_keeps_tree, stack_keeps_tree.
  split; intros x alts is Hx; [apply Hm in Hx as [Hx _]; exists alts, (stack_instrs x)|apply Hm' in Hx as [Hx _]; exists alts, (simple_instrs x)];
    (split; [reflexivity|]); [apply Hm'|apply Hm]; auto.
Qed.
Print Assumptions C73_calculators.
(** The text with StackVm instructions can be checked with NullVm. *)
Section example.
Local Existing Instance ascii_unicode.
Example C73_example : exists fl rs, enough_for_text fl stack_math_rules /\ tables_disjoint /\ (N.of_nat (length stack_math_rules) < 2 ^ 63)%N /\
  supported (StackVm Checked) stack_reads /\ sections_end stack_reads /\ grammar_text (I := vm_instr (StackVm Checked)) stack_reads rs stack_math_rules /\
  (exists ps', @new_from_text _ plain_order Checked NullVm fl stack_math_rules = Ok ps') /\
  (exists rs0 : list (arule (vm_instr NullVm)), grammar_text null_reads rs0 stack_math_rules /\ same_syntax rs rs0).
Proof.
  destruct C48_example_fuels as (fl & _ & Hfl). destruct (@stack_text_math _ plain_order Checked) as (s & rs & _ & Ht & _).
  assert (N.of_nat (length stack_math_rules) < 2 ^ 63)%N as Hlen by (vm_compute; reflexivity).
  pose proof (proj2 (proj2 (proj2 (C73_crate_sections_end ascii_unicode)))) as He.
  exists fl, rs. split; [exact Hfl|]. split; [exact ascii_tables|]. split; [exact Hlen|]. split; [constructor|]. split; [exact He|]. split; [exact Ht|]. split.
  - destruct (C50_stack_calculator _ plain_order Checked Checked fl Hfl) as (ps & Hps & _).
    apply (proj1 (C73_null_vm_checks_syntax ascii_unicode plain_order plain_order Checked Checked (StackVm Checked) stack_reads fl fl rs stack_math_rules (sh_stack Checked) He ascii_tables Ht Hlen Hfl Hfl)).
    exists ps. exact Hps.
  - destruct (null_text stack_reads rs stack_math_rules He Ht) as (rs0 & H1 & H2). exists rs0. split; [exact H1|apply alike_syntax; exact H2].
Qed.
End example.
