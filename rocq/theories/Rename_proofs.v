(** * Renaming nonterminals (C74): proofs *)
From Verif Require Import Base Peekables Tree Errors Sets ParserData Vm RuleParsing FirstSets FollowSets SteuerMap ScriptParser
  SpecText SpecData SpecGrammar SpecParser SpecTree SpecScript SpecContract SpecWeave SpecRules SpecNames SpecLanguage SpecRename
  Grammar_proofs Construct_proofs Names_proofs RuleBuild_proofs Language_proofs Syntax_proofs.

(** ** Data that differ in names of nonterminals *)
Section data.
Context {I : Type} (pd pd' : ParserData I) (Hs : same_but_names pd pd').
Lemma sb_sym : same_but_names pd' pd.
Proof. destruct Hs as (H1 & H2 & H3 & H4). split; [auto|]. split; [auto|]. split; [|auto]. intros e s. symmetry. apply H3. Qed.
Lemma sb_terminal e s : is_terminal pd e s -> is_terminal pd' e s.
Proof. apply Hs. Qed.
Lemma sb_verbose e : match get_element_verbose pd e, get_element_verbose pd' e with
  | Some (s, Terminal), Some (s', Terminal) => s = s' | Some (_, NonTerminal), Some (_, NonTerminal) => True | None, None => True | _, _ => False end.
Proof.
  destruct Hs as (H1 & H2 & H3 & _). specialize (H3 e). unfold is_terminal, get_element_verbose in *. rewrite <- H1 in *.
  destruct (element_data pd !! e) as [d|] eqn:E1, (element_data pd' !! e) as [d'|] eqn:E2.
  - destruct (element_types pd !! e) as [[]|]; [|exact Logic.I..]. symmetry. destruct (H3 (ed_name d)) as [H3' _]. specialize (H3' eq_refl). congruence.
  - apply lookup_lt_Some in E1. apply lookup_ge_None in E2. lia.
  - apply lookup_lt_Some in E2. apply lookup_ge_None in E1. lia.
  - exact Logic.I.
Qed.
Lemma sb_nonterminal e : is_nonterminal pd e -> is_nonterminal pd' e.
Proof. unfold is_nonterminal. intros [s Es]. pose proof (sb_verbose e) as Hv. rewrite Es in Hv. destruct (get_element_verbose pd' e) as [[s' []]|]; [contradiction|eauto|contradiction]. Qed.
Lemma sb_alternative A w : alternative pd A w -> alternative pd' A w.
Proof. destruct Hs as (_ & _ & _ & E). unfold alternative. rewrite E. auto. Qed.
Lemma sb_has_rule A : has_rule pd A -> has_rule pd' A.
Proof. destruct Hs as (_ & _ & _ & E). unfold has_rule. rewrite E. auto. Qed.
Lemma sb_wf : wf_grammar pd -> wf_grammar pd'.
Proof.
  intros [W1 W2]. destruct Hs as (H1 & H2 & H3 & H4). split; [congruence|]. intros A [r HA]. apply sb_nonterminal, W2. exists r. rewrite H4. exact HA.
Qed.
Lemma sb_fits : fits_memory pd -> fits_memory pd'.
Proof. destruct Hs as (_ & _ & _ & E). unfold fits_memory. rewrite E. auto. Qed.
Lemma sb_choose start A p x : CHOOSE pd start A p x -> CHOOSE pd' start A p x.
Proof. apply ow_choose; [apply sb_terminal|apply sb_alternative|apply sb_has_rule]. Qed.
End data.
Lemma sb_constructible {I} (pd pd' : ParserData I) start : same_but_names pd pd' -> constructible pd start -> constructible pd' start.
Proof.
  intros Hs [[D1 D2] C2 C3 C4 C5]. pose proof (sb_sym _ _ Hs) as Hs'. pose proof (proj2 (proj2 (proj2 Hs))) as Hr. split.
  - split; [rewrite <- Hr; exact D1|]. intros A w e Ha He. apply (sb_alternative _ _ Hs') in Ha. destruct (D2 A w e Ha He) as [[s Es]|[Hn Hh]].
    + left. exists s. apply (sb_terminal _ _ Hs). exact Es.
    + right. split; [apply (sb_nonterminal _ _ Hs)|apply (sb_has_rule _ _ Hs)]; assumption.
  - intros A HA. apply (C2 A). eapply (ow_left_recursive pd' pd); [apply sb_terminal; assumption|apply sb_nonterminal; assumption|apply sb_alternative; assumption|exact HA].
  - apply (sb_has_rule _ _ Hs). exact C3.
  - rewrite <- Hr. intros A r p Er Hp (e & rest & -> & Ht). apply (C4 A r _ Er Hp). exists e, rest. split; [reflexivity|]. apply (sb_terminal _ _ Hs'). exact Ht.
  - unfold choices_disjoint. rewrite <- Hr. intros A r i j p q x Er Hi Hj Hne Hp Hq. apply (C5 A r i j p q x Er Hi Hj Hne); apply (sb_choose _ _ Hs'); assumption.
Qed.
Lemma sb_tables {I} (pd pd' : ParserData I) start ps ps' : same_but_names pd pd' -> parser_table pd start ps -> parser_table pd' start ps' ->
  rules_with_steuermaps ps' = rules_with_steuermaps ps.
Proof.
  intros Hs T T'. pose proof (sb_sym _ _ Hs) as Hs'. pose proof (proj2 (proj2 (proj2 Hs))) as Hr.
  apply map_eq. intros A. pose proof (pt_rules _ _ _ T A) as R1. pose proof (pt_rules _ _ _ T' A) as R2. unfold has_rule in R1, R2. rewrite <- Hr in R2.
  destruct (rules_with_steuermaps ps !! A) as [nt|] eqn:En, (rules_with_steuermaps ps' !! A) as [nt'|] eqn:En'.
  - destruct (proj1 R1 ltac:(eexists; reflexivity)) as [r Er].
    destruct (pt_entry _ _ _ T A r nt Er En) as (S1 & S2 & S3). rewrite Hr in Er. destruct (pt_entry _ _ _ T' A r nt' Er En') as (S1' & S2' & S3').
    f_equal. destruct nt as [sm ig ins], nt' as [sm' ig' ins']. cbn in *. subst. f_equal. apply map_eq. intros x. change (sm' !! x = sm !! x).
    destruct (sm !! x) as [p|] eqn:Ex; [apply S3'|destruct (sm' !! x) as [p|] eqn:Ex'; [exfalso|reflexivity]].
    + apply S3 in Ex as [E1 E2]. split; [assumption|apply (sb_choose _ _ Hs); assumption].
    + apply S3' in Ex' as [E1 E2]. assert (sm !! x = Some p) as E; [|congruence]. apply S3. split; [assumption|apply (sb_choose _ _ Hs'); assumption].
  - exfalso. destruct (proj2 R2 (proj1 R1 ltac:(eexists; reflexivity))). discriminate.
  - exfalso. destruct (proj2 R1 (proj1 R2 ltac:(eexists; reflexivity))). discriminate.
  - reflexivity.
Qed.

(** ** parse looks at the texts of terminals and at the name start *)
Section run.
Context {H : HashOrder} (vm : VM) (ps ps' : Parser (vm_instr vm)).
Hypothesis (Hr : rules_with_steuermaps ps' = rules_with_steuermaps ps).
Hypothesis (He : forall e, match p_elements ps !! e, p_elements ps' !! e with
  | Some (s, Terminal), Some (s', Terminal) => s = s' | Some (_, NonTerminal), Some (_, NonTerminal) => True | None, None => True | _, _ => False end).
Lemma sbind_ext {E A B St} (x x' : st St E A) (g g' : A -> st St E B) s : x s = x' s -> (forall a s1, g a s1 = g' a s1) -> sbind x g s = sbind x' g' s.
Proof. intros Hx Hg. unfold sbind. rewrite Hx. destruct (x' s) as [[] s1]; auto. Qed.
Lemma rn_fitting el cur s : get_fitting_production vm ps' el cur s = get_fitting_production vm ps el cur s.
Proof. unfold get_fitting_production. rewrite Hr. reflexivity. Qed.
Lemma rn_nonterminal f : forall el node s, parse_nonterminal vm ps' f el node s = parse_nonterminal vm ps f el node s.
Proof.
  induction f as [|f IH]; intros el node s; [reflexivity|]. cbn [parse_nonterminal]. apply sbind_ext; [reflexivity|]. intros o s1. rewrite Hr.
  destruct (rules_with_steuermaps ps !! el) as [nt|]; [|reflexivity]. apply sbind_ext; [apply rn_fitting|]. intros prod s2. apply sbind_ext; [reflexivity|]. intros id s3.
  apply sbind_ext; [|reflexivity]. destruct prod as [els|]; [|reflexivity]. revert s3. induction els as [|e els IHe]; intros s3; [reflexivity|].
  pose proof (He e) as Hv. destruct (p_elements ps !! e) as [[x []]|], (p_elements ps' !! e) as [[x' []]|]; try contradiction; try reflexivity.
  - subst x'. apply sbind_ext; [reflexivity|]. intros txt s4. apply sbind_ext; [reflexivity|]. intros _ s5. apply IHe.
  - apply sbind_ext; [apply IH|]. intros _ s4. apply IHe.
Qed.
Lemma rn_parse fuel text v : position_of (lit "start", NonTerminal) (p_elements ps') = position_of (lit "start", NonTerminal) (p_elements ps) ->
  parse vm ps' fuel text v = parse vm ps fuel text v.
Proof. intros Hp. unfold parse, parse_run. rewrite Hp. destruct (position_of _ (p_elements ps)); [|reflexivity]. rewrite rn_nonterminal. reflexivity. Qed.
End run.

(** ** Renaming a grammar *)
Section rules.
Context {I : Type} (f : str -> str) (Hf : injective f) (rs : list (arule I)).
Notation qs := (map (renamed f) rs).
Lemma rename_el_inj : forall a b, rename_el f a = rename_el f b -> a = b.
Proof. intros [x []] [y []] E; try discriminate; injection E as E; [congruence|]. f_equal. apply Hf. assumption. Qed.
Lemma ren_rules_for x : rules_for (f x) qs = map (renamed f) (rules_for x rs).
Proof.
  unfold rules_for. induction rs as [|r l IH]; [reflexivity|]. cbn [map].
  destruct (decide (ar_name r = x)) as [E|E].
  - rewrite !filter_cons_True; [cbn [map]; f_equal; exact IH|exact E|cbn; congruence].
  - rewrite !filter_cons_False; [exact IH|exact E|]. cbn. intros E'. apply E, Hf. exact E'.
Qed.
Lemma ren_none x : (forall y, x <> f y) -> rules_for x qs = [].
Proof.
  intros Hx. unfold rules_for. induction rs as [|r l IH]; [reflexivity|]. cbn [map]. rewrite filter_cons_False; [exact IH|]. cbn. intros E. apply (Hx (ar_name r)). congruence.
Qed.
Lemma ren_defined x : defined qs (f x) <-> defined rs x.
Proof. unfold defined. rewrite ren_rules_for. destruct (rules_for x rs); cbn; split; intros; congruence || discriminate. Qed.
Lemma ren_alternatives x : alternatives_for qs (f x) = map (map (rename_el f)) (alternatives_for rs x).
Proof. unfold alternatives_for. rewrite ren_rules_for, concat_map, !map_map. reflexivity. Qed.
Lemma ren_ignores x y : ignores qs (f x) (f y) <-> ignores rs x y.
Proof.
  unfold ignores. rewrite ren_rules_for. destruct (rules_for x rs) as [|r0 l]; cbn; split; intros (r1 & m & E & Ho); try discriminate; injection E as <- <-.
  - exists r0, l. split; [reflexivity|]. cbn in Ho. destruct (ar_override r0); try discriminate. cbn in Ho. injection Ho as Ho. apply Hf in Ho. congruence.
  - eexists _, _. split; [reflexivity|]. cbn. rewrite Ho. reflexivity.
Qed.
Lemma ren_ignores_inv x y : ignores qs x y -> exists x0 y0, x = f x0 /\ y = f y0 /\ ignores rs x0 y0.
Proof.
  intros (r0 & more & E & Ho). assert (r0 ∈ rules_for x qs) as Hin by (rewrite E; left). apply elem_of_list_filter in Hin as [Hx Hin].
  apply elem_of_list_fmap in Hin as (q & -> & _). cbn in Hx, Ho. destruct (ar_override q) as [| |y0|] eqn:Eo; try discriminate. cbn in Ho. injection Ho as <-.
  exists (ar_name q), y0. split; [auto|]. split; [reflexivity|]. apply ren_ignores. exists (renamed f q), more. subst x. split; [exact E|]. cbn. rewrite Eo. reflexivity.
Qed.
Lemma ren_uses_inv x y : uses qs x y -> exists x0 y0, x = f x0 /\ y = f y0 /\ uses rs x0 y0.
Proof.
  intros (w & Hw & Hy). assert (exists x0, x = f x0) as [x0 ->].
  { unfold alternatives_for in Hw. destruct (rules_for x qs) as [|r l] eqn:E; [inversion Hw|]. assert (r ∈ rules_for x qs) as Hin by (rewrite E; left).
    apply elem_of_list_filter in Hin as [Hx Hin]. apply elem_of_list_fmap in Hin as (q & -> & _). exists (ar_name q). auto. }
  rewrite ren_alternatives in Hw. apply elem_of_list_fmap in Hw as (w0 & -> & Hw). apply elem_of_list_fmap in Hy as ([y0 []] & E & Hy); [discriminate|]. injection E as ->.
  exists x0, y0. split; [reflexivity|]. split; [reflexivity|]. exists w0. auto.
Qed.
Lemma ren_uses x y : uses rs x y -> uses qs (f x) (f y).
Proof. intros (w & Hw & Hy). exists (map (rename_el f) w). rewrite ren_alternatives. split; [apply elem_of_list_fmap_1; assumption|]. apply (elem_of_list_fmap_1 (rename_el f) w (y, NonTerminal)). assumption. Qed.
Lemma ren_mentioned : concat (map mentioned qs) = map (rename_el f) (concat (map mentioned rs)).
Proof.
  rewrite concat_map, !map_map. f_equal. apply map_ext. intros r. unfold mentioned. cbn [map renamed ar_name ar_override ar_alts rename_el]. f_equal.
  rewrite map_app, concat_map. f_equal. destruct (ar_override r); reflexivity.
Qed.
Lemma ren_firsts l : forall seen, firsts (map (rename_el f) seen) (map (rename_el f) l) = map (rename_el f) (firsts seen l).
Proof.
  induction l as [|e l IH]; intros seen; [reflexivity|]. cbn [firsts map]. destruct (decide (e ∈ seen)) as [Hi|Hi].
  - rewrite decide_True by (apply elem_of_list_fmap_1; assumption). apply IH.
  - rewrite decide_False. { cbn [map]. f_equal. apply (IH (e :: seen)). }
    intros Hin. apply elem_of_list_fmap in Hin as (e' & E & Hin). apply rename_el_inj in E. congruence.
Qed.
End rules.

Section rename_data.
Context {I : Type} (f : str -> str) (Hf : injective f).
Definition rename_entry (d : ElementData) (k : ElementType) : ElementData :=
  match k with NonTerminal => mkElementData (keep_data d) (f (ed_name d)) | Terminal => d end.
Definition rename_data (pd : ParserData I) : ParserData I :=
  mkPD (parse_rules pd) (element_types pd) (kmap (rename_el f) (element_verbose_map pd)) (zip_with rename_entry (element_data pd) (element_types pd)).
Lemma ren_verbose pd e : get_element_verbose (rename_data pd) e = option_map (rename_el f) (get_element_verbose pd e).
Proof.
  unfold get_element_verbose. cbn [rename_data element_data element_types]. rewrite lookup_zip_with.
  destruct (element_data pd !! e) as [d|], (element_types pd !! e) as [[]|]; reflexivity.
Qed.
Lemma ren_same pd : length (element_data pd) = length (element_types pd) -> same_but_names pd (rename_data pd).
Proof.
  intros Hl. split; [reflexivity|]. split; [cbn; rewrite zip_with_length; lia|]. split; [|reflexivity].
  intros e s. unfold is_terminal. rewrite ren_verbose. destruct (get_element_verbose pd e) as [[x []]|]; cbn; split; intros E; congruence.
Qed.
Lemma ren_index pd key : get_element_index (rename_data pd) (rename_el f key) = get_element_index pd key.
Proof. unfold get_element_index. cbn [rename_data element_verbose_map]. apply lookup_kmap. intros a b. apply rename_el_inj. assumption. Qed.
Lemma ren_described pd rs : described pd rs -> described (rename_data pd) (map (renamed f) rs).
Proof.
  intros [D1 D2 D3 D4 D5]. split.
  - rewrite ren_mentioned. change (@nil (str * ElementType)) with (map (rename_el f) []). rewrite ren_firsts by assumption. clear -D1 Hf.
    revert D1. unfold get_elements_verbose. cbn [rename_data element_data element_types]. generalize (firsts [] (concat (map mentioned rs))). generalize (element_types pd).
    induction (element_data pd) as [|d l IH]; intros [|k ts] els; cbn [zip_elements zip_with map]; try discriminate; try (intros [= <-]; reflexivity).
    destruct (zip_elements l ts) as [els0| | |] eqn:E; try discriminate. cbn [obind]. intros [= <-]. rewrite (IH ts els0 E). cbn [obind map]. destruct k; reflexivity.
  - intros key ix. rewrite ren_verbose. unfold get_element_index. cbn [rename_data element_verbose_map]. split.
    + intros E. apply lookup_kmap_Some in E as (key0 & -> & E); [|intros a b; apply rename_el_inj; assumption]. apply D2 in E. rewrite E. reflexivity.
    + destruct (get_element_verbose pd ix) as [key0|] eqn:E; [|discriminate]. intros [= <-]. apply D2 in E. rewrite lookup_kmap; [exact E|intros a b; apply rename_el_inj; assumption].
  - intros A HA. destruct (D3 A HA) as (r & Hr & E). exists (renamed f r). split; [apply elem_of_list_fmap_1; assumption|]. rewrite ren_verbose, E. reflexivity.
  - intros x r0 more Hx. assert (exists y, x = f y) as [y ->].
    { assert (r0 ∈ rules_for x (map (renamed f) rs)) as Hin by (rewrite Hx; left). apply elem_of_list_filter in Hin as [E Hin].
      apply elem_of_list_fmap in Hin as (q & -> & _). exists (ar_name q). auto. }
    rewrite ren_rules_for in Hx by assumption. destruct (rules_for y rs) as [|q l] eqn:Eq; [discriminate|]. injection Hx as <- <-.
    destruct (D4 y q l Eq) as (nr & Hn & Hp & Hg & Hi). exists nr. split; [|split; [|split; [|exact Hi]]].
    + unfold get_rule_by_element_verbose in *. change (f y, NonTerminal) with (rename_el f (y, NonTerminal)). rewrite ren_index. exact Hn.
    + cbn [map ar_alts renamed] in *. rewrite map_map. cbn [ar_alts renamed].
      replace (concat (map (map (rename_el f)) (ar_alts q) :: map (fun r : arule I => map (map (rename_el f)) (ar_alts r)) l))
        with (map (map (rename_el f)) (concat (ar_alts q :: map ar_alts l))) by (rewrite concat_map; cbn [map]; rewrite map_map; reflexivity).
      apply Forall2_fmap_l. eapply Forall2_impl; [exact Hp|]. intros a p (ixs & Ha & Hix). exists ixs. split; [assumption|].
      apply Forall2_fmap_l. eapply Forall2_impl; [exact Hix|]. intros e ix E. cbn. rewrite ren_verbose, E. reflexivity.
    + unfold ignore_is in *. cbn [renamed ar_override]. destruct (ar_override q); cbn [rename_override]; try exact Hg.
      destruct Hg as (ix & Hix & E). exists ix. split; [assumption|]. rewrite ren_verbose, E. reflexivity.
  - exact D5.
Qed.
Lemma ren_can_derive pd a b : can_derive (rename_data pd) a b <-> can_derive pd a b.
Proof. unfold can_derive, has_rule. assert (forall u w, derives (rename_data pd) u w <-> derives pd u w) as E; [|setoid_rewrite E; reflexivity].
  intros u w. split; apply ow_derives; intros A w0; exact (fun h => h). Qed.
Lemma ren_edited_data pd pe : edited_data pd pe -> edited_data (rename_data pd) (rename_data pe).
Proof.
  intros [E1 E2 E3 E4 E5 E6]. split.
  - intros A r'. change (pd_rules (rename_data pe)) with (pd_rules pe). change (pd_rules (rename_data pd)) with (pd_rules pd). rewrite E1.
    assert (forall r, edited (rename_data pd) A r r' <-> edited pd A r r') as E; [|setoid_rewrite E; reflexivity].
    intros r. split; intros [Hn|ig Hn Hc|ig Hn Hc]; [apply ed_none|eapply ed_inside|eapply ed_woven|apply ed_none|eapply ed_inside|eapply ed_woven]; try eassumption.
    all: rewrite ren_can_derive in *; assumption.
  - intros A. apply E2.
  - cbn. congruence.
  - cbn. congruence.
  - cbn. congruence.
  - exact E6.
Qed.
End rename_data.
