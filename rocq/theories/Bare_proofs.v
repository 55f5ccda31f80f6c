(** * Grammars without their instructions (C73): proofs *)
From Verif Require Import Base Peekables Tree Errors Sets ParserData Vm RuleParsing FirstSets FollowSets SteuerMap ScriptParser
  SpecText SpecData SpecGrammar SpecParser SpecTree SpecScript SpecContract SpecWeave SpecRules SpecNames SpecLanguage SpecSyntax
  Grammar_proofs Construct_proofs Names_proofs RuleBuild_proofs Language_proofs Syntax_proofs.

(** the rules and the data with no instructions at all *)
Definition bare {I J} (r : arule I) : arule J := mkARule (ar_name r) (ar_override r) (ar_alts r) [].
Definition bare_ntr {I J} (r : NonTerminalRules I) : NonTerminalRules J := mkNTR (possible_productions r) (ntr_ignore r) [].
Definition bare_data {I J} (pd : ParserData I) : ParserData J :=
  mkPD (mkParseRules (bare_ntr <$> rules (parse_rules pd)) (pr_ignore (parse_rules pd))) (element_types pd) (element_verbose_map pd) (element_data pd).

Section rules.
Context {I J : Type} (rs : list (arule I)).
Notation bs := (map (@bare I J) rs).
Lemma bare_rules_for x : rules_for x bs = map bare (rules_for x rs).
Proof.
  unfold rules_for. induction rs as [|r l IH]; [reflexivity|]. cbn [map].
  destruct (decide (ar_name r = x)); [rewrite !filter_cons_True by assumption; cbn [map]; f_equal; exact IH|rewrite !filter_cons_False by assumption; exact IH].
Qed.
Lemma bare_alternatives x : alternatives_for bs x = alternatives_for rs x.
Proof. unfold alternatives_for. rewrite bare_rules_for, map_map. reflexivity. Qed.
Lemma bare_defined x : defined bs x <-> defined rs x.
Proof. unfold defined. rewrite bare_rules_for. destruct (rules_for x rs); cbn; split; intros H; congruence || discriminate. Qed.
Lemma bare_ignores x y : ignores bs x y <-> ignores rs x y.
Proof.
  unfold ignores. rewrite bare_rules_for. destruct (rules_for x rs) as [|r0 l]; cbn; split; intros (r1 & m & E & Ho); try discriminate; injection E as <- <-; eauto.
Qed.
Lemma bare_uses x y : uses bs x y <-> uses rs x y.
Proof. unfold uses. rewrite bare_alternatives. reflexivity. Qed.
Lemma bare_inside y x : inside bs y x <-> inside rs y x.
Proof. unfold inside. rewrite bare_defined. split; intros [H1 H2]; (split; [assumption|]); (eapply rtc_subrel; [|exact H2]); intros a b; apply bare_uses. Qed.
Lemma bare_says x i w : says bs x i w <-> says rs x i w.
Proof.
  split.
  - intros [v Hv Hi|v y Hv Hy Hn].
    + rewrite bare_alternatives in Hv. apply says_plain; [assumption|]. intros y Hy. apply bare_inside, Hi, bare_ignores. assumption.
    + rewrite bare_alternatives in Hv. apply says_woven; [assumption|apply bare_ignores; assumption|intros H; apply Hn, bare_inside; assumption].
  - intros [v Hv Hi|v y Hv Hy Hn].
    + rewrite <- bare_alternatives in Hv. apply says_plain; [assumption|]. intros y Hy. apply bare_inside, Hi, bare_ignores. assumption.
    + rewrite <- bare_alternatives in Hv. apply says_woven; [assumption|apply bare_ignores; assumption|intros H; apply Hn, bare_inside; assumption].
Qed.
Lemma bare_mentioned : concat (map mentioned bs) = concat (map mentioned rs).
Proof. rewrite map_map. reflexivity. Qed.
End rules.

Section data.
Context {I J : Type} (pd pe : ParserData I).
Notation B := (@bare_data I J).
Lemma bare_lookup (qd : ParserData I) A : pd_rules (B qd) !! A = bare_ntr <$> pd_rules qd !! A.
Proof. apply lookup_fmap. Qed.
Lemma bare_same : same_productions pd (B pd).
Proof. split; [reflexivity|]. split; [reflexivity|]. intros A. rewrite bare_lookup. destruct (pd_rules pd !! A); reflexivity. Qed.
Lemma bare_has_rule (qd : ParserData I) A : has_rule (B qd) A <-> has_rule qd A.
Proof. unfold has_rule. rewrite bare_lookup. destruct (pd_rules qd !! A); cbn; split; intros [? ?]; try discriminate; eauto. Qed.
Lemma bare_derives u w : derives (B pd) u w <-> derives pd u w.
Proof.
  split; apply ow_derives; apply sp_alternative; [apply sp_sym|]; apply bare_same.
Qed.
Lemma bare_can_derive a b : can_derive (B pd) a b <-> can_derive pd a b.
Proof. unfold can_derive. rewrite bare_has_rule. setoid_rewrite bare_derives. reflexivity. Qed.
Lemma bare_described rs : described pd rs -> described (B pd) (map bare rs).
Proof.
  intros [D1 D2 D3 D4 D5]. split.
  - rewrite bare_mentioned. exact D1.
  - exact D2.
  - intros A HA. apply bare_has_rule in HA. destruct (D3 A HA) as (r & Hr & E). exists (bare r). split; [apply elem_of_list_fmap_1; assumption|exact E].
  - intros x r0 more Hx. rewrite bare_rules_for in Hx. destruct (rules_for x rs) as [|q l] eqn:Eq; [discriminate|]. injection Hx as <- <-.
    destruct (D4 x q l Eq) as (nr & Hn & Hf & Hg & Hi). exists (bare_ntr nr). split; [|split; [|split; [exact Hg|reflexivity]]].
    + unfold get_rule_by_element_verbose in *. change (get_element_index (B pd)) with (get_element_index pd).
      destruct (get_element_index pd _) as [A|]; [|discriminate]. unfold get_rule_by_key in *. rewrite (bare_lookup pd), Hn. reflexivity.
    + cbn [map ar_alts bare]. rewrite map_map. exact Hf.
  - exact D5.
Qed.
Lemma bare_edited A r r' : edited pd A r r' -> edited (B pd) A (bare_ntr r) (bare_ntr r').
Proof.
  intros [H|ig H Hc|ig H Hc].
  - apply ed_none. exact H.
  - apply (ed_inside (B pd) A (bare_ntr r) ig); [exact H|apply bare_can_derive; exact Hc].
  - apply (ed_woven (B pd) A (bare_ntr r) ig); [exact H|]. intros N. apply Hc, bare_can_derive. exact N.
Qed.
Lemma edited_unique {K} (qd : ParserData K) A r r1 r2 : edited qd A r r1 -> edited qd A r r2 -> r1 = r2.
Proof.
  intros [H|ig H Hc|ig H Hc] [H'|ig' H' Hc'|ig' H' Hc']; rewrite H in H'; try discriminate; try reflexivity; injection H' as ->; contradiction || reflexivity.
Qed.
Lemma bare_edited_data : edited_data pd pe -> edited_data (B pd) (B pe).
Proof.
  intros [E1 E2 E3 E4 E5 E6]. split; [|intros A; rewrite !bare_has_rule; apply E2|exact E3|exact E4|exact E5|exact E6].
  intros A r'. rewrite !bare_lookup. split.
  - intros H. apply fmap_Some in H as (r1 & Hr1 & ->). apply E1 in Hr1 as (r & Hr & He). exists (bare_ntr r). rewrite Hr. split; [reflexivity|]. apply bare_edited. assumption.
  - intros (r & Hr & He). apply fmap_Some in Hr as (q & Hq & ->).
    assert (exists r1, pd_rules pe !! A = Some r1) as [r1 Hr1] by (apply E2; eexists; exact Hq). rewrite Hr1. cbn. f_equal.
    apply E1 in Hr1 as (q' & Hq' & He'). assert (q' = q) as -> by congruence. apply bare_edited in He'. exact (edited_unique _ _ _ _ _ He' He).
Qed.
End data.
