(** * Proofs for C59: where and why the analysis of a script stops *)
From Verif Require Import Base Peekables Tree Errors Sets ParserData Vm SteuerMap ScriptParser
  SpecGrammar SpecParser SpecTree SpecScript SpecWeave SpecRules SpecNames SpecLanguage SpecAwaits Grammar_proofs Tree_proofs Script_proofs Parse_proofs RuleBuild_proofs Language_proofs Accept_proofs Expected_proofs.

Section named.
Context {vm : VM} (pd pd' : ParserData (vm_instr vm)) (rs : list (arule (vm_instr vm))) (Hd : described pd rs) (Hed : edited_data pd pd').
Context (start : nat) (Hst : get_element_verbose pd' start = Some (lit "start", NonTerminal)) (Hwf : wf_grammar pd') (Hcon : constructible pd' start).
Notation verb := (get_element_verbose pd').
Fixpoint goal_named (s : stuck) (g : goal) : Prop :=
  match s with
  | StuckChoice A => exists x, verb A = Some (x, NonTerminal) /\ g = Begin x
  | StuckTerm t k => exists c, text_of pd' t !! k = Some c /\ g = Read c
  | StuckIn _ _ s' _ => goal_named s' g
  end.
Lemma verb_rule A : has_rule pd' A -> exists x, verb A = Some (x, NonTerminal).
Proof. intros HA. destruct (rule_element pd pd' rs Hd Hed A HA) as [x Hx]. exists x. rewrite (ed_verbose pd pd' Hed). exact Hx. Qed.
Lemma goal_det s g g' : goal_named s g -> goal_named s g' -> g = g'.
Proof.
  induction s as [A|t k|A cs s IH after]; cbn; [| |exact IH].
  - intros (x & E & ->) (x' & E' & ->). congruence.
  - intros (x & E & ->) (x' & E' & ->). congruence.
Qed.
Lemma listed_rule A r x a : verb A = Some (x, NonTerminal) -> pd_rules pd' !! A = Some r ->
  listed rs (Begin x) a <-> exists p, p ∈ possible_productions r /\ CHOOSE pd' start A p a.
Proof.
  intros HA Hr. assert (get_element_verbose pd A = Some (x, NonTerminal)) as HA' by (rewrite <- (ed_verbose pd pd' Hed); exact HA). cbn. split.
  - intros (i & w & Hs & Hc). destruct (says_rule pd pd' rs Hd Hed A r x i HA' Hr) as (S1 & _ & _). destruct (S1 w Hs) as (p & Hp & Hsf).
    exists p. split; [apply elem_of_list_lookup; eauto|]. apply (nchoose_iff pd pd' rs Hd Hed start A x w p a Hst HA Hsf). assumption.
  - intros (p & Hp & Hc). apply elem_of_list_lookup in Hp as [i Hp]. destruct (says_rule pd pd' rs Hd Hed A r x i HA' Hr) as (_ & S2 & _). destruct (S2 p Hp) as (w & Hs & Hsf).
    exists i, w. split; [assumption|]. apply (nchoose_iff pd pd' rs Hd Hed start A x w p a Hst HA Hsf). assumption.
Qed.
Lemma expects_listed s g a : failed_derivation pd' s -> goal_named s g -> expects pd' start s a <-> listed rs g a.
Proof.
  induction 1 as [A HA|t str k Ht Hk|A cs s after Ha Hcs Hs IH]; cbn [goal_named expects].
  - intros (x & Hx & ->). destruct HA as [r Hr]. rewrite (listed_rule A r x a Hx Hr). split.
    + intros (r' & p & Hr' & Hp & Hc). assert (r' = r) as -> by congruence. eauto.
    + intros (p & Hp & Hc). eauto.
  - intros (c & Hc & ->). cbn. split; [intros (c' & Hc' & ->); congruence|intros ->; eauto].
  - exact IH.
Qed.
Lemma reports_error s g rest n e : failed_derivation pd' s -> goal_named s g -> reports pd' start s rest n e -> forall before, n = length before -> error_for rs before rest g e.
Proof.
  induction 1 as [A HA|t str k Ht Hk|A cs s after Ha Hcs Hs IH]; cbn [goal_named reports].
  - intros (x & Hx & ->) (keys & r & Hnd & Hr & Hk & ->) before ->. cbn. exists keys. split; [assumption|]. split; [|reflexivity].
    intros a. rewrite Hk. symmetry. exact (listed_rule A r x a Hx Hr).
  - intros (c & Hc & ->) Hrep before ->. cbn. destruct rest as [|d rest]; [exact Hrep|]. destruct Hrep as (c' & Hc' & _ & ->). congruence.
  - exact IH.
Qed.
Lemma named_trees es text pts mid : preds pd' start es text pts mid -> trees_before rs (map (named pd') pts) mid.
Proof.
  induction 1 as [|e es text pt mid pts rest Hp Hps IH]; cbn [map trees_before]; [exact Logic.I|].
  assert (derivation pd' pt) as Hpt by (apply pred_sound in Hp as (D & _ & _); assumption).
  split; [apply (named_derivation pd pd' rs Hd Hed), Hpt|]. split; [|assumption].
  apply (stands_before_iff pd pd' rs Hd Hed start Hst Hcon pt _ Hpt). apply pred_sound in Hps as (_ & _ & E).
  assert (concat (map nyield (map (named pd') pts)) = concat (map (yield pd') pts)) as ->.
  { f_equal. rewrite map_map. apply map_ext. intros t. apply named_yield. }
  rewrite <- E. apply (proj1 (pred_ends pd' start) _ _ _ _ Hp).
Qed.
Lemma yields_named pts : concat (map nyield (map (named pd') pts)) = concat (map (yield pd') pts).
Proof. f_equal. rewrite map_map. apply map_ext. intros t. apply named_yield. Qed.
Lemma roots_named pts : Forall (derivation pd') pts -> Forall2 (fun e ix => verb ix = Some e) (map nroot (map (named pd') pts)) (map root pts).
Proof.
  induction 1 as [|pt pts Hpt _ IH]; [constructor|]. cbn [map]. constructor; [|exact IH]. rewrite (ed_verbose pd pd' Hed). apply (named_derivation pd pd' rs Hd Hed pt Hpt).
Qed.
Lemma fails_awaits e text stk rest : fails pd' start e text stk rest -> forall el, verb e = Some el -> exists g, goal_named stk g /\ awaits rs el (consumed pd' stk) rest g.
Proof.
  induction 1 as [A r text Hr Hn|t s k rest Ht Hk Hne|A r p text es subs mid e stk after rest Hr Hp Hc He Hs Hf IH]; intros el Hel.
  - assert (has_rule pd' A) as HA by (eexists; exact Hr). destruct (verb_rule A HA) as [x Hx]. assert (el = (x, NonTerminal)) as -> by congruence. exists (Begin x). split; [cbn; eauto|].
    cbn [consumed]. apply aw_name. apply (has_rule_defined pd rs Hd A x); [rewrite <- (ed_verbose pd pd' Hed); exact Hx|]. apply (edd_domain _ _ Hed). exact HA.
  - assert (el = (s, Terminal)) as -> by (unfold is_terminal in Ht; congruence). destruct (lookup_lt_is_Some_2 s k Hk) as [c Hsc]. exists (Read c). cbn [goal_named consumed]. rewrite (text_of_terminal pd' t s Ht). split; [eauto|].
    rewrite <- (take_drop_middle s k c Hsc) at 1. apply aw_text.
  - assert (has_rule pd' A) as HA by (eexists; exact Hr). destruct (verb_rule A HA) as [x Hx]. assert (el = (x, NonTerminal)) as -> by congruence.
    pose proof Hs as Hs0. apply pred_sound in Hs as (D1 & D2 & D3).
    destruct (fails_sound pd' start e mid stk rest Hf (wf_rules pd' Hwf e) (wf_rules pd' Hwf)) as (_ & _ & Emid).
    apply elem_of_list_lookup in Hp as [i Hi]. assert (get_element_verbose pd A = Some (x, NonTerminal)) as HA' by (rewrite <- (ed_verbose pd pd' Hed); exact Hx).
    destruct (says_rule pd pd' rs Hd Hed A r x i HA' Hr) as (_ & S2 & _). destruct (S2 p Hi) as (w & Hw & Hsf).
    pose proof (stands_right pd' w p Hsf) as Hright. rewrite He in Hright. apply Forall2_app_inv_r in Hright as (w1 & w2 & Hw1 & Hw2 & Ew). inversion Hw2 as [|el' ? after' ? Hel' Hafter]; subst.
    destruct (IH el' Hel') as (g & Hg & Haw). exists g. split; [exact Hg|]. cbn [consumed]. rewrite <- yields_named.
    assert (w1 = map nroot (map (named pd') subs)) as ->.
    { pose proof (roots_named subs D1) as Hr2. clear -Hw1 Hr2. revert Hr2. generalize (map nroot (map (named pd') subs)) as w'. induction Hw1 as [|e ix w l Hx _ IH]; intros w' Hr2; inversion Hr2; subst; [reflexivity|]. f_equal; [congruence|auto]. }
    eapply aw_inside; [exact Hw| | |exact Haw].
    + apply (nchoose_iff pd pd' rs Hd Hed start A x _ p _ Hst Hx Hsf). rewrite yields_named. exact Hc.
    + eapply named_trees, Hs0.
Qed.
Lemma trees_preds ts s : trees_before rs ts s -> forall ixs, Forall2 (fun e ix => verb ix = Some e) (map nroot ts) ixs ->
  exists pts, map (named pd') pts = ts /\ preds pd' start ixs (concat (map nyield ts) ++ s) pts s.
Proof.
  induction ts as [|t ts IH]; intros Ht ixs Hix; inversion Hix as [|? ix ? ixs' He Hix']; subst; [exists []; split; [reflexivity|constructor]|].
  destruct Ht as (T1 & T2 & T3). destruct (IH T3 ixs' Hix') as (pts & Ep & Hp). rewrite (ed_verbose pd pd' Hed) in He.
  destruct (derivation_named pd pd' rs Hd Hed t T1 ix He) as (pt & Hpt & Hrt & Et). exists (pt :: pts). split; [cbn; congruence|]. cbn [map concat].
  rewrite <- app_assoc. eapply prs_cons; [|exact Hp]. rewrite <- Et, named_yield. rewrite <- Hrt at 1. apply pred_iff; [assumption..|].
  apply (stands_before_iff pd pd' rs Hd Hed start Hst Hcon pt _ Hpt). rewrite Et. exact T2.
Qed.
Lemma awaits_fails el before rest g : awaits rs el before rest g -> ~ listed rs g (look rest) -> forall e, verb e = Some el ->
  exists stk, fails pd' start e (before ++ rest) stk rest /\ goal_named stk g.
Proof.
  induction 1 as [x rest Hx|b c b' rest|x i done e after before rest g Hs Hc Ht Ha IH]; intros Hn ix Hix.
  - assert (has_rule pd' ix) as Hr. { apply (edd_domain _ _ Hed). apply (has_rule_defined pd rs Hd ix x); [rewrite <- (ed_verbose pd pd' Hed); exact Hix|exact Hx]. }
    destruct Hr as [r Hr]. exists (StuckChoice ix). split; [|cbn; eauto]. apply (f_choice pd' start ix r); [exact Hr|]. intros p Hp Hc. apply Hn. apply (listed_rule ix r x _ Hix Hr). eauto.
  - exists (StuckTerm ix (length b)). split.
    + replace (b ++ rest) with (take (length b) (b ++ c :: b') ++ rest) by (rewrite take_app; reflexivity). apply (f_term pd' start ix (b ++ c :: b')); [exact Hix|rewrite app_length; cbn; lia|].
      rewrite list_lookup_middle by reflexivity. intros E. apply Hn. cbn. destruct rest; cbn in *; congruence.
    + cbn. exists c. rewrite (text_of_terminal pd' ix _ Hix), list_lookup_middle by reflexivity. auto.
  - assert (get_element_verbose pd ix = Some (x, NonTerminal)) as HA' by (rewrite <- (ed_verbose pd pd' Hed); exact Hix).
    assert (has_rule pd' ix) as [r Hr]. { apply (edd_domain _ _ Hed). apply (has_rule_defined pd rs Hd ix x); [exact HA'|]. intros E. assert (exists a, alternatives_for rs x !! i = Some a) as [a Hal] by (destruct Hs; eauto).
      unfold alternatives_for in Hal. rewrite E in Hal. discriminate. }
    destruct (says_rule pd pd' rs Hd Hed ix r x i HA' Hr) as (S1 & _ & _). destruct (S1 _ Hs) as (p & Hp & Hsf).
    pose proof (stands_right pd' _ p Hsf) as Hright. apply Forall2_app_inv_l in Hright as (es & l2 & H1 & H2 & Ep). inversion H2 as [|? e' ? after' He' Hafter]; subst.
    destruct (trees_preds done _ Ht es H1) as (pts & Epts & Hps). destruct (IH Hn e' He') as (stk & Hf & Hg).
    exists (StuckIn ix pts stk after'). split; [|exact Hg]. rewrite <- app_assoc.
    eapply f_in; [exact Hr|apply elem_of_list_lookup; eauto| |exact Ep|exact Hps|exact Hf].
    apply (nchoose_iff pd pd' rs Hd Hed start ix x _ p _ Hst Hix Hsf). exact Hc.
Qed.
End named.
