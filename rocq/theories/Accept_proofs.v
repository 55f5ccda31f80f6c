(** * Which scripts are accepted (C61) *)
From Verif Require Import Base Peekables Tree Errors Sets ParserData Vm SteuerMap ScriptParser
  SpecGrammar SpecParser SpecTree SpecScript SpecWeave SpecRules SpecLanguage Grammar_proofs Tree_proofs Script_proofs Parse_proofs RuleBuild_proofs Language_proofs.

Section grammar.
Context {I : Type} (pd : ParserData I) (start : nat).
Context (Hwf : wf_grammar pd) (Hcon : constructible pd start).
Inductive ends_empty : ptree -> nat -> list nat -> Prop :=
| pe_here A subs : concat (map (yield pd) subs) = [] -> ends_empty (PNode A subs) A (map root subs)
| pe_inside A l s r B w : concat (map (yield pd) r) = [] -> ends_empty s B w -> ends_empty (PNode A (l ++ s :: r)) B w.
Definition choose_form (A : nat) (w : list nat) (a : SetMember) : Prop :=
  exists r p, pd_rules pd !! A = Some r /\ p ∈ possible_productions r /\ right_side p = w /\ CHOOSE pd start A p a.
Lemma choose_form_any A w r p a : choose_form A w a -> pd_rules pd !! A = Some r -> p ∈ possible_productions r -> right_side p = w -> CHOOSE pd start A p a.
Proof.
  intros (r' & q & Hr' & Hq & Ew & Hc) Hr Hp E. assert (r' = r) as -> by congruence.
  pose proof (proj1 (con_defined pd start Hcon) A r p Hr Hp). pose proof (proj1 (con_defined pd start Hcon) A r q Hr Hq).
  assert (p = q) as ->; [|exact Hc]. clear Hc Hp Hq. destruct p as [p|], q as [q|]; cbn in *; subst; congruence.
Qed.
(** what follows a tree follows its trailing empty parts *)
Lemma ends_empty_follow pt B w a : derivation pd pt -> ends_empty pt B w -> fol pd start (root pt) a -> choose_form B w a.
Proof.
  intros Hd He. revert Hd. induction He as [A subs Hy|A l s r B w Hy He IH]; intros Hd Hf; inversion Hd as [|? ? Ha Hs]; subst.
  - destruct Ha as (r & p & Hr & Hp & E). exists r, p. split; [assumption|]. split; [assumption|]. split; [auto|].
    eapply select_choose; [exact Hr|exact Hp|eapply (proj1 (con_defined pd start Hcon)); eauto|]. right. rewrite <- E.
    split; [apply NULLABLE_nuls, empty_nuls; assumption|]. apply FOLLOW_fol. exact Hf.
  - apply Forall_app in Hs as [_ Hs]. apply Forall_cons in Hs as [Hs Hr]. apply IH; [assumption|]. rewrite map_app in Ha. cbn in Ha.
    eapply fol_prop; [exact Ha|apply empty_nuls; assumption|exact Hf].
Qed.
Lemma pred_iff pt : derivation pd pt -> forall rest, (forall B w, ends_empty pt B w -> choose_form B w (look rest)) ->
  pred pd start (root pt) (yield pd pt ++ rest) pt rest.
Proof.
  induction pt as [t|A subs IH] using ptree_rect'; intros Hd rest Hend.
  - inversion Hd as [? s Hs|]; subst. simpl. rewrite (text_of_terminal pd t s Hs). apply pr_leaf. assumption.
  - inversion Hd as [|? ? Ha Hf]; subst. simpl in *. destruct Ha as (r & p & Hr & Hp & Hrs).
    assert (alternative pd A (map root subs)) as Halt by (exists r, p; auto).
    eapply pr_node; [exact Hr|exact Hp| |].
    + destruct (concat (map (yield pd) subs)) as [|c y] eqn:E.
      * cbn. eapply choose_form_any; [apply Hend; apply pe_here; assumption|eassumption..|auto].
      * eapply select_choose; [exact Hr|exact Hp|eapply (proj1 (con_defined pd start Hcon)); eauto|].
        left. exists c. split; [reflexivity|]. rewrite <- Hrs. apply FIRST_fsts. eapply forest_fsts; eauto.
    + rewrite <- Hrs.
      assert (forall pre post, subs = pre ++ post -> preds pd start (map root post) (concat (map (yield pd) post) ++ rest) post rest) as Hgen;
        [|apply (Hgen [] subs eq_refl)].
      intros pre post. revert pre. induction post as [|s post IHp]; intros pre Hs; simpl; [constructor|].
      assert (Forall (derivation pd) (s :: post)) as Hfp by (rewrite Hs in Hf; apply Forall_app in Hf; tauto).
      inversion Hfp as [|? ? Hds Hfps]; subst x l.
      econstructor; [|apply (IHp (pre ++ [s])); rewrite <- app_assoc; assumption].
      rewrite <- app_assoc. rewrite Hs in IH. apply Forall_app in IH as [_ IH]. inversion IH as [|? ? IHs _]; subst x l. apply IHs; [assumption|].
      intros B w He. destruct (concat (map (yield pd) post)) as [|c y] eqn:E.
      * cbn. apply Hend. rewrite Hs. apply pe_inside; assumption.
      * cbn. eapply ends_empty_follow; [exact Hds|exact He|]. rewrite Hs, map_app in Halt. simpl in Halt.
        eapply fol_first; [exact Halt|]. eapply forest_fsts; eauto.
Qed.
Lemma pred_ends :
  (forall e text pt rest, pred pd start e text pt rest -> forall B w, ends_empty pt B w -> choose_form B w (look rest)) /\
  (forall es text pts rest, preds pd start es text pts rest -> forall l s r B w, pts = l ++ s :: r -> concat (map (yield pd) r) = [] -> ends_empty s B w -> choose_form B w (look rest)).
Proof.
  apply pred_both.
  - intros t s rest Ht B w He. inversion He.
  - intros A r p text subs rest Hr Hp Hc Hs IH B w He. inversion He as [? ? Hy|? l s r' ? ? Hy He']; subst.
    + exists r, p. split; [assumption|]. split; [assumption|]. apply pred_sound in Hs as (_ & E & Et). split; [auto|]. rewrite Et, Hy in Hc. exact Hc.
    + eapply IH; eauto.
  - intros text l s r B w E. destruct l; discriminate.
  - intros e es text pt mid pts rest Hp IH1 Hps IH2 l s r B w E Hy He. destruct l as [|x l]; cbn in E; injection E as -> ->.
    + specialize (IH1 B w He). apply pred_sound in Hps as (_ & _ & ->). rewrite Hy in IH1. exact IH1.
    + eapply IH2; eauto.
Qed.
End grammar.

(** by names *)
Section named.
Context {vm : VM} (pd pd' : ParserData (vm_instr vm)) (rs : list (arule (vm_instr vm))) (Hd : described pd rs) (Hed : edited_data pd pd').
Context (start : nat) (Hst : get_element_verbose pd' start = Some (lit "start", NonTerminal)) (Hcon : constructible pd' start).
Lemma ends_named pt y w : derivation pd' pt -> ends_in_empty (named pd' pt) y w ->
  exists B ixs, ends_empty pd' pt B ixs /\ get_element_verbose pd' B = Some (y, NonTerminal) /\ Forall2 (fun e ix => get_element_verbose pd' ix = Some e) w ixs /\ alternative pd' B ixs.
Proof.
  pose proof (ed_verbose pd pd' Hed) as Hv.
  revert y w. induction pt as [t|A subs IH] using ptree_rect'; intros y w Hder He; inversion He as [x subs' Hy E1 E2 E3|x l s r ? ? Hy He' E1]; subst.
  - inversion Hder as [|? ? Ha Hf]; subst. destruct (named_derivation pd pd' rs Hd Hed _ Hder) as [_ Hn]. cbn [root named nroot] in Hn. rewrite <- Hv in Hn.
    exists A, (map root subs). split; [|split; [exact Hn|split; [|assumption]]].
    + apply pe_here. pose proof (named_yield pd' (PNode A subs)) as Hyl. cbn [named] in Hyl. rewrite Hyl in Hy. exact Hy.
    + clear - Hf Hd Hed Hv. induction Hf as [|s subs Hs _ IHs]; [constructor|]. cbn. constructor; [|assumption].
      rewrite Hv. apply (named_derivation pd pd' rs Hd Hed s Hs).
  - inversion Hder as [|? ? Ha Hf]; subst.
    match goal with E : _ = map (named pd') subs |- _ => rename E into E1 | E : map (named pd') subs = _ |- _ => symmetry in E; rename E into E1 end.
    symmetry in E1. change (map (named pd') subs) with (named pd' <$> subs) in E1. apply fmap_app_inv in E1 as (l' & sr & -> & E & ->). symmetry in E. apply fmap_cons_inv in E as (s' & r' & -> & -> & ->).
    apply Forall_app in IH as [_ IH]. inversion IH as [|? ? IHs _]; subst. apply Forall_app in Hf as [_ Hf]. apply Forall_cons in Hf as [Hs _].
    destruct (IHs y w Hs He') as (B & ixs & H1 & H2 & H3 & H4). exists B, ixs. split; [|auto]. apply pe_inside; [|assumption].
    clear -Hy. induction r' as [|a r' IHr]; [reflexivity|]. cbn in *. rewrite named_yield in Hy. apply app_eq_nil in Hy as [-> Hy]. cbn. apply IHr. exact Hy.
Qed.
Lemma named_ends pt B ixs : derivation pd' pt -> ends_empty pd' pt B ixs ->
  exists y w, ends_in_empty (named pd' pt) y w /\ get_element_verbose pd' B = Some (y, NonTerminal) /\ Forall2 (fun e ix => get_element_verbose pd' ix = Some e) w ixs /\ alternative pd' B ixs.
Proof.
  pose proof (ed_verbose pd pd' Hed) as Hv.
  intros Hder He. revert Hder. induction He as [A subs Hy|A l s r B w Hy He IH]; intros Hder; inversion Hder as [|? ? Ha Hf]; subst.
  - destruct (named_derivation pd pd' rs Hd Hed _ Hder) as [_ Hn]. cbn [root named nroot] in Hn. rewrite <- Hv in Hn.
    exists (text_of pd' A), (map nroot (map (named pd') subs)). split; [|split; [exact Hn|split; [|assumption]]].
    + cbn [named]. apply ee_here. pose proof (named_yield pd' (PNode A subs)) as Hyl. cbn [named] in Hyl. rewrite Hyl. exact Hy.
    + clear - Hf Hd Hed Hv. induction Hf as [|s subs Hs _ IHs]; [constructor|]. cbn. constructor; [|assumption].
      rewrite Hv. apply (named_derivation pd pd' rs Hd Hed s Hs).
  - apply Forall_app in Hf as [_ Hf]. apply Forall_cons in Hf as [Hs _]. destruct (IH Hs) as (y & w' & H1 & H2 & H3 & H4). exists y, w'. split; [|auto].
    cbn [named]. rewrite map_app. cbn [map]. apply ee_inside; [|assumption].
    clear -Hy. induction r as [|a r IHr]; [reflexivity|]. cbn in *. rewrite named_yield. apply app_eq_nil in Hy as [-> Hy]. cbn. apply IHr. exact Hy.
Qed.
Lemma form_named B y w ixs a : get_element_verbose pd' B = Some (y, NonTerminal) -> Forall2 (fun e ix => get_element_verbose pd' ix = Some e) w ixs ->
  alternative pd' B ixs -> nchoose rs y w a <-> choose_form pd' start B ixs a.
Proof.
  intros HB Hf (r & p & Hr & Hp & E). pose proof (proj1 (con_defined pd' start Hcon) B r p Hr Hp) as Hne.
  assert (stands_for pd' w p) as Hstands.
  { exists ixs. split; [|assumption]. destruct p as [els|]; cbn in E; subst ixs; [right|left].
    - split; [|reflexivity]. intros ->. apply Hne. f_equal.
    - inversion Hf. auto. }
  rewrite (nchoose_iff pd pd' rs Hd Hed start B y w p a Hst HB Hstands). split.
  - intros Hc. exists r, p. auto.
  - intros Hc. eapply choose_form_any; eauto.
Qed.
Lemma stands_before_iff pt a : derivation pd' pt -> stands_before rs (named pd' pt) a <-> forall B w, ends_empty pd' pt B w -> choose_form pd' start B w a.
Proof.
  intros Hder. split.
  - intros Hs B ixs He. destruct (named_ends pt B ixs Hder He) as (y & w & H1 & H2 & H3 & H4). apply (form_named B y w ixs a H2 H3 H4), Hs. assumption.
  - intros Hs y w He. destruct (ends_named pt y w Hder He) as (B & ixs & H1 & H2 & H3 & H4). apply (form_named B y w ixs a H2 H3 H4), Hs. assumption.
Qed.
End named.
