(** * The "expected" listing of parse errors (C59): in grammars without empty texts it
    is the set of possible continuations *)
From Verif Require Import Base Peekables Tree Errors Sets ParserData Vm SteuerMap ScriptParser
  SpecGrammar SpecParser SpecTree SpecScript Grammar_proofs Tree_proofs Script_proofs Parse_proofs.

(** The lookaheads with which a failed derivation could have gone on, as the parser sees it. *)
Fixpoint expects {I} (pd : ParserData I) (start : nat) (s : stuck) (x : SetMember) : Prop :=
  match s with
  | StuckChoice A => exists r p, pd_rules pd !! A = Some r /\ p ∈ possible_productions r /\ CHOOSE pd start A p x
  | StuckTerm t k => exists c, text_of pd t !! k = Some c /\ x = MChar c
  | StuckIn _ _ s' _ => expects pd start s' x
  end.

Section grammar.
Context {I : Type} (pd : ParserData I) (start : nat).
Context (Hwf : wf_grammar pd) (Hcon : constructible pd start).
Context (Hnn : forall pt, derivation pd pt -> has_rule pd (root pt) -> yield pd pt <> []).

Lemma nul_tree e : nul pd e -> exists pt, derivation pd pt /\ root pt = e /\ yield pd pt = [].
Proof.
  revert e. fix IH 2. intros e [t Ht|A w Ha Hn].
  - exists (PLeaf t). split; [econstructor; exact Ht|]. split; [reflexivity|]. apply (text_of_terminal pd t [] Ht).
  - assert (exists pts, Forall (derivation pd) pts /\ map root pts = w /\ concat (map (yield pd) pts) = []) as (pts & P1 & P2 & P3).
    { clear Ha. revert w Hn. fix IHs 2. intros w [|e1 w' He Hw].
      - exists []. split; [constructor|]. auto.
      - destruct (IH e1 He) as (pt & D1 & D2 & D3). destruct (IHs w' Hw) as (pts & P1 & P2 & P3). exists (pt :: pts).
        split; [constructor; assumption|]. cbn. rewrite D2, P2, D3, P3. auto. }
    exists (PNode A pts). split; [apply der_node; [rewrite P2|]; assumption|]. auto.
Qed.
Lemma nonnullable e : nul pd e -> is_terminal pd e [].
Proof.
  intros Hn. destruct (nul_tree e Hn) as (pt & D1 & <- & D3). destruct D1 as [t s Hs|A subs Ha Hf].
  - simpl in *. rewrite (text_of_terminal pd t s Hs) in D3. subst s. assumption.
  - exfalso. apply (Hnn (PNode A subs)); [apply der_node; assumption|eapply alternative_has_rule; exact Ha|assumption].
Qed.
(** without empty texts the choice is made by FIRST of the first element *)
Lemma choose_first A r p x : pd_rules pd !! A = Some r -> p ∈ possible_productions r -> CHOOSE pd start A p x ->
  exists e es c, p = NotEmpty (e :: es) /\ x = MChar c /\ fst_of pd e c.
Proof.
  intros Hr Hp Hc. destruct p as [[|e es]|]; [contradiction| |].
  - exists e, es. destruct Hc as [(c & -> & Hf)|[Hn _]].
    + exists c. split; [reflexivity|]. split; [reflexivity|]. apply FIRST_fsts in Hf as (u & e' & v & E & Hu & Hf).
      destruct u as [|a u]; [injection E as <- <-; assumption|]. injection E as <- E. destruct u; discriminate.
    + exfalso. apply NULLABLE_nuls in Hn. inversion Hn as [|? ? He _]; subst. apply nonnullable in He.
      apply (con_no_empty_terminal pd start Hcon A r _ Hr Hp). exists e, es. auto.
  - exfalso. assert (nul pd A) as Hn by (apply (nul_n pd A []); [exists r, Empty; auto|constructor]). apply nonnullable in Hn.
    destruct (wf_rules pd Hwf A) as [s Hs]; [eexists; exact Hr|]. unfold is_terminal in Hn. congruence.
Qed.
(** an element that can begin with the lookahead is not stuck before reading something *)
Lemma first_progress e text stk rest : fails pd start e text stk rest -> forall c, look text = MChar c -> fst_of pd e c -> consumed pd stk <> [].
Proof.
  induction 1 as [A r text Hr Hn|t s k rest Ht Hk Hne|A r p text es subs mid e stk after rest Hr Hp Hc He Hs Hf IH]; intros c Hl Hfc.
  - exfalso. inversion Hfc as [? ? s Hs|? u e v ? Ha Hu Hfe]; subst.
    + destruct (wf_rules pd Hwf A) as [n Hnm]; [eexists; exact Hr|]. unfold is_terminal in Hs. congruence.
    + destruct Ha as (r' & p & Hr' & Hp & Ep). assert (r' = r) as -> by congruence. apply (Hn p Hp). rewrite Hl.
      destruct u as [|a u].
      * destruct p as [els|]; cbn in Ep; [|discriminate]. subst els. cbn. left. exists c. split; [reflexivity|]. apply FIRST_fsts. exists [], e, []. split; [reflexivity|]. split; [constructor|assumption].
      * exfalso. inversion Hu as [|? ? Ha _]; subst. apply nonnullable in Ha. destruct p as [els|]; cbn in Ep; [|discriminate]. subst els.
        apply (con_no_empty_terminal pd start Hcon A r _ Hr Hp). exists a, (u ++ e :: v). auto.
  - simpl. rewrite (text_of_terminal pd t s Ht). inversion Hfc as [? ? s' Hs|? u e v ? Ha Hu Hfe]; subst.
    + assert (s = c :: s') as -> by (unfold is_terminal in *; congruence). destruct k; [|discriminate]. exfalso. apply Hne.
      simpl in Hl. destruct rest; simpl in *; congruence.
    + exfalso. apply alternative_has_rule, (wf_rules pd Hwf) in Ha as [n Hn]. unfold is_terminal in Ht. congruence.
  - simpl. destruct (choose_first A r p _ Hr Hp Hc) as (e1 & es1 & c1 & -> & E & Hf1). rewrite Hl in E. injection E as <-. cbn in He.
    destruct es as [|e2 es2].
    + injection He as -> ->. inversion Hs; subst. simpl. eapply IH; [exact Hl|assumption].
    + injection He as -> _. inversion Hs as [|? ? ? pt mid' pts ? Hp1 Hp2]; subst. simpl. intros E. apply app_eq_nil in E as [E _]. apply app_eq_nil in E as [E _].
      apply pred_sound in Hp1 as (D1 & D2 & D3). pose proof (empty_nul pd pt D1 E) as Hn. rewrite D2 in Hn. apply nonnullable in Hn.
      apply (con_no_empty_terminal pd start Hcon A r _ Hr Hp). exists e2, es1. auto.
Qed.
(** progress inside an alternative *)
Lemma in_progress A r p text es subs mid e stk after rest : pd_rules pd !! A = Some r -> p ∈ possible_productions r ->
  CHOOSE pd start A p (look text) -> right_side p = es ++ e :: after -> preds pd start es text subs mid ->
  fails pd start e mid stk rest -> concat (map (yield pd) subs) ++ consumed pd stk <> [].
Proof.
  intros Hr Hp Hc He Hs Hf. assert (fails pd start A text (StuckIn A subs stk after) rest) as Hfa by (eapply f_in; eauto).
  destruct (choose_first A r p _ Hr Hp Hc) as (e1 & es1 & c1 & -> & E & Hf1).
  change (concat (map (yield pd) subs) ++ consumed pd stk) with (consumed pd (StuckIn A subs stk after)). eapply first_progress; [exact Hfa|exact E|].
  apply (fst_n pd A [] e1 es1); [exists r, (NotEmpty (e1 :: es1)); auto|constructor|assumption].
Qed.
Lemma look_ne (y r r' : str) : y <> [] -> look (y ++ r) = look (y ++ r').
Proof. destruct y; [congruence|reflexivity]. Qed.
(** what was predicted does not depend on what follows *)
Lemma pred_any :
  (forall e text pt rest, pred pd start e text pt rest -> forall rest', pred pd start e (yield pd pt ++ rest') pt rest') /\
  (forall es text pts rest, preds pd start es text pts rest -> forall rest',
     preds pd start es (concat (map (yield pd) pts) ++ rest') pts rest').
Proof.
  apply pred_both.
  - intros t s rest Ht rest'. simpl. rewrite (text_of_terminal pd t s Ht). constructor. assumption.
  - intros A r p text subs rest Hr Hp Hc Hs IH rest'. simpl. eapply pr_node; eauto.
    apply pred_sound in Hs as (D1 & D2 & ->). rewrite (look_ne _ rest' rest); [assumption|].
    apply (Hnn (PNode A subs)); [|eexists; exact Hr]. apply der_node; [exists r, p; auto|assumption].
  - intros text rest'. constructor.
  - intros e es text pt mid pts rest _ IH1 H2 IH2 rest'. simpl. rewrite <- app_assoc. econstructor; [|apply IH2; assumption].
    apply IH1.
Qed.
Lemma fails_any e text stk rest : fails pd start e text stk rest -> forall rest', ~ expects pd start stk (look rest') ->
  fails pd start e (consumed pd stk ++ rest') stk rest'.
Proof.
  induction 1 as [A r text Hr Hn|t s k rest Ht Hk Hne|A r p text es subs mid e stk after rest Hr Hp Hc He Hs Hf IH]; intros rest' Hx.
  - simpl. eapply f_choice; [exact Hr|]. intros p Hp Hc. apply Hx. exists r, p. auto.
  - simpl. rewrite (text_of_terminal pd t s Ht). apply f_term; [assumption..|]. intros E. apply Hx. simpl. rewrite (text_of_terminal pd t s Ht).
    destruct (lookup_lt_is_Some_2 s k Hk) as [c Hc]. exists c. split; [assumption|]. rewrite Hc in E. destruct rest'; simpl in *; congruence.
  - simpl in *. assert (mid = consumed pd stk ++ rest) as Hmid by (eapply fails_sound; [exact Hf|..]; intros; apply (wf_rules pd Hwf); assumption).
    pose proof (proj2 pred_any _ _ _ _ Hs (consumed pd stk ++ rest')) as Hs'.
    pose proof (in_progress A r p text es subs mid e stk after rest Hr Hp Hc He Hs Hf) as Hpr.
    rewrite <- app_assoc. eapply f_in; eauto. apply pred_sound in Hs as (_ & _ & Et). rewrite Et, Hmid, app_assoc in Hc.
    rewrite app_assoc, (look_ne _ rest' rest) by assumption. assumption.
Qed.
(** ... so every sentence that begins with the text read goes on as expected *)
Lemma expects_complete e text stk rest pt more : fails pd start e text stk rest -> e = start -> derivation pd pt -> root pt = start ->
  yield pd pt = consumed pd stk ++ more -> ~ ~ expects pd start stk (look more).
Proof.
  intros Hf -> Hd Hr Hy Hx. pose proof (complete pd start Hwf Hcon pt Hd []) as Hc. rewrite Hr, app_nil_r in Hc.
  specialize (Hc (fun _ => fol_start pd start)). rewrite Hy in Hc.
  eapply (fails_not_pred pd start Hwf Hcon); [|exact Hc]. apply (fails_any _ _ _ _ Hf). assumption.
Qed.
(** conversely everything expected is possible *)
Context (Hprod : forall A, has_rule pd A -> productive pd A).
Lemma all_productive e : (exists s, is_terminal pd e s) \/ (is_nonterminal pd e /\ has_rule pd e) -> productive pd e.
Proof. intros [[s Hs]|[_ Hr]]; [|auto]. exists (PLeaf e). split; [econstructor; exact Hs|reflexivity]. Qed.
Lemma list_productive l : (forall e, e ∈ l -> productive pd e) -> exists pts, Forall (derivation pd) pts /\ map root pts = l.
Proof.
  induction l as [|e l IH]; intros Hall; [exists []; split; [constructor|reflexivity]|].
  destruct (Hall e ltac:(left)) as (p & Hd & <-). destruct IH as (ps & Hps & <-); [intros x Hx; apply Hall; right; assumption|].
  exists (p :: ps). split; [constructor; assumption|reflexivity].
Qed.
Lemma fst_tree e c : fst_of pd e c -> exists pt more, derivation pd pt /\ root pt = e /\ yield pd pt = c :: more.
Proof.
  induction 1 as [e c s Hs|A u e v c Ha Hu _ (pt & more & I1 & I2 & I3)].
  - exists (PLeaf e), s. split; [econstructor; exact Hs|]. split; [reflexivity|]. apply (text_of_terminal pd e (c :: s) Hs).
  - destruct (list_productive v) as (pts & P1 & P2).
    { intros x Hx. apply all_productive. eapply (proj2 (con_defined pd start Hcon)); [exact Ha|]. apply elem_of_app. right. right. assumption. }
    assert (exists us, Forall (derivation pd) us /\ map root us = u /\ concat (map (yield pd) us) = []) as (us & U1 & U2 & U3).
    { clear Ha. induction u as [|e1 u IHu].
      - exists []. split; [constructor|auto].
      - inversion Hu as [|? ? He Hu']; subst. destruct (IHu Hu') as (us & U1 & U2 & U3). destruct (nul_tree e1 He) as (q & Q1 & Q2 & Q3).
        exists (q :: us). split; [constructor; assumption|]. simpl. rewrite Q2, Q3, U2, U3. auto. }
    exists (PNode A (us ++ pt :: pts)), (more ++ concat (map (yield pd) pts)). split; [|split; [reflexivity|]].
    + apply der_node; [rewrite map_app; simpl; rewrite U2, I2, P2; assumption|]. apply Forall_app. split; [assumption|]. constructor; assumption.
    + simpl. rewrite map_app, concat_app, U3. simpl. rewrite I3. reflexivity.
Qed.
Lemma expects_sound stk x : failed_derivation pd stk -> expects pd start stk x ->
  exists pt more, derivation pd pt /\ root pt = stuck_root stk /\ yield pd pt = consumed pd stk ++ more /\ look more = x.
Proof.
  induction 1 as [A HA|t s k Ht Hk|A completed s after Ha Hf Hs IH]; intros Hx; simpl in *.
  - destruct Hx as (r & p & Hr & Hp & Hc). destruct (choose_first A r p x Hr Hp Hc) as (e & es & c & -> & -> & He).
    destruct (fst_tree A c) as (pt & more & D1 & D2 & D3).
    { apply (fst_n pd A [] e es); [exists r, (NotEmpty (e :: es)); auto|constructor|assumption]. }
    exists pt, (c :: more). auto.
  - destruct Hx as (c & Hc & ->). exists (PLeaf t), (drop k (text_of pd t)). split; [econstructor; exact Ht|]. split; [reflexivity|]. simpl. rewrite take_drop.
    split; [reflexivity|]. rewrite (drop_S _ _ _ Hc). reflexivity.
  - destruct (IH Hx) as (pt & more & I1 & I2 & I3 & I4).
    destruct (list_productive after) as (pts & P1 & P2).
    { intros y Hy. apply all_productive. eapply (proj2 (con_defined pd start Hcon)); [exact Ha|]. apply elem_of_app. right. right. assumption. }
    exists (PNode A (completed ++ pt :: pts)), (more ++ concat (map (yield pd) pts)). split; [|split; [reflexivity|split]].
    + apply der_node; [rewrite map_app; simpl; rewrite I2, P2; assumption|]. apply Forall_app. split; [assumption|]. constructor; assumption.
    + simpl. rewrite map_app, concat_app. simpl. rewrite I3. rewrite <- !app_assoc. reflexivity.
    + destruct more as [|c more]; [|exact I4]. exfalso. rewrite app_nil_r in I3. simpl in I4. subst x. clear -Hx Hcon Hwf Hnn Hs.
      induction s as [A|t k|A cs s IH after]; simpl in Hx.
      * destruct Hx as (r & p & Hr & Hp & Hc). destruct (choose_first A r p _ Hr Hp Hc) as (e & es & c & _ & E & _). discriminate.
      * destruct Hx as (c & _ & E). discriminate.
      * inversion Hs; subst. auto.
Qed.
End grammar.
