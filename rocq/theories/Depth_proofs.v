(** * How deep a parse recurses (C102) *)
From Verif Require Import Base Peekables Tree Errors Sets ParserData Vm SteuerMap ScriptParser
  SpecGrammar SpecParser SpecTree SpecScript Grammar_proofs First_proofs Tree_proofs Script_proofs Parse_proofs.

Definition most (l : list nat) : nat := foldr max 0 l.
Lemma most_le l n : most l <= n <-> Forall (fun k => k <= n) l.
Proof. unfold most. induction l as [|k l IH]; cbn; [split; [constructor|lia]|]. rewrite Forall_cons, <- IH. lia. Qed.
Fixpoint depth (pt : ptree) : nat := match pt with PLeaf _ => 0 | PNode _ subs => S (most (map depth subs)) end.
Definition depths (pts : list ptree) : nat := most (map depth pts).
Fixpoint stuck_depth (s : stuck) : nat :=
  match s with StuckChoice _ => 1 | StuckTerm _ _ => 0 | StuckIn _ subs s _ => S (max (depths subs) (stuck_depth s)) end.

Section parser.
Context {H : HashOrder} (vm : VM) (pd : ParserData (vm_instr vm)) (start : nat) (ps : Parser (vm_instr vm)).
Context (Hwf : wf_grammar pd) (Hcon : constructible pd start) (Htab : parser_table pd start ps) (Hvm : keeps_tree vm).
Notation det := (proj1 (pred_deterministic pd start (con_disjoint pd start Hcon) (wf_rules pd Hwf))).
Notation dets := (proj2 (pred_deterministic pd start (con_disjoint pd start Hcon) (wf_rules pd Hwf))).
Notation nopred := (fails_no_pred pd start (con_disjoint pd start Hcon) (wf_rules pd Hwf)).

Definition call_depth (f A : nat) : Prop := forall par text pos v h,
  has_rule pd A -> grown h -> (forall q, par = Some q -> q < length h) ->
  match parse_nonterminal vm ps f A (option_map id_of par) (P vm text pos v h) with
  | (Ok _, _) => forall pt rest, pred pd start A text pt rest -> depth pt <= f
  | (Err _, _) => forall stk rest, fails pd start A text stk rest -> stuck_depth stk <= f
  | (Panic, _) => True
  | (Diverge, _) => vm_diverges vm \/ ((forall pt rest, pred pd start A text pt rest -> f < depth pt) /\ (forall stk rest, fails pd start A text stk rest -> f < stuck_depth stk))
  end.
(** the elements of an alternative stop at a place *)
Definition stops (els : list nat) (text : str) (pts : list ptree) (stk : stuck) : Prop :=
  exists es e after mid rest, els = es ++ e :: after /\ preds pd start es text pts mid /\ fails pd start e mid stk rest.
Definition loop_depth (f : nat) (els : list nat) : Prop := forall n text pos v h,
  grown h -> n < length h ->
  (forall e, e ∈ els -> (exists s, is_terminal pd e s) \/ (is_nonterminal pd e /\ has_rule pd e)) ->
  match els_loop vm ps f (id_of n) els (P vm text pos v h) with
  | (Ok _, _) => forall pts rest, preds pd start els text pts rest -> depths pts <= f
  | (Err _, _) => forall pts stk, stops els text pts stk -> max (depths pts) (stuck_depth stk) <= f
  | (Panic, _) => True
  | (Diverge, _) => vm_diverges vm \/ ((forall pts rest, preds pd start els text pts rest -> f < depths pts) /\ (forall pts stk, stops els text pts stk -> f < max (depths pts) (stuck_depth stk)))
  end.
Lemma stops_cons e els text pts stk : stops (e :: els) text pts stk <->
  (pts = [] /\ exists rest, fails pd start e text stk rest) \/
  exists pt mid pts', pts = pt :: pts' /\ pred pd start e text pt mid /\ stops els mid pts' stk.
Proof.
  split.
  - intros (es & e0 & after & mid & rest & E & Hp & Hf). destruct es as [|x es]; cbn [app] in E; injection E as <- ->.
    + left. inversion Hp; subst. eauto.
    + right. inversion Hp as [|? ? ? pt m pts' ? P1 P2]; subst. exists pt, m, pts'. split; [reflexivity|]. split; [assumption|].
      exists es, e0, after, mid, rest. auto.
  - intros [(-> & rest & Hf)|(pt & mid & pts' & -> & Hp & es & e0 & after & mid' & rest & -> & Hps & Hf)].
    + exists [], e, els, text, rest. split; [reflexivity|]. split; [constructor|assumption].
    + exists (e :: es), e0, after, mid', rest. split; [reflexivity|]. split; [econstructor; eauto|assumption].
Qed.
Lemma loop_depth_ok f : (forall A, call_depth f A) -> forall els, loop_depth f els.
Proof.
  intros Hcall. induction els as [|e els IH]; intros n text pos v h Hg Hn Hels; [cbn [els_loop]|rewrite els_loop_cons].
  - intros pts rest Hp. inversion Hp; subst. cbn. lia.
  - rewrite (pt_elements pd start ps Htab e).
    assert (forall pt mid v1, pred pd start e text pt mid -> depth pt <= f ->
      match els_loop vm ps f (id_of n) els (P vm mid (pos + length (yield pd pt)) v1 (h ++ tree_history pd (length h) (Some n) pt)) with
      | (Ok _, _) => forall pts rest, preds pd start (e :: els) text pts rest -> depths pts <= f
      | (Err _, _) => forall pts stk, stops (e :: els) text pts stk -> max (depths pts) (stuck_depth stk) <= f
      | (Panic, _) => True
      | (Diverge, _) => vm_diverges vm \/ ((forall pts rest, preds pd start (e :: els) text pts rest -> f < depths pts) /\ (forall pts stk, stops (e :: els) text pts stk -> f < max (depths pts) (stuck_depth stk)))
      end) as Hcont.
    { intros pt mid v1 Hpt Hdp.
      assert (grown (h ++ tree_history pd (length h) (Some n) pt)) as Hg1 by (apply grown_tree; [assumption|]; intros q [= <-]; assumption).
      specialize (IH n mid (pos + length (yield pd pt)) v1 (h ++ tree_history pd (length h) (Some n) pt) Hg1).
      rewrite app_length, tree_history_length in IH. specialize (IH ltac:(lia) ltac:(intros e0 He0; apply Hels; right; assumption)).
      assert (forall pts rest, preds pd start (e :: els) text pts rest -> exists pts', pts = pt :: pts' /\ preds pd start els mid pts' rest) as Hps.
      { intros pts rest Hp. inversion Hp as [|? ? ? pt' m pts' ? P1 P2]; subst. destruct (det _ _ _ _ Hpt _ _ P1) as [<- <-]. eauto. }
      assert (forall pts stk, stops (e :: els) text pts stk -> exists pts', pts = pt :: pts' /\ stops els mid pts' stk) as Hst.
      { intros pts stk Hs. apply stops_cons in Hs as [(_ & rest & Hf)|(pt' & m & pts' & -> & P1 & P2)]; [destruct (nopred _ _ _ _ Hf _ _ Hpt)|].
        destruct (det _ _ _ _ Hpt _ _ P1) as [<- <-]. eauto. }
      assert (forall pts, depths (pt :: pts) = max (depth pt) (depths pts)) as Hdc by reflexivity.
      destruct (els_loop vm ps f (id_of n) els _) as [[[]|er| |] s'].
      - intros pts rest Hp. apply Hps in Hp as (pts' & -> & Hp). apply IH in Hp. rewrite Hdc. lia.
      - intros pts stk Hs. apply Hst in Hs as (pts' & -> & Hs). apply IH in Hs. rewrite Hdc. lia.
      - exact Logic.I.
      - destruct IH as [IH|[IH1 IH2]]; [auto|]. right. split.
        + intros pts rest Hp. apply Hps in Hp as (pts' & -> & Hp). apply IH1 in Hp. rewrite Hdc. lia.
        + intros pts stk Hs. apply Hst in Hs as (pts' & -> & Hs). apply IH2 in Hs. rewrite Hdc. lia. }
    destruct (Hels e (elem_of_list_here _ _)) as [[s Hs]|[[nm Hnm] Hrule]].
    + rewrite Hs. unfold parse_script_terminal. unfold sbind at 1. unfold sbind at 1. unfold sbind at 1.
      pose proof (terminal_spec vm s text pos v h) as Ht. destruct (terminal_chars vm s (P vm text pos v h)) as [[[]|er| |] s1]; try contradiction.
      * destruct Ht as (rest & -> & ->). cbn [sret].
        unfold ps_add_node_ignored, ps_add_node. cbn [ps_tree P ps_in ps_vm].
        assert (grown (h ++ [(Some n, s)])) as Hg1. { apply grown_app; [assumption|]. intros q [= <-]. assumption. }
        pose proof (tree_of_snoc h (Some n) s Hg1) as Hadd. cbn [option_map] in Hadd. rewrite Hadd. cbn [map_err].
        specialize (Hcont (PLeaf e) rest v (pr_leaf pd start e s rest Hs) ltac:(cbn; lia)).
        cbn [SpecScript.tree_history yield] in Hcont. rewrite (text_of_terminal pd e s Hs) in Hcont. exact Hcont.
      * destruct Ht as (k & rest & Hk & -> & Hh & _ & _).
        assert (fails pd start e (take k s ++ rest) (StuckTerm e k) rest) as Hf by (econstructor; eauto).
        intros pts stk Hst. apply stops_cons in Hst as [(-> & rest' & Hf')|(pt' & m & pts' & -> & P1 & P2)]; [|destruct (nopred _ _ _ _ Hf _ _ P1)].
        destruct (fails_deterministic pd start (con_disjoint pd start Hcon) (wf_rules pd Hwf) _ _ _ _ Hf _ _ Hf') as [<- _]. cbn. lia.
    + rewrite Hnm. unfold sbind at 1. pose proof (Hcall e (Some n) text pos v h Hrule Hg) as Hc.
      pose proof (call_ok vm pd start ps Hwf Hcon Htab Hvm f e (Some n) text pos v h Hrule Hg) as Hk. cbn [option_map] in Hc, Hk.
      assert (forall q, Some n = Some q -> q < length h) as Hq by (intros q [= <-]; assumption). specialize (Hc Hq). specialize (Hk Hq).
      destruct (parse_nonterminal vm ps f e (Some (id_of n)) (P vm text pos v h)) as [[[]|er| |] s1].
      * destruct Hk as (pt & rest & v1 & C1 & -> & C3). apply Hcont; eauto.
      * destruct Hk as (stk & rest & v1 & C1 & _). intros pts stk' Hst.
        apply stops_cons in Hst as [(-> & rest' & Hf')|(pt' & m & pts' & -> & P1 & P2)]; [|destruct (nopred _ _ _ _ C1 _ _ P1)]. apply Hc in Hf'. cbn. lia.
      * exact Logic.I.
      * destruct Hc as [?|[Hc1 Hc2]]; [auto|]. right. split.
        -- intros pts rest Hp. inversion Hp as [|? ? ? pt' m pts' ? P1 P2]; subst. apply Hc1 in P1. unfold depths. cbn. lia.
        -- intros pts stk Hst. apply stops_cons in Hst as [(-> & rest' & Hf')|(pt' & m & pts' & -> & P1 & P2)]; [apply Hc2 in Hf'|apply Hc1 in P1]; unfold depths; cbn; lia.
Qed.
Lemma call_depth_ok f : forall A, call_depth f A.
Proof.
  induction f as [|f IH]; intros A par text pos v h [r Hr] Hg Hpar.
  - cbn [parse_nonterminal]. right. split.
    + intros pt rest Hp. inversion Hp; subst; [exfalso; eapply (terminal_not_rule pd (wf_rules pd Hwf)); eauto|cbn; lia].
    + intros stk rest Hf. inversion Hf; subst; [cbn; lia|exfalso; eapply (terminal_not_rule pd (wf_rules pd Hwf)); eauto|cbn; lia].
  - rewrite parse_unfold. unfold sbind at 1. rewrite peek_P, look_peek.
    destruct (proj2 (pt_rules pd start ps Htab A) ltac:(eexists; exact Hr)) as [nt Hnt]. rewrite Hnt.
    destruct (pt_entry pd start ps Htab A r nt Hr Hnt) as (_ & Hins & Hsel).
    unfold sbind at 1. unfold get_fitting_production. rewrite Hnt.
    destruct (steuermap nt !! look text) as [p|] eqn:Hp.
    2:{ unfold sbind at 1. rewrite peek_P. cbn [sbind ps_pos sfail P ps_in cur_pos].
        assert (fails pd start A text (StuckChoice A) text) as Hf.
        { eapply f_choice; [exact Hr|]. intros p Hpp Hc. pose proof (proj2 (Hsel _ _) (conj Hpp Hc)). congruence. }
        assert (forall stk rest, fails pd start A text stk rest -> stuck_depth stk <= S f) as Hall.
        { intros stk rest Hf'. destruct (fails_deterministic pd start (con_disjoint pd start Hcon) (wf_rules pd Hwf) _ _ _ _ Hf _ _ Hf') as [<- _]. cbn. lia. }
        destruct text; exact Hall. }
    destruct (proj1 (Hsel _ _) Hp) as [Hpp Hc].
    assert (forall pt rest, pred pd start A text pt rest -> exists subs, pt = PNode A subs /\ preds pd start (right_side p) text subs rest) as Hpi.
    { intros pt rest Hpr. inversion Hpr as [t' s' r' Ht' E1 E2 E3|A' r' p' ? subs' ? Hr' Hp' Hc' Hs']; subst; [exfalso; eapply (terminal_not_rule pd (wf_rules pd Hwf)); eauto|].
      assert (r' = r) as -> by congruence. assert (p' = p) as -> by (eapply (choice_unique pd start (con_disjoint pd start Hcon)); eauto). eauto. }
    assert (forall stk rest, fails pd start A text stk rest -> exists subs s after, stk = StuckIn A subs s after /\ stops (right_side p) text subs s) as Hfi.
    { intros stk rest Hf. inversion Hf as [? r' ? Hr' Hn'|? ? ? ? Ht'|? r' p' ? es' subs' mid' e' stk0 after' ? Hr' Hp' Hc' He' Hs' Hf0]; subst.
      - assert (r' = r) as -> by congruence. exfalso. eapply Hn'; eauto.
      - exfalso. eapply (terminal_not_rule pd (wf_rules pd Hwf)); eauto.
      - assert (r' = r) as -> by congruence. assert (p' = p) as -> by (eapply (choice_unique pd start (con_disjoint pd start Hcon)); eauto).
        exists subs', stk0, after'. split; [reflexivity|]. exists es', e', after', mid', rest. auto. }
    unfold sbind at 1. unfold ps_add_node. cbn [P ps_tree ps_in ps_vm].
    assert (grown (h ++ [(par, @nil N)])) as Hg1 by (apply grown_app; assumption).
    rewrite (tree_of_snoc h par [] Hg1). cbn [map_err].
    set (h1 := h ++ [(par, @nil N)]) in *. fold (P vm text pos v h1).
    assert (length h1 = S (length h)) as Hl1 by (unfold h1; rewrite app_length; simpl; lia).
    assert (forall (els : list nat), right_side p = els ->
      match (do _u <- els_loop vm ps f (id_of (length h)) els; run_instructions vm (id_of (length h)) (nt_instruction nt)) (P vm text pos v h1) with
      | (Ok _, _) => forall pt rest, pred pd start A text pt rest -> depth pt <= S f
      | (Err _, _) => forall stk rest, fails pd start A text stk rest -> stuck_depth stk <= S f
      | (Panic, _) => True
      | (Diverge, _) => vm_diverges vm \/ ((forall pt rest, pred pd start A text pt rest -> S f < depth pt) /\ (forall stk rest, fails pd start A text stk rest -> S f < stuck_depth stk))
      end) as Hmain.
    { intros els Hels. rewrite Hels in Hpi, Hfi. assert (alternative pd A els) as Halt by (exists r, p; auto).
      assert (forall e, e ∈ els -> (exists s, is_terminal pd e s) \/ (is_nonterminal pd e /\ has_rule pd e)) as Hde.
      { intros e He. eapply (proj2 (con_defined pd start Hcon)); eauto. }
      pose proof (loop_depth_ok f IH els (length h) text pos v h1 Hg1 ltac:(lia) Hde) as Hd.
      pose proof (loop_ok vm pd start ps Hwf Hcon Htab f (call_ok vm pd start ps Hwf Hcon Htab Hvm f) els (length h) text pos v h1 Hg1 ltac:(lia) Hde) as Hk.
      rewrite Hl1 in Hk.
      unfold sbind at 1. destruct (els_loop vm ps f (id_of (length h)) els (P vm text pos v h1)) as [[[]|e| |] s1].
      - destruct Hk as (pts & rest & v1 & L1 & -> & L3). 
        pose proof (run_instructions_spec vm Hvm (nt_instruction nt) (length h) rest (pos + length (forest_yield pd pts)) v1
          (h1 ++ forest_history pd (S (length h)) (Some (length h)) pts)) as Hri.
        specialize (Hri ltac:(rewrite <- Hl1; apply grown_forest; [assumption|]; intros q [= <-]; lia) ltac:(rewrite app_length; lia)).
        destruct (run_instructions vm (id_of (length h)) (nt_instruction nt) _) as [[[]|[]| |] s2]; try contradiction.
        + intros pt rest' Hpr. apply Hpi in Hpr as (subs & -> & Hs). apply Hd in Hs. cbn. unfold depths in Hs. lia.
        + exact Logic.I.
        + auto.
      - intros stk rest Hf. apply Hfi in Hf as (subs & s & after & -> & Hs). apply Hd in Hs. cbn. lia.
      - exact Logic.I.
      - destruct Hd as [?|[Hd1 Hd2]]; [auto|]. right. split.
        + intros pt rest' Hpr. apply Hpi in Hpr as (subs & -> & Hs). apply Hd1 in Hs. cbn. unfold depths in Hs. lia.
        + intros stk rest Hf. apply Hfi in Hf as (subs & s & after & -> & Hs). apply Hd2 in Hs. cbn. lia. }
    destruct p as [els|].
    + exact (Hmain els eq_refl).
    + exact (Hmain [] eq_refl).
Qed.

(** the whole parse *)
Lemma run_depth st fuel text v : start_element pd st -> has_rule pd st ->
  match fst (parse_run vm ps fuel text v) with
  | Ok _ => forall pt rest, pred pd start st text pt rest -> depth pt <= fuel
  | Err _ => forall stk rest, fails pd start st text stk rest -> stuck_depth stk <= fuel
  | Panic => True
  | Diverge => vm_diverges vm \/ ((forall pt rest, pred pd start st text pt rest -> fuel < depth pt) /\ (forall stk rest, fails pd start st text stk rest -> fuel < stuck_depth stk))
  end.
Proof.
  intros Hst Hr. unfold parse_run. rewrite (position_start vm pd start ps Htab st Hst).
  change (mkPS (pp_new text None None) v tree_new) with (P vm text 0 v []).
  assert (grown (@nil (option nat * str))) as Hg by (intros i p d Hi; rewrite lookup_nil in Hi; discriminate).
  pose proof (call_depth_ok fuel st None text 0 v [] Hr Hg ltac:(discriminate)) as Hc. cbn [option_map] in Hc.
  destruct (parse_nonterminal vm ps fuel st None (P vm text 0 v [])) as [[[]|e| |] s1]; exact Hc.
Qed.

(** ** without recursion the depth is bounded by the number of names *)
Definition calls (A B : nat) : Prop := exists w, alternative pd A w /\ B ∈ w /\ has_rule pd B.
Context (Hacyclic : forall A, ~ tc calls A A).
Definition above (vis : list nat) (A : nat) : Prop := NoDup vis /\ forall B, B ∈ vis -> has_rule pd B /\ tc calls B A.
Notation rules_count := (size (pd_rules pd)).
Lemma above_lt vis A : has_rule pd A -> above vis A -> length vis < rules_count.
Proof.
  intros HA [Hnd Hv]. assert (A ∉ vis) as Hn by (intros Hin; apply Hv in Hin as [_ Hin]; exact (Hacyclic A Hin)).
  assert (NoDup (A :: vis)) as Hnd' by (constructor; assumption).
  assert (list_to_set (A :: vis) ⊆ dom (pd_rules pd)) as Hsub.
  { intros B HB. apply elem_of_list_to_set, elem_of_cons in HB. apply elem_of_dom. destruct HB as [->|HB]; [assumption|apply Hv; assumption]. }
  apply subseteq_size in Hsub. rewrite size_list_to_set in Hsub by assumption. rewrite size_dom in Hsub. simpl in Hsub. lia.
Qed.
Lemma above_step vis A w B : has_rule pd A -> above vis A -> alternative pd A w -> B ∈ w -> has_rule pd B -> above (A :: vis) B.
Proof.
  intros HA [Hnd Hv] Hw HB Hr. assert (calls A B) as Hc by (exists w; auto). split.
  - constructor; [|assumption]. intros Hin. apply Hv in Hin as [_ Hin]. exact (Hacyclic A Hin).
  - intros C HC. apply elem_of_cons in HC as [->|HC]; [split; [assumption|apply tc_once; assumption]|].
    destruct (Hv C HC) as [W1 W2]. split; [assumption|]. eapply tc_r; eauto.
Qed.
Lemma derivation_rule A subs : derivation pd (PNode A subs) -> has_rule pd A.
Proof. intros Hd. inversion Hd as [|? ? (r & p & Hr & _) _]; subst. eexists. exact Hr. Qed.
Lemma depth_above pt : derivation pd pt -> forall vis, above vis (root pt) -> depth pt <= rules_count - length vis.
Proof.
  induction pt as [t|A subs IH] using ptree_rect'; intros Hd vis Hv; [cbn; lia|].
  pose proof (derivation_rule A subs Hd) as HA. pose proof (above_lt vis A HA Hv) as Hlt. inversion Hd as [|? ? Ha Hf]; subst. cbn [depth].
  assert (most (map depth subs) <= rules_count - S (length vis)); [|lia]. apply most_le, Forall_fmap, Forall_forall. intros s Hs.
  rewrite Forall_forall in IH, Hf. specialize (IH s Hs (Hf s Hs)). destruct s as [t|B bs]; [cbn; lia|]. cbn [compose].
  apply (IH (A :: vis)). apply (above_step vis A (map root subs)); [assumption..| |apply (derivation_rule B bs), Hf, Hs].
  apply elem_of_list_fmap. exists (PNode B bs). auto.
Qed.
Lemma stuck_above stk : failed_derivation pd stk -> has_rule pd (stuck_root stk) \/ stuck_depth stk = 0 -> forall vis, above vis (stuck_root stk) -> stuck_depth stk <= rules_count - length vis.
Proof.
  induction 1 as [A HA|t s k Ht Hk|A subs s after Ha Hf Hs IH]; intros HA' vis Hv; cbn [stuck_depth stuck_root] in *.
  - pose proof (above_lt vis A HA Hv). lia.
  - lia.
  - assert (has_rule pd A) as HA by (destruct HA' as [?|?]; [assumption|lia]). pose proof (above_lt vis A HA Hv) as Hlt.
    assert (depths subs <= rules_count - S (length vis)).
    { apply most_le, Forall_fmap, Forall_forall. intros x Hx. rewrite Forall_forall in Hf. specialize (Hf x Hx). destruct x as [t|B bs]; [cbn; lia|]. cbn [compose].
      apply (depth_above (PNode B bs) Hf (A :: vis)). eapply above_step; [assumption..|exact Ha| |apply (derivation_rule B bs), Hf].
      apply elem_of_app. left. apply elem_of_list_fmap. exists (PNode B bs). auto. }
    assert (stuck_depth s <= rules_count - S (length vis)); [|lia].
    assert (stuck_depth s = 0 \/ has_rule pd (stuck_root s)) as [->|Hr]; [|lia|].
    { inversion Hs as [? HB|? ? ? ? ?|? ? ? ? (r & p & Hr & _) ? ?]; subst; cbn; [right; assumption|left; reflexivity|right; eexists; exact Hr]. }
    apply (IH (or_introl Hr) (A :: vis)). eapply above_step; [assumption..|exact Ha| |assumption]. apply elem_of_app. right. left.
Qed.
Lemma flat_run st fuel text v : start_element pd st -> has_rule pd st -> ~ vm_diverges vm -> rules_count <= fuel -> fst (parse_run vm ps fuel text v) <> Diverge.
Proof.
  intros Hst Hr Hnd Hf E. pose proof (run_depth st fuel text v Hst Hr) as Hd. rewrite E in Hd. destruct Hd as [?|[Hd1 Hd2]]; [auto|].
  assert (above [] st) as Hv by (split; [constructor|intros B HB; inversion HB]).
  destruct (pred_or_fails pd start H ps st text Hwf Hcon Htab Hst Hr) as [(pt & rest & Hp)|(stk & rest & Hfa)].
  - pose proof (Hd1 _ _ Hp). apply pred_sound in Hp as (Hp & Hrt & _). rewrite <- Hrt in Hv. pose proof (depth_above pt Hp [] Hv). lia.
  - pose proof (Hd2 _ _ Hfa). apply fails_sound in Hfa as (Hp & Hrt & _); [|intros _; apply (wf_rules pd Hwf); assumption|apply (wf_rules pd Hwf)].
    rewrite <- Hrt in Hv, Hr. pose proof (stuck_above stk Hp (or_introl Hr) [] Hv). lia.
Qed.
End parser.
