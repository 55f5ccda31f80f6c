(** * More about parsing: completeness, exclusivity, viable prefixes, the tree seen
    through the API, enough fuel *)
From Verif Require Import Base Peekables Tree Errors Sets ParserData Vm SimpleStackVm StackVm SteuerMap ScriptParser
  SpecGrammar SpecParser SpecTree SpecScript Grammar_proofs Tree_proofs Script_proofs.

Section grammar.
Context {I : Type} (pd : ParserData I) (start : nat).
Context (Hwf : wf_grammar pd) (Hcon : constructible pd start).

(** ** the first char of a derivation tree *)
Lemma yield_fst pt : derivation pd pt -> forall c y, yield pd pt = c :: y -> fst_of pd (root pt) c.
Proof.
  induction pt as [t|A subs IH] using ptree_rect'; intros Hd c y Hy.
  - inversion Hd as [? s Hs|]; subst. simpl in Hy. rewrite (text_of_terminal pd t s Hs) in Hy. subst s. eapply fst_t. exact Hs.
  - inversion Hd as [|? ? Ha Hf]; subst. simpl. simpl in Hy.
    assert (exists u e v, map root subs = u ++ e :: v /\ nuls pd u /\ fst_of pd e c) as (u & e & v & Hm & Hn & He).
    { clear Hd Ha. induction IH as [|s subs Hs _ IH]; simpl in *; [discriminate|]. inversion Hf as [|? ? Hd1 Hd2]; subst.
      destruct (yield pd s) as [|c' y'] eqn:E.
      - simpl in Hy. destruct (IH Hy Hd2) as (u & e & v & -> & Hn & He). exists (root s :: u), e, v.
        split; [reflexivity|]. split; [constructor; [apply empty_nul; assumption|assumption]|assumption].
      - simpl in Hy. injection Hy as -> _. exists [], (root s), (map root subs). split; [reflexivity|]. split; [constructor|]. eauto. }
    rewrite Hm in Ha. eapply fst_n; eauto.
Qed.
Lemma forest_fsts pts : Forall (derivation pd) pts -> forall c y, forest_yield pd pts = c :: y -> fsts pd (map root pts) c.
Proof.
  induction 1 as [|pt pts Hd Hf IH]; intros c y Hy; unfold forest_yield in *; simpl in *; [discriminate|]. apply fsts_cons.
  destruct (yield pd pt) as [|c' y'] eqn:E.
  - right. split; [apply empty_nul; assumption|]. eauto.
  - simpl in Hy. injection Hy as -> _. left. eapply yield_fst; eauto.
Qed.

(** ** completeness: every derivation tree is predicted *)
Lemma complete pt : derivation pd pt -> forall rest, (is_nonterminal pd (root pt) -> fol pd start (root pt) (look rest)) ->
  pred pd start (root pt) (yield pd pt ++ rest) pt rest.
Proof.
  induction pt as [t|A subs IH] using ptree_rect'; intros Hd rest Hfol.
  - inversion Hd as [? s Hs|]; subst. simpl. rewrite (text_of_terminal pd t s Hs). apply pr_leaf. assumption.
  - inversion Hd as [|? ? Ha Hf]; subst. simpl in *. destruct Ha as (r & p & Hr & Hp & Hrs).
    assert (alternative pd A (map root subs)) as Halt by (exists r, p; auto).
    assert (fol pd start A (look rest)) as HfA by (apply Hfol; apply (wf_rules pd Hwf); eexists; exact Hr).
    eapply pr_node; [exact Hr|exact Hp| |].
    + eapply select_choose; [exact Hr|exact Hp|eapply (proj1 (con_defined pd start Hcon)); eauto|].
      unfold SELECT. rewrite <- Hrs. destruct (concat (map (yield pd) subs)) as [|c y] eqn:E.
      * right. split; [apply NULLABLE_nuls, empty_nuls; assumption|]. apply FOLLOW_fol. assumption.
      * left. exists c. split; [reflexivity|]. apply FIRST_fsts. eapply forest_fsts; eauto.
    + rewrite <- Hrs. 
      assert (forall pre post, subs = pre ++ post -> preds pd start (map root post) (concat (map (yield pd) post) ++ rest) post rest) as Hgen;
        [|apply (Hgen [] subs eq_refl)].
      intros pre post. revert pre. induction post as [|s post IHp]; intros pre Hs; simpl; [constructor|].
      assert (Forall (derivation pd) (s :: post)) as Hfp by (rewrite Hs in Hf; apply Forall_app in Hf; tauto).
      inversion Hfp as [|? ? Hds Hfps]; subst x l.
      econstructor; [|apply (IHp (pre ++ [s])); rewrite <- app_assoc; assumption].
      rewrite <- app_assoc. rewrite Hs in IH. apply Forall_app in IH as [_ IH]. inversion IH as [|? ? IHs _]; subst x l. apply IHs; [assumption|].
      intros _. rewrite Hs, map_app in Halt. simpl in Halt.
      destruct (concat (map (yield pd) post)) as [|c y] eqn:E.
      * simpl. eapply fol_prop; [exact Halt|apply empty_nuls; assumption|assumption].
      * simpl. eapply fol_first; [exact Halt|]. eapply forest_fsts; eauto.
Qed.

(** ** failures exclude successes *)
Lemma preds_app_inv es1 es2 : forall text pts rest, preds pd start (es1 ++ es2) text pts rest ->
  exists pts1 pts2 mid, pts = pts1 ++ pts2 /\ preds pd start es1 text pts1 mid /\ preds pd start es2 mid pts2 rest.
Proof.
  induction es1 as [|e es1 IH]; intros text pts rest Hp; simpl in Hp.
  - exists [], pts, text. split; [reflexivity|]. split; [constructor|assumption].
  - inversion Hp as [|? ? ? pt mid pts' ? P1 P2]; subst. destruct (IH _ _ _ P2) as (p1 & p2 & m & -> & Q1 & Q2).
    exists (pt :: p1), p2, m. split; [reflexivity|]. split; [econstructor; eauto|assumption].
Qed.
Notation det := (pred_deterministic pd start (con_disjoint pd start Hcon) (wf_rules pd Hwf)).
Lemma fails_not_pred e text stk rest : fails pd start e text stk rest -> forall pt rest', ~ pred pd start e text pt rest'.
Proof.
  induction 1 as [A r text Hr Hn|t s k rest Ht Hk Hne|A r p text es subs mid e stk after rest Hr Hp Hc He Hs Hf IH]; intros pt rest' Hpr.
  - inversion Hpr as [t' s' r' Ht' E1 E2 E3|A' r' p' ? subs' ? Hr' Hp' Hc' Hs']; subst.
    + eapply (terminal_not_rule pd (wf_rules pd Hwf)); eauto.
    + assert (r' = r) as -> by congruence. eapply Hn; eauto.
  - inversion Hpr as [t' s' r' Ht' E1 E2 E3|A' r' p' ? subs' ? Hr' Hp' Hc' Hs']; subst.
    + assert (s' = s) as -> by (unfold is_terminal in *; congruence).
      apply Hne. assert (s !! k = (take k s ++ rest) !! k) as ->.
      { rewrite <- E2. rewrite lookup_app_l by lia. reflexivity. }
      rewrite lookup_app_r by (rewrite take_length; lia). rewrite take_length_le, Nat.sub_diag by lia. destruct rest; reflexivity.
    + eapply (terminal_not_rule pd (wf_rules pd Hwf)); eauto.
  - inversion Hpr as [t' s' r' Ht' E1 E2 E3|A' r' p' ? subs' ? Hr' Hp' Hc' Hs']; subst.
    + eapply (terminal_not_rule pd (wf_rules pd Hwf)); eauto.
    + assert (r' = r) as -> by congruence.
      assert (p' = p) as -> by (eapply (choice_unique pd start (con_disjoint pd start Hcon)); eauto).
      rewrite He in Hs'. apply preds_app_inv in Hs' as (p1 & p2 & m & -> & Q1 & Q2).
      destruct (proj2 det _ _ _ _ Hs _ _ Q1) as [-> ->]. inversion Q2; subst. eapply IH; eauto.
Qed.

(** ** both depend only on the text read and the lookahead *)
Lemma look_app y r r' : look r = look r' -> look (y ++ r) = look (y ++ r').
Proof. destruct y; simpl; auto. Qed.
Lemma pred_lookahead :
  (forall e text pt rest, pred pd start e text pt rest -> forall rest', look rest = look rest' -> pred pd start e (yield pd pt ++ rest') pt rest') /\
  (forall es text pts rest, preds pd start es text pts rest -> forall rest', look rest = look rest' ->
     preds pd start es (concat (map (yield pd) pts) ++ rest') pts rest').
Proof.
  apply pred_both.
  - intros t s rest Ht rest' _. simpl. rewrite (text_of_terminal pd t s Ht). constructor. assumption.
  - intros A r p text subs rest Hr Hp Hc Hs IH rest' Hl. simpl. eapply pr_node; eauto.
    apply pred_sound in Hs as (_ & _ & ->). rewrite <- (look_app _ _ _ Hl). assumption.
  - intros text rest' Hl. constructor.
  - intros e es text pt mid pts rest _ IH1 H2 IH2 rest' Hl. simpl. rewrite <- app_assoc. econstructor; [|apply IH2; assumption].
    apply IH1. apply pred_sound in H2 as (_ & _ & ->). apply look_app. assumption.
Qed.
Lemma fails_lookahead e text stk rest : fails pd start e text stk rest -> forall rest', look rest = look rest' ->
  fails pd start e (consumed pd stk ++ rest') stk rest'.
Proof.
  induction 1 as [A r text Hr Hn|t s k rest Ht Hk Hne|A r p text es subs mid e stk after rest Hr Hp Hc He Hs Hf IH]; intros rest' Hl.
  - simpl. eapply f_choice; [exact Hr|]. rewrite <- Hl. assumption.
  - simpl. rewrite (text_of_terminal pd t s Ht). apply f_term; [assumption..|]. intros Hx. apply Hne. rewrite Hx.
    destruct rest, rest'; simpl in *; congruence.
  - simpl. assert (mid = consumed pd stk ++ rest) as Hmid by (eapply fails_sound; [exact Hf|..]; intros; apply (wf_rules pd Hwf); assumption).
    pose proof (proj2 pred_lookahead _ _ _ _ Hs (consumed pd stk ++ rest')) as Hs'. rewrite Hmid in Hs'.
    specialize (Hs' (look_app _ _ _ Hl)). rewrite <- app_assoc. eapply f_in; eauto.
    apply pred_sound in Hs as (_ & _ & ->). rewrite Hmid in Hc. rewrite <- (look_app _ _ _ (look_app _ _ _ Hl)). assumption.
Qed.

(** ** a failed derivation can be completed when every element is productive *)
Lemma stuck_completion stk : failed_derivation pd stk ->
  (forall A, has_rule pd A -> productive pd A) ->
  exists pt more, derivation pd pt /\ root pt = stuck_root stk /\ yield pd pt = consumed pd stk ++ more.
Proof.
  intros Hf Hp. assert (forall e, (exists s, is_terminal pd e s) \/ (is_nonterminal pd e /\ has_rule pd e) -> productive pd e) as Hpe.
  { intros e [[s Hs]|[_ Hr]]; [|auto]. exists (PLeaf e). split; [econstructor; exact Hs|reflexivity]. }
  assert (forall stk, failed_derivation pd stk -> (exists s, is_terminal pd (stuck_root stk) s) \/ (is_nonterminal pd (stuck_root stk) /\ has_rule pd (stuck_root stk)) ->
    exists pt more, derivation pd pt /\ root pt = stuck_root stk /\ yield pd pt = consumed pd stk ++ more) as Hgen.
  { clear stk Hf. induction 1 as [A HA|t s k Ht Hk|A completed s after Ha Hf Hs IH]; intros Hdef; simpl in *.
    - destruct (Hpe A Hdef) as (pt & Hd & <-). exists pt, (yield pd pt). auto.
    - exists (PLeaf t), (drop k (text_of pd t)). split; [econstructor; exact Ht|]. split; [reflexivity|]. simpl. rewrite take_drop. reflexivity.
    - pose proof (proj2 (con_defined pd start Hcon) A _ (stuck_root s) Ha ltac:(apply elem_of_app; right; left)) as Hds.
      destruct (IH Hds) as (pt & more & I1 & I2 & I3).
      assert (exists pts, Forall (derivation pd) pts /\ map root pts = after) as (pts & A1 & A2).
      { assert (forall e, e ∈ after -> productive pd e) as Hall.
        { intros e He. apply Hpe. eapply (proj2 (con_defined pd start Hcon)); [exact Ha|]. apply elem_of_app. right. right. assumption. }
        clear -Hall. induction after as [|e after IHa]; [exists []; split; [constructor|reflexivity]|].
        destruct (Hall e ltac:(left)) as (p & Hd & <-). destruct IHa as (ps & Hps & <-); [intros x Hx; apply Hall; right; assumption|].
        exists (p :: ps). split; [constructor; assumption|reflexivity]. }
      exists (PNode A (completed ++ pt :: pts)), (more ++ concat (map (yield pd) pts)). split; [|split; [reflexivity|]].
      + apply der_node; [rewrite map_app; simpl; rewrite I2, A2; assumption|]. apply Forall_app. split; [assumption|]. constructor; assumption.
      + simpl. rewrite map_app, concat_app. simpl. rewrite I3. rewrite <- !app_assoc. reflexivity. }
  apply Hgen; [assumption|]. destruct Hf as [A HA|t s k Ht Hk|A completed s after Ha _ _]; simpl.
  - right. split; [apply (wf_rules pd Hwf)|]; assumption.
  - eauto.
  - right. split; [|eapply alternative_has_rule; exact Ha]. apply (wf_rules pd Hwf). eapply alternative_has_rule; exact Ha.
Qed.
End grammar.

(** ** the tree seen through get_by_path_or_none *)
Section paths.
Context {I : Type} (pd : ParserData I).
Notation th := (tree_history pd).
Notation fh := (forest_history pd).

Fixpoint positions {T} (n : nat) (l : history T) (j : nat) : list nat :=
  match l with
  | [] => []
  | (p, _) :: l' => if decide (p = Some j) then n :: positions (S n) l' j else positions (S n) l' j
  end.
Lemma positions_app {T} (l l' : history T) j : forall n, positions n (l ++ l') j = positions n l j ++ positions (n + length l) l' j.
Proof.
  induction l as [|[p d] l IH]; intros n; cbn [app positions length]; [rewrite Nat.add_0_r; reflexivity|].
  rewrite IH, Nat.add_succ_comm. destruct (decide (p = Some j)); reflexivity.
Qed.
Lemma kids_positions {T} (h : history T) j : kids h j = positions 0 h j.
Proof.
  induction h as [|[p d] h IH] using rev_ind; [reflexivity|]. rewrite kids_app, positions_app, IH. cbn [positions plus].
  destruct (decide (p = Some j)); reflexivity.
Qed.
Lemma positions_none {T} (l : history T) j : (forall k p d, l !! k = Some (p, d) -> p <> Some j) -> forall n, positions n l j = [].
Proof.
  induction l as [|[p d] l IH]; intros Hl n; cbn [positions]; [reflexivity|]. destruct (decide (p = Some j)) as [E|E].
  - exfalso. eapply (Hl 0); [reflexivity|exact E].
  - apply IH. intros k p' d' Hk. apply (Hl (S k) p' d'). exact Hk.
Qed.

(** parents inside a tree's own history *)
Lemma tree_lower pt : forall n par k p d, th n par pt !! k = Some (p, d) -> (k = 0 /\ p = par) \/ (k > 0 /\ exists q, p = Some q /\ n <= q < n + nodes_count pt).
Proof.
  induction pt as [t|A subs IH] using ptree_rect'; intros n par k p d Hk.
  - simpl in Hk. apply list_lookup_singleton_Some in Hk as [-> Hk]. injection Hk as Hk1 Hk2. subst. auto.
  - rewrite tree_history_node in Hk. rewrite nodes_count_node. destruct k as [|k]; simpl in Hk; [injection Hk as Hk1 Hk2; subst; auto|]. right. split; [lia|].
    assert (forall m, m > n -> forall k, fh m (Some n) subs !! k = Some (p, d) -> exists q, p = Some q /\ (q = n \/ m <= q < m + forest_count subs)) as Hgen.
    { clear k Hk. induction IH as [|s subs Hs _ IH]; intros m Hm k Hk; cbn [forest_history] in Hk; [rewrite lookup_nil in Hk; discriminate|].
      rewrite forest_count_cons. apply lookup_app_Some in Hk as [Hk|[Hl Hk]].
      - apply Hs in Hk as [[_ ->]|(_ & q & -> & Hq)]; [eauto|]. exists q. split; [reflexivity|]. lia.
      - apply IH in Hk as (q & -> & Hq); [|lia]. exists q. split; [reflexivity|]. lia. }
    destruct (Hgen (S n) ltac:(lia) k Hk) as (q & -> & Hq). exists q. split; [reflexivity|]. lia.
Qed.
Lemma forest_lower subs : forall n par k p d, fh n par subs !! k = Some (p, d) -> p = par \/ exists q, p = Some q /\ n <= q < n + forest_count subs.
Proof.
  induction subs as [|s subs IH]; intros n par k p d Hk; cbn [forest_history] in Hk; [rewrite lookup_nil in Hk; discriminate|].
  rewrite forest_count_cons. apply lookup_app_Some in Hk as [Hk|[Hl Hk]].
  - apply tree_lower in Hk as [[_ ->]|(_ & q & -> & Hq)]; [auto|]. right. exists q. split; [reflexivity|lia].
  - apply IH in Hk as [->|(q & -> & Hq)]; [auto|]. right. exists q. split; [reflexivity|lia].
Qed.
Fixpoint starts (n : nat) (subs : list ptree) : list nat :=
  match subs with [] => [] | s :: subs' => n :: starts (n + nodes_count s) subs' end.
Lemma forest_positions subs : forall n j, j < n -> positions n (fh n (Some j) subs) j = starts n subs.
Proof.
  induction subs as [|s subs IH]; intros n j Hj; [reflexivity|]. cbn [forest_history starts]. rewrite positions_app, tree_history_length, IH by lia.
  assert (positions n (th n (Some j) s) j = [n]) as ->; [|reflexivity].
  assert (exists d l, th n (Some j) s = (Some j, d) :: l) as (d & l & E) by (destruct s; [|rewrite tree_history_node]; eauto).
  assert (forall k p d, l !! k = Some (p, d) -> p <> Some j) as Hl.
  { intros k p d' Hk. assert (th n (Some j) s !! S k = Some (p, d')) as Hk' by (rewrite E; exact Hk).
    apply tree_lower in Hk' as [[? _]|(_ & q & -> & Hq)]; [lia|]. intros [= ->]. lia. }
  rewrite E. cbn [positions]. rewrite decide_True by reflexivity. rewrite positions_none; auto.
Qed.

(** a subtree inside a history *)
Definition located (h : history str) (i : nat) (s : ptree) : Prop :=
  exists a b par, h = a ++ th (length a) par s ++ b /\ i = length a /\
    forall k q d, b !! k = Some (Some q, d) -> q < i \/ i + nodes_count s <= q.
Lemma located_label h i s : located h i s -> exists p, h !! i = Some (p, label pd s).
Proof.
  intros (a & b & par & -> & -> & _). exists par. rewrite lookup_app_r, Nat.sub_diag by lia.
  destruct s as [t|A subs]; [reflexivity|]. rewrite tree_history_node. reflexivity.
Qed.
Lemma located_kids h i A subs : grown h -> located h i (PNode A subs) -> kids h i = starts (S i) subs.
Proof.
  intros Hg (a & b & par & -> & -> & Hb). rewrite kids_positions, !positions_app, tree_history_length, tree_history_node. cbn [positions plus].
  rewrite (positions_none a).
  2:{ intros k p d Hk Hp. subst p. assert (length a < k) as Hlt by (eapply (Hg k); apply lookup_app_l_Some; exact Hk). apply lookup_lt_Some in Hk. lia. }
  rewrite (positions_none b).
  2:{ intros k p d Hk Hp. subst p. apply Hb in Hk. rewrite nodes_count_node in Hk. lia. }
  rewrite app_nil_r. simpl. destruct (decide (par = Some (length a))) as [->|_]; [|apply forest_positions; lia].
  exfalso. assert (length a < length a); [|lia]. eapply (Hg (length a)). rewrite lookup_app_r, Nat.sub_diag by lia. rewrite tree_history_node. reflexivity.
Qed.
Lemma located_kids_leaf h i t : grown h -> located h i (PLeaf t) -> kids h i = [].
Proof.
  intros Hg (a & b & par & -> & -> & Hb). rewrite kids_positions, !positions_app. cbn [positions plus].
  rewrite (positions_none a).
  2:{ intros k p d Hk Hp. subst p. assert (length a < k) as Hlt by (eapply (Hg k); apply lookup_app_l_Some; exact Hk). apply lookup_lt_Some in Hk. lia. }
  rewrite (positions_none b).
  2:{ intros k p d Hk Hp. subst p. apply Hb in Hk. simpl in Hk. lia. }
  simpl. destruct (decide (par = Some (length a))) as [->|_]; [|reflexivity].
  exfalso. assert (length a < length a); [|lia]. eapply (Hg (length a)). rewrite lookup_app_r, Nat.sub_diag by lia. reflexivity.
Qed.
Lemma located_child h i A subs k : located h i (PNode A subs) -> forall j, starts (S i) subs !! k = Some j -> exists s, subs !! k = Some s /\ located h j s.
Proof.
  intros (a & b & par & -> & -> & Hb). rewrite tree_history_node.
  assert (forall post pre k j, subs = pre ++ post -> starts (S (length a) + forest_count pre) post !! k = Some j ->
    exists s, post !! k = Some s /\ located (a ++ ((par, []) :: fh (S (length a)) (Some (length a)) subs) ++ b) j s) as Hgen.
  2:{ intros j Hj. apply (Hgen subs [] k j eq_refl). change (forest_count []) with 0. rewrite Nat.add_0_r. exact Hj. }
  induction post as [|s post IH]; intros pre k' j Hs Hj; [cbn [starts] in Hj; rewrite lookup_nil in Hj; discriminate|]. destruct k' as [|k']; cbn [starts] in Hj.
  - injection Hj as <-. exists s. split; [reflexivity|].
    assert (forall pre n, fh n (Some (length a)) (pre ++ s :: post)
      = fh n (Some (length a)) pre ++ th (n + forest_count pre) (Some (length a)) s ++ fh (n + forest_count pre + nodes_count s) (Some (length a)) post) as Hsplit.
    { clear. induction pre as [|x pre IH]; intros n; cbn [app forest_history].
      - change (forest_count []) with 0. rewrite !Nat.add_0_r. reflexivity.
      - rewrite IH, forest_count_cons, !Nat.add_assoc, <- !app_assoc. reflexivity. }
    exists (a ++ (par, []) :: fh (S (length a)) (Some (length a)) pre), (fh (S (length a) + forest_count pre + nodes_count s) (Some (length a)) post ++ b), (Some (length a)).
    assert (length (a ++ (par, []) :: fh (S (length a)) (Some (length a)) pre) = S (length a) + forest_count pre) as Hlen.
    { rewrite app_length. cbn [length]. rewrite forest_history_length. lia. }
    rewrite Hlen. split; [|split; [reflexivity|]].
    + rewrite Hs, Hsplit. cbn [app]. rewrite <- !app_assoc. cbn [app]. rewrite <- ?app_assoc. reflexivity.
    + intros m q d Hm. apply lookup_app_Some in Hm as [Hm|[_ Hm]].
      * apply forest_lower in Hm as [[= ->]|(q' & [= ->] & Hq)]; lia.
      * apply Hb in Hm. rewrite nodes_count_node in Hm. unfold forest_count in Hm.
        rewrite Hs, map_app, list_sum_app in Hm. simpl in Hm. unfold forest_count. lia.
  - apply (IH (pre ++ [s]) k' j); [rewrite <- app_assoc; exact Hs|]. 
    assert (S (length a) + forest_count (pre ++ [s]) = S (length a) + forest_count pre + nodes_count s) as ->; [|exact Hj].
    unfold forest_count. rewrite map_app, list_sum_app. simpl. lia.
Qed.
Lemma starts_length subs : forall n, length (starts n subs) = length subs.
Proof. induction subs as [|s subs IH]; intros n; simpl; [reflexivity|]. rewrite IH. reflexivity. Qed.

Lemma path_located h : grown h -> forall path s i n, located h i s -> t_nodes (tree_of h) !! i = Some n ->
  match subtree s path with
  | Some s' => exists j n', path_loop (tree_of h) n path = Ok (Some n') /\ located h j s' /\ t_nodes (tree_of h) !! j = Some n'
  | None => path_loop (tree_of h) n path = Ok None
  end.
Proof.
  intros Hg. pose proof (tree_of_repr h Hg) as Hr. induction path as [|k path IH]; intros s i n Hs Hn.
  - simpl. eauto.
  - cbn [path_loop subtree]. rewrite (nth_child_repr (tree_of h) h i n k Hr Hn). cbn [obind].
    destruct s as [t|A subs].
    + rewrite (located_kids_leaf h i t Hg Hs), lookup_nil. simpl. reflexivity.
    + rewrite (located_kids h i A subs Hg Hs). destruct (starts (S i) subs !! k) as [j|] eqn:Ej.
      * destruct (located_child h i A subs k Hs j Ej) as (s' & Hk & Hj). rewrite Hk. cbn [mbind option_bind].
        destruct (located_label h j s' Hj) as [p Hp]. destruct (repr_node (tree_of h) h j p _ Hr Hp) as (n' & Hn' & _).
        rewrite Hn'. apply (IH s' j n' Hj Hn').
      * apply lookup_ge_None in Ej. rewrite starts_length in Ej. apply lookup_ge_None in Ej. rewrite Ej. reflexivity.
Qed.
Lemma tree_paths pt path :
  match subtree pt path with
  | Some s => exists n, get_by_path_or_none (tree_of (th 0 None pt)) (id_of 0) path = Ok (Some n) /\ n_data n = label pd s
  | None => get_by_path_or_none (tree_of (th 0 None pt)) (id_of 0) path = Ok None
  end.
Proof.
  set (h := th 0 None pt). assert (grown h) as Hg.
  { intros i p d Hi. apply (tree_parents pd pt 0 None) in Hi; [lia|discriminate]. }
  pose proof (tree_of_repr h Hg) as Hr. assert (located h 0 pt) as Hl.
  { exists [], [], None. rewrite app_nil_r. split; [reflexivity|]. split; [reflexivity|]. intros k q d Hk. rewrite lookup_nil in Hk. discriminate. }
  destruct (located_label h 0 pt Hl) as [p Hp]. destruct (repr_node (tree_of h) h 0 p _ Hr Hp) as (n & Hn & _ & Hd & _).
  unfold get_by_path_or_none. rewrite (get_node_repr _ h 0 n Hr Hn). cbn [obind].
  pose proof (path_located h Hg path pt 0 n Hl Hn) as Hpath. destruct (subtree pt path) as [s|]; [|assumption].
  destruct Hpath as (j & n' & -> & Hj & Hn'). exists n'. split; [reflexivity|].
  destruct (located_label h j s Hj) as [q Hq]. destruct (repr_node (tree_of h) h j q _ Hr Hq) as (n2 & Hn2 & _ & Hd2 & _). congruence.
Qed.
End paths.

(** ** more fuel changes nothing *)
Section fuel.
Context {H : HashOrder} (vm : VM) (ps : Parser (vm_instr vm)).
Definition same_or_diverge {S E A} (x y : outcome E A * S) : Prop := x = y \/ exists s, x = (Diverge, s).
Lemma sbind_mono {S E A B} (m m' : st S E A) (k k' : A -> st S E B) s :
  same_or_diverge (m s) (m' s) -> (forall a s, same_or_diverge (k a s) (k' a s)) ->
  same_or_diverge (sbind m k s) (sbind m' k' s).
Proof.
  unfold sbind. intros [->|[s' ->]] Hk; [|right; eauto]. destruct (m' s) as [[a|e| |] s']; [apply Hk|left; reflexivity..].
Qed.
Lemma els_loop_mono f f' id : (forall e s, same_or_diverge (parse_nonterminal vm ps f e (Some id) s) (parse_nonterminal vm ps f' e (Some id) s)) ->
  forall els s, same_or_diverge (els_loop vm ps f id els s) (els_loop vm ps f' id els s).
Proof.
  intros Hf. induction els as [|e els IH]; intros s; [left; reflexivity|]. rewrite !els_loop_cons.
  destruct (p_elements ps !! e) as [[name []]|]; [| |left; reflexivity].
  - apply sbind_mono; [left; reflexivity|]. intros a s'. apply sbind_mono; [left; reflexivity|]. intros; apply IH.
  - apply sbind_mono; [apply Hf|]. intros; apply IH.
Qed.
Lemma parse_mono f : forall f' e node s, f <= f' -> same_or_diverge (parse_nonterminal vm ps f e node s) (parse_nonterminal vm ps f' e node s).
Proof.
  induction f as [|f IH]; intros f' e node s Hf; [right; eexists; reflexivity|]. destruct f' as [|f']; [lia|]. rewrite !parse_unfold.
  apply sbind_mono; [left; reflexivity|]. intros o s1. destruct (rules_with_steuermaps ps !! e) as [nt|]; [|left; reflexivity].
  apply sbind_mono; [left; reflexivity|]. intros p s2. apply sbind_mono; [left; reflexivity|]. intros id s3.
  apply sbind_mono; [|intros; left; reflexivity]. destruct p as [els|]; [|left; reflexivity].
  apply els_loop_mono. intros e' s'. apply IH. lia.
Qed.
Lemma parse_run_mono f f' text v o s : f <= f' -> parse_run vm ps f text v = (o, s) -> o <> Diverge -> parse_run vm ps f' text v = (o, s).
Proof.
  unfold parse_run. intros Hf. destruct (position_of _ _) as [st|]; [|auto].
  set (s0 := mkPS (pp_new text None None) v tree_new). pose proof (parse_mono f f' st None s0 Hf) as Hm. destruct Hm as [->|[s' ->]]; [auto|].
  intros E Hne. cbn in E. exfalso. apply Hne. congruence.
Qed.
End fuel.

(** ** the whole parse *)
Section run.
Context {H : HashOrder} (vm : VM) (pd : ParserData (vm_instr vm)) (start : nat) (ps : Parser (vm_instr vm)).
Context (Hwf : wf_grammar pd) (Hcon : constructible pd start) (Htab : parser_table pd start ps) (Hvm : keeps_tree vm).
Notation runs := (run_actions (vm := vm) pd).
Lemma position_none l key : position_of key l = None -> forall i, l !! i <> Some key.
Proof.
  induction l as [|x l IH]; intros Hp [|i]; simpl in *; try congruence.
  - destruct (decide (x = key)); [discriminate|]. congruence.
  - destruct (decide (x = key)); [discriminate|]. apply IH. destruct (position_of key l); [discriminate|reflexivity].
Qed.
Lemma position_some l key : forall i, position_of key l = Some i -> l !! i = Some key.
Proof.
  induction l as [|x l IH]; intros i Hp; simpl in *; [discriminate|]. destruct (decide (x = key)) as [->|]; [injection Hp as <-; reflexivity|].
  destruct (position_of key l) as [j|]; [|discriminate]. injection Hp as <-. simpl. auto.
Qed.
Lemma position_start st : start_element pd st -> position_of (lit "start", NonTerminal) (p_elements ps) = Some st.
Proof.
  intros Hst. destruct (position_of _ _) as [i|] eqn:E.
  - apply position_some in E. rewrite (pt_elements pd start ps Htab) in E. apply Hst in E. congruence.
  - exfalso. eapply position_none; [exact E|]. rewrite (pt_elements pd start ps Htab). apply Hst. reflexivity.
Qed.
Lemma parse_run_spec st fuel text v : start_element pd st -> has_rule pd st ->
  match parse_run vm ps fuel text v with
  | (Ok t, s') => exists pt rest v', pred pd start st text pt rest /\
      t = tree_of (tree_history pd 0 None pt) /\ s' = P vm rest (length (yield pd pt)) v' (tree_history pd 0 None pt) /\
      runs (tree_history pd 0 None pt) (post_order 0 pt) v = Ok v'
  | (Err e, s') => exists stk rest v', fails pd start st text stk rest /\
      s' = P vm rest (length (consumed pd stk)) v' (stuck_history pd 0 None stk) /\
      runs (stuck_history pd 0 None stk) (stuck_post_order 0 stk) v = Ok v' /\
      reports pd start stk rest (length (consumed pd stk)) e
  | (Panic, _) => vm_panics vm /\ (forall pt rest, pred pd start st text pt rest ->
      runs (tree_history pd 0 None pt) (post_order 0 pt) v = Panic) /\
      (forall stk rest, fails pd start st text stk rest ->
      runs (stuck_history pd 0 None stk) (stuck_post_order 0 stk) v = Panic)
  | (Diverge, _) => vm_diverges vm \/ fuel < (length text + 1) * size (pd_rules pd)
  end.
Proof.
  intros Hst Hr. unfold parse_run. rewrite (position_start st Hst).
  change (mkPS (pp_new text None None) v tree_new) with (P vm text 0 v []).
  assert (grown (@nil (option nat * str))) as Hg by (intros i p d Hi; rewrite lookup_nil in Hi; discriminate).
  pose proof (call_ok vm pd start ps Hwf Hcon Htab Hvm fuel st None text 0 v [] Hr Hg ltac:(discriminate)) as Hc. cbn [option_map] in Hc.
  destruct (parse_nonterminal vm ps fuel st None (P vm text 0 v [])) as [[[]|e| |] s1]; cbn [obind app length] in *.
  - destruct Hc as (pt & rest & v' & C1 & -> & C3). exists pt, rest, v'. auto.
  - exact Hc.
  - exact Hc.
  - destruct Hc as [?|Hc]; [auto|]. right. specialize (Hc []). cbn [length] in Hc. 
    assert (fuel < length text * size (pd_rules pd) + (size (pd_rules pd) - 0)) as Hlt.
    { apply Hc. split; [constructor|]. intros B HB. apply elem_of_nil in HB. contradiction. }
    lia.
Qed.
End run.

(** ** every text has a derivation or a failed one *)
Definition still_vm (I : Type) : VM := mkVM unit I (fun _ _ _ p => (Ok [], p)) (fun t _ _ s => Ok (t, s)) tt.
Lemma still_keeps I : keeps_tree (still_vm I).
Proof. intros t id i s t' s' E. injection E as <- _. reflexivity. Qed.
Lemma pred_or_fails {I} (pd : ParserData I) start (H : HashOrder) (ps : Parser I) st text : wf_grammar pd -> constructible pd start ->
  parser_table pd start ps -> start_element pd st -> has_rule pd st ->
  (exists pt rest, pred pd start st text pt rest) \/ (exists stk rest, fails pd start st text stk rest).
Proof.
  intros Hwf Hcon Htab Hst Hr.
  pose proof (parse_run_spec (still_vm I) pd start ps Hwf Hcon Htab (still_keeps I) st ((length text + 1) * size (pd_rules pd)) text tt Hst Hr) as Hs.
  destruct (parse_run (still_vm I) ps _ text tt) as [[t|e| |] s1].
  - left. destruct Hs as (pt & rest & _ & Hp & _). eauto.
  - right. destruct Hs as (stk & rest & _ & Hf & _). eauto.
  - exfalso. destruct Hs as [(t & id & i & s & _ & _ & E) _]. discriminate.
  - exfalso. destruct Hs as [(t & id & i & s & _ & _ & E)|Hs]; [discriminate|]. change (vm_instr (still_vm I)) with I in Hs. lia.
Qed.

(** ** the hash order shows only in the expected text *)
Section hash.
Context (vm : VM) (ps : Parser (vm_instr vm)).
Definition hash_rel {S A} (x y : outcome ParserError A * S) : Prop :=
  x.2 = y.2 /\ match x.1, y.1 with
  | Err e, Err e' => same_error e e'
  | a, b => a = b
  end.
Lemma hash_rel_refl {S A} (x : outcome ParserError A * S) : hash_rel x x.
Proof. split; [reflexivity|]. destruct (x.1); auto. left. reflexivity. Qed.
Lemma sbind_rel {S A B} (m m' : st S ParserError A) (k k' : A -> st S ParserError B) s :
  hash_rel (m s) (m' s) -> (forall a s, hash_rel (k a s) (k' a s)) -> hash_rel (sbind m k s) (sbind m' k' s).
Proof.
  unfold sbind, hash_rel. intros [H1 H2] Hk. destruct (m s) as [o s1], (m' s) as [o' s1']. simpl in H1, H2. subst s1'.
  destruct o as [a|e| |], o' as [a'|e'| |]; try discriminate; simpl; auto.
  injection H2 as <-. apply Hk.
Qed.
Lemma els_loop_rel (H H' : HashOrder) f id :
  (forall e s, hash_rel (@parse_nonterminal H vm ps f e (Some id) s) (@parse_nonterminal H' vm ps f e (Some id) s)) ->
  forall els s, hash_rel (@els_loop H vm ps f id els s) (@els_loop H' vm ps f id els s).
Proof.
  intros Hf. induction els as [|e els IH]; intros s; [apply hash_rel_refl|]. rewrite !els_loop_cons.
  destruct (p_elements ps !! e) as [[name []]|]; [| |apply hash_rel_refl].
  - apply sbind_rel; [apply hash_rel_refl|]. intros a s'. apply sbind_rel; [apply hash_rel_refl|]. intros; apply IH.
  - apply sbind_rel; [apply Hf|]. intros; apply IH.
Qed.
Lemma parse_rel (H H' : HashOrder) f : forall e node s, hash_rel (@parse_nonterminal H vm ps f e node s) (@parse_nonterminal H' vm ps f e node s).
Proof.
  induction f as [|f IH]; intros e node s; [apply hash_rel_refl|]. rewrite !parse_unfold.
  apply sbind_rel; [apply hash_rel_refl|]. intros o s1. destruct (rules_with_steuermaps ps !! e) as [nt|] eqn:Hnt; [|apply hash_rel_refl].
  apply sbind_rel.
  - unfold get_fitting_production. rewrite Hnt. destruct (steuermap nt !! member_of_peek o); [apply hash_rel_refl|].
    apply sbind_rel; [apply hash_rel_refl|]. intros o' s2. apply sbind_rel; [apply hash_rel_refl|]. intros pos s3.
    split; [reflexivity|]. simpl. right. unfold expected_text. rewrite !join_joined. eexists _, _, _, _. split; [|split; reflexivity].
    rewrite !ho_perm. reflexivity.
  - intros p s2. apply sbind_rel; [apply hash_rel_refl|]. intros id s3.
    apply sbind_rel; [|intros; apply hash_rel_refl]. destruct p as [els|]; [|apply hash_rel_refl].
    apply els_loop_rel. intros e' s'. apply IH.
Qed.
Lemma parse_run_rel (H H' : HashOrder) f text v : hash_rel (@parse_run H vm ps f text v) (@parse_run H' vm ps f text v).
Proof.
  unfold parse_run. destruct (position_of _ _) as [st|]; [|apply hash_rel_refl].
  destruct (parse_rel H H' f st None (mkPS (pp_new text None None) v tree_new)) as [H1 H2].
  destruct (@parse_nonterminal H _ _ _ _ _ _) as [o s1], (@parse_nonterminal H' _ _ _ _ _ _) as [o' s1']. simpl in H1, H2. subst s1'.
  destruct o as [a|e| |], o' as [a'|e'| |]; try discriminate; simpl; split; auto.
  all: reflexivity.
Qed.
End hash.

(** ** the shipped VMs do not edit the tree *)
Lemma null_keeps_tree : keeps_tree NullVm.
Proof. intros t id i s t' s'. simpl. unfold null_execute. congruence. Qed.
Lemma counting_keeps_tree m : keeps_tree (CountingVm m).
Proof. intros t id i s t' s'. simpl. unfold counting_execute. destruct (usize_result _ _); simpl; congruence. Qed.
Lemma simple_keeps_tree m : keeps_tree (SimpleStackVm m).
Proof. intros t id i s t' s'. simpl. unfold simple_execute. destruct (simple_exec _ _ _ _ _); simpl; congruence. Qed.
Lemma stack_keeps_tree {U : Unicode} m : keeps_tree (StackVm m).
Proof. intros t id i s t' s'. simpl. unfold stack_execute. destruct (stack_exec _ _ _ _ _); simpl; congruence. Qed.
