(** * Proofs about script_parser.rs *)
From Verif Require Import Base Peekables Tree Errors Sets ParserData Vm SteuerMap ScriptParser
  SpecGrammar SpecParser SpecTree SpecScript Grammar_proofs First_proofs Tree_proofs.

(** induction over derivation trees *)
Lemma ptree_rect' (P : ptree -> Prop) :
  (forall t, P (PLeaf t)) -> (forall A subs, Forall P subs -> P (PNode A subs)) -> forall pt, P pt.
Proof.
  intros H1 H2. fix IH 1. intros [t|A subs]; [apply H1|]. apply H2. induction subs as [|s subs IHs]; constructor; [apply IH|assumption].
Qed.

Section histories.
Context {I : Type} (pd : ParserData I).
Notation tree_history := (tree_history pd).

Fixpoint forest_history (n : nat) (parent : option nat) (subs : list ptree) : history str :=
  match subs with
  | [] => []
  | s :: subs' => tree_history n parent s ++ forest_history (n + nodes_count s) parent subs'
  end.
Fixpoint forest_post (n : nat) (subs : list ptree) : list (nat * nat * nat) :=
  match subs with
  | [] => []
  | s :: subs' => post_order n s ++ forest_post (n + nodes_count s) subs'
  end.
Definition forest_count (subs : list ptree) : nat := list_sum (map nodes_count subs).
Lemma forest_count_cons s subs : forest_count (s :: subs) = nodes_count s + forest_count subs.
Proof. reflexivity. Qed.
Lemma nodes_count_node A subs : nodes_count (PNode A subs) = S (forest_count subs).
Proof. reflexivity. Qed.
Definition forest_yield (subs : list ptree) : str := concat (map (yield pd) subs).

Lemma tree_history_node n parent A subs :
  tree_history n parent (PNode A subs) = (parent, []) :: forest_history (S n) (Some n) subs.
Proof.
  cbn [SpecScript.tree_history]. f_equal. generalize (S n). induction subs as [|s subs IH]; intros k; [reflexivity|].
  cbn [forest_history]. rewrite IH. reflexivity.
Qed.
Lemma post_order_node n A subs :
  post_order n (PNode A subs) = forest_post (S n) subs ++ [(n, A, n + S (forest_count subs))].
Proof.
  reflexivity.
Qed.
Lemma stuck_history_in n parent A subs s after :
  stuck_history pd n parent (StuckIn A subs s after)
  = (parent, []) :: forest_history (S n) (Some n) subs ++ stuck_history pd (S n + forest_count subs) (Some n) s.
Proof.
  cbn [stuck_history]. f_equal. generalize (S n). induction subs as [|x subs IH]; intros k.
  - change (forest_count []) with 0. rewrite Nat.add_0_r. reflexivity.
  - cbn [forest_history]. rewrite IH, app_assoc, forest_count_cons, Nat.add_assoc. reflexivity.
Qed.
Lemma stuck_post_in n A subs s after :
  stuck_post_order n (StuckIn A subs s after) = forest_post (S n) subs ++ stuck_post_order (S n + forest_count subs) s.
Proof.
  cbn [stuck_post_order]. generalize (S n). induction subs as [|x subs IH]; intros k.
  - change (forest_count []) with 0. rewrite Nat.add_0_r. reflexivity.
  - cbn [forest_post]. rewrite IH, app_assoc, forest_count_cons, Nat.add_assoc. reflexivity.
Qed.

Lemma tree_history_length pt : forall n parent, length (tree_history n parent pt) = nodes_count pt.
Proof.
  induction pt as [t|A subs IH] using ptree_rect'; intros n parent; [reflexivity|]. rewrite tree_history_node, nodes_count_node. cbn [length]. f_equal.
  generalize (S n) (Some n). induction IH as [|s subs Hs _ IH]; intros k q; [reflexivity|].
  cbn [forest_history]. rewrite app_length, Hs, IH. reflexivity.
Qed.
Lemma forest_history_length subs : forall n parent, length (forest_history n parent subs) = forest_count subs.
Proof.
  induction subs as [|s subs IH]; intros n parent; [reflexivity|].
  cbn [forest_history]. rewrite app_length, tree_history_length, IH. reflexivity.
Qed.
(** counts in post-order triples stay within the history *)
Definition within (lo hi : nat) (x : nat * nat * nat) : Prop := lo <= x.1.1 /\ x.1.1 < x.2 /\ x.2 <= hi.
Lemma within_weaken lo hi lo' hi' l : lo' <= lo -> hi <= hi' -> Forall (within lo hi) l -> Forall (within lo' hi') l.
Proof. intros H1 H2 Hf. eapply Forall_impl; [exact Hf|]. intros [[a b] c]. unfold within. simpl. lia. Qed.
Lemma forest_post_within subs : Forall (fun pt => forall n, Forall (within n (n + nodes_count pt)) (post_order n pt)) subs ->
  forall n, Forall (within n (n + forest_count subs)) (forest_post n subs).
Proof.
  induction 1 as [|s subs Hs _ IH]; intros n; [constructor|].
  cbn [forest_post]. rewrite forest_count_cons. apply Forall_app. split.
  - eapply within_weaken; [| |apply Hs]; lia.
  - eapply within_weaken; [| |apply IH]; lia.
Qed.
Lemma post_within pt : forall n, Forall (within n (n + nodes_count pt)) (post_order n pt).
Proof.
  induction pt as [t|A subs IH] using ptree_rect'; intros n; [constructor|]. rewrite post_order_node, nodes_count_node.
  apply Forall_app. split.
  - eapply within_weaken; [| |apply forest_post_within; assumption]; lia.
  - constructor; [|constructor]. unfold within. simpl. lia.
Qed.
Lemma forest_within subs n : Forall (within n (n + forest_count subs)) (forest_post n subs).
Proof. apply forest_post_within. apply Forall_forall. intros pt _. apply post_within. Qed.
Fixpoint stuck_within s : forall n parent, Forall (within n (n + length (stuck_history pd n parent s))) (stuck_post_order n s).
Proof.
  destruct s as [A|t k|A subs s after]; intros n parent; [constructor|constructor|].
  rewrite stuck_history_in, stuck_post_in. apply Forall_app. cbn [length]. rewrite app_length, forest_history_length. split.
  - eapply within_weaken; [| |apply forest_within]; lia.
  - eapply within_weaken; [| |apply (stuck_within s _ (Some n))]; lia.
Qed.

(** histories grow well *)
Lemma grown_app_list (h h' : history str) : grown h ->
  (forall i p d, h' !! i = Some (Some p, d) -> p < length h + i) -> grown (h ++ h').
Proof.
  intros Hg Hh i p d Hi. apply lookup_app_Some in Hi as [Hi|[Hl Hi]]; [eauto|]. apply Hh in Hi. lia.
Qed.
Lemma forest_parents subs : Forall (fun pt => forall n parent, (forall q, parent = Some q -> q < n) ->
     forall i p d, tree_history n parent pt !! i = Some (Some p, d) -> p < n + i) subs ->
  forall n parent, (forall q, parent = Some q -> q < n) ->
     forall i p d, forest_history n parent subs !! i = Some (Some p, d) -> p < n + i.
Proof.
  induction 1 as [|s subs Hs _ IH]; intros n parent Hp i p d Hi; [cbn [forest_history] in Hi; rewrite lookup_nil in Hi; discriminate|].
  cbn [forest_history] in Hi. apply lookup_app_Some in Hi as [Hi|[Hl Hi]]; [eapply Hs; eauto|]. rewrite tree_history_length in Hl, Hi.
  eapply IH in Hi; [lia|]. intros q Hq. specialize (Hp q Hq). lia.
Qed.
Lemma tree_parents pt : forall n parent, (forall q, parent = Some q -> q < n) ->
  forall i p d, tree_history n parent pt !! i = Some (Some p, d) -> p < n + i.
Proof.
  induction pt as [t|A subs IH] using ptree_rect'; intros n parent Hp i p d Hi.
  - simpl in Hi. apply list_lookup_singleton_Some in Hi as [Hi [= ? ?]]. specialize (Hp p). subst. specialize (Hp eq_refl). lia.
  - rewrite tree_history_node in Hi. destruct i as [|i]; simpl in Hi.
    + injection Hi as ? ?. specialize (Hp p). subst. specialize (Hp eq_refl). lia.
    + eapply forest_parents in Hi; [|exact IH|]; [lia|]. intros q [= <-]. lia.
Qed.
Lemma grown_tree h parent pt : grown h -> (forall q, parent = Some q -> q < length h) -> grown (h ++ tree_history (length h) parent pt).
Proof. intros Hg Hp. apply grown_app_list; [assumption|]. apply tree_parents. assumption. Qed.
Lemma grown_forest h parent subs : grown h -> (forall q, parent = Some q -> q < length h) -> grown (h ++ forest_history (length h) parent subs).
Proof. intros Hg Hp. apply grown_app_list; [assumption|]. apply forest_parents; [|assumption]. apply Forall_forall. intros pt _. apply tree_parents. Qed.
End histories.

(** ** prediction: the LL(1) reading of a text *)
Section prediction.
Context {I : Type} (pd : ParserData I) (start : nat).
Inductive pred : nat -> str -> ptree -> str -> Prop :=
| pr_leaf t s rest : is_terminal pd t s -> pred t (s ++ rest) (PLeaf t) rest
| pr_node A r p text subs rest : pd_rules pd !! A = Some r -> p ∈ possible_productions r ->
    CHOOSE pd start A p (look text) -> preds (right_side p) text subs rest -> pred A text (PNode A subs) rest
with preds : list nat -> str -> list ptree -> str -> Prop :=
| prs_nil text : preds [] text [] text
| prs_cons e es text pt mid pts rest : pred e text pt mid -> preds es mid pts rest -> preds (e :: es) text (pt :: pts) rest.
Scheme pred_ind' := Minimality for pred Sort Prop
  with preds_ind' := Minimality for preds Sort Prop.
Combined Scheme pred_both from pred_ind', preds_ind'.

Inductive fails : nat -> str -> stuck -> str -> Prop :=
| f_choice A r text : pd_rules pd !! A = Some r -> (forall p, p ∈ possible_productions r -> ~ CHOOSE pd start A p (look text)) ->
    fails A text (StuckChoice A) text
| f_term t s k rest : is_terminal pd t s -> k < length s -> s !! k <> head rest -> fails t (take k s ++ rest) (StuckTerm t k) rest
| f_in A r p text es subs mid e stk after rest : pd_rules pd !! A = Some r -> p ∈ possible_productions r ->
    CHOOSE pd start A p (look text) -> right_side p = es ++ e :: after -> preds es text subs mid ->
    fails e mid stk rest -> fails A text (StuckIn A subs stk after) rest.

Lemma text_of_terminal t s : is_terminal pd t s -> text_of pd t = s.
Proof. unfold is_terminal, text_of. intros ->. reflexivity. Qed.

(** a derivation tree without text is nullable *)
Lemma empty_nul pt : derivation pd pt -> yield pd pt = [] -> nul pd (root pt).
Proof.
  induction pt as [t|A subs IH] using ptree_rect'; intros Hd Hy.
  - inversion Hd as [? s Hs|]; subst. simpl in Hy. rewrite (text_of_terminal t s Hs) in Hy. subst s. apply nul_t. assumption.
  - inversion Hd as [|? ? Ha Hf]; subst. simpl. eapply nul_n; [exact Ha|]. simpl in Hy. clear Hd Ha.
    induction IH as [|s subs Hs _ IH]; simpl; constructor; inversion Hf; subst; simpl in Hy; apply app_eq_nil in Hy as [Hy1 Hy2]; auto.
Qed.
Lemma empty_nuls pts : Forall (derivation pd) pts -> forest_yield pd pts = [] -> nuls pd (map root pts).
Proof.
  induction 1 as [|pt pts Hd _ IH]; intros Hy; [constructor|]. unfold forest_yield in *. simpl in Hy. apply app_eq_nil in Hy as [Hy1 Hy2].
  constructor; [apply empty_nul; assumption|auto].
Qed.

Lemma pred_sound :
  (forall e text pt rest, pred e text pt rest -> derivation pd pt /\ root pt = e /\ text = yield pd pt ++ rest) /\
  (forall es text pts rest, preds es text pts rest -> Forall (derivation pd) pts /\ map root pts = es /\ text = concat (map (yield pd) pts) ++ rest).
Proof.
  apply pred_both.
  - intros t s rest Ht. split; [eapply der_leaf; eauto|]. split; [reflexivity|]. simpl. rewrite (text_of_terminal t s Ht). reflexivity.
  - intros A r p text subs rest Hr Hp _ _ (H1 & H2 & H3). split; [|split; [reflexivity|assumption]].
    apply der_node; [|assumption]. exists r, p. auto.
  - intros text. split; [constructor|]. auto.
  - intros e es text pt mid pts rest _ (H1 & H2 & H3) _ (K1 & K2 & K3). split; [constructor; assumption|]. simpl. split; [congruence|].
    rewrite <- app_assoc. congruence.
Qed.
Lemma fails_sound e text stk rest : fails e text stk rest ->
  (has_rule pd e -> is_nonterminal pd e) -> (forall A, has_rule pd A -> is_nonterminal pd A) ->
  failed_derivation pd stk /\ stuck_root stk = e /\ text = consumed pd stk ++ rest.
Proof.
  intros Hf _ Hwf. induction Hf as [A r text Hr _|t s k rest Ht Hk _|A r p text es subs mid e stk after rest Hr Hp _ He Hs Hf IH].
  - split; [constructor; eexists; exact Hr|]. auto.
  - split; [econstructor; eauto|]. split; [reflexivity|]. simpl. rewrite (text_of_terminal t s Ht). reflexivity.
  - destruct IH as (I1 & I2 & I3). apply pred_sound in Hs as (S1 & S2 & S3).
    split; [|split; [reflexivity|]].
    + apply fd_in; [|assumption|assumption]. exists r, p. rewrite S2, I2. auto.
    + simpl. rewrite <- app_assoc, <- I3. assumption.
Qed.

(** determinism *)
Hypothesis disjoint : choices_disjoint pd start.
Hypothesis wfr : forall A, has_rule pd A -> is_nonterminal pd A.
Lemma choice_unique A r p q x : pd_rules pd !! A = Some r -> p ∈ possible_productions r -> q ∈ possible_productions r ->
  CHOOSE pd start A p x -> CHOOSE pd start A q x -> p = q.
Proof.
  intros Hr Hp Hq Cp Cq. apply elem_of_list_lookup in Hp as [i Hi], Hq as [j Hj]. destruct (decide (i = j)) as [->|Hne]; [congruence|].
  exfalso. eapply (disjoint A r i j p q x); eauto.
Qed.
Lemma terminal_not_rule t s A r : is_terminal pd t s -> pd_rules pd !! A = Some r -> t <> A.
Proof. intros Ht Hr ->. destruct (wfr A) as [n Hn]; [eexists; exact Hr|]. unfold is_terminal in Ht. congruence. Qed.
Lemma pred_deterministic :
  (forall e text pt rest, pred e text pt rest -> forall pt' rest', pred e text pt' rest' -> pt = pt' /\ rest = rest') /\
  (forall es text pts rest, preds es text pts rest -> forall pts' rest', preds es text pts' rest' -> pts = pts' /\ rest = rest').
Proof.
  apply pred_both.
  - intros t s rest Ht pt' rest' Hp. inversion Hp as [t' s' r' Ht' E1 E2 E3|A r p ? subs ? Hr Hpp Hc Hs]; subst.
    + assert (s' = s) as -> by (unfold is_terminal in *; congruence). apply app_inv_head in E2. auto.
    + exfalso. eapply terminal_not_rule; eauto.
  - intros A r p text subs rest Hr Hp Hc _ IH pt' rest' Hq. inversion Hq as [t' s' r' Ht' E1 E2 E3|A' r' p' ? subs' ? Hr' Hp' Hc' Hs']; subst.
    + exfalso. eapply terminal_not_rule; eauto.
    + assert (r' = r) as -> by congruence. assert (p' = p) as -> by (eapply choice_unique; eauto).
      destruct (IH subs' rest' Hs') as [-> ->]. auto.
  - intros text pts' rest' Hp. inversion Hp; subst. auto.
  - intros e es text pt mid pts rest _ IH1 _ IH2 pts' rest' Hp. inversion Hp as [|? ? ? pt1 mid1 pts1 ? P1 P2]; subst.
    destruct (IH1 _ _ P1) as [-> ->]. destruct (IH2 _ _ P2) as [-> ->]. auto.
Qed.
Lemma preds_split es1 es2 : forall text pts rest, preds (es1 ++ es2) text pts rest ->
  exists pts1 pts2 mid, pts = pts1 ++ pts2 /\ preds es1 text pts1 mid /\ preds es2 mid pts2 rest.
Proof.
  induction es1 as [|e es1 IH]; intros text pts rest Hp; simpl in Hp.
  - exists [], pts, text. split; [reflexivity|]. split; [constructor|assumption].
  - inversion Hp as [|? ? ? pt mid pts' ? P1 P2]; subst. destruct (IH _ _ _ P2) as (p1 & p2 & m & -> & Q1 & Q2).
    exists (pt :: p1), p2, m. split; [reflexivity|]. split; [econstructor; eauto|assumption].
Qed.
(** failures exclude successes *)
Lemma fails_no_pred e text stk rest : fails e text stk rest -> forall pt rest', ~ pred e text pt rest'.
Proof.
  induction 1 as [A r text Hr Hn|t s k rest Ht Hk Hne|A r p text es subs mid e stk after rest Hr Hp Hc He Hs Hf IH]; intros pt rest' Hpr.
  - inversion Hpr as [t' s' r' Ht' E1 E2 E3|A' r' p' ? subs' ? Hr' Hp' Hc' Hs']; subst.
    + eapply terminal_not_rule; eauto.
    + assert (r' = r) as -> by congruence. eapply Hn; eauto.
  - inversion Hpr as [t' s' r' Ht' E1 E2 E3|A' r' p' ? subs' ? Hr' Hp' Hc' Hs']; subst.
    + assert (s' = s) as -> by (unfold is_terminal in *; congruence).
      apply Hne. assert (s !! k = (take k s ++ rest) !! k) as ->.
      { rewrite <- E2. rewrite lookup_app_l by lia. reflexivity. }
      rewrite lookup_app_r by (rewrite take_length; lia). rewrite take_length_le, Nat.sub_diag by lia. destruct rest; reflexivity.
    + eapply terminal_not_rule; eauto.
  - inversion Hpr as [t' s' r' Ht' E1 E2 E3|A' r' p' ? subs' ? Hr' Hp' Hc' Hs']; subst.
    + eapply terminal_not_rule; eauto.
    + assert (r' = r) as -> by congruence. assert (p' = p) as -> by (eapply choice_unique; eauto).
      rewrite He in Hs'. apply preds_split in Hs' as (p1 & p2 & m & -> & Q1 & Q2).
      destruct (proj2 pred_deterministic _ _ _ _ Hs _ _ Q1) as [-> ->]. inversion Q2; subst. eapply IH; eauto.
Qed.
(** a failing list of elements fails at one place only *)
Lemma fails_place els : forall es e after text subs mid stk rest es' e' after' subs' mid' stk' rest',
  els = es ++ e :: after -> preds es text subs mid -> fails e mid stk rest ->
  els = es' ++ e' :: after' -> preds es' text subs' mid' -> fails e' mid' stk' rest' ->
  es = es' /\ e = e' /\ after = after' /\ subs = subs' /\ mid = mid'.
Proof.
  induction els as [|e0 els IH]; intros es e after text subs mid stk rest es' e' after' subs' mid' stk' rest' E Hp Hf E' Hp' Hf'; [destruct es; discriminate|].
  destruct es as [|x es], es' as [|x' es']; cbn [app] in E, E'; injection E as <- E; injection E' as <- E'.
  - inversion Hp; inversion Hp'; subst. repeat split; congruence.
  - inversion Hp; subst. inversion Hp' as [|? ? ? pt' m1' pts1' ? P1' P2']; subst. exfalso. exact (fails_no_pred _ _ _ _ Hf _ _ P1').
  - inversion Hp'; subst. inversion Hp as [|? ? ? pt' m1' pts1' ? P1' P2']; subst. exfalso. exact (fails_no_pred _ _ _ _ Hf' _ _ P1').
  - inversion Hp as [|? ? ? pt m1 pts1 ? P1 P2]; subst. inversion Hp' as [|? ? ? pt' m1' pts1' ? P1' P2']; subst.
    destruct (proj1 pred_deterministic _ _ _ _ P1 _ _ P1') as [<- <-].
    edestruct (IH es e after m1 pts1 mid stk rest es' e' after' pts1' mid' stk' rest') as (<- & <- & <- & <- & <-); eauto.
Qed.
Lemma fails_deterministic e text stk rest : fails e text stk rest -> forall stk' rest', fails e text stk' rest' -> stk = stk' /\ rest = rest'.
Proof.
  induction 1 as [A r text Hr Hn|t s k rest Ht Hk Hne|A r p text es subs mid e stk after rest Hr Hp Hc He Hs Hf IH]; intros stk' rest' Hf'.
  - inversion Hf' as [? ? ? Hr'|? ? ? ? Ht'|? r' p' ? ? ? ? ? ? ? ? Hr' Hp' Hc']; subst; [auto|exfalso; eapply terminal_not_rule; eauto|].
    assert (r' = r) as -> by congruence. exfalso. eapply Hn; eauto.
  - inversion Hf' as [? ? ? Hr'|? s' k' ? Ht' Hk' Hne' E1 E2|? r' p' ? ? ? ? ? ? ? ? Hr' Hp' Hc']; subst; [exfalso; eapply terminal_not_rule; eauto| |exfalso; eapply terminal_not_rule; eauto].
    assert (s' = s) as -> by (unfold is_terminal in *; congruence).
    assert (forall a b ra rb, a < b -> b < length s -> take a s ++ ra = take b s ++ rb -> s !! a = head ra) as Hlt.
    { intros a b ra rb Hab Hb Heq. assert ((take a s ++ ra) !! a = (take b s ++ rb) !! a) as Hl by (rewrite Heq; reflexivity).
      rewrite lookup_app_r in Hl by (rewrite take_length; lia). rewrite take_length_le, Nat.sub_diag in Hl by lia.
      rewrite lookup_app_l in Hl by (rewrite take_length; lia). rewrite lookup_take in Hl by lia. rewrite <- Hl. destruct ra; reflexivity. }
    destruct (lt_eq_lt_dec k k') as [[Hl|<-]|Hl].
    + exfalso. apply Hne. eapply Hlt; [exact Hl|exact Hk'|]. symmetry. exact E2.
    + apply app_inv_head in E2. auto.
    + exfalso. apply Hne'. eapply Hlt; [exact Hl|exact Hk|]. exact E2.
  - inversion Hf' as [? r' ? Hr' Hn'|? ? ? ? Ht'|? r' p' ? es' subs' mid' e' stk0 after' ? Hr' Hp' Hc' He' Hs' Hf0]; subst.
    + assert (r' = r) as -> by congruence. exfalso. eapply Hn'; eauto.
    + exfalso. eapply terminal_not_rule; eauto.
    + assert (r' = r) as -> by congruence. assert (p' = p) as -> by (eapply choice_unique; eauto).
      destruct (fails_place _ _ _ _ _ _ _ _ _ _ _ _ _ _ _ _ He Hs Hf He' Hs' Hf0) as (<- & <- & <- & <- & <-).
      destruct (IH _ _ Hf0) as [<- <-]. auto.
Qed.
End prediction.

Lemma ofold_app {E A B} (f : B -> A -> outcome E B) l1 : forall l2 b, ofold f b (l1 ++ l2) = (let* b' := ofold f b l1 in ofold f b' l2).
Proof. induction l1 as [|x l1 IH]; intros l2 b; cbn [app ofold]; [reflexivity|]. destruct (f b x); cbn [obind]; [apply IH|reflexivity..]. Qed.

(** ** the parser *)
Section parser.
Context {H : HashOrder} (vm : VM) (pd : ParserData (vm_instr vm)) (start : nat) (ps : Parser (vm_instr vm)).
Context (Hwf : wf_grammar pd) (Hcon : constructible pd start) (Htab : parser_table pd start ps) (Hvm : keeps_tree vm).
Notation state := (vm_state vm).
Notation runs := (run_actions (vm := vm) pd).

Lemma runs_app h l1 l2 v : runs h (l1 ++ l2) v = (let* v' := runs h l1 v in runs h l2 v').
Proof. apply ofold_app. Qed.
Lemma runs_prefix h h' l : Forall (fun x => x.2 <= length h) l -> forall v, runs (h ++ h') l v = runs h l v.
Proof.
  unfold run_actions. induction 1 as [|[[i A] k] l Hk _ IH]; intros v; cbn [ofold]; [reflexivity|]. simpl in Hk.
  rewrite take_app_le by assumption. destruct (run_list _ _ _ v) as [v'| | |]; cbn [obind]; [apply IH|reflexivity..].
Qed.
Lemma within_le lo hi (l : list (nat * nat * nat)) : Forall (within lo hi) l -> Forall (fun x => x.2 <= hi) l.
Proof. intros Hf. eapply Forall_impl; [exact Hf|]. intros [[a b] c] (_ & _ & ?). assumption. Qed.

Definition P (rest : str) (pos : nat) (v : state) (h : history str) : PS vm :=
  mkPS (mkPP rest pos None None false) v (tree_of h).
Lemma peek_P rest pos v h : ps_peek vm (P rest pos v h) = (Ok (head rest), P rest pos v h).
Proof. destruct rest; reflexivity. Qed.
Lemma next_P c rest pos v h : ps_next vm (P (c :: rest) pos v h) = (Ok tt, P rest (pos + 1) v h).
Proof. reflexivity. Qed.

Definition vm_panics : Prop := exists h n i s, grown h /\ n < length h /\ vm_execute vm (tree_of h) (id_of n) i s = Panic.
Definition vm_diverges : Prop := exists h n i s, grown h /\ n < length h /\ vm_execute vm (tree_of h) (id_of n) i s = Diverge.

Lemma run_instructions_spec l : forall n rest pos v h, grown h -> n < length h ->
  match run_instructions vm (id_of n) l (P rest pos v h) with
  | (Ok _, s') => exists v', s' = P rest pos v' h /\ run_list (tree_of h) (id_of n) l v = Ok v'
  | (Err _, _) => False
  | (Panic, _) => vm_panics /\ run_list (tree_of h) (id_of n) l v = Panic
  | (Diverge, _) => vm_diverges
  end.
Proof.
  induction l as [|i l IH]; intros n rest pos v h Hg Hn; cbn [run_instructions].
  - exists v. split; reflexivity.
  - unfold sbind, run_one. cbn [ps_tree ps_vm ps_in P].
    destruct (vm_execute vm (tree_of h) (id_of n) i v) as [[t' v']|[]| |] eqn:E.
    + pose proof (Hvm _ _ _ _ _ _ E) as ->. fold (P rest pos v' h). specialize (IH n rest pos v' h Hg Hn).
      destruct (run_instructions vm (id_of n) l (P rest pos v' h)) as [[[]|e| |] s']; try assumption.
      * destruct IH as (v2 & -> & Hr). exists v2. split; [reflexivity|]. unfold run_list in *. cbn [ofold]. rewrite E. exact Hr.
      * destruct IH as [IH1 IH2]. split; [assumption|]. unfold run_list in *. cbn [ofold]. rewrite E. exact IH2.
    + split; [exists h, n, i, v; auto|]. unfold run_list. cbn [ofold]. rewrite E. reflexivity.
    + exists h, n, i, v. auto.
Qed.

(** terminals *)
Lemma terminal_spec l : forall text pos v h,
  match terminal_chars vm l (P text pos v h) with
  | (Ok _, s') => exists rest, text = l ++ rest /\ s' = P rest (pos + length l) v h
  | (Err e, s') => exists k rest, k < length l /\ text = take k l ++ rest /\ l !! k <> head rest /\ s' = P rest (pos + k) v h /\
      match rest with
      | [] => e = EndOfCharsError (pos + k)
      | x :: _ => exists c, l !! k = Some c /\ x <> c /\ e = UnexpectedCharError x (pos + k) [c]
      end
  | _ => False
  end.
Proof.
  induction l as [|c l IH]; intros text pos v h; cbn [terminal_chars].
  - exists text. cbn. rewrite Nat.add_0_r. auto.
  - unfold sbind at 1. cbn [ps_pos]. unfold sbind at 1. rewrite peek_P. destruct text as [|x text]; cbn [head].
    + exists 0, []. cbn. rewrite Nat.add_0_r. split; [lia|]. auto.
    + destruct (N.eqb_spec x c) as [->|Hne]; cbn [negb].
      * unfold sbind at 1. rewrite next_P. specialize (IH text (pos + 1) v h).
        destruct (terminal_chars vm l (P text (pos + 1) v h)) as [[[]|e| |] s']; try assumption.
        -- destruct IH as (rest & -> & ->). exists rest. split; [reflexivity|]. cbn [length]. f_equal. lia.
        -- destruct IH as (k & rest & Hk & -> & Hh & -> & He). exists (S k), rest. cbn [length]. split; [lia|]. split; [reflexivity|].
           split; [exact Hh|]. replace (pos + S k) with (pos + 1 + k) by lia. split; [reflexivity|]. exact He.
      * exists 0, (x :: text). cbn. rewrite Nat.add_0_r. split; [lia|]. split; [reflexivity|].
        split; [congruence|]. split; [reflexivity|]. exists c. auto.
Qed.

(** bound on the recursion *)
Definition visited (vis : list nat) (A : nat) : Prop :=
  NoDup vis /\ (forall B, B ∈ vis -> has_rule pd B /\ tc (left_calls pd) B A).
Notation rules_count := (size (pd_rules pd)).
Lemma visited_lt vis A : has_rule pd A -> visited vis A -> length vis < rules_count.
Proof.
  intros HA [Hnd Hv]. assert (A ∉ vis) as Hn.
  { intros Hin. apply Hv in Hin as [_ Hin]. eapply (con_no_left_recursion pd start Hcon). exact Hin. }
  assert (NoDup (A :: vis)) as Hnd' by (constructor; assumption).
  assert (list_to_set (A :: vis) ⊆ dom (pd_rules pd)) as Hsub.
  { intros B HB. apply elem_of_list_to_set, elem_of_cons in HB. apply elem_of_dom. destruct HB as [->|HB]; [assumption|apply Hv; assumption]. }
  apply subseteq_size in Hsub. rewrite size_list_to_set in Hsub by assumption. rewrite size_dom in Hsub. simpl in Hsub. lia.
Qed.
Definition too_small (f : nat) (A : nat) (text : str) : Prop :=
  forall vis, visited vis A -> f < length text * rules_count + (rules_count - length vis).

(** the loop over the elements of an alternative, as a separate function *)
Definition els_loop (f : nat) (id : NodeId) : list nat -> st (PS vm) ParserError unit :=
  fix els_loop (els : list nat) := match els with
  | [] => sret tt
  | e :: els' =>
      match p_elements ps !! e with
      | None => fun s => (Panic, s)
      | Some (name, Terminal) =>
          do txt <- parse_script_terminal vm name;
          do _a <- ps_add_node_ignored vm txt (Some id);
          els_loop els'
      | Some (_, NonTerminal) =>
          do _a <- parse_nonterminal vm ps f e (Some id);
          els_loop els'
      end
  end.
Lemma els_loop_cons f id e els' : els_loop f id (e :: els') =
      match p_elements ps !! e with
      | None => fun s => (Panic, s)
      | Some (name, Terminal) =>
          do txt <- parse_script_terminal vm name;
          do _a <- ps_add_node_ignored vm txt (Some id);
          els_loop f id els'
      | Some (_, NonTerminal) =>
          do _a <- parse_nonterminal vm ps f e (Some id);
          els_loop f id els'
      end.
Proof. reflexivity. Qed.
Lemma parse_unfold f el node : parse_nonterminal vm ps (S f) el node =
  do o <- ps_peek vm;
  match rules_with_steuermaps ps !! el with
  | None => sfail (GramError (MissingProduction el))
  | Some nt =>
      do prod <- get_fitting_production vm ps el (member_of_peek o);
      do id <- ps_add_node vm [] node;
      do _u <- match prod with Empty => sret tt | NotEmpty els => els_loop f id els end;
      run_instructions vm id (nt_instruction nt)
  end.
Proof. reflexivity. Qed.

Lemma look_peek text : member_of_peek (head text) = look text.
Proof. destruct text; reflexivity. Qed.

(** what one call does *)
Definition call_spec (f : nat) (A : nat) : Prop := forall par text pos v h,
  has_rule pd A -> grown h -> (forall q, par = Some q -> q < length h) ->
  match parse_nonterminal vm ps f A (option_map id_of par) (P text pos v h) with
  | (Ok _, s') => exists pt rest v', pred pd start A text pt rest /\
      s' = P rest (pos + length (yield pd pt)) v' (h ++ tree_history pd (length h) par pt) /\
      runs (h ++ tree_history pd (length h) par pt) (post_order (length h) pt) v = Ok v'
  | (Err e, s') => exists stk rest v', fails pd start A text stk rest /\
      s' = P rest (pos + length (consumed pd stk)) v' (h ++ stuck_history pd (length h) par stk) /\
      runs (h ++ stuck_history pd (length h) par stk) (stuck_post_order (length h) stk) v = Ok v' /\
      reports pd start stk rest (pos + length (consumed pd stk)) e
  | (Panic, _) => vm_panics /\ (forall pt rest, pred pd start A text pt rest ->
      runs (h ++ tree_history pd (length h) par pt) (post_order (length h) pt) v = Panic) /\
      (forall stk rest, fails pd start A text stk rest ->
      runs (h ++ stuck_history pd (length h) par stk) (stuck_post_order (length h) stk) v = Panic)
  | (Diverge, _) => vm_diverges \/ too_small f A text
  end.
Definition loop_spec (f : nat) (els : list nat) : Prop := forall n text pos v h,
  grown h -> n < length h ->
  (forall e, e ∈ els -> (exists s, is_terminal pd e s) \/ (is_nonterminal pd e /\ has_rule pd e)) ->
  match els_loop f (id_of n) els (P text pos v h) with
  | (Ok _, s') => exists pts rest v', preds pd start els text pts rest /\
      s' = P rest (pos + length (forest_yield pd pts)) v' (h ++ forest_history pd (length h) (Some n) pts) /\
      runs (h ++ forest_history pd (length h) (Some n) pts) (forest_post (length h) pts) v = Ok v'
  | (Err e, s') => exists es e0 after pts mid stk rest v', els = es ++ e0 :: after /\ preds pd start es text pts mid /\
      fails pd start e0 mid stk rest /\
      s' = P rest (pos + length (forest_yield pd pts) + length (consumed pd stk)) v'
             (h ++ forest_history pd (length h) (Some n) pts ++ stuck_history pd (length h + forest_count pts) (Some n) stk) /\
      runs (h ++ forest_history pd (length h) (Some n) pts ++ stuck_history pd (length h + forest_count pts) (Some n) stk)
        (forest_post (length h) pts ++ stuck_post_order (length h + forest_count pts) stk) v = Ok v' /\
      reports pd start stk rest (pos + length (forest_yield pd pts) + length (consumed pd stk)) e
  | (Panic, _) => vm_panics /\ (forall pts rest, preds pd start els text pts rest ->
      runs (h ++ forest_history pd (length h) (Some n) pts) (forest_post (length h) pts) v = Panic) /\
      (forall es e0 after pts mid stk rest, els = es ++ e0 :: after -> preds pd start es text pts mid -> fails pd start e0 mid stk rest ->
      runs (h ++ forest_history pd (length h) (Some n) pts ++ stuck_history pd (length h + forest_count pts) (Some n) stk)
          (forest_post (length h) pts ++ stuck_post_order (length h + forest_count pts) stk) v = Panic)
  | (Diverge, _) => vm_diverges \/ exists es e0 after pts mid, els = es ++ e0 :: after /\ preds pd start es text pts mid /\
      is_nonterminal pd e0 /\ has_rule pd e0 /\ too_small f e0 mid
  end.

Lemma stuck_term_history t k n par : stuck_history pd n par (StuckTerm t k) = []. Proof. reflexivity. Qed.
Lemma loop_ok f : (forall A, call_spec f A) -> forall els, loop_spec f els.
Proof.
  intros Hcall. induction els as [|e els IH]; intros n text pos v h Hg Hn Hels; [cbn [els_loop]|rewrite els_loop_cons].
  - exists [], text, v. split; [constructor|]. cbn. rewrite app_nil_r, Nat.add_0_r. auto.
  - rewrite (pt_elements pd start ps Htab e).
    (* after a completed first element *)
    assert (forall pt mid v1, pred pd start e text pt mid ->
      runs (h ++ tree_history pd (length h) (Some n) pt) (post_order (length h) pt) v = Ok v1 ->
      match els_loop f (id_of n) els (P mid (pos + length (yield pd pt)) v1 (h ++ tree_history pd (length h) (Some n) pt)) with
      | (Ok _, s') => exists pts rest v', preds pd start (e :: els) text pts rest /\
          s' = P rest (pos + length (forest_yield pd pts)) v' (h ++ forest_history pd (length h) (Some n) pts) /\
          runs (h ++ forest_history pd (length h) (Some n) pts) (forest_post (length h) pts) v = Ok v'
      | (Err er, s') => exists es e0 after pts mid stk rest v', e :: els = es ++ e0 :: after /\ preds pd start es text pts mid /\
          fails pd start e0 mid stk rest /\
          s' = P rest (pos + length (forest_yield pd pts) + length (consumed pd stk)) v'
                 (h ++ forest_history pd (length h) (Some n) pts ++ stuck_history pd (length h + forest_count pts) (Some n) stk) /\
          runs (h ++ forest_history pd (length h) (Some n) pts ++ stuck_history pd (length h + forest_count pts) (Some n) stk)
            (forest_post (length h) pts ++ stuck_post_order (length h + forest_count pts) stk) v = Ok v' /\
          reports pd start stk rest (pos + length (forest_yield pd pts) + length (consumed pd stk)) er
      | (Panic, _) => vm_panics /\ (forall pts rest, preds pd start (e :: els) text pts rest ->
          runs (h ++ forest_history pd (length h) (Some n) pts) (forest_post (length h) pts) v = Panic) /\
          (forall es e0 after pts mid stk rest, e :: els = es ++ e0 :: after -> preds pd start es text pts mid -> fails pd start e0 mid stk rest ->
          runs (h ++ forest_history pd (length h) (Some n) pts ++ stuck_history pd (length h + forest_count pts) (Some n) stk)
              (forest_post (length h) pts ++ stuck_post_order (length h + forest_count pts) stk) v = Panic)
      | (Diverge, _) => vm_diverges \/ exists es e0 after pts mid, e :: els = es ++ e0 :: after /\ preds pd start es text pts mid /\
          is_nonterminal pd e0 /\ has_rule pd e0 /\ too_small f e0 mid
      end) as Hcont.
    { intros pt mid v1 Hpt Hrun.
      assert (forall pts, forest_yield pd (pt :: pts) = yield pd pt ++ forest_yield pd pts) as Hy by reflexivity.
      assert (grown (h ++ tree_history pd (length h) (Some n) pt)) as Hg1.
      { apply grown_tree; [assumption|]. intros q [= <-]. assumption. }
      specialize (IH n mid (pos + length (yield pd pt)) v1 (h ++ tree_history pd (length h) (Some n) pt) Hg1).
      rewrite app_length, tree_history_length in IH.
      assert (n < length h + nodes_count pt) as Hn1 by lia. specialize (IH Hn1).
      assert (forall e0, e0 ∈ els -> (exists s, is_terminal pd e0 s) \/ (is_nonterminal pd e0 /\ has_rule pd e0)) as Hels1
        by (intros e0 He0; apply Hels; right; assumption). specialize (IH Hels1).
      pose proof (within_le _ _ _ (post_within pt (length h))) as Hw.
      destruct (els_loop f (id_of n) els _) as [[[]|er| |] s'].
      - destruct IH as (pts & rest & v2 & I1 & -> & I3). exists (pt :: pts), rest, v2. split; [econstructor; eauto|].
        cbn [forest_history forest_post]. rewrite Hy, app_length, Nat.add_assoc, app_assoc. split; [reflexivity|].
        rewrite runs_app, runs_prefix, Hrun by (rewrite app_length, tree_history_length; exact Hw). exact I3.
      - destruct IH as (es & e0 & after & pts & mid' & stk & rest & v2 & -> & I1 & I2 & -> & I4 & I5).
        exists (e :: es), e0, after, (pt :: pts), mid', stk, rest, v2. split; [reflexivity|]. split; [econstructor; eauto|]. split; [assumption|].
        cbn [forest_history forest_post]. rewrite Hy, app_length, forest_count_cons.
        replace (pos + (length (yield pd pt) + length (forest_yield pd pts)) + length (consumed pd stk))
          with (pos + length (yield pd pt) + length (forest_yield pd pts) + length (consumed pd stk)) by lia.
        rewrite Nat.add_assoc, <- !app_assoc in *. split; [reflexivity|]. split; [|assumption].
        rewrite runs_app.
        replace (h ++ tree_history pd (length h) (Some n) pt ++ forest_history pd (length h + nodes_count pt) (Some n) pts ++ stuck_history pd (length h + nodes_count pt + forest_count pts) (Some n) stk)
          with ((h ++ tree_history pd (length h) (Some n) pt) ++ forest_history pd (length h + nodes_count pt) (Some n) pts ++ stuck_history pd (length h + nodes_count pt + forest_count pts) (Some n) stk) by (rewrite <- app_assoc; reflexivity).
        rewrite runs_prefix, Hrun by (rewrite app_length, tree_history_length; exact Hw). cbn [obind]. rewrite <- app_assoc. exact I4.
      - destruct IH as (I1 & I2 & I3). split; [assumption|]. split.
        + intros pts' rest' Hp. inversion Hp as [|? ? ? pt' mid' pts ? P1 P2]; subst.
          destruct (proj1 (pred_deterministic pd start (con_disjoint pd start Hcon) (wf_rules pd Hwf)) _ _ _ _ Hpt _ _ P1) as [<- <-].
          cbn [forest_history forest_post]. rewrite app_assoc, runs_app, runs_prefix, Hrun by (rewrite app_length, tree_history_length; exact Hw).
          cbn [obind]. eapply I2; eauto.
        + intros es e0 after pts' mid' stk rest' Hes Hp Hf. destruct es as [|x es]; cbn [app] in Hes; injection Hes as <- Hes.
          * inversion Hp; subst. exfalso. exact (fails_no_pred pd start (con_disjoint pd start Hcon) (wf_rules pd Hwf) _ _ _ _ Hf _ _ Hpt).
          * inversion Hp as [|? ? ? pt' mid0 pts ? P1 P2]; subst.
            destruct (proj1 (pred_deterministic pd start (con_disjoint pd start Hcon) (wf_rules pd Hwf)) _ _ _ _ Hpt _ _ P1) as [<- <-].
            cbn [forest_history forest_post]. rewrite forest_count_cons, <- !app_assoc.
            rewrite (app_assoc h), runs_app, runs_prefix, Hrun by (rewrite app_length, tree_history_length; exact Hw).
            cbn [obind]. rewrite Nat.add_assoc. eapply I3; eauto.
      - destruct IH as [IH|(es & e0 & after & pts & mid' & -> & I1 & I2)]; [auto|]. right.
        exists (e :: es), e0, after, (pt :: pts), mid'. split; [reflexivity|]. split; [econstructor; eauto|assumption]. }
    destruct (Hels e (elem_of_list_here _ _)) as [[s Hs]|[[nm Hnm] Hrule]].
    + rewrite Hs. unfold parse_script_terminal. unfold sbind at 1. unfold sbind at 1. unfold sbind at 1.
      pose proof (terminal_spec s text pos v h) as Ht. destruct (terminal_chars vm s (P text pos v h)) as [[[]|er| |] s1]; try contradiction.
      * destruct Ht as (rest & -> & ->). cbn [sret].
        unfold ps_add_node_ignored, ps_add_node. cbn [ps_tree P ps_in ps_vm].
        assert (grown (h ++ [(Some n, s)])) as Hg1. { apply grown_app; [assumption|]. intros q [= <-]. assumption. }
        pose proof (tree_of_snoc h (Some n) s Hg1) as Hadd. cbn [option_map] in Hadd. rewrite Hadd. cbn [map_err].
        specialize (Hcont (PLeaf e) rest v (pr_leaf pd start e s rest Hs) eq_refl).
        cbn [SpecScript.tree_history yield] in Hcont. rewrite (text_of_terminal pd e s Hs) in Hcont. exact Hcont.
      * destruct Ht as (k & rest & Hk & -> & Hh & -> & He).
        exists [], e, els, [], (take k s ++ rest), (StuckTerm e k), rest, v. split; [reflexivity|]. split; [constructor|].
        split; [econstructor; eauto|]. cbn [forest_history forest_post stuck_history stuck_post_order consumed forest_yield map concat length app].
        rewrite (text_of_terminal pd e s Hs), take_length_le, Nat.add_0_r by lia. rewrite app_nil_r.
        split; [reflexivity|]. split; [reflexivity|]. cbn [reports]. rewrite (text_of_terminal pd e s Hs). exact He.
    + rewrite Hnm. unfold sbind at 1. pose proof (Hcall e (Some n) text pos v h Hrule Hg) as Hc. cbn [option_map] in Hc.
      assert (forall q, Some n = Some q -> q < length h) as Hq by (intros q [= <-]; assumption). specialize (Hc Hq).
      destruct (parse_nonterminal vm ps f e (Some (id_of n)) (P text pos v h)) as [[[]|er| |] s1].
      * destruct Hc as (pt & rest & v1 & C1 & -> & C3). apply Hcont; assumption.
      * destruct Hc as (stk & rest & v1 & C1 & -> & C3 & C4). exists [], e, els, [], text, stk, rest, v1. split; [reflexivity|]. split; [constructor|]. split; [assumption|].
        cbn [forest_history forest_post forest_yield map concat length app]. change (forest_count []) with 0. rewrite !Nat.add_0_r. auto.
      * destruct Hc as (C1 & C2 & C3). split; [assumption|]. split.
        -- intros pts' rest' Hp. inversion Hp as [|? ? ? pt' mid' pts ? P1 P2]; subst.
           cbn [forest_history forest_post]. rewrite app_assoc, runs_app, runs_prefix.
           ++ rewrite (C2 _ _ P1). reflexivity.
           ++ rewrite app_length, tree_history_length. exact (within_le _ _ _ (post_within pt' (length h))).
        -- intros es e0 after pts' mid' stk rest' Hes Hp Hf. destruct es as [|x es]; cbn [app] in Hes; injection Hes as <- Hes.
           ++ inversion Hp; subst. cbn [forest_history forest_post app]. change (forest_count []) with 0. rewrite !Nat.add_0_r. eapply C3; eauto.
           ++ inversion Hp as [|? ? ? pt' mid0 pts ? P1 P2]; subst.
              cbn [forest_history forest_post]. rewrite <- !app_assoc, (app_assoc h), runs_app, runs_prefix.
              ** rewrite (C2 _ _ P1). reflexivity.
              ** rewrite app_length, tree_history_length. exact (within_le _ _ _ (post_within pt' (length h))).
      * destruct Hc as [?|Hc]; [auto|]. right. exists [], e, els, [], text. split; [reflexivity|]. split; [constructor|].
        split; [eexists; exact Hnm|]. auto.
Qed.

Lemma keys_ok el (sm : Steuermap) : NoDup (ho_iter [12; el] (map_to_list sm).*1) /\
  forall x, x ∈ ho_iter [12; el] (map_to_list sm).*1 <-> is_Some (sm !! x).
Proof.
  split.
  - rewrite ho_perm. apply NoDup_fst_map_to_list.
  - intros x. rewrite ho_perm, elem_of_list_fmap. split.
    + intros ([k p] & -> & Hk). apply elem_of_map_to_list in Hk. simpl. eauto.
    + intros [p Hp]. exists (x, p). split; [reflexivity|]. apply elem_of_map_to_list. assumption.
Qed.
Lemma join_joined sep l : join sep l = joined sep l.
Proof. induction l as [|x [|y l] IH]; [reflexivity..|]. cbn [join joined] in *. rewrite IH. reflexivity. Qed.
Lemma member_string_text x : member_string x = member_text x.
Proof. destruct x; reflexivity. Qed.

Lemma call_ok f : forall A, call_spec f A.
Proof.
  induction f as [|f IH]; intros A par text pos v h [r Hr] Hg Hpar.
  - cbn [parse_nonterminal]. right. intros vis Hv. pose proof (visited_lt vis A ltac:(eexists; exact Hr) Hv). lia.
  - rewrite parse_unfold. unfold sbind at 1. rewrite peek_P, look_peek.
    destruct (proj2 (pt_rules pd start ps Htab A) ltac:(eexists; exact Hr)) as [nt Hnt]. rewrite Hnt.
    destruct (pt_entry pd start ps Htab A r nt Hr Hnt) as (_ & Hins & Hsel).
    unfold sbind at 1. unfold get_fitting_production. rewrite Hnt.
    destruct (steuermap nt !! look text) as [p|] eqn:Hp.
    2:{ unfold sbind at 1. rewrite peek_P. cbn [sbind ps_pos sfail P ps_in cur_pos].
        exists (StuckChoice A), text, v. split; [|split; [|split]].
        - eapply f_choice; [exact Hr|]. intros p Hpp Hc. pose proof (proj2 (Hsel _ _) (conj Hpp Hc)). congruence.
        - cbn [consumed length stuck_history]. rewrite Nat.add_0_r, app_nil_r. reflexivity.
        - reflexivity.
        - cbn [reports consumed length]. rewrite Nat.add_0_r. exists (ho_iter [12; A] (map_to_list (steuermap nt)).*1), r.
          destruct (keys_ok A (steuermap nt)) as [K1 K2]. split; [assumption|]. split; [assumption|]. split.
          + intros x. rewrite K2. split.
            * intros [p Hx]. exists p. apply Hsel. assumption.
            * intros (p & Hx). exists p. apply Hsel. assumption.
          + assert (expected_text A (steuermap nt) = joined (lit ";") (map member_text (ho_iter [12; A] (map_to_list (steuermap nt)).*1))) as ->.
            { unfold expected_text. rewrite join_joined. reflexivity. }
            destruct text; reflexivity. }
    destruct (proj1 (Hsel _ _) Hp) as [Hpp Hc].
    unfold sbind at 1. unfold ps_add_node. cbn [P ps_tree ps_in ps_vm].
    assert (grown (h ++ [(par, @nil N)])) as Hg1 by (apply grown_app; assumption).
    rewrite (tree_of_snoc h par [] Hg1). cbn [map_err].
    set (h1 := h ++ [(par, @nil N)]) in *. fold (P text pos v h1).
    assert (length h1 = S (length h)) as Hl1 by (unfold h1; rewrite app_length; simpl; lia).
    assert (forall (els : list nat), right_side p = els ->
      match (do _u <- els_loop f (id_of (length h)) els; run_instructions vm (id_of (length h)) (nt_instruction nt)) (P text pos v h1) with
      | (Ok _, s') => exists pt rest v', pred pd start A text pt rest /\
          s' = P rest (pos + length (yield pd pt)) v' (h ++ tree_history pd (length h) par pt) /\
          runs (h ++ tree_history pd (length h) par pt) (post_order (length h) pt) v = Ok v'
      | (Err e, s') => exists stk rest v', fails pd start A text stk rest /\
          s' = P rest (pos + length (consumed pd stk)) v' (h ++ stuck_history pd (length h) par stk) /\
          runs (h ++ stuck_history pd (length h) par stk) (stuck_post_order (length h) stk) v = Ok v' /\
          reports pd start stk rest (pos + length (consumed pd stk)) e
      | (Panic, _) => vm_panics /\ (forall pt rest, pred pd start A text pt rest ->
          runs (h ++ tree_history pd (length h) par pt) (post_order (length h) pt) v = Panic) /\
          (forall stk rest, fails pd start A text stk rest ->
          runs (h ++ stuck_history pd (length h) par stk) (stuck_post_order (length h) stk) v = Panic)
      | (Diverge, _) => vm_diverges \/ too_small (S f) A text
      end) as Hmain.
    { intros els Hels. assert (alternative pd A els) as Halt by (exists r, p; auto).
      assert (forall q, Some (length h) = Some q -> q < length h1) as Hq by (intros q [= <-]; lia).
      pose proof (loop_ok f IH els (length h) text pos v h1 Hg1 ltac:(lia)) as Hloop.
      assert (forall e, e ∈ els -> (exists s, is_terminal pd e s) \/ (is_nonterminal pd e /\ has_rule pd e)) as Hde.
      { intros e He. eapply (proj2 (con_defined pd start Hcon)); eauto. }
      specialize (Hloop Hde). rewrite Hl1 in Hloop.
      assert (forall pts, h ++ tree_history pd (length h) par (PNode A pts) = h1 ++ forest_history pd (S (length h)) (Some (length h)) pts) as Hth.
      { intros pts. rewrite tree_history_node. unfold h1. rewrite <- app_assoc. reflexivity. }
      assert (forall pts, length (h1 ++ forest_history pd (S (length h)) (Some (length h)) pts) = length h + S (forest_count pts)) as Hlen.
      { intros pts. rewrite app_length, Hl1, forest_history_length. lia. }
      assert (forall pts v1, runs (h1 ++ forest_history pd (S (length h)) (Some (length h)) pts) (forest_post (S (length h)) pts) v = Ok v1 ->
        runs (h ++ tree_history pd (length h) par (PNode A pts)) (post_order (length h) (PNode A pts)) v
        = run_list (tree_of (h1 ++ forest_history pd (S (length h)) (Some (length h)) pts)) (id_of (length h)) (instruction r) v1) as Hlast.
      { intros pts v1 Hv. rewrite post_order_node, Hth, runs_app, Hv. cbn [obind]. unfold run_actions. cbn [ofold].
        rewrite take_ge by (rewrite Hlen; lia). unfold instructions_of. rewrite Hr. unfold tree_of. destruct (run_list _ _ _ _); reflexivity. }
      unfold sbind at 1. destruct (els_loop f (id_of (length h)) els (P text pos v h1)) as [[[]|e| |] s1].
      - destruct Hloop as (pts & rest & v1 & L1 & -> & L3). rewrite Hins.
        pose proof (run_instructions_spec (instruction r) (length h) rest (pos + length (forest_yield pd pts)) v1
          (h1 ++ forest_history pd (S (length h)) (Some (length h)) pts)) as Hri.
        specialize (Hri ltac:(rewrite <- Hl1; apply grown_forest; assumption) ltac:(rewrite Hlen; lia)).
        destruct (run_instructions vm (id_of (length h)) (instruction r) _) as [[[]|[]| |] s2]; try contradiction.
        + destruct Hri as (v2 & -> & Hri). exists (PNode A pts), rest, v2. split; [eapply pr_node; eauto; rewrite Hels; assumption|].
          split; [rewrite Hth; reflexivity|]. rewrite (Hlast pts v1 L3). exact Hri.
        + destruct Hri as [R1 R2]. split; [assumption|].
          assert (pred pd start A text (PNode A pts) rest) as Hpt by (eapply pr_node; eauto; rewrite Hels; assumption).
          split; [|intros stk rest' Hf; exfalso; exact (fails_no_pred pd start (con_disjoint pd start Hcon) (wf_rules pd Hwf) _ _ _ _ Hf _ _ Hpt)].
          intros pt' rest' Hpt'. destruct (proj1 (pred_deterministic pd start (con_disjoint pd start Hcon) (wf_rules pd Hwf)) _ _ _ _ Hpt _ _ Hpt') as [<- <-].
          rewrite (Hlast pts v1 L3). exact R2.
        + auto.
      - destruct Hloop as (es & e0 & after & pts & mid & stk & rest & v1 & -> & L1 & L2 & -> & L4 & L5).
        exists (StuckIn A pts stk after), rest, v1. split; [eapply f_in; eauto|].
        cbn [consumed]. rewrite app_length. fold (forest_yield pd pts). rewrite Nat.add_assoc.
        rewrite stuck_history_in, stuck_post_in. split; [|split].
        + unfold h1. rewrite <- app_assoc. reflexivity.
        + unfold h1 in L4. rewrite <- app_assoc in L4. exact L4.
        + exact L5.
      - destruct Hloop as (L1 & L2 & L3). split; [assumption|]. split.
        + intros pt' rest' Hpt'. inversion Hpt' as [t' s' r' Ht' E1 E2 E3|A' r' p' ? subs' ? Hr' Hp' Hc' Hs']; subst.
          * exfalso. eapply (terminal_not_rule pd (wf_rules pd Hwf)); eauto.
          * assert (r' = r) as -> by congruence.
            assert (p' = p) as -> by (eapply (choice_unique pd start (con_disjoint pd start Hcon)); eauto).
            rewrite post_order_node, Hth, runs_app. rewrite (L2 _ _ Hs'). reflexivity.
        + intros stk rest' Hf. inversion Hf as [? r' ? Hr' Hn'|? ? ? ? Ht'|? r' p' ? es' subs' mid' e' stk0 after' ? Hr' Hp' Hc' He' Hs' Hf0]; subst.
          * assert (r' = r) as -> by congruence. exfalso. eapply Hn'; eauto.
          * exfalso. eapply (terminal_not_rule pd (wf_rules pd Hwf)); eauto.
          * assert (r' = r) as -> by congruence.
            assert (p' = p) as -> by (eapply (choice_unique pd start (con_disjoint pd start Hcon)); eauto).
            rewrite stuck_history_in, stuck_post_in. specialize (L3 _ _ _ _ _ _ _ He' Hs' Hf0).
            unfold h1 in L3. rewrite <- app_assoc in L3. exact L3.
      - destruct Hloop as [?|(es & e0 & after & pts & mid & -> & L1 & [nm L2] & L3 & L4)]; [auto|]. right.
        intros vis Hv. pose proof (visited_lt vis A ltac:(eexists; exact Hr) Hv) as Hvl.
        apply pred_sound in L1 as (P1 & P2 & P3). fold (forest_yield pd pts) in P3.
        destruct (forest_yield pd pts) as [|c y] eqn:Ey.
        + simpl in P3. subst mid. assert (left_calls pd A e0) as Hlc.
          { exists es, after. split; [assumption|]. split; [|eexists; exact L2]. apply NULLABLE_nuls. rewrite <- P2. apply empty_nuls; assumption. }
          assert (visited (A :: vis) e0) as Hv'.
          { destruct Hv as [V1 V2]. split.
            - constructor; [|assumption]. intros Hin. apply V2 in Hin as [_ Hin]. eapply (con_no_left_recursion pd start Hcon). exact Hin.
            - intros B HB. apply elem_of_cons in HB as [->|HB]; [split; [eexists; exact Hr|apply tc_once; assumption]|].
              destruct (V2 B HB) as [W1 W2]. split; [assumption|]. eapply tc_r; eauto. }
          specialize (L4 _ Hv'). cbn [length] in L4. lia.
        + assert (visited [] e0) as Hv' by (split; [constructor|intros B HB; apply elem_of_nil in HB; contradiction]).
          specialize (L4 _ Hv'). assert (length text = S (length y) + length mid) as El by (rewrite P3, app_length; reflexivity).
          cbn [length] in L4. rewrite El. nia. }
    destruct p as [els|].
    + exact (Hmain els eq_refl).
    + exact (Hmain [] eq_refl).
Qed.
End parser.
