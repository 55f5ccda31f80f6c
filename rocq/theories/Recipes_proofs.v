(** * Rewriting rules that are not accepted (C97, C98): proofs *)
From Verif Require Import Base Sets ParserData Vm SpecGrammar SpecRules SpecLanguage SpecRecipes Language_proofs Naming_proofs Compose_proofs.
Notation NTm x := (x, NonTerminal).

Section plain.
Context {I : Type} (rs : list (arule I)) (Hn : nothing_ignored rs).
Lemma no_ignores x y : ~ ignores rs x y.
Proof. intros (r & l & E & Ho). assert (r ∈ rules_for x rs) as Hr by (rewrite E; left). apply elem_of_list_filter in Hr. apply (Hn r) in Ho; tauto. Qed.
Lemma plain_says x i w : says rs x i w <-> alternatives_for rs x !! i = Some w.
Proof.
  split; [intros [w0 Hw _|w0 y _ Hy _]; [assumption|destruct (no_ignores _ _ Hy)]|]. intros Hw. apply says_plain; [assumption|]. intros y Hy. destruct (no_ignores _ _ Hy).
Qed.
Lemma plain_node x subs : nderivation rs (NNode x subs) <-> map nroot subs ∈ alternatives_for rs x /\ Forall (nderivation rs) subs.
Proof.
  rewrite elem_of_list_lookup. split.
  - inversion 1 as [|? i ? Hs Hf]; subst. apply plain_says in Hs. eauto.
  - intros [[i Hi] Hf]. apply (nder_node rs x i); [apply plain_says|]; assumption.
Qed.
End plain.
Lemma alts_app {I} (P Q : list (arule I)) x : alternatives_for (P ++ Q) x = alternatives_for P x ++ alternatives_for Q x.
Proof. unfold alternatives_for. rewrite rules_for_app, map_app, concat_app. reflexivity. Qed.
Lemma alts_cons {I} (r : arule I) (Q : list (arule I)) x : alternatives_for (r :: Q) x = (if decide (ar_name r = x) then ar_alts r else []) ++ alternatives_for Q x.
Proof. unfold alternatives_for, rules_for. rewrite filter_cons. destruct (decide (ar_name r = x)); reflexivity. Qed.
Lemma alts_defined {I} (rs : list (arule I)) x w : w ∈ alternatives_for rs x -> defined rs x.
Proof. unfold alternatives_for, defined. destruct (rules_for x rs); [intros Hw; inversion Hw|discriminate]. Qed.
Lemma roots_app (l : list ntree) p q : map nroot l = p ++ q -> exists l1 l2, l = l1 ++ l2 /\ map nroot l1 = p /\ map nroot l2 = q.
Proof. intros E. apply map_eq_app in E as (l1 & l2 & -> & <- & <-). eauto. Qed.
Lemma leaf_or_node t : (exists b, t = NLeaf b) \/ exists y subs, t = NNode y subs. Proof. destruct t; eauto. Qed.
(** Trees of one grammar for trees of the other. *)
Definition same_ends {I} (rs : list (arule I)) (t t' : ntree) : Prop := nderivation rs t' /\ nroot t' = nroot t /\ nyield t' = nyield t.
Lemma all_ends {I} (rs : list (arule I)) ts : Forall (fun t => exists t', same_ends rs t t') ts ->
  exists ts', Forall (nderivation rs) ts' /\ map nroot ts' = map nroot ts /\ concat (map nyield ts') = concat (map nyield ts).
Proof.
  induction 1 as [|t ts (t' & D & R & Y) _ (ts' & D' & R' & Y')]; [exists []; auto|]. exists (t' :: ts'). split; [constructor; assumption|]. cbn [map concat]. rewrite R, R', Y, Y'. auto.
Qed.

Section factoring.
Context {I : Type} (x n : str) (is : list I) (L R : list (arule I)) (p : list element) (A Q : list (list element)).
Notation rs := (common x is L R p A Q).
Notation rs' := (factored x is L R n p A Q).
Context (Hi : nothing_ignored rs) (Hn : new_name rs n).
Lemma fa_not_x : n <> x.
Proof. intros ->. destruct Hn as (_ & Hd & _). apply Hd. unfold defined, common. rewrite rules_for_app. unfold rules_for at 2. rewrite filter_cons_True by reflexivity. intros E. apply app_eq_nil in E as [_ E]. discriminate. Qed.
Lemma fa_ignored : nothing_ignored rs'.
Proof.
  intros r Hr. unfold factored in Hr. apply elem_of_app in Hr as [Hr|Hr]; [apply Hi, elem_of_app; auto|].
  apply elem_of_cons in Hr as [->|Hr]; [discriminate|]. apply elem_of_cons in Hr as [->|Hr]; [discriminate|]. apply Hi. unfold common. apply elem_of_app. right. right. assumption.
Qed.
Lemma fa_no_alts : alternatives_for rs n = [].
Proof. destruct (alternatives_for rs n) as [|w l] eqn:E; [reflexivity|]. destruct Hn as (_ & Hd & _). destruct Hd. apply (alts_defined _ _ w). rewrite E. left. Qed.
Lemma fa_new w : w ∈ alternatives_for rs' n <-> w ∈ Q.
Proof.
  pose proof fa_no_alts as E. unfold common in E. rewrite alts_app, alts_cons in E. cbn [ar_name] in E. rewrite decide_False in E by exact (not_eq_sym fa_not_x).
  apply app_eq_nil in E as [E1 E2]. cbn [app] in E2. unfold factored. rewrite alts_app, !alts_cons. cbn [ar_name ar_alts]. rewrite decide_False by exact (not_eq_sym fa_not_x). rewrite decide_True by reflexivity.
  rewrite E1, E2, app_nil_r. reflexivity.
Qed.
Lemma fa_old y w : y <> n -> y <> x -> w ∈ alternatives_for rs' y <-> w ∈ alternatives_for rs y.
Proof. intros H1 H2. unfold factored, common. rewrite !alts_app, !alts_cons. cbn [ar_name]. rewrite !decide_False by congruence. reflexivity. Qed.
Lemma fa_x w : (w ∈ alternatives_for rs x -> w ∈ alternatives_for rs' x \/ exists q, q ∈ Q /\ w = p ++ q) /\
  (w ∈ alternatives_for rs' x -> w ∈ alternatives_for rs x \/ w = p ++ [NTm n]) /\ (forall q, q ∈ Q -> p ++ q ∈ alternatives_for rs x) /\ p ++ [NTm n] ∈ alternatives_for rs' x.
Proof.
  pose proof fa_not_x as Hx. unfold factored, common. rewrite !alts_app, !alts_cons. cbn [ar_name ar_alts]. rewrite !(decide_True (P := x = x)) by reflexivity. rewrite decide_False by assumption.
  split; [|split; [|split]].
  - rewrite !elem_of_app, elem_of_list_fmap. intros [H|[[H|(q & -> & H)]|H]]; [auto|auto|eauto|auto].
  - rewrite !elem_of_app, elem_of_list_singleton. intros [H|[[H|H]|[H|H]]]; [auto|auto|auto|inversion H|auto].
  - intros q Hq. rewrite !elem_of_app, elem_of_list_fmap. right. left. right. eauto.
  - rewrite !elem_of_app, elem_of_list_singleton. auto.
Qed.
Lemma fa_unused y w : w ∈ alternatives_for rs y -> ~ NTm n ∈ w.
Proof. intros Hw Hin. destruct Hn as (_ & _ & Hu). apply (Hu y). exists w. auto. Qed.
Lemma fa_there t : nderivation rs t -> exists t', same_ends rs' t t'.
Proof.
  induction t as [b|y subs IH] using ntree_ind'; intros Hd; [exists (NLeaf b); split; [constructor|auto]|]. pose proof Hd as Hd0. apply plain_node in Hd as [Hw Hf]; [|assumption].
  assert (Forall (fun t => exists t', same_ends rs' t t') subs) as Hs. { apply Forall_forall. intros t Ht. exact (proj1 (Forall_forall _ _) IH t Ht (proj1 (Forall_forall _ _) Hf t Ht)). }
  apply all_ends in Hs as (subs' & D & Ro & Y).
  assert (map nroot subs ∈ alternatives_for rs' y -> exists t', same_ends rs' (NNode y subs) t') as Hsame.
  { intros Hw'. exists (NNode y subs'). split; [apply plain_node; [apply fa_ignored|rewrite Ro; auto]|]. split; [reflexivity|]. exact Y. }
  assert (y <> n) as Hy. { intros ->. rewrite fa_no_alts in Hw. inversion Hw. }
  destruct (decide (y = x)) as [->|Hx]; [|apply Hsame, fa_old; assumption]. apply fa_x in Hw as [Hw|(q & Hq & E)]; [auto|]. rewrite E in Ro. apply roots_app in Ro as (l1 & l2 & -> & R1 & R2).
  apply Forall_app in D as [D1 D2]. exists (NNode x (l1 ++ [NNode n l2])). split.
  - apply plain_node; [apply fa_ignored|]. split; [rewrite map_app, R1; apply fa_x; exact []|]. apply Forall_app. split; [assumption|]. constructor; [|constructor]. apply plain_node; [apply fa_ignored|]. split; [apply fa_new; rewrite R2; assumption|assumption].
  - split; [reflexivity|]. cbn [nyield]. rewrite <- Y, !map_app, !concat_app. cbn [map concat nyield]. rewrite app_nil_r. reflexivity.
Qed.
Lemma spliced_yield t : concat (map nyield (spliced n t)) = nyield t.
Proof.
  induction t as [b|y subs IH] using ntree_ind'; cbn [spliced]; [apply app_nil_r|]. assert (concat (map nyield (concat (map (spliced n) subs))) = concat (map nyield subs)) as E.
  { induction IH as [|t l Ht _ IHl]; [reflexivity|]. cbn [map concat]. rewrite map_app, concat_app, Ht, IHl. reflexivity. }
  destruct (decide (y = n)); [exact E|]. cbn [map concat nyield]. rewrite app_nil_r. exact E.
Qed.
Lemma fa_back t : nderivation rs' t -> Forall (nderivation rs) (spliced n t) /\ (nroot t <> NTm n -> map nroot (spliced n t) = [nroot t]) /\ (nroot t = NTm n -> map nroot (spliced n t) ∈ Q).
Proof.
  induction t as [b|y subs IH] using ntree_ind'; intros Hd; [cbn; split; [repeat constructor|]; split; [reflexivity|discriminate]|]. apply plain_node in Hd as [Hw Hf]; [|apply fa_ignored].
  assert (Forall (fun t => Forall (nderivation rs) (spliced n t) /\ (nroot t <> NTm n -> map nroot (spliced n t) = [nroot t]) /\ (nroot t = NTm n -> map nroot (spliced n t) ∈ Q)) subs) as Hs.
  { apply Forall_forall. intros t Ht. exact (proj1 (Forall_forall _ _) IH t Ht (proj1 (Forall_forall _ _) Hf t Ht)). }
  clear IH Hf. assert (Forall (nderivation rs) (concat (map (spliced n) subs))) as Hc. { clear -Hs. induction Hs as [|t l (Ht & _) _ IHl]; [constructor|]. cbn [map concat]. apply Forall_app. auto. }
  assert (forall l, Forall (fun t => Forall (nderivation rs) (spliced n t) /\ (nroot t <> NTm n -> map nroot (spliced n t) = [nroot t]) /\ (nroot t = NTm n -> map nroot (spliced n t) ∈ Q)) l ->
    ~ NTm n ∈ map nroot l -> map nroot (concat (map (spliced n) l)) = map nroot l) as Hroots.
  { clear. intros l Hs Hno. induction Hs as [|t l (_ & Ht & _) _ IHl]; [reflexivity|]. cbn [map concat] in *. apply not_elem_of_cons in Hno as [Hno1 Hno2]. rewrite map_app, Ht, IHl by congruence. reflexivity. }
  cbn [spliced]. destruct (decide (y = n)) as [->|Hy].
  - apply fa_new in Hw. split; [assumption|]. split; [intros H; destruct (H eq_refl)|]. intros _. assert (~ NTm n ∈ map nroot subs) as Hno. { intros Hin. apply (fa_unused x (p ++ map nroot subs)); [apply fa_x; assumption|]. apply elem_of_app. auto. } rewrite Hroots; assumption.
  - split; [constructor; [|constructor]|split; [reflexivity|intros [= E]; destruct (Hy E)]]. apply plain_node; [assumption|]. split; [|assumption].
    destruct (decide (y = x)) as [->|Hx].
    + apply fa_x in Hw as [Hw|E]; [rewrite Hroots; [assumption..|]; eapply fa_unused; exact Hw|]. apply roots_app in E as (l1 & l2 & -> & R1 & R2). apply Forall_app in Hs as [S1 S2].
      destruct l2 as [|t2 [|? ?]]; [discriminate| |discriminate]. injection R2 as R2. apply Forall_cons in S2 as [(_ & _ & Hq) _]. specialize (Hq R2). rewrite map_app, concat_app, map_app. cbn [map concat]. rewrite app_nil_r.
      rewrite Hroots, R1; [apply fa_x; assumption|assumption|]. rewrite R1. intros Hin. apply (fa_unused x (p ++ map nroot (spliced n t2))); [apply fa_x; assumption|]. apply elem_of_app. auto.
    + apply fa_old in Hw; [|assumption..]. rewrite Hroots; [assumption..|]. eapply fa_unused; exact Hw.
Qed.
Lemma fa_tree t y : y <> n -> nderivation rs' t -> nroot t = NTm y -> exists t', spliced n t = [t'] /\ nderivation rs t' /\ nroot t' = NTm y /\ nyield t' = nyield t.
Proof.
  intros Hy Hd Hr. destruct (fa_back t Hd) as (Hf & Ho & _). rewrite Hr in Ho. specialize (Ho ltac:(congruence)). destruct (spliced n t) as [|t' [|? ?]] eqn:E; [discriminate| |discriminate]. exists t'.
  split; [reflexivity|]. apply Forall_cons in Hf as [Hf _]. split; [assumption|]. split; [injection Ho; auto|]. rewrite <- (spliced_yield t), E. cbn. rewrite app_nil_r. reflexivity.
Qed.
End factoring.

Section recursion.
Context {I : Type} (x n : str) (is : list I) (L R : list (arule I)) (Q B : list (list element)).
Notation rs := (recursive x is L R Q B).
Notation rs' := (iterated x is L R n Q B).
Context (Hi : nothing_ignored rs) (Hn : new_name rs n) (Hx : ~ defined (L ++ R) x).
Notation texts g := (concat (map nyield g)).
Lemma re_not_x : n <> x.
Proof. intros ->. destruct Hn as (_ & Hd & _). apply Hd. unfold defined, recursive. rewrite rules_for_app. unfold rules_for at 2. rewrite filter_cons_True by reflexivity. intros E. apply app_eq_nil in E as [_ E]. discriminate. Qed.
Lemma re_ignored : nothing_ignored rs'.
Proof.
  intros r Hr. unfold iterated in Hr. apply elem_of_app in Hr as [Hr|Hr]; [apply Hi, elem_of_app; auto|].
  apply elem_of_cons in Hr as [->|Hr]; [discriminate|]. apply elem_of_cons in Hr as [->|Hr]; [discriminate|]. apply Hi. unfold recursive. apply elem_of_app. right. right. assumption.
Qed.
Lemma re_only : alternatives_for L x = [] /\ alternatives_for R x = [].
Proof.
  unfold defined in Hx. rewrite rules_for_app in Hx. unfold alternatives_for. destruct (rules_for x L), (rules_for x R); cbn in Hx; try (destruct Hx; discriminate). auto.
Qed.
Lemma re_no_alts : alternatives_for rs n = [].
Proof. destruct (alternatives_for rs n) as [|w l] eqn:E; [reflexivity|]. destruct Hn as (_ & Hd & _). destruct Hd. apply (alts_defined _ _ w). rewrite E. left. Qed.
Lemma re_x : alternatives_for rs x = map (cons (NTm x)) Q ++ B.
Proof. unfold recursive. rewrite alts_app, alts_cons. cbn [ar_name ar_alts]. rewrite decide_True by reflexivity. destruct re_only as [-> ->]. rewrite app_nil_r. reflexivity. Qed.
Lemma it_x : alternatives_for rs' x = map (fun b => b ++ [NTm n]) B.
Proof.
  unfold iterated. rewrite alts_app, !alts_cons. cbn [ar_name ar_alts]. rewrite decide_True by reflexivity. rewrite decide_False by exact re_not_x. destruct re_only as [-> ->]. rewrite app_nil_r. reflexivity.
Qed.
Lemma it_n : alternatives_for rs' n = map (fun q => q ++ [NTm n]) Q ++ [[]].
Proof.
  pose proof re_no_alts as E. unfold recursive in E. rewrite alts_app, alts_cons in E. cbn [ar_name] in E. rewrite decide_False in E by exact (not_eq_sym re_not_x).
  apply app_eq_nil in E as [E1 E2]. cbn [app] in E2. unfold iterated. rewrite alts_app, !alts_cons. cbn [ar_name ar_alts]. rewrite decide_False by exact (not_eq_sym re_not_x). rewrite decide_True by reflexivity.
  rewrite E1, E2, app_nil_r. reflexivity.
Qed.
Lemma re_old y : y <> n -> y <> x -> alternatives_for rs' y = alternatives_for rs y.
Proof. intros H1 H2. unfold recursive, iterated. rewrite !alts_app, !alts_cons. cbn [ar_name]. rewrite !decide_False by congruence. reflexivity. Qed.
Lemma re_unused y w : w ∈ alternatives_for rs y -> ~ NTm n ∈ w.
Proof. intros Hw Hin. destruct Hn as (_ & _ & Hu). apply (Hu y). exists w. auto. Qed.
Definition groups (ps : list (arule I)) (gs : list (list ntree)) : Prop := Forall (fun g => Forall (nderivation ps) g /\ map nroot g ∈ Q) gs.
Fixpoint tail_tree (gs : list (list ntree)) : ntree := match gs with [] => NNode n [] | g :: gs => NNode n (g ++ [tail_tree gs]) end.
Lemma tail_root gs : nroot (tail_tree gs) = NTm n. Proof. destruct gs; reflexivity. Qed.
Lemma tail_yield gs : nyield (tail_tree gs) = concat (map (fun g => texts g) gs).
Proof. induction gs as [|g gs IH]; [reflexivity|]. cbn [tail_tree nyield map concat]. rewrite map_app, concat_app. cbn [map concat]. rewrite app_nil_r, IH. reflexivity. Qed.
Lemma tail_derivation gs : groups rs' gs -> nderivation rs' (tail_tree gs).
Proof.
  induction 1 as [|g gs [Dg Rg] _ IH]; cbn [tail_tree]; apply plain_node; try apply re_ignored; rewrite it_n.
  - split; [apply elem_of_app; right; left|constructor].
  - split; [|apply Forall_app; auto]. apply elem_of_app. left. apply elem_of_list_fmap. exists (map nroot g). split; [|assumption]. rewrite map_app. cbn [map]. rewrite tail_root. reflexivity.
Qed.
Lemma re_there t : nderivation rs t -> (exists t', same_ends rs' t t') /\
  (nroot t = NTm x -> exists bs gs, Forall (nderivation rs') bs /\ map nroot bs ∈ B /\ groups rs' gs /\ nyield t = texts bs ++ concat (map (fun g => texts g) gs)).
Proof.
  induction t as [b|y subs IH] using ntree_ind'; intros Hd; [split; [exists (NLeaf b); split; [constructor|auto]|discriminate]|]. apply plain_node in Hd as [Hw Hf]; [|assumption].
  assert (Forall (fun t => (exists t', same_ends rs' t t') /\
    (nroot t = NTm x -> exists bs gs, Forall (nderivation rs') bs /\ map nroot bs ∈ B /\ groups rs' gs /\ nyield t = texts bs ++ concat (map (fun g => texts g) gs))) subs) as Hs.
  { apply Forall_forall. intros t Ht. exact (proj1 (Forall_forall _ _) IH t Ht (proj1 (Forall_forall _ _) Hf t Ht)). }
  assert (y <> n) as Hy. { intros ->. rewrite re_no_alts in Hw. inversion Hw. }
  assert (Forall (fun t => exists t', same_ends rs' t t') subs) as Hs' by (eapply Forall_impl; [exact Hs|]; intros t [Ht _]; exact Ht). clear IH Hf.
  destruct (decide (y = x)) as [->|Hyx].
  - assert (exists bs gs, Forall (nderivation rs') bs /\ map nroot bs ∈ B /\ groups rs' gs /\ nyield (NNode x subs) = texts bs ++ concat (map (fun g => texts g) gs)) as Hg.
    { rewrite re_x in Hw. apply elem_of_app in Hw as [Hw|Hw].
      - apply elem_of_list_fmap in Hw as (q & E & Hq). destruct subs as [|t0 subs]; [discriminate|]. injection E as E0 E. apply Forall_cons in Hs as [[_ H0] _]. destruct (H0 E0) as (bs & gs & D & RB & HG & Y).
        apply Forall_cons in Hs' as [_ Hs']. apply all_ends in Hs' as (subs' & D' & R' & Y'). exists bs, (gs ++ [subs']). split; [assumption|]. split; [assumption|]. split.
        + apply Forall_app. split; [assumption|]. constructor; [|constructor]. split; [assumption|]. rewrite R', E. assumption.
        + cbn [nyield map concat]. rewrite map_app, concat_app. cbn [map concat]. rewrite app_nil_r, Y, Y', app_assoc. reflexivity.
      - apply all_ends in Hs' as (subs' & D' & R' & Y'). exists subs', []. split; [assumption|]. split; [rewrite R'; assumption|]. split; [constructor|]. cbn [nyield map concat]. rewrite app_nil_r. congruence. }
    split; [|intros _; exact Hg]. destruct Hg as (bs & gs & D & RB & HG & Y). exists (NNode x (bs ++ [tail_tree gs])). split; [|split; [reflexivity|]].
    + apply plain_node; [apply re_ignored|]. rewrite it_x. split.
      * apply elem_of_list_fmap. exists (map nroot bs). split; [|assumption]. rewrite map_app. cbn [map]. rewrite tail_root. reflexivity.
      * apply Forall_app. split; [assumption|]. constructor; [apply tail_derivation, HG|constructor].
    + rewrite Y. cbn [nyield]. rewrite map_app, concat_app. cbn [map concat]. rewrite app_nil_r, tail_yield. reflexivity.
  - split; [|intros [= E]; destruct (Hyx E)]. apply all_ends in Hs' as (subs' & D' & R' & Y'). exists (NNode y subs'). split; [|split; [reflexivity|exact Y']].
    apply plain_node; [apply re_ignored|]. rewrite re_old, R' by assumption. auto.
Qed.
Fixpoint grown (t : ntree) (gs : list (list ntree)) : ntree := match gs with [] => t | g :: gs => grown (NNode x (t :: g)) gs end.
Lemma grown_ok gs : groups rs gs -> forall t, nderivation rs t -> nroot t = NTm x -> nderivation rs (grown t gs) /\ nroot (grown t gs) = NTm x /\ nyield (grown t gs) = nyield t ++ concat (map (fun g => texts g) gs).
Proof.
  induction 1 as [|g gs [Dg Rg] _ IH]; intros t Ht Hr; cbn [grown]; [cbn [map concat]; rewrite app_nil_r; auto|]. destruct (IH (NNode x (t :: g))) as (H1 & H2 & H3); [|reflexivity|].
  - apply plain_node; [assumption|]. split; [|constructor; assumption]. rewrite re_x. apply elem_of_app. left. apply elem_of_list_fmap. exists (map nroot g). cbn [map]. rewrite Hr. auto.
  - split; [assumption|]. split; [assumption|]. rewrite H3. cbn [nyield map concat]. rewrite <- app_assoc. reflexivity.
Qed.
Lemma re_back t : nderivation rs' t -> (nroot t <> NTm n -> exists t', same_ends rs t t') /\
  (nroot t = NTm n -> exists gs, groups rs gs /\ nyield t = concat (map (fun g => texts g) gs)).
Proof.
  induction t as [b|y subs IH] using ntree_ind'; intros Hd; [split; [intros _; exists (NLeaf b); split; [constructor|auto]|discriminate]|]. apply plain_node in Hd as [Hw Hf]; [|apply re_ignored].
  assert (Forall (fun t => (nroot t <> NTm n -> exists t', same_ends rs t t') /\ (nroot t = NTm n -> exists gs, groups rs gs /\ nyield t = concat (map (fun g => texts g) gs))) subs) as Hs.
  { apply Forall_forall. intros t Ht. exact (proj1 (Forall_forall _ _) IH t Ht (proj1 (Forall_forall _ _) Hf t Ht)). }
  clear IH Hf. assert (forall l, Forall (fun t => (nroot t <> NTm n -> exists t', same_ends rs t t') /\ (nroot t = NTm n -> exists gs, groups rs gs /\ nyield t = concat (map (fun g => texts g) gs))) l ->
    ~ NTm n ∈ map nroot l -> exists l', Forall (nderivation rs) l' /\ map nroot l' = map nroot l /\ texts l' = texts l) as Hall.
  { clear. intros l Hs Hno. apply all_ends. apply Forall_forall. intros t Ht. apply (proj1 (Forall_forall _ _) Hs t Ht). intros E. apply Hno, elem_of_list_fmap. eauto. }
  assert (forall w, w ++ [NTm n] = map nroot subs -> ~ NTm n ∈ w -> exists l' gs, Forall (nderivation rs) l' /\ map nroot l' = w /\ groups rs gs /\ nyield (NNode y subs) = texts l' ++ concat (map (fun g => texts g) gs)) as Hlast.
  { intros w E Hno. symmetry in E. apply roots_app in E as (l1 & l2 & -> & <- & R2). destruct l2 as [|t2 [|? ?]]; [discriminate| |discriminate]. injection R2 as R2.
    apply Forall_app in Hs as [S1 S2]. apply Forall_cons in S2 as [[_ S2] _]. destruct (S2 R2) as (gs & HG & Y). destruct (Hall _ S1 Hno) as (l' & D & Ro & Y'). exists l', gs. split; [assumption|]. split; [assumption|]. split; [assumption|].
    cbn [nyield]. rewrite map_app, concat_app. cbn [map concat]. rewrite app_nil_r, Y, Y'. reflexivity. }
  destruct (decide (y = n)) as [->|Hy].
  - split; [intros E; destruct (E eq_refl)|]. intros _. rewrite it_n in Hw. apply elem_of_app in Hw as [Hw|Hw].
    + apply elem_of_list_fmap in Hw as (q & E & Hq). destruct (Hlast q) as (l' & gs & D & Ro & HG & Y); [congruence| |].
      * intros Hin. apply (re_unused x (NTm x :: q)); [rewrite re_x; apply elem_of_app; left; apply elem_of_list_fmap; eauto|]. right. assumption.
      * exists (l' :: gs). split; [|exact Y]. constructor; [|assumption]. rewrite Ro. auto.
    + apply elem_of_list_singleton in Hw. destruct subs; [|discriminate]. exists []. split; [constructor|reflexivity].
  - split; [|intros [= E]; destruct (Hy E)]. intros _. destruct (decide (y = x)) as [->|Hyx].
    + rewrite it_x in Hw. apply elem_of_list_fmap in Hw as (b & E & Hb). assert (b ∈ alternatives_for rs x) as Hb' by (rewrite re_x; apply elem_of_app; auto).
      destruct (Hlast b) as (l' & gs & D & Ro & HG & Y); [congruence|eapply re_unused; exact Hb'|].
      destruct (grown_ok gs HG (NNode x l')) as (H1 & H2 & H3); [apply plain_node; [assumption|]; rewrite Ro; auto|reflexivity|]. exists (grown (NNode x l') gs). split; [assumption|]. split; [assumption|]. rewrite H3, Y. reflexivity.
    + rewrite re_old in Hw by assumption. destruct (Hall subs Hs) as (l' & D & Ro & Y); [eapply re_unused; exact Hw|]. exists (NNode y l'). split; [|split; [reflexivity|exact Y]].
      apply plain_node; [assumption|]. rewrite Ro. auto.
Qed.
End recursion.
