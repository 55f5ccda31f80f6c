(** * Proofs for C81 *)
From Verif Require Import Base Tree Sets ParserData Vm SpecTree SpecWeave SpecRules SpecLanguage SpecIgnore Language_proofs Start_proofs.

(** ** Replacing a subtree *)
Section replace.
Context {I : Type} (rs : list (arule I)).
Lemma imap_at {A} (g : A -> A) l : forall k a, l !! k = Some a ->
  imap (fun j u => if decide (j = k) then g u else u) l = take k l ++ g a :: drop (S k) l.
Proof.
  induction l as [|b l IH]; intros k a E; [discriminate|]. destruct k as [|k]; cbn [lookup list_lookup] in E.
  - injection E as ->. cbn. f_equal. transitivity (imap (fun _ u => u) l); [apply imap_ext; intros j u _; cbn; destruct (decide _); [lia|reflexivity]|].
    rewrite (imap_const (fun u => u)). clear IH. induction l as [|b l IHl]; [reflexivity|]. cbn. f_equal. exact IHl.
  - cbn. f_equal. rewrite <- (IH k a E). apply imap_ext. intros j u _. cbn. destruct (decide (S j = S k)), (decide (j = k)); try lia; reflexivity.
Qed.
Lemma replaced_node x subs k path s a : subs !! k = Some a ->
  replaced (NNode x subs) (k :: path) s = NNode x (take k subs ++ replaced a path s :: drop (S k) subs).
Proof. intros E. cbn [replaced]. f_equal. apply (imap_at (fun u => replaced u path s) subs k a E). Qed.
Lemma replaced_ok path : forall t s s', nderivation rs t -> nsubtree t path = Some s -> nderivation rs s' -> nroot s' = nroot s ->
  nderivation rs (replaced t path s') /\ nroot (replaced t path s') = nroot t /\ nsubtree (replaced t path s') path = Some s' /\
  exists before after, nyield t = before ++ nyield s ++ after /\ nyield (replaced t path s') = before ++ nyield s' ++ after.
Proof.
  induction path as [|k path IH]; intros t s s' Ht Hs Hs' Hroot; cbn [nsubtree] in Hs.
  - injection Hs as <-. cbn [replaced nsubtree]. split; [assumption|]. split; [assumption|]. split; [reflexivity|]. exists [], []. rewrite !app_nil_r. auto.
  - destruct t as [b|x subs]; [discriminate|]. destruct (subs !! k) as [a|] eqn:Ek; [|discriminate]. inversion Ht as [|? i ? Hsay Hsubs]; subst.
    destruct (IH a s s') as (H1 & H2 & H3 & before & after & H4 & H5); [exact (proj1 (Forall_lookup _ subs) Hsubs k a Ek)|assumption..|].
    rewrite (replaced_node x subs k path s' a Ek). pose proof (take_drop_middle subs k a Ek) as Hm. split; [|split; [reflexivity|split]].
    + apply (nder_node rs x i).
      * rewrite map_app. cbn [map]. rewrite H2. rewrite <- Hm, map_app in Hsay. exact Hsay.
      * rewrite <- Hm in Hsubs. apply Forall_app in Hsubs as [Hl Hr]. inversion Hr; subst. apply Forall_app. split; [assumption|]. constructor; assumption.
    + cbn [nsubtree]. rewrite lookup_app_r by (rewrite take_length; lia). rewrite take_length_le by (apply Nat.lt_le_incl, lookup_lt_is_Some; eauto). rewrite Nat.sub_diag. cbn. exact H3.
    + exists (concat (map nyield (take k subs)) ++ before), (after ++ concat (map nyield (drop (S k) subs))). cbn [nyield]. rewrite <- Hm at 1.
      rewrite !map_app, !concat_app. cbn [map concat]. rewrite H4, H5, <- !app_assoc. auto.
Qed.
End replace.

(** ** Ignored text *)
Section ignored.
Context {I : Type} (rs : list (arule I)).
Notation qs := (unignored rs).
Lemma un_rules_for x : rules_for x qs = unignored (rules_for x rs).
Proof.
  unfold rules_for, unignored. induction rs as [|r l IH]; [reflexivity|]. cbn [map]. destruct (decide (ar_name r = x)) as [E|E].
  - rewrite !filter_cons_True by (cbn; assumption). cbn [map]. f_equal. exact IH.
  - rewrite !filter_cons_False by (cbn; assumption). exact IH.
Qed.
Lemma un_alternatives x : alternatives_for qs x = alternatives_for rs x.
Proof. unfold alternatives_for. rewrite un_rules_for. unfold unignored. rewrite map_map. reflexivity. Qed.
Lemma un_says x i w : says qs x i w <-> alternatives_for rs x !! i = Some w.
Proof.
  assert (forall y, ~ ignores qs x y) as Hno.
  { intros y (r & m & E & Ho). assert (r ∈ rules_for x qs) as Hin by (rewrite E; left). rewrite un_rules_for in Hin. apply elem_of_list_fmap in Hin as (q & -> & _). discriminate. }
  rewrite <- un_alternatives. split.
  - intros [w0 Hw _|w0 y _ Hy _]; [assumption|]. destruct (Hno y Hy).
  - intros Hw. apply says_plain; [assumption|]. intros y Hy. destruct (Hno y Hy).
Qed.
Lemma padded_root t0 t : padded rs t0 t -> nroot t = nroot t0.
Proof. intros []; reflexivity. Qed.
Lemma padded_roots l0 l : Forall2 (padded rs) l0 l -> map nroot l = map nroot l0.
Proof. induction 1 as [|a b l0 l Hab _ IH]; [reflexivity|]. cbn. rewrite (padded_root _ _ Hab), IH. reflexivity. Qed.
Lemma gapped_roots y l l' : gapped rs y l l' -> map nroot l' = interleave (y, NonTerminal) (map nroot l).
Proof. induction 1 as [| |s g s' l l' _ Hg _ IH]; [reflexivity..|]. cbn [map interleave] in *. rewrite Hg, IH. reflexivity. Qed.
Lemma gapped_all y l l' : gapped rs y l l' -> Forall (nderivation rs) l -> Forall (nderivation rs) l'.
Proof.
  induction 1 as [| |s g s' l l' Hd _ _ IH]; intros Hl; [assumption..|]. inversion Hl; subst. constructor; [assumption|]. constructor; [assumption|]. apply IH. assumption.
Qed.
Lemma padded_derivation t0 : nderivation qs t0 -> forall t, padded rs t0 t -> nderivation rs t.
Proof.
  induction t0 as [b|x subs0 IH] using ntree_ind'; intros Ht0 t Hp.
  - inversion Hp. constructor.
  - inversion Ht0 as [|? i ? Hs Hsubs]; subst. apply un_says in Hs.
    assert (forall l, Forall2 (padded rs) subs0 l -> Forall (nderivation rs) l) as Hall.
    { intros l Hl. clear Hp Ht0 Hs. induction Hl as [|a b l0 l Hab _ IHl]; [constructor|]. inversion IH; inversion Hsubs; subst. constructor; auto. }
    inversion Hp as [|? ? subs Hn Hf|? y ? subs1 subs Hy Hno Hf Hg]; subst.
    + apply (nder_node rs x i); [|apply Hall; assumption]. apply says_plain; [|assumption]. rewrite (padded_roots _ _ Hf). assumption.
    + apply (nder_node rs x i); [|eapply gapped_all; [eassumption|apply Hall; assumption]].
      rewrite (gapped_roots _ _ _ Hg), (padded_roots _ _ Hf). apply says_woven; assumption.
Qed.
(** the trees under an alternative with ignored elements *)
Lemma gapped_inv y w : forall l, Forall (nderivation rs) l -> map nroot l = interleave (y, NonTerminal) w ->
  exists l1, gapped rs y l1 l /\ map nroot l1 = w /\ (forall a, a ∈ l1 -> a ∈ l).
Proof.
  induction w as [|e w IH]; intros l Hl E.
  - destruct l; [|discriminate]. exists []. repeat constructor. auto.
  - destruct w as [|e' w].
    + destruct l as [|a [|]]; try discriminate. exists [a]. split; [constructor|]. split; [exact E|auto].
    + cbn [interleave] in E. destruct l as [|a [|g l]]; try discriminate. cbn [map] in E. injection E as E1 E2 E3. inversion Hl as [|? ? Ha Hl']; subst. inversion Hl' as [|? ? Hg Hl'']; subst.
      destruct (IH l Hl'' E3) as (l1 & G1 & G2 & G3). destruct l1 as [|s' l1]; [discriminate|]. exists (a :: s' :: l1). split; [constructor; assumption|]. split; [cbn [map] in *; rewrite G2; reflexivity|].
      intros z Hz. apply elem_of_cons in Hz as [->|Hz]; [left|]. right. right. apply G3. assumption.
Qed.
Lemma derivation_padded t : nderivation rs t -> exists t0, nderivation qs t0 /\ padded rs t0 t.
Proof.
  induction t as [b|x subs IH] using ntree_ind'; intros Ht; [exists (NLeaf b); split; constructor|]. inversion Ht as [|? i ? Hs Hsubs]; subst.
  assert (forall l, (forall a, a ∈ l -> a ∈ subs) -> exists l0, Forall (nderivation qs) l0 /\ Forall2 (padded rs) l0 l) as Hall.
  { induction l as [|a l IHl]; intros Hin; [exists []; split; constructor|]. destruct IHl as (l0 & L1 & L2); [intros z Hz; apply Hin; right; assumption|].
    assert (a ∈ subs) as Ha by (apply Hin; left). rewrite Forall_forall in IH, Hsubs. destruct (IH a Ha (Hsubs a Ha)) as (a0 & A1 & A2). exists (a0 :: l0). split; constructor; assumption. }
  remember (map nroot subs) as w eqn:Ew. destruct Hs as [w Hw Hn|w y Hw Hy Hno].
  - destruct (Hall subs ltac:(auto)) as (l0 & L1 & L2). exists (NNode x l0). split; [|apply pad_plain; assumption]. apply (nder_node qs x i); [|assumption].
    apply un_says. rewrite <- (padded_roots _ _ L2), <- Ew. assumption.
  - destruct (gapped_inv y w subs Hsubs (eq_sym Ew)) as (l1 & G1 & G2 & G3). destruct (Hall l1 G3) as (l0 & L1 & L2).
    exists (NNode x l0). split; [|eapply pad_gaps; eassumption]. apply (nder_node qs x i); [|assumption]. apply un_says. rewrite <- (padded_roots _ _ L2), G2. assumption.
Qed.
Lemma gapped_unique y l l1 l2 : gapped rs y l1 l -> gapped rs y l2 l -> l1 = l2.
Proof.
  intros H1. revert l2. induction H1 as [|s|s g s' l l' Hd Hg H1 IH]; intros l2 H2.
  - inversion H2. reflexivity.
  - inversion H2; reflexivity.
  - inversion H2 as [|? E|? ? s2 l3 ? _ _ H3]; subst. apply IH in H3. congruence.
Qed.
Lemma ignores_unique x y z : ignores rs x y -> ignores rs x z -> y = z.
Proof. intros (r & m & E & Ho) (r' & m' & E' & Ho'). congruence. Qed.
Lemma padded_unique t0 : forall t0' t, padded rs t0 t -> padded rs t0' t -> t0 = t0'.
Proof.
  induction t0 as [b|x subs0 IH] using ntree_ind'; intros t0' t Hp Hp'.
  - inversion Hp; subst. inversion Hp'; subst. reflexivity.
  - assert (forall k l, Forall2 (padded rs) subs0 l -> Forall2 (padded rs) k l -> subs0 = k) as Hall.
    { intros k l Hl. clear Hp. revert k. induction Hl as [|a b l0 l Hab _ IHl]; intros k Hk; inversion Hk; subst; [reflexivity|]. inversion IH; subst. f_equal; eauto. }
    inversion Hp as [|? ? subs Hn Hf|? y ? subs1 subs Hy Hno Hf Hg]; subst; inversion Hp' as [|? ? ? Hn' Hf'|? y' ? subs1' ? Hy' Hno' Hf' Hg']; subst.
    + f_equal. eauto.
    + destruct (Hno' (Hn _ Hy')).
    + destruct (Hno (Hn' _ Hy)).
    + rewrite (ignores_unique _ _ _ Hy' Hy) in Hg'. rewrite (gapped_unique _ _ _ _ Hg' Hg) in Hf'. f_equal. eauto.
Qed.
End ignored.
(** the text without the ignored parts *)
Lemma padded_text {I} (rs : list (arule I)) t0 : forall t, padded rs t0 t -> nyield t0 `sublist_of` nyield t.
Proof.
  induction t0 as [b|x subs0 IH] using ntree_ind'; intros t Hp.
  - inversion Hp. reflexivity.
  - assert (forall l, Forall2 (padded rs) subs0 l -> concat (map nyield subs0) `sublist_of` concat (map nyield l)) as Hall.
    { intros l Hl. clear Hp. induction Hl as [|a b l0 l Hab _ IHl]; [reflexivity|]. inversion IH; subst. cbn. apply sublist_app; auto. }
    inversion Hp as [|? ? subs Hn Hf|? y ? subs1 subs Hy Hno Hf Hg]; subst; cbn [nyield]; [auto|].
    etransitivity; [apply Hall; exact Hf|]. clear -Hg. induction Hg as [| |s g s' l l' _ _ _ IH]; [reflexivity..|]. cbn [map concat] in *.
    apply sublist_app; [reflexivity|]. apply sublist_inserts_l. exact IH.
Qed.
