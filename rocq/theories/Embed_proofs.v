(** * Proofs for C99: a grammar as a part of another *)
From Verif Require Import Base Tree Sets ParserData Vm SpecTree SpecWeave SpecRules SpecLanguage SpecExtend SpecRename SpecNaming SpecEffect SpecCompose SpecEmbed
  Language_proofs Rename_proofs Start_proofs Naming_proofs NamingAll_proofs Effect_proofs Compose_proofs.

(** ** Exchanging two names *)
Section exchange.
Context (x : str).
Definition exch (y : str) : str := if decide (y = lit "start") then x else if decide (y = x) then lit "start" else y.
Lemma exch_inv y : exch (exch y) = y.
Proof. unfold exch. repeat destruct (decide _); congruence. Qed.
Lemma exch_inj : injective exch.
Proof. intros a b E. rewrite <- (exch_inv a), E. apply exch_inv. Qed.
Lemma exch_start : exch (lit "start") = x.
Proof. unfold exch. rewrite decide_True by reflexivity. reflexivity. Qed.
Notation r := (rename_el exch).
Lemma r_inv e : r (r e) = e.
Proof. destruct e as [y []]; cbn; [reflexivity|]. rewrite exch_inv. reflexivity. Qed.
Lemma rs_inv w : map r (map r w) = w.
Proof. rewrite map_map. rewrite (map_ext _ (fun e => e) r_inv). apply map_id. Qed.
Context {I : Type}.
Lemma renamed_inv (R : list (arule I)) : map (renamed exch) (map (renamed exch) R) = R.
Proof.
  rewrite map_map. rewrite (map_ext _ (fun q => q)); [apply map_id|]. intros [n o alts is]. unfold renamed. cbn [ar_name ar_override ar_alts ar_instr]. f_equal.
  - apply exch_inv.
  - destruct o; cbn; try reflexivity. rewrite exch_inv. reflexivity.
  - rewrite map_map. rewrite (map_ext _ (fun w => w) rs_inv). apply map_id.
Qed.
Lemma r_erased w : nerased w -> nerased (map r w).
Proof. intros Hw. apply Forall_fmap. eapply Forall_impl; [exact Hw|]. intros e ->. reflexivity. Qed.
Lemma ex_derives (R : list (arule I)) w z : nderives R w z -> nderives (map (renamed exch) R) (map r w) (map r z).
Proof.
  induction 1 as [w|w y z [u a v i k Hk] _ IH]; [apply rtc_refl|]. eapply rtc_l; [|exact IH]. rewrite !map_app. cbn [map rename_el].
  constructor 1 with i. apply (ren_says exch exch_inj). assumption.
Qed.
Lemma ex_nullable1 (R : list (arule I)) w : nnullable R w -> nnullable (map (renamed exch) R) (map r w).
Proof. intros (z & Hd & He). exists (map r z). split; [apply ex_derives; assumption|apply r_erased; assumption]. Qed.
Lemma ex_first1 (R : list (arule I)) w c : nfirst R w c -> nfirst (map (renamed exch) R) (map r w) c.
Proof. intros (z & s & v & Hd & He). exists (map r z), s, (map r v). split; [|apply r_erased; assumption]. apply ex_derives in Hd. rewrite map_app in Hd. exact Hd. Qed.
Lemma ex_nullable (R : list (arule I)) w : nnullable (map (renamed exch) R) (map r w) <-> nnullable R w.
Proof. split; [|apply ex_nullable1]. intros Hn. apply ex_nullable1 in Hn. rewrite renamed_inv, rs_inv in Hn. assumption. Qed.
Lemma ex_first (R : list (arule I)) w c : nfirst (map (renamed exch) R) (map r w) c <-> nfirst R w c.
Proof. split; [|apply ex_first1]. intros Hn. apply ex_first1 in Hn. rewrite renamed_inv, rs_inv in Hn. assumption. Qed.
Lemma ex_says (R : list (arule I)) y i w : says (map (renamed exch) R) y i w <-> says R (exch y) i (map r w).
Proof.
  split; intros Hs.
  - apply (ren_says exch exch_inj) in Hs. rewrite renamed_inv in Hs. assumption.
  - apply (ren_says exch exch_inj) in Hs. rewrite exch_inv, rs_inv in Hs. assumption.
Qed.
Lemma ex_defined (R : list (arule I)) y : defined (map (renamed exch) R) y <-> defined R (exch y).
Proof. rewrite <- (exch_inv y) at 1. apply (ren_defined exch exch_inj). Qed.
Lemma ex_uses (R : list (arule I)) a b : uses (map (renamed exch) R) a b <-> uses R (exch a) (exch b).
Proof.
  split; intros Hs.
  - apply (ren_uses exch exch_inj) in Hs. rewrite renamed_inv in Hs. assumption.
  - apply (ren_uses exch exch_inj) in Hs. rewrite !exch_inv in Hs. assumption.
Qed.
Lemma ex_ignores (R : list (arule I)) a b : ignores (map (renamed exch) R) a b <-> ignores R (exch a) (exch b).
Proof. rewrite <- (exch_inv a) at 1. rewrite <- (exch_inv b) at 1. apply (ren_ignores exch exch_inj). Qed.
End exchange.

Section embed.
Context {I : Type} (x : str) (G : list (arule I)) (Hu : unused x G).
Notation f := (exch x).
Notation r := (rename_el f).
Notation Q := (embedded x G).
Lemma embedded_eq : Q = map (renamed f) G.
Proof.
  unfold embedded. destruct Hu as [_ Hn]. assert (forall y, (y, NonTerminal) ∈ concat (map mentioned G) -> called x y = f y) as Hc.
  { intros y Hy. unfold called, exch. destruct (decide (y = lit "start")); [reflexivity|]. rewrite decide_False; [reflexivity|]. intros ->. exact (Hn Hy). }
  clear Hn Hu. assert (forall e, e ∈ concat (map mentioned G) -> rename_el (called x) e = r e) as He.
  { intros [y []] Hy; [reflexivity|]. cbn. rewrite (Hc y Hy). reflexivity. }
  clear Hc. induction G as [|q l IH]; [reflexivity|]. cbn [map concat] in *. f_equal; [|apply IH; intros e Hi; apply He, elem_of_app; auto].
  clear IH. assert (forall e, e ∈ mentioned q -> rename_el (called x) e = r e) as Hq by (intros e Hi; apply He, elem_of_app; auto). clear He.
  unfold mentioned in Hq. unfold renamed. f_equal.
  - assert (rename_el (called x) (ar_name q, NonTerminal) = r (ar_name q, NonTerminal)) as E by (apply Hq; left). cbn in E. congruence.
  - destruct (ar_override q) as [| |y|] eqn:Eo; try reflexivity. cbn [rename_override]. assert (rename_el (called x) (y, NonTerminal) = r (y, NonTerminal)) as E by (apply Hq; right; left). cbn in E. congruence.
  - apply map_ext_in. intros w Hw. apply map_ext_in. intros e Hi. apply Hq. right. apply elem_of_app. right. apply elem_of_list_In, in_concat. exists w. auto.
Qed.
Lemma not_mentioned y : (y, NonTerminal) ∈ concat (map mentioned G) -> y <> x.
Proof. intros Hy ->. exact (proj2 Hu Hy). Qed.
Lemma in_mentioned q e : q ∈ G -> e ∈ mentioned q -> e ∈ concat (map mentioned G).
Proof. intros Hq He. apply elem_of_list_In, in_concat. exists (mentioned q). split; [apply in_map|]; apply elem_of_list_In; assumption. Qed.
Lemma defined_not y : defined G y -> y <> x.
Proof.
  intros Hd. apply not_mentioned. unfold defined in Hd. destruct (rules_for y G) as [|q l] eqn:E; [congruence|]. assert (q ∈ rules_for y G) as Hq by (rewrite E; left).
  apply elem_of_list_filter in Hq as [<- Hq]. apply (in_mentioned q); [assumption|]. left.
Qed.
Lemma used_not a y : uses G a y -> y <> x.
Proof.
  intros (w & Hw & Hy). apply not_mentioned. unfold alternatives_for in Hw. apply elem_of_list_In, in_concat in Hw as (l & Hl & Hw). apply in_map_iff in Hl as (q & <- & Hq).
  apply elem_of_list_In, elem_of_list_filter in Hq as [_ Hq]. apply (in_mentioned q); [assumption|]. right. apply elem_of_app. right. apply elem_of_list_In, in_concat. exists w. split; [assumption|apply elem_of_list_In; assumption].
Qed.
Lemma ignored_not a y : ignores G a y -> y <> x.
Proof.
  intros (q & l & E & Ho). apply not_mentioned. assert (q ∈ rules_for a G) as Hq by (rewrite E; left). apply elem_of_list_filter in Hq as [_ Hq].
  apply (in_mentioned q); [assumption|]. right. rewrite Ho. left.
Qed.
Lemma f_start y : f y = lit "start" -> y = x.
Proof. intros E. rewrite <- (exch_inv x y), E. apply exch_start. Qed.
Lemma f_x : f x = lit "start".
Proof. rewrite <- (exch_inv x (lit "start")), exch_start. reflexivity. Qed.
Lemma emb_defined y : defined Q y <-> defined G (f y).
Proof. rewrite embedded_eq. apply ex_defined. Qed.
Lemma emb_uses a b : uses Q a b <-> uses G (f a) (f b).
Proof. rewrite embedded_eq. apply ex_uses. Qed.
Lemma emb_ignores a b : ignores Q a b <-> ignores G (f a) (f b).
Proof. rewrite embedded_eq. apply ex_ignores. Qed.
Lemma emb_says y i w : says Q y i w <-> says G (f y) i (map r w).
Proof. rewrite embedded_eq. apply ex_says. Qed.
Lemma emb_no_start : ~ defined Q (lit "start").
Proof. rewrite emb_defined, exch_start. intros Hd. exact (defined_not x Hd eq_refl). Qed.
Lemma emb_part : defined G (lit "start") -> (forall a b, uses G a b -> defined G b) -> (forall a b, ignores G a b -> defined G b) -> part Q x.
Proof.
  intros Hs Hd Hi. split.
  - rewrite emb_defined, f_x. assumption.
  - apply emb_no_start.
  - intros a b. rewrite emb_uses, emb_defined. apply Hd.
  - intros a b. rewrite emb_ignores, emb_defined. apply Hi.
Qed.
Context (is : list I).
Notation W := (alone x is Q).

(** From the whole back to the grammar. *)
Lemma whole_part : (forall a b, uses W a b -> defined W b) -> (forall a b, ignores W a b -> defined W b) -> part Q x.
Proof.
  intros Hd Hi. pose proof emb_no_start as Hns. assert (forall a, a <> x -> defined W (f a) -> defined G a) as Hg.
  { intros a Ha Hw. apply st_defined in Hw as [E|Hw]; [destruct (Ha (f_start a E))| |assumption]. apply emb_defined in Hw. rewrite exch_inv in Hw. assumption. }
  assert (forall a, defined G a -> f a <> lit "start") as Hne by (intros a Ha E; exact (defined_not a Ha (f_start a E))).
  assert (forall a, defined G a -> rules_for (f a) W = rules_for (f a) Q) as Hrf by (intros a Ha; apply st_rules, Hne, Ha).
  apply emb_part.
  - apply Hg; [intros E; exact (proj1 Hu (eq_sym E))|]. rewrite exch_start. apply (Hd (lit "start")). exists [NTm x]. unfold alone. rewrite st_alts by assumption. split; left.
  - intros a b Hab. apply Hg; [eapply used_not; eassumption|]. apply (Hd (f a)). assert (defined G a) as Ha by (eapply puses_defined; eassumption).
    unfold uses, alternatives_for. rewrite (Hrf a Ha). apply emb_uses. rewrite !exch_inv. assumption.
  - intros a b Hab. apply Hg; [eapply ignored_not; eassumption|]. apply (Hi (f a)).
    assert (defined G a) as Ha. { destruct Hab as (q & l & E & _). unfold defined. rewrite E. discriminate. }
    unfold ignores. rewrite (Hrf a Ha). apply emb_ignores. rewrite !exch_inv. assumption.
Qed.

Context (HQ : part Q x).
Definition ing (e : str * ElementType) : Prop := e.2 = NonTerminal -> defined G e.1.
Lemma ing_inp w : Forall ing w -> Forall (inp Q) (map r w).
Proof. intros Hw. apply Forall_fmap. eapply Forall_impl; [exact Hw|]. intros [y []] Hy E; [discriminate|]. cbn. apply emb_defined. rewrite exch_inv. apply Hy. reflexivity. Qed.
Lemma says_ing y i w : says G y i w -> Forall ing w.
Proof.
  intros Hs. assert (says Q (f y) i (map r w)) as Hq by (apply emb_says; rewrite exch_inv, rs_inv; assumption).
  pose proof (part_says_in Q x HQ _ _ _ Hq) as Hin. apply (proj1 (Forall_fmap r (inp Q) w)) in Hin. eapply Forall_impl; [exact Hin|]. intros [z []] Hz E; [discriminate|]. specialize (Hz eq_refl). cbn in Hz. apply emb_defined in Hz. rewrite exch_inv in Hz. assumption.
Qed.
Lemma w_nullable w : Forall ing w -> nnullable W (map r w) <-> nnullable G w.
Proof. intros Hw. rewrite (pa_nullable Q x HQ W (al_extends Q x HQ is) _ (ing_inp w Hw)), embedded_eq. apply ex_nullable. Qed.
Lemma w_first w c : Forall ing w -> nfirst W (map r w) c <-> nfirst G w c.
Proof. intros Hw. rewrite (pa_first Q x HQ W (al_extends Q x HQ is) _ c (ing_inp w Hw)), embedded_eq. apply ex_first. Qed.
Lemma w_says y i w : defined G y -> says W (f y) i (map r w) <-> says G y i w.
Proof.
  intros Hy. rewrite (pa_says Q x HQ W (al_extends Q x HQ is)) by (apply emb_defined; rewrite exch_inv; assumption). rewrite emb_says, exch_inv, rs_inv. reflexivity.
Qed.
Lemma tail_ing y i u e v : says G y i (u ++ e :: v) -> Forall ing v.
Proof. intros Hs. apply says_ing in Hs. apply Forall_app in Hs as [_ Hs]. apply Forall_cons in Hs. tauto. Qed.
Lemma mid_ing y i u z v : says G y i (u ++ NTm z :: v) -> defined G z.
Proof. intros Hs. apply says_ing in Hs. apply Forall_app in Hs as [_ Hs]. apply Forall_cons in Hs as [Hs _]. apply Hs. reflexivity. Qed.
Lemma w_split y i u z v : says W (f y) i (u ++ NTm (f z) :: v) -> defined G y -> exists u0 v0, u = map r u0 /\ v = map r v0 /\ says G y i (u0 ++ NTm z :: v0).
Proof.
  intros Hs Hy. exists (map r u), (map r v). rewrite !rs_inv. split; [reflexivity|]. split; [reflexivity|]. apply w_says; [assumption|].
  rewrite map_app. cbn [map rename_el]. rewrite !rs_inv. assumption.
Qed.
Lemma w_fol1 y l : nfol G y l -> nfol W (f y) l.
Proof.
  induction 1 as [|y i u z v c Hs Hf|y i u z v l Hs Hn _ IH].
  - rewrite exch_start. apply al_fol_a. assumption.
  - pose proof (says_defined _ _ _ _ Hs) as Hy. apply (nf_next W (f y) i (map r u) (f z) (map r v)).
    + apply (w_says y i _ Hy) in Hs. rewrite map_app in Hs. exact Hs.
    + apply w_first; [eapply tail_ing; eassumption|assumption].
  - pose proof (says_defined _ _ _ _ Hs) as Hy. apply (nf_last W (f y) i (map r u) (f z) (map r v)).
    + apply (w_says y i _ Hy) in Hs. rewrite map_app in Hs. exact Hs.
    + apply w_nullable; [eapply tail_ing; eassumption|assumption].
    + assumption.
Qed.
Lemma w_fol2 z l : nfol W z l -> forall y, z = f y -> defined G y -> nfol G y l.
Proof.
  induction 1 as [|y i u z v c Hs Hf|y i u z v l Hs Hn Hy IH]; intros z0 E Hz.
  - symmetry in E. apply f_start in E. destruct (defined_not z0 Hz E).
  - subst z. pose proof Hs as Hs'. apply (al_cases Q x HQ) in Hs' as [[-> Ew]|[Hd _]].
    + symmetry in Ew. apply single in Ew as (_ & _ & ->). destruct (nfirst_nil _ _ Hf).
    + apply emb_defined in Hd. rewrite <- (exch_inv x y) in Hs. destruct (w_split _ _ _ _ _ Hs Hd) as (u0 & v0 & -> & -> & Hg).
      eapply nf_next; [exact Hg|]. apply w_first; [eapply tail_ing; eassumption|assumption].
  - subst z. pose proof Hs as Hs'. apply (al_cases Q x HQ) in Hs' as [[-> Ew]|[Hd _]].
    + symmetry in Ew. apply single in Ew as (E & _ & ->). apply (al_fol_start Q x HQ) in Hy as ->. assert (z0 = lit "start") as ->; [|constructor].
      apply (exch_inj x). rewrite exch_start. congruence.
    + apply emb_defined in Hd. rewrite <- (exch_inv x y) in Hs. destruct (w_split _ _ _ _ _ Hs Hd) as (u0 & v0 & -> & -> & Hg).
      eapply nf_last; [exact Hg| |]. { apply w_nullable; [eapply tail_ing; eassumption|assumption]. } apply IH; [rewrite exch_inv; reflexivity|assumption].
Qed.
Lemma w_fol y l : defined G y -> nfol W (f y) l <-> nfol G y l.
Proof. intros Hy. split; [|apply w_fol1]. intros Hn. exact (w_fol2 _ _ Hn y eq_refl Hy). Qed.
Lemma w_choose y i w l : says G y i w -> head w <> Some ([], Terminal) -> nchoose W (f y) (map r w) l <-> nchoose G y w l.
Proof.
  intros Hs Hh. pose proof (says_defined _ _ _ _ Hs) as Hy. pose proof (says_ing _ _ _ Hs) as Hin. destruct w as [|e w]; cbn [map nchoose].
  - rewrite <- !nfol_follow. apply w_fol. assumption.
  - apply Forall_cons in Hin as [He _]. assert (Forall ing [e]) as He' by (constructor; [assumption|constructor]). pose proof (w_nullable [e] He') as E1. cbn [map] in E1. rewrite E1.
    assert ((exists c, l = MChar c /\ nfirst W [r e] c) <-> (exists c, l = MChar c /\ nfirst G [e] c)) as ->.
    { split; intros (c & -> & Hc); exists c; (split; [reflexivity|]); apply (w_first [e] c He'); assumption. }
    destruct e as [z []].
    + assert (~ nnullable G [(z, Terminal)]) as Hz. { intros Hn. apply terminal_nullable in Hn as ->. apply Hh. reflexivity. } tauto.
    + cbn [rename_el]. rewrite <- !nfol_follow, (w_fol z l) by (apply He; reflexivity). reflexivity.
Qed.
Lemma w_left a b : defined G a -> nleft_calls W (f a) (f b) <-> nleft_calls G a b.
Proof.
  intros Ha. split.
  - intros (i & u & v & Hs & Hn). destruct (w_split _ _ _ _ _ Hs Ha) as (u0 & v0 & -> & -> & Hg). exists i, u0, v0. split; [assumption|].
    apply w_nullable; [|assumption]. apply says_ing, Forall_app in Hg. tauto.
  - intros (i & u & v & Hs & Hn). exists i, (map r u), (map r v). split; [apply (w_says a i _ Ha) in Hs; rewrite map_app in Hs; exact Hs|].
    apply w_nullable; [|assumption]. apply says_ing, Forall_app in Hs. tauto.
Qed.
Lemma w_chain1 a b : tc (nleft_calls G) a b -> tc (nleft_calls W) (f a) (f b).
Proof.
  assert (forall a b, nleft_calls G a b -> defined G a) as Hd by (intros p q (i & u & v & Hs & _); eapply says_defined; eassumption).
  induction 1 as [a b Hc|a b c Hc _ IH]; [apply tc_once|eapply tc_l; [|exact IH]]; (apply w_left; [eauto|assumption]).
Qed.
Lemma w_chain2 p q : tc (nleft_calls W) p q -> forall a b, p = f a -> q = f b -> defined G a -> tc (nleft_calls G) a b.
Proof.
  induction 1 as [p q Hc|p q s Hc _ IH]; intros a b -> Eb Ha.
  - subst q. apply tc_once, w_left; assumption.
  - rewrite <- (exch_inv x q) in Hc. apply w_left in Hc; [|assumption]. eapply tc_l; [exact Hc|]. apply IH; [rewrite exch_inv; reflexivity|assumption|].
    destruct Hc as (i & u & v & Hs & _). eapply mid_ing. eassumption.
Qed.
Lemma g_closed : defined G (lit "start") /\ (forall a b, uses G a b -> defined G b) /\ forall a b, ignores G a b -> defined G b.
Proof.
  split; [|split].
  - pose proof (pt_entry _ _ HQ) as Hd. apply emb_defined in Hd. rewrite f_x in Hd. assumption.
  - intros a b Hab. rewrite <- (exch_inv x b). apply emb_defined. apply (pt_uses _ _ HQ (f a)), emb_uses. rewrite !exch_inv. assumption.
  - intros a b Hab. rewrite <- (exch_inv x b). apply emb_defined. apply (pt_ignores _ _ HQ (f a)), emb_ignores. rewrite !exch_inv. assumption.
Qed.
Lemma w_closed : (forall a b, uses W a b -> defined W b) /\ forall a b, ignores W a b -> defined W b.
Proof.
  pose proof (pt_no_start _ _ HQ) as Hns. split; intros a b Hab; apply st_defined; try assumption; right; destruct (decide (a = lit "start")) as [->|Ha].
  - destruct Hab as (w & Hw & Hb). unfold alone in Hw. rewrite st_alts in Hw by assumption. apply elem_of_list_singleton in Hw as ->. apply elem_of_list_singleton in Hb. assert (b = x) as -> by congruence. apply (pt_entry _ _ HQ).
  - apply (pt_uses _ _ HQ a). unfold uses, alternatives_for, alone in *. rewrite st_rules in Hab by assumption. assumption.
  - destruct (st_ignores _ _ _ Hns _ Hab).
  - apply (pt_ignores _ _ HQ a). unfold ignores, alone in *. rewrite st_rules in Hab by assumption. assumption.
Qed.
Lemma w_inv y i w : says W y i w -> (y = lit "start" /\ w = [NTm x] /\ i = 0) \/ exists y0 w0, y = f y0 /\ w = map r w0 /\ says G y0 i w0.
Proof.
  intros Hs. pose proof Hs as Hs'. apply (al_cases Q x HQ) in Hs' as [[-> ->]|[_ Hq]]; [left; apply (al_start Q x HQ) in Hs as [-> _]; auto|].
  right. exists (f y), (map r w). rewrite exch_inv, rs_inv. split; [reflexivity|]. split; [reflexivity|]. apply emb_says. assumption.
Qed.
Lemma head_r w : head (map r w) = Some ([], Terminal) <-> head w = Some ([], Terminal).
Proof. destruct w as [|[z []] w]; cbn; split; congruence || discriminate || auto. Qed.
Lemma w_parsable : parsable W <-> parsable G.
Proof.
  destruct g_closed as (K1 & K2 & K3). destruct w_closed as (L2 & L3). split; intros Hp; split; try assumption.
  - intros y Ht. assert (defined G y) as Hy. { assert (exists z, nleft_calls G y z) as (z & i & u & v & Hs & _) by (inversion Ht; eauto). eapply says_defined; eassumption. }
    apply (pa_no_left_recursion _ Hp (f y)), w_chain1, Ht.
  - intros y i w Hs Hh. pose proof (says_defined _ _ _ _ Hs) as Hy. apply (pa_no_empty_terminal _ Hp (f y) i (map r w)); [apply w_says; assumption|apply head_r; assumption].
  - intros y i j w w' l H1 H2 Hij C1 C2. pose proof (says_defined _ _ _ _ H1) as Hy.
    assert (forall i w, says G y i w -> head w <> Some ([], Terminal)) as Hh. { intros k z Hk E. apply (pa_no_empty_terminal _ Hp (f y) k (map r z)); [apply w_says; assumption|apply head_r; assumption]. }
    apply (pa_distinct _ Hp (f y) i j (map r w) (map r w') l); [apply w_says; assumption|apply w_says; assumption|assumption|apply (w_choose y i); eauto|apply (w_choose y j); eauto].
  - apply st_defined; [apply (pt_no_start _ _ HQ)|]. auto.
  - intros y Ht. pose proof (al_left Q x HQ is y Ht) as Hd. apply emb_defined in Hd. apply (pa_no_left_recursion _ Hp (f y)).
    eapply w_chain2; [exact Ht|rewrite exch_inv; reflexivity|rewrite exch_inv; reflexivity|assumption].
  - intros y i w Hs. apply w_inv in Hs as [(_ & -> & _)|(y0 & w0 & -> & -> & Hs)]; [discriminate|]. rewrite head_r. eapply pa_no_empty_terminal; eassumption.
  - intros y i j w w' l H1 H2 Hij C1 C2. apply w_inv in H1 as [(-> & -> & ->)|(y0 & w0 & -> & -> & H1)].
    + apply (al_start Q x HQ) in H2 as [-> _]. destruct (Hij eq_refl).
    + pose proof (says_defined _ _ _ _ H1) as Hy. assert (exists w1, w' = map r w1 /\ says G y0 j w1) as (w1 & -> & H2').
      { exists (map r w'). rewrite rs_inv. split; [reflexivity|]. apply w_says; [assumption|]. rewrite rs_inv. assumption. }
      apply (pa_distinct _ Hp y0 i j w0 w1 l); [assumption..| |].
      * apply (w_choose y0 i); [assumption|eapply pa_no_empty_terminal; eassumption|assumption].
      * apply (w_choose y0 j); [assumption|eapply pa_no_empty_terminal; eassumption|assumption].
Qed.
Lemma w_tree n : nderivation W n /\ nroot n = NTm (lit "start") <-> exists m, n = NNode (lit "start") [rename_tree f m] /\ nderivation G m /\ nroot m = NTm (lit "start").
Proof.
  unfold alone. rewrite (al_tree Q x HQ is n). split.
  - intros (m & -> & Hm & Hr). apply (pa_derivation_back Q x HQ W (al_extends Q x HQ is)) in Hm; [|rewrite Hr; intros _; apply (pt_entry _ _ HQ)].
    rewrite embedded_eq in Hm. destruct (ren_nderivation_inv f (exch_inj x) G m Hm (lit "start")) as (m0 & -> & Hd & Hr0); [rewrite Hr, exch_start; reflexivity|]. exists m0. auto.
  - intros (m & -> & Hm & Hr). exists (rename_tree f m). split; [reflexivity|]. split.
    + apply (pa_derivation Q x HQ W (al_extends Q x HQ is)). rewrite embedded_eq. apply (ren_nderivation f (exch_inj x)). assumption.
    + rewrite rename_nroot, Hr. cbn. rewrite exch_start. reflexivity.
Qed.
End embed.

(** ** The effect *)
Section effects.
Context {vm : VM} (x : str) (G : list (arule (vm_instr vm))).
Notation f := (exch x).
Lemma exch_effect n : forall v, effect (map (renamed f) G) (rename_tree f n) v = effect G n v.
Proof.
  induction n as [b|y subs IH] using ntree_ind'; intros v; [reflexivity|]. cbn [rename_tree]. rewrite !effect_node.
  assert (forall v, effects (map (renamed f) G) (map (rename_tree f) subs) v = effects G subs v) as ->.
  { clear v. unfold effects. induction IH as [|s l Hs _ IHl]; intros v; [reflexivity|]. cbn [map ofold]. rewrite Hs. destruct (effect G s v) as [w|[]| |]; cbn [obind]; try reflexivity. apply IHl. }
  destruct (effects G subs v) as [w|[]| |]; cbn [obind]; try reflexivity. unfold own_instructions, own_tree.
  change (NNode (f y) (map (rename_tree f) subs)) with (rename_tree f (NNode y subs)). rewrite rename_nhistory. rewrite (ren_instructions f (exch_inj x)). reflexivity.
Qed.
End effects.
