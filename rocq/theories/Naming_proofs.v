(** * Proofs for C83 and C84: naming parts of alternatives *)
From Verif Require Import Base Tree Sets ParserData Vm SpecTree SpecWeave SpecRules SpecLanguage SpecNaming
  Language_proofs Start_proofs.

(** ** Derivations of forms, by names *)
Section forms.
Context {I : Type} (rs : list (arule I)).
Lemma nderives_app w1 w2 z1 z2 : nderives rs w1 z1 -> nderives rs w2 z2 -> nderives rs (w1 ++ w2) (z1 ++ z2).
Proof.
  intros H1 H2. transitivity (z1 ++ w2).
  - apply (nstep_ctx rs w1 z1 [] w2 H1).
  - pose proof (nstep_ctx rs w2 z2 z1 [] H2) as H. rewrite !app_nil_r in H. exact H.
Qed.
Lemma nstep_app_inv w1 w2 z : nstep rs (w1 ++ w2) z ->
  (exists z1, nstep rs w1 z1 /\ z = z1 ++ w2) \/ (exists z2, nstep rs w2 z2 /\ z = w1 ++ z2).
Proof.
  intros Hs. remember (w1 ++ w2) as w eqn:E. destruct Hs as [u x v i q Hq].
  assert ((exists l, w1 = u ++ (x, NonTerminal) :: l /\ v = l ++ w2) \/ (exists l, u = w1 ++ l /\ w2 = l ++ (x, NonTerminal) :: v)) as [(l & -> & ->)|(l & -> & ->)].
  { symmetry in E. apply app_eq_inv in E as [(k & E1 & E2)|(k & E1 & E2)].
    - destruct k as [|e k]; cbn [app] in E2.
      + right. exists []. rewrite app_nil_r in *. subst. auto.
      + injection E2 as <- ->. left. exists k. auto.
    - right. exists k. auto. }
  - left. exists (u ++ q ++ l). split; [constructor 1 with i; assumption|]. rewrite <- !app_assoc. reflexivity.
  - right. exists (l ++ q ++ v). split; [constructor 1 with i; assumption|]. rewrite <- !app_assoc. reflexivity.
Qed.
Lemma nderives_app_inv w1 w2 z : nderives rs (w1 ++ w2) z -> exists z1 z2, z = z1 ++ z2 /\ nderives rs w1 z1 /\ nderives rs w2 z2.
Proof.
  intros Hd. remember (w1 ++ w2) as w eqn:E. revert w1 w2 E. induction Hd as [w|w y z Hs _ IH]; intros w1 w2 ->.
  - exists w1, w2. repeat split; apply rtc_refl.
  - apply nstep_app_inv in Hs as [(z1 & Hs & ->)|(z2 & Hs & ->)]; destruct (IH _ _ eq_refl) as (a & b & -> & Ha & Hb); exists a, b.
    + repeat split; [eapply rtc_l; eassumption|assumption].
    + repeat split; [assumption|eapply rtc_l; eassumption].
Qed.
Lemma nerased_app a b : nerased (a ++ b) <-> nerased a /\ nerased b.
Proof. apply Forall_app. Qed.
Lemma nnullable_app a b : nnullable rs (a ++ b) <-> nnullable rs a /\ nnullable rs b.
Proof.
  split.
  - intros (z & Hz & He). apply nderives_app_inv in Hz as (z1 & z2 & -> & H1 & H2). apply nerased_app in He as [E1 E2]. split; [exists z1|exists z2]; auto.
  - intros [(z1 & H1 & E1) (z2 & H2 & E2)]. exists (z1 ++ z2). split; [apply nderives_app; assumption|apply nerased_app; auto].
Qed.
Lemma nnullable_nil : nnullable rs [].
Proof. exists []. split; [apply rtc_refl|constructor]. Qed.
Lemma nnullable_back w z : nderives rs w z -> nnullable rs z -> nnullable rs w.
Proof. intros Hd (y & Hy & He). exists y. split; [etransitivity; eassumption|assumption]. Qed.
Lemma nfirst_back w z c : nderives rs w z -> nfirst rs z c -> nfirst rs w c.
Proof. intros Hd (x & s & v & Hy & He). exists x, s, v. split; [etransitivity; eassumption|assumption]. Qed.
Lemma nfirst_left a b c : nfirst rs a c -> nfirst rs (a ++ b) c.
Proof.
  intros (x & s & v & Hd & He). exists x, s, (v ++ b). split; [|assumption].
  pose proof (nderives_app _ b _ b Hd ltac:(apply rtc_refl)) as H. rewrite <- app_assoc in H. exact H.
Qed.
Lemma nfirst_right a b c : nnullable rs a -> nfirst rs b c -> nfirst rs (a ++ b) c.
Proof.
  intros (z & Hz & Hez) (x & s & v & Hd & He). exists (z ++ x), s, v. split; [|apply nerased_app; auto].
  rewrite <- app_assoc. apply nderives_app; assumption.
Qed.
Lemma nfirst_app a b c : nfirst rs (a ++ b) c <-> nfirst rs a c \/ (nnullable rs a /\ nfirst rs b c).
Proof.
  split; [|intros [H|[H1 H2]]; [apply nfirst_left|apply nfirst_right]; assumption].
  intros (x & s & v & Hd & He). apply nderives_app_inv in Hd as (z1 & z2 & E & H1 & H2).
  apply app_eq_inv in E as [(k & E1 & E2)|(k & E1 & E2)].
  - (* x = z1 ++ k *) right. subst. apply nerased_app in He as [Hz1 Hk]. split; [exists z1; auto|]. exists k, s, v. auto.
  - destruct k as [|e k]; cbn [app] in E2.
    + right. rewrite app_nil_r in E1. subst. split; [exists x; auto|]. exists [], s, v. split; [assumption|constructor].
    + injection E2 as <- ->. left. subst. exists x, s, k. auto.
Qed.
Lemma nfirst_nil c : ~ nfirst rs [] c.
Proof.
  intros (x & s & v & Hd & _). inversion Hd as [w E|w y z Hs _]; subst; [destruct x; discriminate|].
  inversion Hs as [u x0 v0 i q _ E]. destruct u; discriminate.
Qed.
Lemma says_defined x i w : says rs x i w -> defined rs x.
Proof.
  intros Hs E. assert (exists w0, alternatives_for rs x !! i = Some w0) as [w0 Hw] by (destruct Hs; eauto).
  unfold alternatives_for in Hw. rewrite E in Hw. discriminate.
Qed.
Lemma says_element x i w e : says rs x i w -> e ∈ w -> (exists w0, w0 ∈ alternatives_for rs x /\ e ∈ w0) \/ exists y, ignores rs x y /\ e = (y, NonTerminal).
Proof.
  intros [w0 Hw _|w0 y Hw Hy _] He; [left; exists w0; split; [apply elem_of_list_lookup; eauto|assumption]|].
  apply interleave_elem in He as [He| ->]; [left; exists w0; split; [apply elem_of_list_lookup; eauto|assumption]|right; eauto].
Qed.
(** What an alternative's name can be followed by, its last element can be. *)
Lemma nfollow_last x i u e v a : says rs x i (u ++ e :: v) -> nnullable rs v -> nfollow rs (x, NonTerminal) a -> nfollow rs e a.
Proof.
  intros Hs Hv Hf. destruct a as [c|]; cbn [nfollow] in *.
  all: try (destruct Hf as (u0 & v0 & Hd & Hn); exists (u0 ++ u), (v ++ v0); split; [|apply nnullable_app; auto];
    eapply rtc_r; [exact Hd|]; pose proof (nstep_intro rs u0 x v0 i _ Hs) as Hst; rewrite <- !app_assoc in *; exact Hst).
  all: destruct Hf as (y & u0 & v0 & Hy & Hd & Hn); exists y, (u0 ++ u), (v ++ v0); split; [assumption|]; split; [|apply nfirst_right; assumption];
    eapply rtc_r; [exact Hd|]; pose proof (nstep_intro rs u0 x v0 i _ Hs) as Hst; rewrite <- !app_assoc in *; exact Hst.
Qed.
Lemma nfollow_next x i u e v c : says rs x i (u ++ e :: v) -> nfirst rs v c -> nfollow rs e (MChar c).
Proof.
  intros Hs Hf. exists x, u, v. split; [eapply says_defined; eassumption|]. split; [|assumption].
  apply rtc_once. pose proof (nstep_intro rs [] x [] i _ Hs) as Hst. cbn [app] in Hst. rewrite app_nil_r in Hst. exact Hst.
Qed.
(** The crate's selection contains the textbook's. *)
Lemma nselect_nchoose x i w a : says rs x i w -> nselect rs x w a -> nchoose rs x w a.
Proof.
  intros Hs [(c & -> & Hf)|[Hn Hf]]; (destruct w as [|e w]; cbn [nchoose]).
  - destruct (nfirst_nil _ Hf).
  - apply (nfirst_app [e] w) in Hf as [Hf|[Hn Hf]]; [left; eauto|]. right. split; [assumption|]. apply (nfollow_next x i [] e w); assumption.
  - assumption.
  - apply (nnullable_app [e] w) in Hn as [Hn Hw]. right. split; [assumption|]. apply (nfollow_last x i [] e w); assumption.
Qed.
(** Where an element of a derived form comes from. *)
Lemma nderives_origin w u e v : nderives rs w (u ++ e :: v) ->
  (exists u0 v0, w = u0 ++ e :: v0 /\ nderives rs v0 v) \/
  (exists x i a b u1 v1, nderives rs w (u1 ++ (x, NonTerminal) :: v1) /\ says rs x i (a ++ e :: b) /\ nderives rs (b ++ v1) v).
Proof.
  intros Hd. remember (u ++ e :: v) as z eqn:E. revert u e v E. 
  revert z Hd. refine (rtc_ind_r _ w _ _).
  - intros u e v ->. left. exists u, v. split; [reflexivity|apply rtc_refl].
  - intros y z Hd Hs IH u e v ->. inversion Hs as [u0 x v0 i q Hq E1 E2]; subst y. symmetry in E2.
    apply app_eq_inv in E2 as [(k & E1 & E2)|(k & E1 & E2)].
    + (* u = u0 ++ k : e in q ++ v0 = k ++ e :: v *)
      symmetry in E2. apply app_eq_inv in E2 as [(l & E3 & E4)|(l & E3 & E4)].
      * (* k = q ++ l, v0 = l ++ e :: v *)
        subst. specialize (IH (u0 ++ (x, NonTerminal) :: l) e v). rewrite <- app_assoc in IH. apply IH. reflexivity.
      * destruct l as [|f l]; cbn [app] in E4.
        -- subst. specialize (IH (u0 ++ [(x, NonTerminal)]) e v). rewrite <- app_assoc in IH. apply IH. reflexivity.
        -- injection E4 as <- ->. right. exists x, i, k, l, u0, v0. subst. split; [assumption|]. split; [assumption|apply rtc_refl].
    + (* u0 = u ++ k *)
      destruct k as [|f k]; cbn [app] in E2.
      * rewrite app_nil_r in E1. subst. destruct q as [|f q]; cbn [app] in E2.
        -- subst v0. specialize (IH (u ++ [(x, NonTerminal)]) e v). rewrite <- app_assoc in IH. apply IH. reflexivity.
        -- injection E2 as -> ->. right. exists x, i, [], q, u, v0. split; [assumption|]. split; [assumption|apply rtc_refl].
      * injection E2 as -> ->. subst.
        assert (nderives rs (k ++ (x, NonTerminal) :: v0) (k ++ q ++ v0)) as Hst by (apply rtc_once; constructor 1 with i; assumption).
        destruct (IH u f (k ++ (x, NonTerminal) :: v0)) as [(u1 & v1 & E & Hv)|(x1 & i1 & a & b & u1 & v1 & H1 & H2 & H3)].
        -- rewrite <- app_assoc. reflexivity.
        -- left. exists u1, v1. split; [assumption|]. etransitivity; eassumption.
        -- right. exists x1, i1, a, b, u1, v1. split; [assumption|]. split; [assumption|]. etransitivity; eassumption.
Qed.
End forms.

(** ** Naming parts *)
Section naming.
Context {I : Type} (part : str -> option (list (str * ElementType))) (rs rs' : list (arule I)) (Hp : parts_named part rs rs').
Notation wo := (written_out part).
Lemma wo_app a b : wo (a ++ b) = wo a ++ wo b.
Proof. unfold written_out. rewrite map_app, concat_app. reflexivity. Qed.
Lemma wo_cons e b : wo (e :: b) = wo [e] ++ wo b.
Proof. apply (wo_app [e]). Qed.
Lemma wo_terminal b w : wo ((b, Terminal) :: w) = (b, Terminal) :: wo w.
Proof. reflexivity. Qed.
Lemma wo_old x w : part x = None -> wo ((x, NonTerminal) :: w) = (x, NonTerminal) :: wo w.
Proof. intros E. unfold written_out. cbn. rewrite E. reflexivity. Qed.
Lemma wo_new n u w : part n = Some u -> wo ((n, NonTerminal) :: w) = u ++ wo w.
Proof. intros E. unfold written_out. cbn. rewrite E. reflexivity. Qed.
Definition old (e : str * ElementType) : Prop := forall n, e = (n, NonTerminal) -> part n = None.
Lemma wo_olds w : Forall old w -> wo w = w.
Proof.
  induction 1 as [|[x []] w He _ IH]; [reflexivity|rewrite wo_terminal, IH; reflexivity|].
  rewrite wo_old, IH by (apply He; reflexivity). reflexivity.
Qed.
Lemma wo_old_el e w : old e -> wo (e :: w) = e :: wo w.
Proof. intros He. rewrite wo_cons, (wo_olds [e]) by (repeat constructor; assumption). reflexivity. Qed.
Lemma erased_olds w : nerased w -> Forall old w.
Proof. intros He. eapply Forall_impl; [exact He|]. intros ? -> n E. discriminate. Qed.
Lemma part_olds n u : part n = Some u -> Forall old u.
Proof. intros E. apply Forall_forall. intros e He m ->. eapply (pn_old_parts _ _ _ Hp); eassumption. Qed.
Lemma says_olds x i w : says rs x i w -> Forall old w.
Proof.
  intros Hs. apply Forall_forall. intros e He n ->. destruct (part n) as [u|] eqn:E; [|reflexivity].
  destruct (proj2 (pn_fresh _ _ _ Hp n u E) x i w Hs He).
Qed.
Lemma says_old_name x i w : says rs x i w -> part x = None.
Proof. intros Hs. destruct (part x) as [u|] eqn:E; [|reflexivity]. destruct (proj1 (pn_fresh _ _ _ Hp x u E)). eapply says_defined; eassumption. Qed.
Lemma wo_says w' x i : says rs' x i w' -> part x = None -> says rs x i (wo w').
Proof. intros Hs Hx. apply (pn_old _ _ _ Hp); eauto. Qed.
Lemma old_dec e : old e \/ exists n u, e = (n, NonTerminal) /\ part n = Some u.
Proof.
  destruct e as [x []]; [left; intros n; discriminate|]. destruct (part x) as [u|] eqn:E; [right; eauto|]. left. intros n [= ->]. exact E.
Qed.

(** *** Derivations correspond *)
Lemma wo_step w z : nstep rs' w z -> nderives rs (wo w) (wo z).
Proof.
  intros [u x v i q Hq]. rewrite !wo_app. destruct (part x) as [r|] eqn:E.
  - destruct (proj1 (pn_new _ _ _ Hp x r E i q) Hq) as [_ ->]. rewrite (wo_new x r v E), (wo_olds r) by (eapply part_olds; eassumption). apply rtc_refl.
  - rewrite wo_old by assumption. apply rtc_once. constructor 1 with i. apply wo_says; assumption.
Qed.
Lemma wo_derives w z : nderives rs' w z -> nderives rs (wo w) (wo z).
Proof. induction 1 as [|w y z Hs _ IH]; [apply rtc_refl|]. etransitivity; [apply wo_step; eassumption|assumption]. Qed.
Lemma derives_wo w : nderives rs' w (wo w).
Proof.
  induction w as [|e w IH]; [apply rtc_refl|]. rewrite wo_cons. apply (nderives_app rs' [e] w); [|assumption].
  destruct (old_dec e) as [He|(n & u & -> & E)].
  - rewrite wo_old_el by assumption. apply rtc_refl.
  - rewrite (wo_new n u [] E). apply rtc_once. apply (nstep_intro rs' [] n [] 0). apply (pn_new _ _ _ Hp n u E). auto.
Qed.
Lemma derives_sub w z : nderives rs w z -> nderives rs' w z.
Proof.
  induction 1 as [|w y z Hs _ IH]; [apply rtc_refl|]. etransitivity; [|exact IH]. destruct Hs as [u x v i q Hq].
  pose proof (says_old_name x i q Hq) as Hx. apply (pn_old _ _ _ Hp x i q Hx) in Hq as (w' & Hq & ->).
  eapply rtc_l; [constructor 1 with i; exact Hq|]. apply nstep_ctx, derives_wo.
Qed.
Lemma wo_nullable w : nnullable rs' w <-> nnullable rs (wo w).
Proof.
  split.
  - intros (z & Hd & He). exists z. split; [|assumption]. rewrite <- (wo_olds z) by (apply erased_olds; assumption). apply wo_derives; assumption.
  - intros (z & Hd & He). exists z. split; [|assumption]. etransitivity; [apply derives_wo|apply derives_sub; assumption].
Qed.
Lemma wo_first w c : nfirst rs' w c <-> nfirst rs (wo w) c.
Proof.
  split.
  - intros (x & s & v & Hd & He). apply wo_derives in Hd. rewrite wo_app, wo_terminal, (wo_olds x) in Hd by (apply erased_olds; assumption). exists x, s, (wo v). auto.
  - intros (x & s & v & Hd & He). exists x, s, v. split; [|assumption]. etransitivity; [apply derives_wo|apply derives_sub; assumption].
Qed.
Lemma start_old : old (lit "start", NonTerminal).
Proof. intros n [= <-]. apply (pn_start _ _ _ Hp). Qed.
Definition all_used : Prop := forall n u, part n = Some u -> exists x i a b, says rs' x i (a ++ (n, NonTerminal) :: b).
Lemma user_old x i w n u : says rs' x i w -> part n = Some u -> (n, NonTerminal) ∈ w -> part x = None.
Proof.
  intros Hs En Hin. destruct (part x) as [r|] eqn:E; [|reflexivity]. destruct (proj1 (pn_new _ _ _ Hp x r E _ _) Hs) as [_ ->].
  rewrite (pn_old_parts _ _ _ Hp x r n E Hin) in En. discriminate.
Qed.
Lemma in_middle {A} (a : list A) e b : e ∈ a ++ e :: b.
Proof. apply elem_of_app. right. left. Qed.
Lemma wo_follow e a : all_used -> old e -> nfollow rs' e a <-> nfollow rs e a.
Proof.
  intros Hu He. destruct a as [c|]; cbn [nfollow]; split.
  - intros (x & u & v & Hx & Hd & Hf). apply wo_first in Hf. apply wo_derives in Hd. rewrite wo_app, (wo_old_el e v He) in Hd.
    destruct (part x) as [r|] eqn:E.
    + destruct (Hu x r E) as (y & i & a & b & Hy). pose proof (user_old y i _ x r Hy E (in_middle _ _ _)) as Ey.
      pose proof (wo_says _ _ _ Hy Ey) as Hy'. rewrite wo_app, (wo_new x r b E) in Hy'. rewrite (wo_new x r [] E), app_nil_r in Hd.
      exists y, (wo a ++ wo u), (wo v ++ wo b). split; [eapply says_defined; eassumption|]. split; [|apply nfirst_left; assumption].
      eapply rtc_l; [apply (nstep_intro rs [] y [] i _ Hy')|]. cbn [app]. rewrite app_nil_r.
      pose proof (nstep_ctx rs _ _ (wo a) (wo b) Hd) as Hc. rewrite <- !app_assoc in *. exact Hc.
    + rewrite (wo_old x [] E) in Hd. exists x, (wo u), (wo v). split; [apply (pn_defined _ _ _ Hp x E); assumption|]. auto.
  - intros (x & u & v & Hx & Hd & Hf). assert (part x = None) as E.
    { destruct (part x) as [r|] eqn:E; [|reflexivity]. destruct (proj1 (pn_fresh _ _ _ Hp x r E) Hx). }
    exists x, u, v. split; [apply (pn_defined _ _ _ Hp x E); assumption|]. split; [apply derives_sub; assumption|].
    destruct Hf as (p & s & q & H1 & H2). exists p, s, q. split; [apply derives_sub; assumption|assumption].
  - intros (u & v & Hd & Hf). apply wo_nullable in Hf. apply wo_derives in Hd. rewrite wo_app, (wo_old_el e v He), (wo_old_el _ _ start_old) in Hd. eauto.
  - intros (u & v & Hd & p & H1 & H2). exists u, v. split; [apply derives_sub; assumption|]. exists p. split; [apply derives_sub; assumption|assumption].
Qed.

(** *** A new name used in one place *)
Lemma new_follow n u x i a b m : all_used -> part n = Some u -> says rs' x i (a ++ (n, NonTerminal) :: b) ->
  (forall y j a' b', says rs' y j (a' ++ (n, NonTerminal) :: b') -> y = x /\ j = i /\ a' = a /\ b' = b) ->
  nfollow rs' (n, NonTerminal) m -> (exists c, m = MChar c /\ nfirst rs (wo b) c) \/ (nnullable rs (wo b) /\ nfollow rs (x, NonTerminal) m).
Proof.
  intros Hu En Hx Honly Hf. pose proof (user_old x i _ n u Hx En (in_middle _ _ _)) as Ex.
  assert (old (x, NonTerminal)) as Hox by (intros ? [= <-]; assumption).
  assert (forall w p q, nderives rs' w (p ++ (n, NonTerminal) :: q) -> (exists p0 q0, w = p0 ++ (n, NonTerminal) :: q0 /\ nderives rs' q0 q) \/
     exists p1 q1, nderives rs' w (p1 ++ (x, NonTerminal) :: q1) /\ nderives rs' (b ++ q1) q) as Hor.
  { intros w p q Hd. apply nderives_origin in Hd as [?|(y & j & a' & b' & p1 & q1 & H1 & H2 & H3)]; [auto|]. right.
    destruct (Honly _ _ _ _ H2) as (-> & -> & -> & ->). eauto. }
  destruct m as [c|]; cbn [nfollow] in Hf.
  - destruct Hf as (y & p & q & Hy & Hd & Hf). apply Hor in Hd as [(p0 & q0 & E & Hq)|(p1 & q1 & H1 & H2)].
    + destruct p0 as [|? [|? ?]]; cbn [app] in E; inversion E; subst; [|destruct p0; discriminate..].
      destruct (nfirst_nil rs' c). eapply nfirst_back; eassumption.
    + apply (nfirst_back _ _ _ _ H2), nfirst_app in Hf as [Hf|[Hn Hf]].
      * left. exists c. split; [reflexivity|]. apply wo_first; assumption.
      * right. split; [apply wo_nullable; assumption|]. apply wo_follow; [assumption..|]. exists y, p1, q1. auto.
  - destruct Hf as (p & q & Hd & Hf). apply Hor in Hd as [(p0 & q0 & E & Hq)|(p1 & q1 & H1 & H2)].
    + destruct p0 as [|? [|? ?]]; cbn [app] in E; [|discriminate..].
      assert ((n, NonTerminal) = (lit "start", NonTerminal)) as E' by (apply (f_equal head) in E; cbn [head] in E; congruence). rewrite (start_old n (eq_sym E')) in En. discriminate.
    + apply (nnullable_back _ _ _ H2), nnullable_app in Hf as [Hf Hn].
      right. split; [apply wo_nullable; assumption|]. apply wo_follow; [assumption..|]. exists p1, q1. auto.
Qed.
Context (Hu : used_once part rs').
Lemma used_all : all_used.
Proof. intros n u E. destruct (Hu n u E) as (x & i & a & b & H & _). eauto. Qed.

(** *** What is chosen *)
Lemma choose_old x i e w a : old e -> part x = None -> says rs' x i (e :: w) -> nchoose rs' x (e :: w) a ->
  (exists c, a = MChar c /\ nfirst rs [e] c) \/ (nnullable rs [e] /\ nfollow rs e a).
Proof.
  intros He Ex Hs [(c & -> & Hf)|[Hn Hf]].
  - left. exists c. split; [reflexivity|]. apply wo_first in Hf. rewrite wo_old_el in Hf by assumption. exact Hf.
  - right. apply wo_nullable in Hn. rewrite wo_old_el in Hn by assumption. split; [exact Hn|]. apply wo_follow; auto using used_all.
Qed.
Lemma choose_new x i n u w a : part n = Some u -> part x = None -> says rs' x i ((n, NonTerminal) :: w) -> nchoose rs' x ((n, NonTerminal) :: w) a ->
  nselect rs x (wo ((n, NonTerminal) :: w)) a.
Proof.
  intros En Ex Hs Hc. rewrite (wo_new n u w En). destruct Hc as [(c & -> & Hf)|[Hn Hf]].
  - left. exists c. split; [reflexivity|]. apply nfirst_left. apply wo_first in Hf. rewrite (wo_new n u [] En), app_nil_r in Hf. assumption.
  - apply wo_nullable in Hn. rewrite (wo_new n u [] En), app_nil_r in Hn. destruct (Hu n u En) as (y & j & p & q & Hy & Honly).
    destruct (Honly x i [] w Hs) as (<- & <- & <- & <-).
    destruct (new_follow n u x i [] w a used_all En Hs Honly Hf) as [(c & -> & Hc)|[Hc Hx]].
    + left. exists c. split; [reflexivity|]. apply nfirst_right; assumption.
    + right. split; [apply nnullable_app; auto|assumption].
Qed.
Lemma choose_wo x i w a : part x = None -> says rs' x i w -> nchoose rs' x w a -> nchoose rs x (wo w) a.
Proof.
  intros Ex Hs Hc. destruct w as [|e w]; [apply wo_follow; [apply used_all| |assumption]; intros n [= <-]; assumption|].
  destruct (old_dec e) as [He|(n & u & -> & En)].
  - rewrite wo_old_el by assumption. cbn [nchoose]. eapply choose_old; eassumption.
  - eapply nselect_nchoose; [apply wo_says; eassumption|]. eapply choose_new; eassumption.
Qed.

(** *** No new left recursion *)
Lemma left_old x y : part x = None -> part y = None -> nleft_calls rs' x y -> nleft_calls rs x y.
Proof.
  intros Ex Ey (i & u & v & Hs & Hn). exists i, (wo u), (wo v). split; [|apply wo_nullable; assumption].
  apply wo_says in Hs; [|assumption]. rewrite wo_app, (wo_old y v Ey) in Hs. exact Hs.
Qed.
Lemma left_through x n u y : part x = None -> part n = Some u -> nleft_calls rs' x n -> nleft_calls rs' n y -> nleft_calls rs x y.
Proof.
  intros Ex En (i & a & b & Hs & Hn) (j & a' & b' & Hs' & Hn'). destruct (proj1 (pn_new _ _ _ Hp n u En _ _) Hs') as [_ <-].
  apply wo_says in Hs; [|assumption]. rewrite wo_app, (wo_new n _ b En) in Hs.
  exists i, (wo a ++ a'), (b' ++ wo b). split; [rewrite <- !app_assoc in *; exact Hs|]. apply nnullable_app. split; [apply wo_nullable; assumption|].
  apply wo_nullable in Hn'. rewrite wo_olds in Hn'; [assumption|]. apply part_olds in En. apply Forall_app in En. tauto.
Qed.
Lemma left_new_old n u y : part n = Some u -> nleft_calls rs' n y -> part y = None.
Proof. intros En (j & a & b & Hs & _). destruct (proj1 (pn_new _ _ _ Hp n u En _ _) Hs) as [_ <-]. eapply (pn_old_parts _ _ _ Hp); [exact En|apply in_middle]. Qed.
Definition from (x y : str) : Prop :=
  (part y = None -> tc (nleft_calls rs) x y) /\
  (forall u, part y = Some u -> exists z, (z = x \/ tc (nleft_calls rs) x z) /\ part z = None /\ nleft_calls rs' z y).
Lemma from_step x w y : part x = None -> w = x \/ from x w -> nleft_calls rs' w y -> from x y.
Proof.
  intros Ex Hw Hc. destruct (part w) as [u|] eqn:Ew.
  - destruct Hw as [->|[_ Hw]]; [congruence|]. destruct (Hw u Ew) as (z & Hz & Ez & Hzw).
    pose proof (left_new_old w u y Ew Hc) as Ey. pose proof (left_through z w u y Ez Ew Hzw Hc) as Hzy.
    split; [|congruence]. intros _. destruct Hz as [->|Hz]; [apply tc_once; assumption|eapply tc_r; eassumption].
  - assert (w = x \/ tc (nleft_calls rs) x w) as Hw' by (destruct Hw as [?|[Hw _]]; auto). split.
    + intros Ey. pose proof (left_old w y Ew Ey Hc) as Hwy. destruct Hw' as [->|Hw']; [apply tc_once; assumption|eapply tc_r; eassumption].
    + intros u _. exists w. auto.
Qed.
Lemma left_chain x y : tc (nleft_calls rs') x y -> part x = None -> from x y.
Proof.
  intros Ht Ex. assert (forall z, rtc (nleft_calls rs') x z -> z = x \/ from x z) as Hr.
  { apply (rtc_ind_r (fun z => z = x \/ from x z)); [auto|]. intros w z _ Hc IH. right. eapply from_step; eassumption. }
  assert (forall a b, tc (nleft_calls rs') a b -> exists w, rtc (nleft_calls rs') a w /\ nleft_calls rs' w b) as Hl.
  { intros a b. induction 1 as [a b Hc|a z b Hc _ (w & H1 & H2)]; [exists a; split; [apply rtc_refl|assumption]|].
    exists w. split; [eapply rtc_l; eassumption|assumption]. }
  destruct (Hl x y Ht) as (w & H1 & H2). eapply from_step; [exact Ex|apply Hr, H1|exact H2].
Qed.
Lemma no_new_left_recursion : (forall x, ~ tc (nleft_calls rs) x x) -> forall x, ~ tc (nleft_calls rs') x x.
Proof.
  intros Hno x Ht. destruct (part x) as [u|] eqn:Ex.
  - assert (exists z, nleft_calls rs' x z /\ tc (nleft_calls rs') z z) as (z & Hz & Htz).
    { inversion Ht as [? ? Hc|? z ? Hc Ht2]; subst; [exists x; auto|]. exists z. split; [assumption|]. eapply tc_r; eassumption. }
    pose proof (left_new_old x u z Ex Hz) as Ez. apply (Hno z). apply (left_chain z z Htz Ez). exact Ez.
  - apply (Hno x). apply (left_chain x x Ht Ex). exact Ex.
Qed.

(** *** What a parser needs *)
(** Whether one name is inside another need not be decided here: what is shown from it is
    decidable. *)
Lemma uses_says x y : uses rs' x y -> ~ ~ exists i w, says rs' x i w /\ (y, NonTerminal) ∈ w.
Proof.
  intros (w & Hw & Hin) Hno. apply elem_of_list_lookup in Hw as [i Hi].
  assert (forall z, ignores rs' x z -> inside rs' z x) as Hall.
  { intros z Hz. destruct (rules_for x rs') as [|r0 more] eqn:E.
    - destruct Hz as (? & ? & Hz & _). rewrite E in Hz. discriminate.
    - exfalso. assert (~ inside rs' z x) as Hn.
      { intros Hin'. apply Hno. exists i, w. split; [|assumption]. apply says_plain; [assumption|]. intros z' Hz'.
        destruct Hz as (p & q & E1 & E2), Hz' as (p' & q' & E1' & E2'). rewrite E1 in E1'. injection E1' as <- <-. rewrite E2 in E2'. injection E2' as <-. assumption. }
      apply Hno. exists i, (interleave (z, NonTerminal) w). split; [apply says_woven; assumption|]. apply elem_interleave. assumption. }
  apply Hno. exists i, w. split; [apply says_plain; assumption|assumption].
Qed.
Lemma defined_stable x : ~ ~ defined rs x -> defined rs x.
Proof. unfold defined. destruct (rules_for x rs); [|discriminate]. intros Hn E. apply Hn. intros Hd. apply Hd. reflexivity. Qed.
Lemma wo_in x w : part x = None -> (x, NonTerminal) ∈ w -> (x, NonTerminal) ∈ wo w.
Proof. intros E Hin. apply elem_of_list_split in Hin as (a & b & ->). rewrite wo_app, (wo_old x b E). apply in_middle. Qed.
Lemma new_defined n u : part n = Some u -> defined rs' n.
Proof. intros E. apply (says_defined rs' n 0 u). apply (pn_new _ _ _ Hp n u E). auto. Qed.
Lemma all_defined' : (forall x y, uses rs x y -> defined rs y) -> (forall x y, ignores rs x y -> defined rs y) -> forall x y, uses rs' x y -> defined rs' y.
Proof.
  intros Hd Hi x y Hxy. destruct (part y) as [u|] eqn:Ey; [eapply new_defined; eassumption|]. apply (pn_defined _ _ _ Hp y Ey).
  apply defined_stable. intros Hno. apply (uses_says x y Hxy). intros (i1 & w1 & Hs1 & Hin1). apply Hno. clear Hno.
  assert (exists x0 i w, says rs x0 i w /\ (y, NonTerminal) ∈ w) as (x0 & i & w & Hs & Hin).
  { rename i1 into i, w1 into w, Hs1 into Hs, Hin1 into Hin. destruct (part x) as [u|] eqn:Ex.
    - destruct (Hu x u Ex) as (z & j & a & b & Hz & _). pose proof (user_old z j _ x u Hz Ex (in_middle _ _ _)) as Ez.
      destruct (proj1 (pn_new _ _ _ Hp x u Ex _ _) Hs) as [_ ->]. apply wo_says in Hz; [|assumption]. rewrite wo_app, (wo_new x u b Ex) in Hz.
      exists z, j, (wo a ++ u ++ wo b). split; [exact Hz|]. apply elem_of_app. right. apply elem_of_app. auto.
    - exists x, i, (wo w). split; [apply wo_says; assumption|]. apply wo_in; assumption. }
  apply (says_element _ _ _ _ _ Hs) in Hin as [(w0 & Hw0 & Hin)|(z & Hz & [= <-])]; [apply (Hd x0); exists w0; auto|eapply Hi; eassumption].
Qed.
Lemma begins : parts_begin part -> (forall x i w, says rs x i w -> head w <> Some ([], Terminal)) -> forall x i w, says rs' x i w -> head w <> Some ([], Terminal).
Proof.
  intros Hb He x i w Hs. destruct (part x) as [u|] eqn:Ex.
  - destruct (proj1 (pn_new _ _ _ Hp x u Ex _ _) Hs) as [_ ->]. apply (Hb x); assumption.
  - destruct w as [|e w]; [discriminate|]. intros [= ->]. apply wo_says in Hs; [|assumption]. rewrite wo_terminal in Hs. apply (He _ _ _ Hs). reflexivity.
Qed.
Lemma named_parsable : parsable rs -> parts_begin part -> (forall x y, ignores rs' x y -> defined rs' y) -> parsable rs'.
Proof.
  intros Hpa Hb Hi. split.
  - apply (pn_defined _ _ _ Hp); [apply (pn_start _ _ _ Hp)|apply (pa_start _ Hpa)].
  - apply all_defined'; [apply (pa_defined _ Hpa)|apply (pa_ignored _ Hpa)].
  - assumption.
  - apply no_new_left_recursion, (pa_no_left_recursion _ Hpa).
  - apply begins; [assumption|apply (pa_no_empty_terminal _ Hpa)].
  - intros x i j w w' a H1 H2 Hij C1 C2. destruct (part x) as [u|] eqn:Ex.
    + destruct (proj1 (pn_new _ _ _ Hp x u Ex _ _) H1), (proj1 (pn_new _ _ _ Hp x u Ex _ _) H2). congruence.
    + apply (pa_distinct _ Hpa x i j (wo w) (wo w') a); auto using wo_says; [eapply choose_wo with (i := i)|eapply choose_wo with (i := j)]; eassumption.
Qed.
Lemma ll1_named_parsable : ll1 rs -> defined rs (lit "start") -> (forall x y, uses rs x y -> defined rs y) -> (forall x y, ignores rs x y -> defined rs y) ->
  (forall x, ~ left_recursive_name rs x) -> (forall x i w, says rs x i w -> head w <> Some ([], Terminal)) ->
  parts_begin part -> nullable_starts_named part rs rs' -> (forall x y, ignores rs' x y -> defined rs' y) -> parsable rs'.
Proof.
  intros Hll Hst Hd Hi Hlr He Hb Hns Hi'.
  assert (forall x i w a, part x = None -> says rs' x i w -> nchoose rs' x w a -> nselect rs x (wo w) a) as Hsel.
  { intros x i w a Ex Hs Hc. destruct w as [|e w].
    - right. split; [apply nnullable_nil|]. apply wo_follow; [apply used_all| |assumption]. intros n [= <-]; assumption.
    - destruct (old_dec e) as [Ho|(n & u & -> & En)]; [|eapply choose_new; eassumption].
      destruct (Hns x i e w Ex Hs) as [(n & u & -> & En)|Hnn]; [rewrite (Ho n eq_refl) in En; discriminate|].
      destruct (choose_old x i e w a Ho Ex Hs Hc) as [(c & -> & Hf)|[Hn _]]; [|contradiction].
      left. exists c. split; [reflexivity|]. rewrite (wo_old_el e w Ho). apply (nfirst_left rs [e]); assumption. }
  split.
  - apply (pn_defined _ _ _ Hp); [apply (pn_start _ _ _ Hp)|assumption].
  - apply all_defined'; assumption.
  - assumption.
  - apply no_new_left_recursion, Hlr.
  - apply begins; assumption.
  - intros x i j w w' a H1 H2 Hij C1 C2. destruct (part x) as [u|] eqn:Ex.
    + destruct (proj1 (pn_new _ _ _ Hp x u Ex _ _) H1), (proj1 (pn_new _ _ _ Hp x u Ex _ _) H2). congruence.
    + apply (Hll x i j (wo w) (wo w') a); auto using wo_says; [eapply Hsel with (i := i)|eapply Hsel with (i := j)]; eassumption.
Qed.
(** *** Back to the original grammar *)
Lemma parsable_ll1 : parsable rs' -> ll1 rs.
Proof.
  intros Hpa x i j w1 w2 a H1 H2 Hij S1 S2.
  assert (forall i w, says rs x i w -> nselect rs x w a -> exists w', says rs' x i w' /\ nchoose rs' x w' a) as Hc.
  { intros k w Hs Hsel. pose proof (says_old_name x k w Hs) as Ex. apply (pn_old _ _ _ Hp x k w Ex) in Hs as (w' & Hs & ->). exists w'. split; [assumption|].
    eapply nselect_nchoose; [exact Hs|]. destruct Hsel as [(c & -> & Hf)|[Hn Hf]].
    - left. exists c. split; [reflexivity|]. apply wo_first. assumption.
    - right. split; [apply wo_nullable; assumption|]. apply wo_follow; [apply used_all| |assumption]. intros n [= <-]. assumption. }
  destruct (Hc i w1 H1 S1) as (v1 & V1 & C1), (Hc j w2 H2 S2) as (v2 & V2 & C2). exact (pa_distinct _ Hpa x i j v1 v2 a V1 V2 Hij C1 C2).
Qed.
Lemma wo_split w' : forall u e v, wo w' = u ++ e :: v ->
  (exists a b, w' = a ++ e :: b /\ u = wo a) \/
  (exists a n r b u1 v1, w' = a ++ (n, NonTerminal) :: b /\ part n = Some r /\ r = u1 ++ e :: v1 /\ u = wo a ++ u1).
Proof.
  induction w' as [|f w' IH]; intros u e v E; [destruct u; discriminate|].
  destruct (old_dec f) as [Hf|(n & r & -> & En)].
  - rewrite (wo_old_el f w' Hf) in E. destruct u as [|g u]; cbn [app] in E.
    + assert (f = e) as -> by congruence. left. exists [], w'. auto.
    + assert (f = g /\ wo w' = u ++ e :: v) as [-> E'] by (split; congruence). destruct (IH u e v E') as [(a & b & -> & ->)|(a & n & r & b & u1 & v1 & -> & En & Er & ->)].
      * left. exists (g :: a), b. rewrite (wo_old_el g a Hf). auto.
      * right. exists (g :: a), n, r, b, u1, v1. rewrite (wo_old_el g a Hf). auto.
  - rewrite (wo_new n r w' En) in E. apply app_eq_inv in E as [(k & E1 & E2)|(k & E1 & E2)].
    + destruct k as [|g k]; cbn [app] in E2.
      * rewrite app_nil_r in E1. destruct (IH [] e v (eq_sym E2)) as [(a & b & -> & Ea)|(a & m & q & b & u1 & v1 & -> & Em & Er & Ea)].
        -- left. exists ((n, NonTerminal) :: a), b. split; [reflexivity|]. rewrite (wo_new n r a En), <- Ea, app_nil_r. congruence.
        -- right. exists ((n, NonTerminal) :: a), m, q, b, u1, v1. split; [reflexivity|]. split; [assumption|]. split; [assumption|].
           rewrite (wo_new n r a En), <- app_assoc, <- Ea, app_nil_r. congruence.
      * assert (g = e) as -> by congruence. right. exists [], n, r, w', u, k. auto.
    + destruct (IH k e v E2) as [(a & b & -> & Ea)|(a & m & q & b & u1 & v1 & -> & Em & Er & Ea)].
      * left. exists ((n, NonTerminal) :: a), b. split; [reflexivity|]. rewrite (wo_new n r a En). congruence.
      * right. exists ((n, NonTerminal) :: a), m, q, b, u1, v1. split; [reflexivity|]. split; [assumption|]. split; [assumption|].
        rewrite (wo_new n r a En), <- app_assoc. congruence.
Qed.
Lemma left_back x y : nleft_calls rs x y -> tc (nleft_calls rs') x y.
Proof.
  intros (i & u & v & Hs & Hn). pose proof (says_old_name x i _ Hs) as Ex. apply (pn_old _ _ _ Hp x i _ Ex) in Hs as (w' & Hs & E). symmetry in E.
  apply wo_split in E as [(a & b & -> & ->)|(a & n & r & b & u1 & v1 & -> & En & -> & ->)].
  - apply tc_once. exists i, a, b. split; [assumption|]. apply wo_nullable. assumption.
  - apply nnullable_app in Hn as [H1 H2]. eapply tc_l; [|apply tc_once].
    + exists i, a, b. split; [exact Hs|]. apply wo_nullable. assumption.
    + exists 0, u1, v1. split; [apply (pn_new _ _ _ Hp n _ En); auto|]. apply wo_nullable. rewrite wo_olds; [assumption|].
      apply part_olds in En. apply Forall_app in En. tauto.
Qed.
Lemma left_recursion_back : (forall x, ~ tc (nleft_calls rs') x x) -> forall x, ~ tc (nleft_calls rs) x x.
Proof.
  intros Hno x Ht. apply (Hno x). revert Ht. generalize x at 2 4. intros y Ht. induction Ht as [a b Hc|a z b Hc _ IH]; [apply left_back; assumption|].
  eapply tc_transitive; [apply left_back; eassumption|assumption].
Qed.
End naming.

(** ** Trees *)
Section trees.
Context (part : str -> option (list (str * ElementType))).
Notation wn := (without_new part).
Lemma wn_yield t : concat (map nyield (wn t)) = nyield t.
Proof.
  induction t as [b|x subs IH] using ntree_ind'; [apply app_nil_r|]. cbn [without_new].
  assert (concat (map nyield (concat (map wn subs))) = concat (map nyield subs)) as E.
  { induction IH as [|s subs Hs _ IHs]; [reflexivity|]. cbn [map concat]. rewrite map_app, concat_app, Hs, IHs. reflexivity. }
  destruct (part x); [exact E|]. cbn [map concat]. rewrite app_nil_r. cbn [nyield]. exact E.
Qed.
(** The names of the inner nodes in post-order. *)
Fixpoint names_post (t : ntree) : list str :=
  match t with NLeaf _ => [] | NNode x subs => concat (map names_post subs) ++ [x] end.
Lemma npost_names t : forall n, map (fun '(i, x, k) => x) (npost_order n t) = names_post t.
Proof.
  induction t as [b|x subs IH] using ntree_ind'; intros n; [reflexivity|]. cbn [npost_order names_post]. rewrite map_app. f_equal.
  generalize (S n) as m. induction IH as [|s subs Hs _ IHs]; intros m; [reflexivity|]. cbn [map concat]. rewrite map_app, Hs, IHs. reflexivity.
Qed.
Lemma wn_names t : concat (map names_post (wn t)) = filter (fun x => part x = None) (names_post t).
Proof.
  induction t as [b|x subs IH] using ntree_ind'; [reflexivity|]. cbn [without_new names_post]. rewrite filter_app.
  assert (concat (map names_post (concat (map wn subs))) = filter (fun x => part x = None) (concat (map names_post subs))) as E.
  { induction IH as [|s subs Hs _ IHs]; [reflexivity|]. cbn [map concat]. rewrite map_app, concat_app, filter_app, Hs, IHs. reflexivity. }
  destruct (part x) as [u|] eqn:Ex.
  - rewrite filter_cons_False by congruence. rewrite filter_nil, app_nil_r. exact E.
  - rewrite filter_cons_True by assumption. rewrite filter_nil. cbn [map concat names_post]. rewrite app_nil_r, E. reflexivity.
Qed.
End trees.
Section actions.
Context {vm : VM} (Hb : tree_blind vm).
(** Running the instructions of the names, the tree being of no concern. *)
Definition run_names (rs : list (arule (vm_instr vm))) (l : list str) (v : vm_state vm) : outcome Empty_set (vm_state vm) :=
  ofold (fun s x => ofold (fun s ins => let* '(_t, s') := vm_execute vm tree_new (mkNodeId 0 0) ins s in Ok s') s (instructions_for rs x)) v l.
Lemma blind_instr t id l : forall v, ofold (fun s ins => let* '(_t, s') := vm_execute vm t id ins s in Ok s') v l =
  ofold (fun s ins => let* '(_t, s') := vm_execute vm tree_new (mkNodeId 0 0) ins s in Ok s') v l.
Proof.
  induction l as [|ins l IH]; intros v; [reflexivity|]. cbn [ofold]. pose proof (Hb t tree_new id (mkNodeId 0 0) ins v) as Hi.
  destruct (vm_execute vm t id ins v) as [[t1 s1]|[]| |], (vm_execute vm tree_new (mkNodeId 0 0) ins v) as [[t2 s2]|[]| |]; cbn; try contradiction; try reflexivity.
  subst. apply IH.
Qed.
Lemma blind_run rs nt v : run_tree rs nt v = run_names rs (names_post nt) v.
Proof.
  unfold run_tree, run_names. rewrite <- (npost_names nt 0). generalize (npost_order 0 nt) as l. intros l. revert v.
  induction l as [|[[i x] k] l IH]; intros v; [reflexivity|]. cbn [map ofold]. rewrite blind_instr. destruct (ofold _ v (instructions_for rs x)); cbn; [apply IH|reflexivity..].
Qed.
Lemma run_filter part (rs rs' : list (arule (vm_instr vm))) l : (forall x, part x = None -> instructions_for rs' x = instructions_for rs x) ->
  (forall (n : str) (u : list (str * ElementType)), part n = Some u -> instructions_for rs' n = []) -> forall v,
  run_names rs' l v = run_names rs (filter (fun x => part x = None) l) v.
Proof.
  intros Ho Hn. unfold run_names. induction l as [|x l IH]; intros v; [reflexivity|]. destruct (part x) as [u|] eqn:Ex.
  - rewrite filter_cons_False by congruence. cbn [ofold]. rewrite (Hn x u Ex). cbn. apply IH.
  - rewrite filter_cons_True by assumption. cbn [ofold]. rewrite (Ho x Ex). destruct (ofold _ v (instructions_for rs x)); cbn; [apply IH|reflexivity..].
Qed.
Lemma same_actions part (rs rs' : list (arule (vm_instr vm))) nt nt' v : (forall x, part x = None -> instructions_for rs' x = instructions_for rs x) ->
  (forall n u, part n = Some u -> instructions_for rs' n = []) -> without_new part nt' = [nt] -> run_tree rs' nt' v = run_tree rs nt v.
Proof.
  intros Ho Hn E. rewrite !blind_run, (run_filter part rs rs') by assumption. rewrite <- wn_names, E. cbn [map concat]. rewrite app_nil_r. reflexivity.
Qed.
End actions.
Section named_trees.
Context {I : Type} (part : str -> option (list (str * ElementType))) (rs rs' : list (arule I)) (Hp : parts_named part rs rs').
Lemma wn_derivation t : nderivation rs' t -> Forall (nderivation rs) (without_new part t) /\ map nroot (without_new part t) = written_out part [nroot t].
Proof.
  induction t as [b|x subs IH] using ntree_ind'; intros Hd; [repeat constructor|]. inversion Hd as [|? i ? Hs Hsubs]; subst. cbn [without_new].
  assert (Forall (nderivation rs) (concat (map (without_new part) subs)) /\ map nroot (concat (map (without_new part) subs)) = written_out part (map nroot subs)) as [E1 E2].
  { clear Hs Hd. induction IH as [|s subs Hs _ IHs]; [split; [constructor|reflexivity]|]. inversion Hsubs; subst. destruct Hs as [H1' H2']; [assumption|].
    destruct IHs as [H3' H4']; [assumption|]. cbn [map concat]. rewrite map_app, H2', H4', (wo_cons part (nroot s) (map nroot subs)). split; [apply Forall_app; auto|reflexivity]. }
  destruct (part x) as [u|] eqn:Ex.
  - split; [assumption|]. destruct (proj1 (pn_new _ _ _ Hp x u Ex _ _) Hs) as [_ Hw]. rewrite E2, Hw, (wo_olds part u) by (eapply part_olds; eassumption).
    cbn [nroot]. rewrite (wo_new part x u [] Ex). symmetry. apply app_nil_r.
  - cbn [nroot map]. rewrite (wo_old part x [] Ex). split; [|reflexivity]. repeat constructor. apply (nder_node rs x i); [|assumption]. rewrite E2.
    eapply wo_says; eassumption.
Qed.
(** Grouping the subtrees of an alternative under the new names. *)
Lemma grouped w' : forall subs, Forall (nderivation rs') subs -> map nroot subs = written_out part w' ->
  exists subs', Forall (nderivation rs') subs' /\ map nroot subs' = w' /\ concat (map (without_new part) subs') = concat (map (without_new part) subs).
Proof.
  induction w' as [|e w' IH]; intros subs Hf E.
  - exists subs. split; [assumption|]. auto.
  - destruct (old_dec part e) as [He|(n & u & -> & En)].
    + rewrite (wo_old_el part e w' He) in E. destruct subs as [|s subs]; [discriminate|]. inversion Hf; subst. cbn [map] in E.
      assert (nroot s = e /\ map nroot subs = written_out part w') as [E1 E2] by (split; congruence).
      destruct (IH subs) as (subs' & F1 & F2 & F3); [assumption..|]. exists (s :: subs'). split; [constructor; assumption|]. cbn [map concat]. split; congruence.
    + rewrite (wo_new part n u w' En) in E. apply map_eq_app in E as (s1 & s2 & -> & E1 & E2). apply Forall_app in Hf as [Hf1 Hf2].
      destruct (IH s2) as (subs' & F1 & F2 & F3); [assumption..|]. exists (NNode n s1 :: subs'). split.
      { constructor; [|assumption]. apply (nder_node rs' n 0); [|assumption]. apply (pn_new _ _ _ Hp n u En). auto. }
      cbn [map concat nroot]. split; [congruence|]. cbn [without_new]. rewrite En, map_app, concat_app. congruence.
Qed.
Lemma tree_named t : nderivation rs t -> exists t', nderivation rs' t' /\ nroot t' = nroot t /\ (forall n, nroot t = (n, NonTerminal) -> part n = None) /\ without_new part t' = [t].
Proof.
  induction t as [b|x subs IH] using ntree_ind'; intros Hd.
  { exists (NLeaf b). split; [constructor|]. split; [reflexivity|]. split; [discriminate|reflexivity]. }
  inversion Hd as [|? i ? Hs Hsubs]; subst. pose proof (says_old_name part rs rs' Hp x i _ Hs) as Ex.
  assert (exists subs1, Forall (nderivation rs') subs1 /\ map nroot subs1 = map nroot subs /\ concat (map (without_new part) subs1) = subs) as (subs1 & F1 & F2 & F3).
  { clear Hs Hd. induction IH as [|s subs Hs _ IHs]; [exists []; repeat split; constructor|]. inversion Hsubs; subst. destruct Hs as (s' & S1 & S2 & _ & S3); [assumption|].
    destruct IHs as (l & L1 & L2 & L3); [assumption|]. exists (s' :: l). split; [constructor; assumption|]. cbn [map concat]. rewrite S3, L3. split; [congruence|reflexivity]. }
  pose proof Hs as Hs2. apply (pn_old _ _ _ Hp x i _ Ex) in Hs2 as (w' & Hw' & E). destruct (grouped w' subs1) as (subs' & G1 & G2 & G3); [assumption|congruence|].
  exists (NNode x subs'). split; [apply (nder_node rs' x i); [rewrite G2; assumption|assumption]|]. split; [reflexivity|]. split; [intros n [= <-]; assumption|].
  cbn [without_new]. rewrite Ex, G3, F3. reflexivity.
Qed.
Lemma old_tree t : nderivation rs' t -> (forall n, nroot t = (n, NonTerminal) -> part n = None) -> exists t0, nderivation rs t0 /\ nroot t0 = nroot t /\ without_new part t = [t0] /\ nyield t0 = nyield t.
Proof.
  intros Hd Ho. destruct (wn_derivation t Hd) as [H1 H2]. rewrite (wo_olds part [nroot t]) in H2 by (repeat constructor; exact Ho).
  pose proof (wn_yield part t) as Hy. destruct (without_new part t) as [|t0 [|t1 l]]; try discriminate. inversion H1; subst. exists t0. split; [assumption|].
  split; [cbn [map] in H2; congruence|]. split; [reflexivity|]. cbn [map concat] in Hy. rewrite app_nil_r in Hy. exact Hy.
Qed.
Lemma named_derives_text x s : part x = None -> derives_text rs' x s <-> derives_text rs x s.
Proof.
  intros Ex. split; intros (t & Ht & Hr & Hy).
  - destruct (old_tree t Ht) as (t0 & T1 & T2 & _ & T3); [intros n E; congruence|]. exists t0. repeat split; congruence.
  - destruct (tree_named t Ht) as (t' & T1 & T2 & _ & T3). exists t'. split; [assumption|]. split; [congruence|]. rewrite <- (wn_yield part t'), T3. cbn. rewrite app_nil_r. exact Hy.
Qed.
End named_trees.
