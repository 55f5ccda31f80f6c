(** * Proofs for C87: grammars put together from parts *)
From Verif Require Import Base Tree Sets ParserData Vm SpecTree SpecWeave SpecRules SpecLanguage SpecExtend SpecNaming SpecCompose
  Language_proofs Start_proofs Naming_proofs NamingAll_proofs.
Notation NTm x := (x, NonTerminal).

(** ** What follows a name, as the least solution of the usual equations *)
Section follow.
Context {I : Type} (rs : list (arule I)).
Inductive nfol : str -> SetMember -> Prop :=
| nf_start : nfol (lit "start") MTerminate
| nf_next y i u x v c : says rs y i (u ++ NTm x :: v) -> nfirst rs v c -> nfol x (MChar c)
| nf_last y i u x v l : says rs y i (u ++ NTm x :: v) -> nnullable rs v -> nfol y l -> nfol x l.
Definition before_l (v : list (str * ElementType)) (l : SetMember) : Prop :=
  match l with MChar c => nfirst rs v c | MTerminate => nnullable rs v end.
Lemma before_back w z l : nderives rs w z -> before_l z l -> before_l w l.
Proof. destruct l; cbn; [apply nfirst_back|apply nnullable_back]. Qed.
Lemma before_app a b l : before_l (a ++ b) l -> (exists c, l = MChar c /\ nfirst rs a c) \/ (nnullable rs a /\ before_l b l).
Proof. destruct l as [c|]; cbn; [intros [?|?]%nfirst_app; eauto|intros ?%nnullable_app; auto]. Qed.
Lemma nfol_gen w z : nderives rs w z -> forall u x v l, z = u ++ NTm x :: v -> before_l v l ->
  nfol x l \/ exists y u0 v0, w = u0 ++ NTm y :: v0 /\ before_l v0 l /\ (nfol y l -> nfol x l).
Proof.
  induction 1 as [w|w w' z Hs Hd IH]; intros u x v l E Hl; [right; exists x, u, v; auto|].
  destruct (IH u x v l E Hl) as [Hn|(y & u0 & v0 & E0 & H0 & Hi)]; [auto|]. clear IH. inversion Hs as [p q r i k Hk E1 E2]. subst w w'.
  symmetry in E2. apply app_eq_inv in E2 as [(m & E1 & E2)|(m & E1 & E2)].
  - (* u0 = p ++ m *)
    symmetry in E2. apply app_eq_inv in E2 as [(n & E3 & E4)|(n & E3 & E4)].
    + right. exists y, (p ++ NTm q :: n), v0. subst. split; [rewrite <- app_assoc; reflexivity|auto].
    + destruct n as [|e n]; cbn [app] in E4.
      * right. exists y, (p ++ [NTm q]), v0. subst. split; [rewrite <- app_assoc; reflexivity|auto].
      * injection E4 as <- ->. subst. apply before_app in H0 as [(c & -> & Hc)|[Hn H0]].
        -- left. apply Hi. eapply nf_next; eassumption.
        -- right. exists q, p, r. split; [reflexivity|]. split; [assumption|]. intros Hq. apply Hi. eapply nf_last; eassumption.
  - destruct m as [|e m]; cbn [app] in E2.
    + rewrite app_nil_r in E1. subst p. destruct k as [|e k]; cbn [app] in E2.
      * subst r. right. exists y, (u0 ++ [NTm q]), v0. split; [rewrite <- app_assoc; reflexivity|auto].
      * injection E2 as <- ->. apply before_app in H0 as [(c & -> & Hc)|[Hn H0]].
        -- left. apply Hi. apply (nf_next q i [] y k); assumption.
        -- right. exists q, u0, r. split; [reflexivity|]. split; [assumption|]. intros Hq. apply Hi. apply (nf_last q i [] y k); assumption.
    + injection E2 as <- ->. subst. right. exists y, u0, (m ++ NTm q :: r). split; [rewrite <- app_assoc; reflexivity|]. split; [|assumption].
      eapply before_back; [|exact H0]. apply rtc_once. constructor 1 with i. assumption.
Qed.
Lemma single {A} (a b : A) u v : [a] = u ++ b :: v -> a = b /\ u = [] /\ v = [].
Proof. destruct u as [|? [|? ?]]; [intros [= <- <-]; auto|discriminate..]. Qed.
Lemma nfol_follow x l : nfol x l <-> nfollow rs (NTm x) l.
Proof.
  split.
  - induction 1 as [|y i u x v c Hs Hf|y i u x v l Hs Hn _ IH].
    + exists [], []. split; [apply rtc_refl|apply nnullable_nil].
    + eapply nfollow_next; eassumption.
    + eapply nfollow_last; eassumption.
  - destruct l as [c|]; cbn [nfollow].
    + intros (y & u & v & _ & Hd & Hf). destruct (nfol_gen _ _ Hd u x v (MChar c) eq_refl Hf) as [?|(z & u0 & v0 & E & H0 & _)]; [assumption|].
      apply single in E as (_ & _ & ->). destruct (nfirst_nil rs c H0).
    + intros (u & v & Hd & Hf). destruct (nfol_gen _ _ Hd u x v MTerminate eq_refl Hf) as [?|(z & u0 & v0 & E & H0 & Hi)]; [assumption|].
      apply single in E as (E & _ & ->). apply Hi. assert (z = lit "start") as -> by congruence. constructor.
Qed.
End follow.

(** ** A part of a grammar *)
Section closed_part.
Context {I : Type} (P : list (arule I)) (a : str) (Hpt : part P a).
Definition inp (e : str * ElementType) : Prop := e.2 = NonTerminal -> defined P e.1.
Lemma defined_dec (rs : list (arule I)) x : defined rs x \/ ~ defined rs x.
Proof. unfold defined. destruct (rules_for x rs); [right; intros Hn; apply Hn; reflexivity|left; discriminate]. Qed.
Lemma part_says_in x i w : says P x i w -> Forall inp w.
Proof.
  intros Hs. apply Forall_forall. intros [y []] Hy; intros Ht; [discriminate|]. cbn.
  destruct (says_element P x i w _ Hs Hy) as [(w0 & H1 & H2)|(z & Hz & E)].
  - apply (pt_uses _ _ Hpt x). exists w0. auto.
  - assert (y = z) as -> by congruence. apply (pt_ignores _ _ Hpt x), Hz.
Qed.
Context (rs : list (arule I)) (Hx : extends P rs).
Lemma pa_alts x : defined P x -> alternatives_for rs x = alternatives_for P x.
Proof. intros Hd. unfold alternatives_for. rewrite (Hx x Hd). reflexivity. Qed.
Lemma pa_grown x : defined P x -> defined rs x.
Proof. intros Hd. unfold defined. rewrite (Hx x Hd). exact Hd. Qed.
Lemma pa_uses x y : defined P x -> uses rs x y <-> uses P x y.
Proof. intros Hd. unfold uses. rewrite (pa_alts x Hd). reflexivity. Qed.
Lemma pa_ignores x y : defined P x -> ignores rs x y <-> ignores P x y.
Proof. intros Hd. unfold ignores. rewrite (Hx x Hd). reflexivity. Qed.
Lemma pa_instr x : defined P x -> instructions_for rs x = instructions_for P x.
Proof. intros Hd. unfold instructions_for. rewrite (Hx x Hd). reflexivity. Qed.
Lemma puses_defined x y : uses P x y -> defined P x.
Proof. intros (w & Hw & _) E. unfold alternatives_for in Hw. rewrite E in Hw. inversion Hw. Qed.
Lemma pa_inside y x : defined P y -> inside rs y x <-> inside P y x.
Proof.
  intros Hy. split; intros [_ Hr]; (split; [auto using pa_grown|]).
  - induction Hr as [y|y z x Hs _ IH]; [constructor|]. apply (pa_uses y z Hy) in Hs. eapply rtc_l; [exact Hs|]. apply IH. eapply pt_uses; eassumption.
  - eapply rtc_subrel; [|exact Hr]. intros p q Hab. apply pa_uses; [eapply puses_defined; exact Hab|exact Hab].
Qed.
Lemma pa_says x i w : defined P x -> says rs x i w <-> says P x i w.
Proof.
  intros Hd. pose proof (pt_ignores _ _ Hpt) as Hi. split; intros Hs; destruct Hs as [w Hw Hn|w y Hw Hig Hn].
  - rewrite (pa_alts x Hd) in Hw. apply says_plain; [exact Hw|]. intros y Hy. apply pa_inside; [eauto|]. apply Hn, pa_ignores; assumption.
  - rewrite (pa_alts x Hd) in Hw. apply (pa_ignores x y Hd) in Hig. apply says_woven; [exact Hw|exact Hig|]. intros Hin. apply Hn, pa_inside; [eauto|exact Hin].
  - rewrite <- (pa_alts x Hd) in Hw. apply says_plain; [exact Hw|]. intros y Hy. apply (pa_ignores x y Hd) in Hy. apply pa_inside; eauto.
  - rewrite <- (pa_alts x Hd) in Hw. apply says_woven; [exact Hw|apply pa_ignores; assumption|]. intros Hin. apply Hn, pa_inside; [eauto|exact Hin].
Qed.
Lemma pa_says_in x i w : defined P x -> says rs x i w -> Forall inp w.
Proof. intros Hd Hs. apply pa_says in Hs; [|assumption]. eapply part_says_in; eassumption. Qed.
Lemma pa_derives w z : nderives P w z -> nderives rs w z.
Proof. apply rtc_subrel. intros p q [u x v i k Hk]. constructor 1 with i. apply pa_says; [eapply says_defined; eassumption|assumption]. Qed.
Lemma pa_derives_back w z : nderives rs w z -> Forall inp w -> nderives P w z /\ Forall inp z.
Proof.
  induction 1 as [w|w y z Hs _ IH]; intros Hin; [split; [apply rtc_refl|assumption]|]. destruct Hs as [u x v i k Hk].
  apply Forall_app in Hin as [H1 H2]. apply Forall_cons in H2 as [H2 H3]. specialize (H2 eq_refl). cbn in H2.
  pose proof (pa_says_in x i k H2 Hk) as H4. apply pa_says in Hk; [|assumption].
  destruct IH as [IH1 IH2]; [apply Forall_app; split; [assumption|apply Forall_app; auto]|]. split; [|assumption].
  eapply rtc_l; [constructor 1 with i; eassumption|assumption].
Qed.
Lemma pa_nullable w : Forall inp w -> nnullable rs w <-> nnullable P w.
Proof. intros Hin. split; intros (z & Hd & He); exists z; (split; [|assumption]); [apply pa_derives_back|apply pa_derives]; assumption. Qed.
Lemma pa_first w c : Forall inp w -> nfirst rs w c <-> nfirst P w c.
Proof. intros Hin. split; intros (z & s & v & Hd & He); exists z, s, v; (split; [|assumption]); [apply pa_derives_back|apply pa_derives]; assumption. Qed.
Lemma pa_derivation t : nderivation P t -> nderivation rs t.
Proof.
  induction t as [b|x subs IH] using ntree_ind'; intros Hd; [constructor|]. inversion Hd as [|? i ? Hs Hsubs]; subst.
  apply (nder_node rs x i); [apply pa_says; [eapply says_defined; eassumption|assumption]|]. clear Hs Hd. induction IH as [|s subs Hs _ IHs]; [constructor|]. inversion Hsubs; subst. constructor; auto.
Qed.
Lemma pa_derivation_back t : nderivation rs t -> inp (nroot t) -> nderivation P t.
Proof.
  induction t as [b|x subs IH] using ntree_ind'; intros Hd Hin; [constructor|]. inversion Hd as [|? i ? Hs Hsubs]; subst. specialize (Hin eq_refl). cbn in Hin.
  pose proof (pa_says_in x i _ Hin Hs) as Hall. apply pa_says in Hs; [|assumption]. apply (nder_node P x i); [assumption|]. clear Hs Hd.
  induction IH as [|s subs Hs _ IHs]; [constructor|]. inversion Hsubs; subst. cbn [map] in Hall. apply Forall_cons in Hall as [H5 H6]. constructor; auto.
Qed.
End closed_part.

(** ** A rule for start in front *)
Section starting.
Context {I : Type}.
Lemma rules_for_app (P Q : list (arule I)) x : rules_for x (P ++ Q) = rules_for x P ++ rules_for x Q.
Proof. apply filter_app. Qed.
Lemma extends_trans (P Q R : list (arule I)) : extends P Q -> extends Q R -> extends P R.
Proof. intros H1 H2 x Hx. rewrite H2; [apply H1; assumption|]. unfold defined. rewrite H1; assumption. Qed.
Lemma extends_left (P Q : list (arule I)) : apart P Q -> extends P (P ++ Q).
Proof.
  intros Ha x Hx. rewrite rules_for_app. destruct (defined_dec Q x) as [Hq|Hq]; [destruct (Ha x Hx Hq)|]. 
  unfold defined in Hq. destruct (rules_for x Q); [apply app_nil_r|destruct Hq; discriminate].
Qed.
Lemma extends_right (P Q : list (arule I)) : apart P Q -> extends Q (P ++ Q).
Proof.
  intros Ha x Hx. rewrite rules_for_app. destruct (defined_dec P x) as [Hq|Hq]; [destruct (Ha x Hq Hx)|]. 
  unfold defined in Hq. destruct (rules_for x P); [reflexivity|destruct Hq; discriminate].
Qed.
Lemma defined_app (P Q : list (arule I)) x : defined (P ++ Q) x <-> defined P x \/ defined Q x.
Proof.
  unfold defined. rewrite rules_for_app. destruct (rules_for x P); cbn; [|split; [left|]; discriminate].
  split; [auto|]. intros [Hn|Hn]; [destruct (Hn eq_refl)|assumption].
Qed.
Context (alts : list (list (str * ElementType))) (is : list I) (P : list (arule I)) (Hst : ~ defined P (lit "start")).
Notation G := (starting alts is P).
Lemma st_rules x : x <> lit "start" -> rules_for x G = rules_for x P.
Proof. intros Hx. unfold rules_for, starting. rewrite filter_cons_False; [reflexivity|]. cbn [ar_name]. congruence. Qed.
Lemma st_start : rules_for (lit "start") G = [mkARule (lit "start") OvAbsent alts is].
Proof.
  unfold rules_for, starting. rewrite filter_cons_True by reflexivity. f_equal. unfold defined, rules_for in Hst.
  destruct (filter _ P); [reflexivity|destruct Hst; discriminate].
Qed.
Lemma st_defined x : defined G x <-> x = lit "start" \/ defined P x.
Proof.
  destruct (decide (x = lit "start")) as [->|Hx].
  - split; [auto|]. intros _. unfold defined. rewrite st_start. discriminate.
  - unfold defined. rewrite (st_rules x Hx). tauto.
Qed.
Lemma st_extends : extends P G.
Proof. intros x Hx. apply st_rules. intros ->. apply Hst, Hx. Qed.
Lemma st_alts : alternatives_for G (lit "start") = alts.
Proof. unfold alternatives_for. rewrite st_start. cbn. apply app_nil_r. Qed.
Lemma st_ignores y : ~ ignores G (lit "start") y.
Proof. intros (r0 & more & E & Ho). rewrite st_start in E. injection E as <- <-. discriminate. Qed.
Lemma st_says i w : says G (lit "start") i w <-> alts !! i = Some w.
Proof.
  split.
  - intros [w' Hw _|w' y _ Hy _]; [rewrite st_alts in Hw; assumption|destruct (st_ignores _ Hy)].
  - intros Hi. apply says_plain; [rewrite st_alts; assumption|]. intros y Hy. destruct (st_ignores _ Hy).
Qed.
Lemma st_instr : instructions_for G (lit "start") = is.
Proof. unfold instructions_for. rewrite st_start. reflexivity. Qed.
End starting.

(** ** A part entered at one name *)
Section entry.
Context {I : Type} (P : list (arule I)) (a : str) (Hpt : part P a) (is : list I).
Notation G := (alone a is P).
Lemma al_extends : extends P G.
Proof. apply st_extends, (pt_no_start _ _ Hpt). Qed.
Lemma al_start i w : says G (lit "start") i w <-> i = 0 /\ w = [NTm a].
Proof.
  unfold alone. rewrite st_says by apply (pt_no_start _ _ Hpt). destruct i as [|[|i]]; cbn; split; try discriminate; try (intros [E1 E2]; discriminate).
  - intros [= <-]. auto.
  - intros [_ ->]. reflexivity.
Qed.
Lemma al_cases x i w : says G x i w -> (x = lit "start" /\ w = [NTm a]) \/ (defined P x /\ says P x i w).
Proof.
  intros Hs. pose proof (says_defined _ _ _ _ Hs) as Hd. apply st_defined in Hd as [->|Hd]; [| |apply (pt_no_start _ _ Hpt)].
  - left. apply al_start in Hs. tauto.
  - right. split; [assumption|]. apply (pa_says P a Hpt G al_extends); assumption.
Qed.
Lemma al_no_start x i u v : ~ says G x i (u ++ NTm (lit "start") :: v).
Proof.
  intros Hs. apply al_cases in Hs as [[_ E]|[_ Hs]].
  - symmetry in E. apply single in E as [E _]. apply (pt_no_start _ _ Hpt). assert (a = lit "start") as <- by congruence. apply (pt_entry _ _ Hpt).
  - pose proof (part_says_in P a Hpt _ _ _ Hs) as Hin. apply Forall_app in Hin as [_ Hin]. apply Forall_cons in Hin as [Hin _]. apply (pt_no_start _ _ Hpt), Hin. reflexivity.
Qed.
Lemma al_fol_start l : nfol G (lit "start") l -> l = MTerminate.
Proof.
  intros Hn. remember (lit "start") as x eqn:E. destruct Hn as [|y i u x v c Hs _|y i u x v l Hs _ _]; [reflexivity|..]; subst x; destruct (al_no_start _ _ _ _ Hs).
Qed.
Lemma al_fol_a : nfol G a MTerminate.
Proof. apply (nf_last G (lit "start") 0 [] a [] MTerminate); [apply al_start; auto|apply nnullable_nil|constructor]. Qed.

Context (rs : list (arule I)) (Hx : extends P rs).
Context (Hent : forall y i u x v, ~ defined P y -> says rs y i (u ++ NTm x :: v) -> defined P x -> x = a).
Notation sP := (pa_says P a Hpt rs Hx).
Notation sG := (pa_says P a Hpt G al_extends).
Lemma both_nullable w : Forall (inp P) w -> nnullable rs w <-> nnullable G w.
Proof. intros Hin. rewrite (pa_nullable P a Hpt rs Hx w Hin), (pa_nullable P a Hpt G al_extends w Hin). reflexivity. Qed.
Lemma both_first w c : Forall (inp P) w -> nfirst rs w c <-> nfirst G w c.
Proof. intros Hin. rewrite (pa_first P a Hpt rs Hx w c Hin), (pa_first P a Hpt G al_extends w c Hin). reflexivity. Qed.
Lemma both_says x i w : defined P x -> says rs x i w <-> says G x i w.
Proof. intros Hd. rewrite (sP x i w Hd), (sG x i w Hd). reflexivity. Qed.
Lemma tail_in x i u e v : defined P x -> says P x i (u ++ e :: v) -> Forall (inp P) v.
Proof. intros Hd Hs. pose proof (part_says_in P a Hpt _ _ _ Hs) as Hin. apply Forall_app in Hin as [_ Hin]. apply Forall_cons in Hin as [_ Hin]. assumption. Qed.
Lemma mid_in x i u y v : defined P x -> says P x i (u ++ NTm y :: v) -> defined P y.
Proof. intros Hd Hs. pose proof (part_says_in P a Hpt _ _ _ Hs) as Hin. apply Forall_app in Hin as [_ Hin]. apply Forall_cons in Hin as [Hin _]. apply Hin. reflexivity. Qed.

Lemma fol_char x c : nfol G x (MChar c) -> defined P x -> nfol rs x (MChar c).
Proof.
  intros Hn. remember (MChar c) as l eqn:E. induction Hn as [|y i u x v c' Hs Hf|y i u x v l Hs Hn Hy IH]; intros Hd; [discriminate| |].
  - pose proof Hs as Hs'. apply al_cases in Hs as [[-> Ew]|[Hdy Hs]].
    + symmetry in Ew. apply single in Ew as (_ & _ & ->). destruct (nfirst_nil G c' Hf).
    + eapply nf_next; [apply (sP _ _ _ Hdy), Hs|]. apply both_first; [exact (tail_in _ _ _ _ _ Hdy Hs)|assumption].
  - subst l. pose proof Hs as Hs'. apply al_cases in Hs as [[-> Ew]|[Hdy Hs]]; [apply al_fol_start in Hy; discriminate|].
    eapply nf_last; [apply (sP _ _ _ Hdy), Hs| |apply IH; [reflexivity|assumption]]. apply both_nullable; [exact (tail_in _ _ _ _ _ Hdy Hs)|assumption].
Qed.
Lemma fol_through x l : nfol G x MTerminate -> defined P x -> nfol rs a l -> nfol rs x l.
Proof.
  intros Hn. remember MTerminate as m eqn:E. induction Hn as [|y i u x v c' Hs Hf|y i u x v m Hs Hn Hy IH]; intros Hd Ha; [|discriminate|].
  - destruct (pt_no_start _ _ Hpt Hd).
  - pose proof Hs as Hs'. apply al_cases in Hs as [[-> Ew]|[Hdy Hs]].
    + symmetry in Ew. apply single in Ew as (Ew & _ & _). assert (x = a) as -> by congruence. assumption.
    + eapply nf_last; [apply (sP _ _ _ Hdy), Hs| |apply IH; assumption]. apply both_nullable; [exact (tail_in _ _ _ _ _ Hdy Hs)|assumption].
Qed.
(** What follows [a] from outside. *)
Definition outer (l : SetMember) : Prop := exists y i u v, ~ defined P y /\ says rs y i (u ++ NTm a :: v) /\
  ((exists c, l = MChar c /\ nfirst rs v c) \/ (nnullable rs v /\ nfol rs y l)).
Lemma outer_fol l : outer l -> nfol rs a l.
Proof. intros (y & i & u & v & _ & Hs & [(c & -> & Hc)|[Hn Hy]]); [eapply nf_next|eapply nf_last]; eassumption. Qed.
Lemma fol_out x l : nfol rs x l -> defined P x -> (exists c, l = MChar c /\ nfol G x l) \/ (nfol G x MTerminate /\ outer l).
Proof.
  intros Hn. induction Hn as [|y i u x v c Hs Hf|y i u x v l Hs Hn Hy IH]; intros Hd.
  - destruct (pt_no_start _ _ Hpt Hd).
  - destruct (defined_dec P y) as [Hdy|Hdy].
    + left. exists c. split; [reflexivity|]. apply sP in Hs; [|assumption]. eapply nf_next; [apply (sG _ _ _ Hdy), Hs|]. apply both_first; [exact (tail_in _ _ _ _ _ Hdy Hs)|assumption].
    + pose proof (Hent y i u x v Hdy Hs Hd) as ->. right. split; [apply al_fol_a|]. exists y, i, u, v. split; [assumption|]. split; [assumption|]. left. eauto.
  - destruct (defined_dec P y) as [Hdy|Hdy].
    + apply sP in Hs; [|assumption]. pose proof (tail_in y i u _ v Hdy Hs) as Hin. assert (nnullable G v) as HnG by (apply both_nullable; assumption).
      destruct (IH Hdy) as [(c & -> & Hc)|[Hc Ho]].
      * left. exists c. split; [reflexivity|]. eapply nf_last; [apply (sG _ _ _ Hdy), Hs|assumption|assumption].
      * right. split; [|assumption]. eapply nf_last; [apply (sG _ _ _ Hdy), Hs|assumption|assumption].
    + pose proof (Hent y i u x v Hdy Hs Hd) as ->. right. split; [apply al_fol_a|]. exists y, i, u, v. split; [assumption|]. split; [assumption|]. right. auto.
Qed.

(** What is chosen. *)
Lemma terminal_nullable (ps : list (arule I)) b : nnullable ps [(b, Terminal)] -> b = [].
Proof.
  intros (z & Hd & He). inversion Hd as [w E|w y z' Hs _]; subst.
  - inversion He as [|? ? Hb _]; subst. congruence.
  - inversion Hs as [u x v i k _ E]. symmetry in E. apply single in E as [E _]. discriminate.
Qed.
Lemma choose_char x i w c : defined P x -> says G x i w -> head w <> Some ([], Terminal) -> nchoose G x w (MChar c) -> nchoose rs x w (MChar c).
Proof.
  intros Hd Hs Hh Hc. apply sG in Hs; [|assumption]. destruct w as [|e w]; cbn [nchoose] in *.
  - apply nfol_follow. apply fol_char; [apply nfol_follow; assumption|assumption].
  - assert (Forall (inp P) [e]) as Hin by (pose proof (part_says_in P a Hpt _ _ _ Hs) as Hin; apply Forall_cons in Hin as [Hin _]; constructor; [assumption|constructor]).
    destruct Hc as [(c' & E & Hf)|[Hn Hf]].
    + left. exists c'. split; [assumption|]. apply both_first; assumption.
    + right. split; [apply both_nullable; assumption|]. destruct e as [y []].
      * apply terminal_nullable in Hn. subst y. destruct Hh. reflexivity.
      * apply nfol_follow, fol_char; [apply nfol_follow; assumption|]. inversion Hin; subst. auto.
Qed.
Lemma choose_through x i w l : defined P x -> says G x i w -> head w <> Some ([], Terminal) -> nchoose G x w MTerminate -> nfol rs a l -> nchoose rs x w l.
Proof.
  intros Hd Hs Hh Hc Ha. apply sG in Hs; [|assumption]. destruct w as [|e w]; cbn [nchoose] in *.
  - apply nfol_follow. apply fol_through; [apply nfol_follow; assumption|assumption|assumption].
  - assert (Forall (inp P) [e]) as Hin by (pose proof (part_says_in P a Hpt _ _ _ Hs) as Hin; apply Forall_cons in Hin as [Hin _]; constructor; [assumption|constructor]).
    destruct Hc as [(c' & E & Hf)|[Hn Hf]]; [discriminate|].
    right. split; [apply both_nullable; assumption|]. destruct e as [y []].
    + apply terminal_nullable in Hn. subst y. destruct Hh. reflexivity.
    + apply nfol_follow, fol_through; [apply nfol_follow; assumption| |assumption]. inversion Hin; subst. auto.
Qed.
Lemma choose_out x i w l : defined P x -> says rs x i w -> head w <> Some ([], Terminal) -> nchoose rs x w l ->
  (exists c, l = MChar c /\ nchoose G x w l) \/ (nchoose G x w MTerminate /\ outer l).
Proof.
  intros Hd Hs Hh Hc. apply sP in Hs; [|assumption]. destruct w as [|e w]; cbn [nchoose] in *.
  - apply nfol_follow in Hc. apply fol_out in Hc; [|assumption]. destruct Hc as [(c & -> & Hc)|[Hc Ho]]; [left; exists c; split; [reflexivity|]|right; split; [|assumption]]; apply nfol_follow; assumption.
  - assert (Forall (inp P) [e]) as Hin by (pose proof (part_says_in P a Hpt _ _ _ Hs) as Hin; apply Forall_cons in Hin as [Hin _]; constructor; [assumption|constructor]).
    destruct Hc as [(c' & -> & Hf)|[Hn Hf]]; [left; exists c'; split; [reflexivity|]; left; exists c'; split; [reflexivity|apply both_first; assumption]|].
    assert (nnullable G [e]) as HnG by (apply both_nullable; assumption). destruct e as [y []].
    + apply terminal_nullable in Hn. subst y. destruct Hh. reflexivity.
    + assert (defined P y) as Hy by (inversion Hin; subst; auto). apply nfol_follow, fol_out in Hf; [|assumption]. destruct Hf as [(c & -> & Hc)|[Hc Ho]].
      * left. exists c. split; [reflexivity|]. right. split; [assumption|]. apply nfol_follow. assumption.
      * right. split; [|assumption]. right. split; [assumption|]. apply nfol_follow. assumption.
Qed.

(** Left calls stay in the part. *)
Lemma left_in x y : defined P x -> nleft_calls rs x y <-> nleft_calls G x y.
Proof.
  intros Hd. split; intros (i & u & v & Hs & Hn); exists i, u, v.
  - assert (Forall (inp P) u) as Hin by (apply sP in Hs; [|assumption]; pose proof (part_says_in P a Hpt _ _ _ Hs) as Hin; apply Forall_app in Hin; tauto).
    split; [apply (both_says x i _ Hd), Hs|apply (both_nullable u Hin), Hn].
  - assert (Forall (inp P) u) as Hin by (apply sG in Hs; [|assumption]; pose proof (part_says_in P a Hpt _ _ _ Hs) as Hin; apply Forall_app in Hin; tauto).
    split; [apply (both_says x i _ Hd), Hs|apply (both_nullable u Hin), Hn].
Qed.
Lemma left_next x y : defined P x -> nleft_calls G x y -> defined P y.
Proof. intros Hd (i & u & v & Hs & _). apply sG in Hs; [|assumption]. eapply mid_in; eassumption. Qed.
Lemma left_chain_in x y : defined P x -> tc (nleft_calls rs) x y <-> tc (nleft_calls G) x y.
Proof.
  intros Hd. split; intros Ht.
  - induction Ht as [x y Hc|x y z Hc _ IH]; apply left_in in Hc; try assumption; [apply tc_once; assumption|]. eapply tc_l; [eassumption|]. apply IH. eapply left_next; eassumption.
  - induction Ht as [x y Hc|x y z Hc _ IH]; [apply tc_once, left_in; assumption|]. pose proof (left_next _ _ Hd Hc). eapply tc_l; [apply left_in; eassumption|]. apply IH. assumption.
Qed.
Lemma al_left x : tc (nleft_calls G) x x -> defined P x.
Proof.
  assert (forall x y, tc (nleft_calls G) x y -> defined P y) as Hall; [|apply Hall].
  intros x0 y Ht. apply tc_r_1 in Ht || idtac. induction Ht as [x0 y Hc|x0 y z Hc _ IH]; [|assumption].
  destruct Hc as (i & u & v & Hs & _). apply al_cases in Hs as [[_ E]|[Hd Hs]].
  - symmetry in E. apply single in E as [E _]. assert (a = y) as <- by congruence. apply (pt_entry _ _ Hpt).
  - eapply mid_in; eassumption.
Qed.

(** The part on its own can be parsed if the whole can and something follows [a]. *)
Lemma part_parsable l : parsable rs -> nfol rs a l -> parsable G.
Proof.
  intros Hp Ha. pose proof (pt_no_start _ _ Hpt) as Hns. split.
  - apply st_defined; auto.
  - intros x y (w & Hw & Hy). apply st_defined; [assumption|]. right. destruct (defined_dec P x) as [Hd|Hd].
    + apply (pt_uses _ _ Hpt x). rewrite (pa_alts P G al_extends x Hd) in Hw. exists w. auto.
    + destruct (decide (x = lit "start")) as [->|Hx'].
      * unfold alone in Hw. rewrite st_alts in Hw by assumption. apply elem_of_list_singleton in Hw as ->. apply elem_of_list_singleton in Hy. assert (y = a) as -> by congruence. apply (pt_entry _ _ Hpt).
      * unfold alternatives_for, alone in Hw. rewrite st_rules in Hw by assumption. unfold defined in Hd. destruct (rules_for x P); [inversion Hw|destruct Hd; discriminate].
  - intros x y Hi. apply st_defined; [assumption|]. right. destruct (decide (x = lit "start")) as [->|Hx']; [destruct (st_ignores _ _ _ Hns _ Hi)|].
    apply (pt_ignores _ _ Hpt x). unfold ignores in *. unfold alone in Hi. rewrite st_rules in Hi by assumption. assumption.
  - intros x Ht. pose proof (al_left x Ht) as Hd. apply (pa_no_left_recursion _ Hp x), left_chain_in; assumption.
  - intros x i w Hs. pose proof Hs as Hs'. apply al_cases in Hs as [[_ ->]|[Hd Hs]]; [discriminate|]. apply (pa_no_empty_terminal _ Hp x i), both_says; assumption.
  - intros x i j w w' m H1 H2 Hij C1 C2. pose proof H1 as H1'. apply al_cases in H1' as [[-> ->]|[Hd _]].
    + apply al_start in H1 as [-> _]. apply al_start in H2 as [-> _]. destruct (Hij eq_refl).
    + assert (says rs x i w) as R1 by (apply both_says; assumption). assert (says rs x j w') as R2 by (apply both_says; assumption).
      pose proof (pa_no_empty_terminal _ Hp _ _ _ R1) as E1. pose proof (pa_no_empty_terminal _ Hp _ _ _ R2) as E2.
      destruct m as [c|].
      * eapply (pa_distinct _ Hp x i j w w' (MChar c)); eauto using choose_char.
      * eapply (pa_distinct _ Hp x i j w w' l); eauto using choose_through.
Qed.
Lemma part_goes_on c : parsable rs -> nfol rs a (MChar c) -> ~ goes_on G c.
Proof.
  intros Hp Ha (x & i & j & w & w' & H1 & H2 & Hij & C1 & C2). pose proof H1 as H1'. apply al_cases in H1' as [[-> ->]|[Hd _]].
  - apply al_start in H1 as [-> _]. apply al_start in H2 as [-> _]. destruct (Hij eq_refl).
  - assert (says rs x i w) as R1 by (apply both_says; assumption). assert (says rs x j w') as R2 by (apply both_says; assumption).
    pose proof (pa_no_empty_terminal _ Hp _ _ _ R1) as E1. pose proof (pa_no_empty_terminal _ Hp _ _ _ R2) as E2.
    eapply (pa_distinct _ Hp x i j w w' (MChar c)); eauto using choose_char, choose_through.
Qed.
(** No conflict in the part. *)
Lemma part_distinct : parsable G -> (forall l, outer l -> l = MTerminate \/ exists c, l = MChar c /\ ~ goes_on G c) ->
  forall x i j w w' l, defined P x -> says rs x i w -> says rs x j w' -> i <> j -> nchoose rs x w l -> nchoose rs x w' l -> False.
Proof.
  intros Hp Ho x i j w w' l Hd R1 R2 Hij C1 C2. assert (says G x i w) as H1 by (apply both_says; assumption). assert (says G x j w') as H2 by (apply both_says; assumption).
  pose proof (pa_no_empty_terminal _ Hp _ _ _ H1) as E1. pose proof (pa_no_empty_terminal _ Hp _ _ _ H2) as E2.
  pose proof (pa_distinct _ Hp x i j w w') as Hdis.
  apply (choose_out x i) in C1; [|assumption..]. apply (choose_out x j) in C2; [|assumption..].
  destruct C1 as [(c & -> & C1)|[C1 O1]], C2 as [(c' & E & C2)|[C2 O2]].
  - eauto.
  - destruct (Ho _ O2) as [?|(c' & [= <-] & Hg)]; [discriminate|]. apply Hg. exists x, j, i, w', w. auto.
  - subst l. destruct (Ho _ O1) as [?|(c & [= <-] & Hg)]; [discriminate|]. apply Hg. exists x, i, j, w, w'. auto.
  - eauto.
Qed.
Lemma part_no_left : parsable G -> forall x, defined P x -> ~ tc (nleft_calls rs) x x.
Proof. intros Hp x Hd Ht. apply left_chain_in in Ht; [|assumption]. exact (pa_no_left_recursion _ Hp x Ht). Qed.
Lemma part_left_stays x y : defined P x -> tc (nleft_calls rs) x y -> defined P y.
Proof.
  intros Hd Ht. induction Ht as [x y Hc|x y z Hc _ IH].
  - eapply left_next; [eassumption|]. apply left_in; eassumption.
  - apply IH. eapply left_next; [eassumption|]. apply left_in; eassumption.
Qed.
End entry.

(** ** Two parts *)
Section two.
Context {I : Type} (P Q : list (arule I)) (a b : str) (HP : part P a) (HQ : part Q b) (Hap : apart P Q) (is : list I).
Context (alts : list (list (str * ElementType))) (Hal : forall w e, w ∈ alts -> e ∈ w -> e = NTm a \/ e = NTm b).
Notation W := (starting alts is (P ++ Q)).
Lemma two_no_start : ~ defined (P ++ Q) (lit "start").
Proof. rewrite defined_app. intros [Hd|Hd]; [exact (pt_no_start _ _ HP Hd)|exact (pt_no_start _ _ HQ Hd)]. Qed.
Lemma two_left : extends P W.
Proof. eapply extends_trans; [apply extends_left, Hap|apply st_extends, two_no_start]. Qed.
Lemma two_right : extends Q W.
Proof. eapply extends_trans; [apply extends_right, Hap|apply st_extends, two_no_start]. Qed.
Lemma two_start i w : says W (lit "start") i w <-> alts !! i = Some w.
Proof. apply st_says, two_no_start. Qed.
Lemma two_cases x i w : says W x i w -> (x = lit "start" /\ alts !! i = Some w) \/ (defined P x /\ says P x i w) \/ (defined Q x /\ says Q x i w).
Proof.
  intros Hs. pose proof (says_defined _ _ _ _ Hs) as Hd. apply st_defined in Hd as [->|Hd]; [left; split; [reflexivity|apply two_start; assumption]| |apply two_no_start].
  right. apply defined_app in Hd as [Hd|Hd]; [left|right]; (split; [assumption|]).
  - apply (pa_says P a HP W two_left x i w Hd), Hs.
  - apply (pa_says Q b HQ W two_right x i w Hd), Hs.
Qed.
Lemma in_mid {A} (u : list A) e v : e ∈ u ++ e :: v.
Proof. apply elem_of_app. right. left. Qed.
Lemma two_entry_P y i u x v : ~ defined P y -> says W y i (u ++ NTm x :: v) -> defined P x -> x = a.
Proof.
  intros Hy Hs Hx. apply two_cases in Hs as [[-> Hw]|[[Hd _]|[Hd Hs]]]; [|destruct (Hy Hd)|].
  - apply elem_of_list_lookup_2 in Hw. destruct (Hal _ (NTm x) Hw (in_mid _ _ _)) as [E|E]; [congruence|]. assert (x = b) as -> by congruence. destruct (Hap b Hx (pt_entry _ _ HQ)).
  - destruct (Hap x Hx). eapply mid_in; eassumption.
Qed.
Lemma two_entry_Q y i u x v : ~ defined Q y -> says W y i (u ++ NTm x :: v) -> defined Q x -> x = b.
Proof.
  intros Hy Hs Hx. apply two_cases in Hs as [[-> Hw]|[[Hd Hs]|[Hd _]]]; [| |destruct (Hy Hd)].
  - apply elem_of_list_lookup_2 in Hw. destruct (Hal _ (NTm x) Hw (in_mid _ _ _)) as [E|E]; [|congruence]. assert (x = a) as -> by congruence. destruct (Hap a (pt_entry _ _ HP) Hx).
  - destruct (Hap x); [eapply mid_in; eassumption|assumption].
Qed.
Lemma two_not_start x i u v : ~ says W x i (u ++ NTm (lit "start") :: v).
Proof.
  intros Hs. apply two_cases in Hs as [[-> Hw]|[[Hd Hs]|[Hd Hs]]].
  - apply elem_of_list_lookup_2 in Hw. destruct (Hal _ _ Hw (in_mid _ _ _)) as [E|E].
    + apply (pt_no_start _ _ HP). assert (lit "start" = a) as -> by congruence. apply (pt_entry _ _ HP).
    + apply (pt_no_start _ _ HQ). assert (lit "start" = b) as -> by congruence. apply (pt_entry _ _ HQ).
  - apply (pt_no_start _ _ HP). eapply mid_in; eassumption.
  - apply (pt_no_start _ _ HQ). eapply mid_in; eassumption.
Qed.
Lemma two_fol_start l : nfol W (lit "start") l -> l = MTerminate.
Proof.
  intros Hn. remember (lit "start") as x eqn:E. destruct Hn as [|y i u x v c Hs _|y i u x v l Hs _ _]; [reflexivity|..]; subst x; destruct (two_not_start _ _ _ _ Hs).
Qed.
Lemma two_outside_P y i u v : ~ defined P y -> says W y i (u ++ NTm a :: v) -> y = lit "start" /\ alts !! i = Some (u ++ NTm a :: v).
Proof.
  intros Hy Hs. apply two_cases in Hs as [?|[[Hd _]|[Hd Hs]]]; [assumption|destruct (Hy Hd)|]. destruct (Hap a (pt_entry _ _ HP)). eapply mid_in; eassumption.
Qed.
Lemma two_outside_Q y i u v : ~ defined Q y -> says W y i (u ++ NTm b :: v) -> y = lit "start" /\ alts !! i = Some (u ++ NTm b :: v).
Proof.
  intros Hy Hs. apply two_cases in Hs as [?|[[Hd Hs]|[Hd _]]]; [assumption| |destruct (Hy Hd)]. destruct (Hap b); [|apply (pt_entry _ _ HQ)]. eapply mid_in; eassumption.
Qed.
Context (is1 is2 : list I).
Notation G1 := (alone a is1 P).
Notation G2 := (alone b is2 Q).
(** Everything but the conflicts of start. *)
Lemma two_parsable : parsable G1 -> parsable G2 -> (forall l, outer P a W l -> l = MTerminate \/ exists c, l = MChar c /\ ~ goes_on G1 c) ->
  (forall l, outer Q b W l -> l = MTerminate \/ exists c, l = MChar c /\ ~ goes_on G2 c) ->
  (forall i j w w' l, alts !! i = Some w -> alts !! j = Some w' -> i <> j -> nchoose W (lit "start") w l -> nchoose W (lit "start") w' l -> False) -> parsable W.
Proof.
  intros Hp1 Hp2 Ho1 Ho2 Hdis. pose proof two_no_start as Hns. split.
  - apply st_defined; auto.
  - intros x y (w & Hw & Hy). apply st_defined; [assumption|]. right. apply defined_app. destruct (defined_dec (P ++ Q) x) as [Hd|Hd].
    + apply defined_app in Hd as [Hd|Hd].
      * left. apply (pt_uses _ _ HP x). rewrite (pa_alts P W two_left x Hd) in Hw. exists w. auto.
      * right. apply (pt_uses _ _ HQ x). rewrite (pa_alts Q W two_right x Hd) in Hw. exists w. auto.
    + destruct (decide (x = lit "start")) as [->|Hx'].
      * rewrite st_alts in Hw by assumption. destruct (Hal _ _ Hw Hy) as [E|E]; [left|right]; injection E as ->; [apply (pt_entry _ _ HP)|apply (pt_entry _ _ HQ)].
      * unfold alternatives_for in Hw. rewrite st_rules in Hw by assumption. unfold defined in Hd. destruct (rules_for x (P ++ Q)); [inversion Hw|destruct Hd; discriminate].
  - intros x y Hi. apply st_defined; [assumption|]. right. destruct (decide (x = lit "start")) as [->|Hx']; [destruct (st_ignores _ _ _ Hns _ Hi)|].
    apply defined_app. assert (defined (P ++ Q) x) as Hd.
    { destruct Hi as (r & more & E & _). unfold defined. rewrite st_rules in E by assumption. rewrite E. discriminate. }
    apply defined_app in Hd as [Hd|Hd].
    + left. apply (pt_ignores _ _ HP x). apply (pa_ignores P W two_left x y Hd), Hi.
    + right. apply (pt_ignores _ _ HQ x). apply (pa_ignores Q W two_right x y Hd), Hi.
  - intros x Ht. assert (x = lit "start" \/ defined P x \/ defined Q x) as [->|[Hd|Hd]].
    { assert (forall x y, tc (nleft_calls W) x y -> defined W x) as Hl.
      { intros x0 y0 T0. assert (exists z, nleft_calls W x0 z) as (z & i & u & v & Hs & _) by (inversion T0; eauto). eapply says_defined; eassumption. }
      apply Hl, st_defined in Ht; [|assumption]. rewrite defined_app in Ht. assumption. }
    + assert (forall x y, tc (nleft_calls W) x y -> y <> lit "start") as Hl; [|apply (Hl _ _ Ht); reflexivity].
      intros x y Ht'. induction Ht' as [x y (i & u & v & Hs & _)|x y z _ _ IH]; [|assumption]. intros ->. destruct (two_not_start _ _ _ _ Hs).
    + exact (part_no_left P a HP is1 W two_left Hp1 x Hd Ht).
    + exact (part_no_left Q b HQ is2 W two_right Hp2 x Hd Ht).
  - intros x i w Hs. apply two_cases in Hs as [[-> Hw]|[[Hd Hs]|[Hd Hs]]].
    + intros E. destruct w as [|e w]; [discriminate|]. apply elem_of_list_lookup_2 in Hw. destruct (Hal _ e Hw ltac:(left)) as [->| ->]; discriminate.
    + apply (pa_no_empty_terminal _ Hp1 x i). apply (pa_says P a HP G1 (al_extends P a HP is1) x i w Hd), Hs.
    + apply (pa_no_empty_terminal _ Hp2 x i). apply (pa_says Q b HQ G2 (al_extends Q b HQ is2) x i w Hd), Hs.
  - intros x i j w w' l H1 H2 Hij C1 C2. pose proof H1 as H1'. apply two_cases in H1' as [[-> _]|[[Hd _]|[Hd _]]].
    + apply two_start in H1. apply two_start in H2. eauto.
    + exact (part_distinct P a HP is1 W two_left two_entry_P Hp1 Ho1 x i j w w' l Hd H1 H2 Hij C1 C2).
    + exact (part_distinct Q b HQ is2 W two_right two_entry_Q Hp2 Ho2 x i j w w' l Hd H1 H2 Hij C1 C2).
Qed.
End two.

(** ** One or the other *)
Section either.
Context {I : Type} (P Q : list (arule I)) (a b : str) (HP : part P a) (HQ : part Q b) (Hap : apart P Q) (is is1 is2 : list I).
Notation W := (either a b is P Q).
Notation G1 := (alone a is1 P).
Notation G2 := (alone b is2 Q).
Lemma ei_alts w e : w ∈ [[NTm a]; [NTm b]] -> e ∈ w -> e = NTm a \/ e = NTm b.
Proof. intros Hw He. apply elem_of_cons in Hw as [->|Hw]; [|apply elem_of_list_singleton in Hw as ->]; apply elem_of_list_singleton in He; auto. Qed.
Lemma ei_start i w : says W (lit "start") i w <-> (i = 0 /\ w = [NTm a]) \/ (i = 1 /\ w = [NTm b]).
Proof.
  unfold either. rewrite (two_start P Q a b HP HQ). destruct i as [|[|[|i]]]; cbn; split; try discriminate; try (intros [[? ?]|[? ?]]; discriminate).
  - intros [= <-]. auto.
  - intros [[_ ->]|[? _]]; [reflexivity|discriminate].
  - intros [= <-]. auto.
  - intros [[? _]|[_ ->]]; [discriminate|reflexivity].
Qed.
Lemma ei_outer_P l : outer P a W l -> l = MTerminate.
Proof.
  intros (y & i & u & v & Hy & Hs & Hl). destruct (two_outside_P P Q a b HP HQ Hap is _ y i u v Hy Hs) as [-> Hw].
  apply elem_of_list_lookup_2 in Hw. assert (v = []) as -> by (apply elem_of_cons in Hw as [E|Hw]; [|apply elem_of_list_singleton in Hw as E]; symmetry in E; apply single in E; tauto).
  destruct Hl as [(c & _ & Hc)|[_ Hf]]; [destruct (nfirst_nil _ _ Hc)|]. exact (two_fol_start P Q a b HP HQ Hap is _ ei_alts l Hf).
Qed.
Lemma ei_outer_Q l : outer Q b W l -> l = MTerminate.
Proof.
  intros (y & i & u & v & Hy & Hs & Hl). destruct (two_outside_Q P Q a b HP HQ Hap is _ y i u v Hy Hs) as [-> Hw].
  apply elem_of_list_lookup_2 in Hw. assert (v = []) as -> by (apply elem_of_cons in Hw as [E|Hw]; [|apply elem_of_list_singleton in Hw as E]; symmetry in E; apply single in E; tauto).
  destruct Hl as [(c & _ & Hc)|[_ Hf]]; [destruct (nfirst_nil _ _ Hc)|]. exact (two_fol_start P Q a b HP HQ Hap is _ ei_alts l Hf).
Qed.
Lemma ei_fol_a : nfol W a MTerminate.
Proof. apply (nf_last W (lit "start") 0 [] a []); [apply ei_start; auto|apply nnullable_nil|constructor]. Qed.
Lemma ei_fol_b : nfol W b MTerminate.
Proof. apply (nf_last W (lit "start") 1 [] b []); [apply ei_start; auto|apply nnullable_nil|constructor]. Qed.
Lemma ei_left : extends P W. Proof. exact (two_left P Q a b HP HQ Hap is _). Qed.
Lemma ei_right : extends Q W. Proof. exact (two_right P Q a b HP HQ Hap is _). Qed.
Lemma in_a : Forall (inp P) [NTm a]. Proof. constructor; [intros _; apply (pt_entry _ _ HP)|constructor]. Qed.
Lemma in_b : Forall (inp Q) [NTm b]. Proof. constructor; [intros _; apply (pt_entry _ _ HQ)|constructor]. Qed.
Lemma ei_announces_a l : announces W a l <-> announces G1 a l.
Proof.
  unfold announces. rewrite (both_nullable P a HP is1 W ei_left _ in_a). setoid_rewrite (both_first P a HP is1 W ei_left _ _ in_a). rewrite <- !nfol_follow.
  assert (nfol W a l <-> nfol G1 a l) as ->; [|reflexivity]. split; intros Hf.
  - destruct (fol_out P a HP is1 W ei_left (two_entry_P P Q a b HP HQ Hap is _ ei_alts) a l Hf (pt_entry _ _ HP)) as [(c & _ & Hc)|[Hc Ho]]; [assumption|].
    apply ei_outer_P in Ho. subst l. assumption.
  - destruct l as [c|]; [|apply ei_fol_a]. apply (fol_char P a HP is1 W ei_left); [assumption|apply (pt_entry _ _ HP)].
Qed.
Lemma ei_announces_b l : announces W b l <-> announces G2 b l.
Proof.
  unfold announces. rewrite (both_nullable Q b HQ is2 W ei_right _ in_b). setoid_rewrite (both_first Q b HQ is2 W ei_right _ _ in_b). rewrite <- !nfol_follow.
  assert (nfol W b l <-> nfol G2 b l) as ->; [|reflexivity]. split; intros Hf.
  - destruct (fol_out Q b HQ is2 W ei_right (two_entry_Q P Q a b HP HQ Hap is _ ei_alts) b l Hf (pt_entry _ _ HQ)) as [(c & _ & Hc)|[Hc Ho]]; [assumption|].
    apply ei_outer_Q in Ho. subst l. assumption.
  - destruct l as [c|]; [|apply ei_fol_b]. apply (fol_char Q b HQ is2 W ei_right); [assumption|apply (pt_entry _ _ HQ)].
Qed.
Lemma either_parsable : parsable W <-> parsable G1 /\ parsable G2 /\ forall l, announces G1 a l -> announces G2 b l -> False.
Proof.
  split.
  - intros Hp. split; [|split].
    + exact (part_parsable P a HP is1 W ei_left MTerminate Hp ei_fol_a).
    + exact (part_parsable Q b HQ is2 W ei_right MTerminate Hp ei_fol_b).
    + intros l H1 H2. apply ei_announces_a in H1. apply ei_announces_b in H2.
      apply (pa_distinct _ Hp (lit "start") 0 1 [NTm a] [NTm b] l); [apply ei_start; auto|apply ei_start; auto|discriminate|assumption|assumption].
  - intros (H1 & H2 & Hd). apply (two_parsable P Q a b HP HQ Hap is _ ei_alts is1 is2 H1 H2).
    + intros l Ho. left. apply ei_outer_P, Ho.
    + intros l Ho. left. apply ei_outer_Q, Ho.
    + intros i j w w' l Hi Hj Hij C1 C2. apply (two_start P Q a b HP HQ is), ei_start in Hi. apply (two_start P Q a b HP HQ is), ei_start in Hj.
      destruct Hi as [[-> ->]|[-> ->]], Hj as [[-> ->]|[-> ->]]; try (destruct (Hij eq_refl)).
      * apply (Hd l); [apply ei_announces_a|apply ei_announces_b]; assumption.
      * apply (Hd l); [apply ei_announces_a|apply ei_announces_b]; assumption.
Qed.
End either.

(** ** One after the other *)
Section in_turn.
Context {I : Type} (P Q : list (arule I)) (a b : str) (HP : part P a) (HQ : part Q b) (Hap : apart P Q) (is is1 is2 : list I).
Notation W := (in_turn a b is P Q).
Notation G1 := (alone a is1 P).
Notation G2 := (alone b is2 Q).
Lemma it_alts w e : w ∈ [[NTm a; NTm b]] -> e ∈ w -> e = NTm a \/ e = NTm b.
Proof. intros Hw He. apply elem_of_list_singleton in Hw as ->. apply elem_of_cons in He as [->|He]; [auto|]. apply elem_of_list_singleton in He. auto. Qed.
Lemma it_start i w : says W (lit "start") i w <-> i = 0 /\ w = [NTm a; NTm b].
Proof.
  unfold in_turn. rewrite (two_start P Q a b HP HQ). destruct i as [|[|i]]; cbn; split; try discriminate; try (intros [? ?]; discriminate).
  - intros [= <-]. auto.
  - intros [_ ->]. reflexivity.
Qed.
Lemma pair_split (u v : list (str * ElementType)) x : [NTm a; NTm b] = u ++ NTm x :: v -> (x = a /\ u = [] /\ v = [NTm b]) \/ (x = b /\ u = [NTm a] /\ v = []).
Proof.
  destruct u as [|e [|e' [|? ?]]]; cbn; intros E.
  - left. injection E as -> <-. auto.
  - right. injection E as <- -> <-. auto.
  - discriminate.
  - discriminate.
Qed.
Lemma a_not_b : a <> b.
Proof. intros E. apply (Hap a); [apply (pt_entry _ _ HP)|rewrite E; apply (pt_entry _ _ HQ)]. Qed.
Lemma it_left : extends P W. Proof. exact (two_left P Q a b HP HQ Hap is _). Qed.
Lemma it_right : extends Q W. Proof. exact (two_right P Q a b HP HQ Hap is _). Qed.
Lemma it_in_b : Forall (inp Q) [NTm b]. Proof. constructor; [intros _; apply (pt_entry _ _ HQ)|constructor]. Qed.
Lemma it_outer_P l : outer P a W l -> l = MTerminate \/ exists c, l = MChar c /\ nfirst G2 [NTm b] c.
Proof.
  intros (y & i & u & v & Hy & Hs & Hl). destruct (two_outside_P P Q a b HP HQ Hap is _ y i u v Hy Hs) as [-> _]. apply it_start in Hs as [_ E]. symmetry in E.
  apply pair_split in E as [(_ & -> & ->)|(E & _)]; [|destruct (a_not_b E)]. destruct Hl as [(c & -> & Hc)|[_ Hf]].
  - right. exists c. split; [reflexivity|]. apply (both_first Q b HQ is2 W it_right _ _ it_in_b), Hc.
  - left. exact (two_fol_start P Q a b HP HQ Hap is _ it_alts l Hf).
Qed.
Lemma it_outer_Q l : outer Q b W l -> l = MTerminate.
Proof.
  intros (y & i & u & v & Hy & Hs & Hl). destruct (two_outside_Q P Q a b HP HQ Hap is _ y i u v Hy Hs) as [-> _]. apply it_start in Hs as [_ E]. symmetry in E.
  apply pair_split in E as [(E & _)|(_ & -> & ->)]; [destruct (a_not_b (eq_sym E))|]. destruct Hl as [(c & -> & Hc)|[_ Hf]]; [destruct (nfirst_nil _ _ Hc)|].
  exact (two_fol_start P Q a b HP HQ Hap is _ it_alts l Hf).
Qed.
Lemma it_fol_b : nfol W b MTerminate.
Proof. apply (nf_last W (lit "start") 0 [NTm a] b []); [apply it_start; auto|apply nnullable_nil|constructor]. Qed.
Lemma it_fol_a c : nfirst G2 [NTm b] c -> nfol W a (MChar c).
Proof. intros Hc. apply (nf_next W (lit "start") 0 [] a [NTm b]); [apply it_start; auto|]. apply (both_first Q b HQ is2 W it_right _ _ it_in_b), Hc. Qed.
Lemma it_fol_a_end : nnullable G2 [NTm b] -> nfol W a MTerminate.
Proof. intros Hc. apply (nf_last W (lit "start") 0 [] a [NTm b]); [apply it_start; auto| |constructor]. apply (both_nullable Q b HQ is2 W it_right _ it_in_b), Hc. Qed.
(** [b] begins with something. *)
Context (Hbegin : parsable G2 -> nnullable G2 [NTm b] \/ exists c, nfirst G2 [NTm b] c).
Lemma in_turn_parsable : parsable W <-> parsable G1 /\ parsable G2 /\ forall c, nfirst G2 [NTm b] c -> ~ goes_on G1 c.
Proof.
  split.
  - intros Hp. assert (parsable G2) as H2 by exact (part_parsable Q b HQ is2 W it_right MTerminate Hp it_fol_b). split; [|split; [assumption|]].
    + destruct (Hbegin H2) as [Hn|[c Hc]]; [eapply (part_parsable P a HP is1 W it_left _ Hp), it_fol_a_end, Hn|eapply (part_parsable P a HP is1 W it_left _ Hp), it_fol_a, Hc].
    + intros c Hc. apply (part_goes_on P a HP is1 W it_left c Hp). apply it_fol_a, Hc.
  - intros (H1 & H2 & Hd). apply (two_parsable P Q a b HP HQ Hap is _ it_alts is1 is2 H1 H2).
    + intros l Ho. apply it_outer_P in Ho as [->|(c & -> & Hc)]; eauto.
    + intros l Ho. left. apply it_outer_Q, Ho.
    + intros i j w w' l Hi Hj Hij _ _. apply (two_start P Q a b HP HQ is), it_start in Hi as [-> _]. apply (two_start P Q a b HP HQ is), it_start in Hj as [-> _]. auto.
Qed.
End in_turn.

(** ** Any number of times *)
Lemma nfirst_unfold {I} (rs : list (arule I)) x c : nfirst rs [NTm x] c -> exists i w, says rs x i w /\ nfirst rs w c.
Proof.
  intros (u & s & v & Hd & He). inversion Hd as [w E0 E|w y z Hs Hr]; subst.
  - apply single in E as [E _]. discriminate.
  - inversion Hs as [p q r i k Hk E Ey]. symmetry in E. apply single in E as (E & -> & ->). assert (q = x) as -> by congruence.
    exists i, k. split; [assumption|]. subst y. cbn [app] in Hr. rewrite app_nil_r in Hr. exists u, s, v. auto.
Qed.
Section repeated.
Context {I : Type} (P : list (arule I)) (a : str) (HP : part P a) (is is1 : list I).
Notation W := (repeated a is P).
Notation G1 := (alone a is1 P).
Notation start := (lit "start").
Lemma re_left : extends P W. Proof. apply st_extends, (pt_no_start _ _ HP). Qed.
Lemma re_start i w : says W start i w <-> (i = 0 /\ w = [NTm a; NTm start]) \/ (i = 1 /\ w = []).
Proof.
  unfold repeated. rewrite st_says by apply (pt_no_start _ _ HP). destruct i as [|[|[|i]]]; cbn [lookup list_lookup]; split; try discriminate; try (intros [[? ?]|[? ?]]; discriminate).
  - intros E. left. split; [reflexivity|congruence].
  - intros [[_ ->]|[? _]]; [reflexivity|discriminate].
  - intros E. right. split; [reflexivity|congruence].
  - intros [[? _]|[_ ->]]; [discriminate|reflexivity].
Qed.
Lemma re_cases x i w : says W x i w -> (x = start /\ ((i = 0 /\ w = [NTm a; NTm start]) \/ (i = 1 /\ w = []))) \/ (defined P x /\ says P x i w).
Proof.
  intros Hs. pose proof (says_defined _ _ _ _ Hs) as Hd. apply st_defined in Hd as [->|Hd]; [| |apply (pt_no_start _ _ HP)].
  - left. split; [reflexivity|]. apply re_start, Hs.
  - right. split; [assumption|]. apply (pa_says P a HP W re_left x i w Hd), Hs.
Qed.
Lemma a_not_start : a <> start.
Proof. intros E. apply (pt_no_start _ _ HP). rewrite <- E. apply (pt_entry _ _ HP). Qed.
Lemma re_split (u v : list (str * ElementType)) x : [NTm a; NTm start] = u ++ NTm x :: v -> (x = a /\ u = [] /\ v = [NTm start]) \/ (x = start /\ u = [NTm a] /\ v = []).
Proof.
  clear HP. destruct u as [|e [|e' [|? ?]]]; cbn [app]; intros E.
  - left. split; [congruence|]. split; [reflexivity|congruence].
  - right. assert (v = []) as -> by congruence. assert (x = start) as -> by congruence. split; [reflexivity|]. split; [congruence|reflexivity].
  - discriminate.
  - discriminate.
Qed.
Lemma re_entry y i u x v : ~ defined P y -> says W y i (u ++ NTm x :: v) -> defined P x -> x = a.
Proof.
  intros Hy Hs Hx. apply re_cases in Hs as [[-> [[_ E]|[_ E]]]|[Hd _]]; [|destruct u; discriminate|destruct (Hy Hd)].
  symmetry in E. apply re_split in E as [[-> _]|[-> _]]; [reflexivity|]. destruct (pt_no_start _ _ HP Hx).
Qed.
Lemma re_uses_start y i u v : says W y i (u ++ NTm start :: v) -> y = start /\ u = [NTm a] /\ v = [].
Proof.
  intros Hs. apply re_cases in Hs as [[-> [[_ E]|[_ E]]]|[Hd Hs]]; [|destruct u; discriminate|].
  - symmetry in E. apply re_split in E as [[E _]|(_ & -> & ->)]; [destruct (a_not_start (eq_sym E))|auto].
  - destruct (pt_no_start _ _ HP). eapply mid_in; eassumption.
Qed.
Lemma re_fol_start l : nfol W start l -> l = MTerminate.
Proof.
  intros Hn. remember start as x eqn:E. induction Hn as [|y i u x v c Hs Hf|y i u x v l Hs _ _ IH]; [reflexivity|..]; subst x; apply re_uses_start in Hs as (-> & -> & ->).
  - destruct (nfirst_nil _ _ Hf).
  - auto.
Qed.
Lemma re_nullable : nnullable W [NTm start].
Proof. exists []. split; [|constructor]. apply rtc_once. apply (nstep_intro W [] start [] 1 []), re_start. auto. Qed.
Lemma re_in_a : Forall (inp P) [NTm a]. Proof. constructor; [intros _; apply (pt_entry _ _ HP)|constructor]. Qed.
Lemma re_first c : nfirst G1 [NTm a] c -> nfirst W [NTm start] c.
Proof.
  intros Hc. apply (nfirst_back W [NTm start] [NTm a; NTm start]); [apply rtc_once, (nstep_intro W [] start [] 0 [NTm a; NTm start]), re_start; auto|].
  apply (nfirst_left W [NTm a] [NTm start]). apply (both_first P a HP is1 W re_left _ _ re_in_a), Hc.
Qed.
Lemma re_first_back c : ~ nnullable G1 [NTm a] -> nfirst W [NTm start] c -> nfirst G1 [NTm a] c.
Proof.
  intros Hn Hc. apply nfirst_unfold in Hc as (i & w & Hs & Hc). apply re_start in Hs as [[_ ->]|[_ ->]]; [|destruct (nfirst_nil _ _ Hc)].
  apply (nfirst_app W [NTm a] [NTm start]) in Hc as [Hc|[Hc _]]; [apply (both_first P a HP is1 W re_left _ _ re_in_a), Hc|].
  destruct Hn. apply (both_nullable P a HP is1 W re_left _ re_in_a), Hc.
Qed.
Lemma re_outer l : ~ nnullable G1 [NTm a] -> outer P a W l -> l = MTerminate \/ exists c, l = MChar c /\ nfirst G1 [NTm a] c.
Proof.
  intros Hn (y & i & u & v & Hy & Hs & Hl). apply re_cases in Hs as [[-> [[_ E]|[_ E]]]|[Hd _]]; [|destruct u; discriminate|destruct (Hy Hd)].
  symmetry in E. apply re_split in E as [(_ & -> & ->)|[E _]]; [|destruct (a_not_start E)]. destruct Hl as [(c & -> & Hc)|[_ Hf]].
  - right. exists c. split; [reflexivity|]. apply re_first_back; assumption.
  - left. apply re_fol_start, Hf.
Qed.
Lemma re_fol_a : nfol W a MTerminate.
Proof. apply (nf_last W start 0 [] a [NTm start]); [apply re_start; auto|apply re_nullable|constructor]. Qed.
Lemma re_fol_a_char c : nfirst G1 [NTm a] c -> nfol W a (MChar c).
Proof. intros Hc. apply (nf_next W start 0 [] a [NTm start]); [apply re_start; auto|apply re_first, Hc]. Qed.
Lemma repeated_parsable : parsable W <-> parsable G1 /\ ~ nnullable G1 [NTm a] /\ forall c, nfirst G1 [NTm a] c -> ~ goes_on G1 c.
Proof.
  pose proof (pt_no_start _ _ HP) as Hns. split.
  - intros Hp. split; [|split].
    + exact (part_parsable P a HP is1 W re_left MTerminate Hp re_fol_a).
    + intros Hn. apply (pa_no_left_recursion _ Hp start), tc_once. exists 0, [NTm a], []. split; [apply re_start; auto|]. apply (both_nullable P a HP is1 W re_left _ re_in_a), Hn.
    + intros c Hc. apply (part_goes_on P a HP is1 W re_left c Hp), re_fol_a_char, Hc.
  - intros (H1 & Hn & Hd). split.
    + apply st_defined; auto.
    + intros x y (w & Hw & Hy). apply st_defined; [assumption|]. destruct (defined_dec P x) as [Hx|Hx].
      * right. apply (pt_uses _ _ HP x). rewrite (pa_alts P W re_left x Hx) in Hw. exists w. auto.
      * destruct (decide (x = start)) as [->|Hx'].
        -- unfold repeated in Hw. rewrite st_alts in Hw by assumption. apply elem_of_cons in Hw as [->|Hw]; [|apply elem_of_list_singleton in Hw as ->; inversion Hy].
           apply elem_of_cons in Hy as [E|Hy]; [right; injection E as ->; apply (pt_entry _ _ HP)|left]. apply elem_of_list_singleton in Hy. congruence.
        -- unfold alternatives_for, repeated in Hw. rewrite st_rules in Hw by assumption. unfold defined in Hx. destruct (rules_for x P); [inversion Hw|destruct Hx; discriminate].
    + intros x y Hi. apply st_defined; [assumption|]. right. destruct (decide (x = start)) as [->|Hx']; [destruct (st_ignores _ _ _ Hns _ Hi)|].
      apply (pt_ignores _ _ HP x). unfold ignores in *. unfold repeated in Hi. rewrite st_rules in Hi by assumption. assumption.
    + intros x Ht. assert (x = start \/ defined P x) as [->|Hx].
      { assert (exists z, nleft_calls W x z) as (z & i & u & v & Hs & _) by (inversion Ht; eauto). apply says_defined, st_defined in Hs; assumption. }
      * assert (forall x y, tc (nleft_calls W) x y -> y <> start) as Hl; [|apply (Hl _ _ Ht); reflexivity].
        intros x y Ht'. induction Ht' as [x y (i & u & v & Hs & Hu)|x y z _ _ IH]; [|assumption]. intros ->. apply re_uses_start in Hs as (_ & -> & _).
        apply Hn, (both_nullable P a HP is1 W re_left _ re_in_a), Hu.
      * exact (part_no_left P a HP is1 W re_left H1 x Hx Ht).
    + intros x i w Hs. apply re_cases in Hs as [[-> [[_ ->]|[_ ->]]]|[Hx Hs]]; [discriminate..|].
      apply (pa_no_empty_terminal _ H1 x i). apply (pa_says P a HP G1 (al_extends P a HP is1) x i w Hx), Hs.
    + intros x i j w w' l S1 S2 Hij C1 C2. pose proof S1 as S1'. apply re_cases in S1' as [[-> _]|[Hx _]].
      * apply re_start in S1. apply re_start in S2.
        assert (forall l, nchoose W start [NTm a; NTm start] l -> nchoose W start [] l -> False) as Hno.
        { clear l C1 C2. intros l C1 C2. cbn [nchoose] in C2. apply nfol_follow, re_fol_start in C2. subst l. destruct C1 as [(c & E & _)|[Hna _]]; [discriminate|].
          apply Hn, (both_nullable P a HP is1 W re_left _ re_in_a), Hna. }
        destruct S1 as [[-> ->]|[-> ->]], S2 as [[-> ->]|[-> ->]]; try (destruct (Hij eq_refl)); eauto.
      * refine (part_distinct P a HP is1 W re_left re_entry H1 _ x i j w w' l Hx S1 S2 Hij C1 C2).
        intros l' Ho. apply re_outer in Ho as [->|(c & -> & Hc)]; eauto.
Qed.
End repeated.

(** ** Trees *)
Section trees.
Context {I : Type}.
Lemma sub_same (P : list (arule I)) a (HP : part P a) rs rs' (Hx : extends P rs) (Hx' : extends P rs') t : inp P (nroot t) -> nderivation rs t -> nderivation rs' t.
Proof. intros Hin Hd. apply (pa_derivation P a HP rs' Hx'). apply (pa_derivation_back P a HP rs Hx); assumption. Qed.
Lemma roots_one subs e : map nroot subs = [e] -> exists t, subs = [t] /\ nroot t = e.
Proof. destruct subs as [|t [|? ?]]; [discriminate| |discriminate]. intros [= <-]. eauto. Qed.
Lemma roots_two subs e e' : map nroot subs = [e; e'] -> exists t t', subs = [t; t'] /\ nroot t = e /\ nroot t' = e'.
Proof. destruct subs as [|t [|t' [|? ?]]]; [discriminate..| |discriminate]. intros [= <- <-]. eauto. Qed.
Lemma node_of (rs : list (arule I)) t x : nderivation rs t -> nroot t = NTm x -> exists i subs, t = NNode x subs /\ says rs x i (map nroot subs) /\ Forall (nderivation rs) subs.
Proof. intros Hd. destruct Hd as [b|y i subs Hs Hf]; [discriminate|]. intros [= ->]. eauto. Qed.
Lemma al_tree (P : list (arule I)) a (HP : part P a) is t : nderivation (alone a is P) t /\ nroot t = NTm (lit "start") <->
  exists s, t = NNode (lit "start") [s] /\ nderivation (alone a is P) s /\ nroot s = NTm a.
Proof.
  split.
  - intros [Hd Hr]. destruct (node_of _ _ _ Hd Hr) as (i & subs & -> & Hs & Hf). apply (al_start P a HP) in Hs as [_ E]. apply roots_one in E as (s & -> & Hs).
    exists s. split; [reflexivity|]. inversion Hf; subst. auto.
  - intros (s & -> & Hd & Hr). split; [|reflexivity]. apply (nder_node _ _ 0); [|constructor; [assumption|constructor]]. apply (al_start P a HP). cbn [map]. rewrite Hr. auto.
Qed.
Lemma ei_tree (P Q : list (arule I)) a b (HP : part P a) (HQ : part Q b) (Hap : apart P Q) is is1 is2 t :
  nderivation (either a b is P Q) t /\ nroot t = NTm (lit "start") <->
  (nderivation (alone a is1 P) t /\ nroot t = NTm (lit "start")) \/ (nderivation (alone b is2 Q) t /\ nroot t = NTm (lit "start")).
Proof.
  rewrite (al_tree P a HP), (al_tree Q b HQ). split.
  - intros [Hd Hr]. destruct (node_of _ _ _ Hd Hr) as (i & subs & -> & Hs & Hf). apply (ei_start P Q a b HP HQ) in Hs as [[_ E]|[_ E]]; apply roots_one in E as (s & -> & Hs); inversion Hf; subst.
    + left. exists s. split; [reflexivity|]. split; [|assumption]. eapply (sub_same P a HP _ _ (ei_left P Q a b HP HQ Hap is) (al_extends P a HP is1)); [|eassumption]. rewrite Hs. intros _. apply (pt_entry _ _ HP).
    + right. exists s. split; [reflexivity|]. split; [|assumption]. eapply (sub_same Q b HQ _ _ (ei_right P Q a b HP HQ Hap is) (al_extends Q b HQ is2)); [|eassumption]. rewrite Hs. intros _. apply (pt_entry _ _ HQ).
  - intros [(s & -> & Hd & Hr)|(s & -> & Hd & Hr)]; (split; [|reflexivity]).
    + apply (nder_node _ _ 0); [apply (ei_start P Q a b HP HQ); cbn [map]; rewrite Hr; auto|]. constructor; [|constructor].
      eapply (sub_same P a HP _ _ (al_extends P a HP is1) (ei_left P Q a b HP HQ Hap is)); [|eassumption]. rewrite Hr. intros _. apply (pt_entry _ _ HP).
    + apply (nder_node _ _ 1); [apply (ei_start P Q a b HP HQ); cbn [map]; rewrite Hr; auto|]. constructor; [|constructor].
      eapply (sub_same Q b HQ _ _ (al_extends Q b HQ is2) (ei_right P Q a b HP HQ Hap is)); [|eassumption]. rewrite Hr. intros _. apply (pt_entry _ _ HQ).
Qed.
Lemma it_tree (P Q : list (arule I)) a b (HP : part P a) (HQ : part Q b) (Hap : apart P Q) is is1 is2 t :
  nderivation (in_turn a b is P Q) t /\ nroot t = NTm (lit "start") <->
  exists s1 s2, t = NNode (lit "start") [s1; s2] /\ (nderivation (alone a is1 P) s1 /\ nroot s1 = NTm a) /\ (nderivation (alone b is2 Q) s2 /\ nroot s2 = NTm b).
Proof.
  split.
  - intros [Hd Hr]. destruct (node_of _ _ _ Hd Hr) as (i & subs & -> & Hs & Hf). apply (it_start P Q a b HP HQ) in Hs as [_ E]; apply roots_two in E as (s1 & s2 & -> & E1 & E2).
    apply Forall_cons in Hf as [F1 Hf]. apply Forall_cons in Hf as [F2 _]. exists s1, s2. split; [reflexivity|]. split; (split; [|assumption]).
    + eapply (sub_same P a HP _ _ (it_left P Q a b HP HQ Hap is) (al_extends P a HP is1)); [|eassumption]. rewrite E1. intros _. apply (pt_entry _ _ HP).
    + eapply (sub_same Q b HQ _ _ (it_right P Q a b HP HQ Hap is) (al_extends Q b HQ is2)); [|eassumption]. rewrite E2. intros _. apply (pt_entry _ _ HQ).
  - intros (s1 & s2 & -> & [D1 R1] & [D2 R2]). split; [|reflexivity]. apply (nder_node _ _ 0); [apply (it_start P Q a b HP HQ); cbn [map]; rewrite R1, R2; auto|].
    constructor; [|constructor; [|constructor]].
    + eapply (sub_same P a HP _ _ (al_extends P a HP is1) (it_left P Q a b HP HQ Hap is)); [|eassumption]. rewrite R1. intros _. apply (pt_entry _ _ HP).
    + eapply (sub_same Q b HQ _ _ (al_extends Q b HQ is2) (it_right P Q a b HP HQ Hap is)); [|eassumption]. rewrite R2. intros _. apply (pt_entry _ _ HQ).
Qed.
Lemma re_tree (P : list (arule I)) a (HP : part P a) is is1 t :
  nderivation (repeated a is P) t /\ nroot t = NTm (lit "start") <->
  exists ts, t = listed ts /\ Forall (fun s => nderivation (alone a is1 P) s /\ nroot s = NTm a) ts.
Proof.
  split.
  - induction t as [b|x subs IH] using ntree_ind'; intros [Hd Hr]; [discriminate|]. assert (x = lit "start") as -> by exact (f_equal fst Hr).
    inversion Hd as [|? i ? Hs Hf]; subst. apply (re_start P a HP) in Hs as [[_ E]|[_ E]].
    + apply roots_two in E as (s1 & s2 & -> & E1 & E2). apply Forall_cons in Hf as [F1 Hf]. apply Forall_cons in Hf as [F2 _].
      apply Forall_cons in IH as [_ IH]. apply Forall_cons in IH as [IH _]. destruct IH as (ts & -> & Hts); [auto|]. exists (s1 :: ts). split; [reflexivity|]. constructor; [|assumption].
      split; [|assumption]. eapply (sub_same P a HP _ _ (re_left P a HP is) (al_extends P a HP is1)); [|eassumption]. rewrite E1. intros _. apply (pt_entry _ _ HP).
    + destruct subs; [|discriminate]. exists []. split; [reflexivity|constructor].
  - intros (ts & -> & Hts). split; [|destruct ts; reflexivity]. induction Hts as [|s ts [Hd Hr] _ IH]; cbn [listed].
    + apply (nder_node _ _ 1); [apply (re_start P a HP); cbn; auto|constructor].
    + apply (nder_node _ _ 0); [apply (re_start P a HP); cbn [map]; rewrite Hr; left; split; [reflexivity|]; destruct ts; reflexivity|].
      constructor; [|constructor; [assumption|constructor]]. eapply (sub_same P a HP _ _ (al_extends P a HP is1) (re_left P a HP is)); [|eassumption]. rewrite Hr. intros _. apply (pt_entry _ _ HP).
Qed.
Lemma listed_yield ts : nyield (listed ts) = concat (map nyield ts).
Proof. induction ts as [|t ts IH]; [reflexivity|]. cbn [listed nyield map concat]. rewrite IH, app_nil_r. reflexivity. Qed.
End trees.
