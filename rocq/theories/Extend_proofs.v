(** * Lemmas for C75: what a grammar says grows with rules for new names. *)
From Verif Require Import Base Peekables Tree Errors Sets ParserData Vm SpecTree SpecWeave SpecRules SpecLanguage SpecExtend.

Section extend.
Context {I : Type} (rs rs' : list (arule I)) (Hx : extends rs rs') (Hc : self_contained rs).
Lemma ex_alts x : defined rs x -> alternatives_for rs' x = alternatives_for rs x.
Proof. intros Hd. unfold alternatives_for. rewrite (Hx x Hd). reflexivity. Qed.
Lemma ex_defined x : defined rs x -> defined rs' x.
Proof. intros Hd. unfold defined. rewrite (Hx x Hd). exact Hd. Qed.
Lemma ex_uses x y : defined rs x -> uses rs' x y <-> uses rs x y.
Proof. intros Hd. unfold uses. rewrite (ex_alts x Hd). reflexivity. Qed.
Lemma ex_ignores x y : defined rs x -> ignores rs' x y <-> ignores rs x y.
Proof. intros Hd. unfold ignores. rewrite (Hx x Hd). reflexivity. Qed.
Lemma ex_instr x : defined rs x -> instructions_for rs' x = instructions_for rs x.
Proof. intros Hd. unfold instructions_for. rewrite (Hx x Hd). reflexivity. Qed.
Lemma alts_defined x i w : alternatives_for rs x !! i = Some w -> defined rs x.
Proof. unfold alternatives_for, defined. intros Hi E. rewrite E in Hi. discriminate. Qed.
Lemma uses_defined x y : uses rs x y -> defined rs x.
Proof. intros (w & Hw & _). apply elem_of_list_lookup in Hw as [i Hi]. eapply alts_defined; exact Hi. Qed.
Lemma ignores_defined x y : ignores rs x y -> defined rs x.
Proof. intros (r & more & E & _). unfold defined. rewrite E. discriminate. Qed.
Lemma ex_inside y x : defined rs y -> inside rs' y x <-> inside rs y x.
Proof.
  intros Hy. split; intros [_ Hr]; (split; [auto using ex_defined|]).
  - induction Hr as [y|y z x Hs _ IH]; [constructor|]. apply (ex_uses y z Hy) in Hs. eapply rtc_l; [exact Hs|]. apply IH. destruct Hc as (_ & Hu & _). eauto.
  - eapply rtc_subrel; [|exact Hr]. intros a b Hab. apply ex_uses; [eapply uses_defined; exact Hab|exact Hab].
Qed.
Lemma ex_says x i w : defined rs x -> says rs' x i w <-> says rs x i w.
Proof.
  intros Hd. destruct Hc as (_ & _ & Hi). split; intros Hs; destruct Hs as [w Hw Hn|w y Hw Hig Hn].
  - rewrite (ex_alts x Hd) in Hw. apply says_plain; [exact Hw|]. intros y Hy. apply ex_inside; [eauto|]. apply Hn, ex_ignores; assumption.
  - rewrite (ex_alts x Hd) in Hw. apply (ex_ignores x y Hd) in Hig. apply says_woven; [exact Hw|exact Hig|]. intros Hin. apply Hn, ex_inside; [eauto|exact Hin].
  - rewrite <- (ex_alts x Hd) in Hw. apply says_plain; [exact Hw|]. intros y Hy. apply (ex_ignores x y Hd) in Hy. apply ex_inside; eauto.
  - rewrite <- (ex_alts x Hd) in Hw. apply says_woven; [exact Hw|apply ex_ignores; assumption|]. intros Hin. apply Hn, ex_inside; [eauto|exact Hin].
Qed.
Lemma says_defined x i w : says rs x i w -> defined rs x.
Proof. intros Hs. destruct Hs as [w Hw _|w y Hw _ _]; eapply alts_defined; exact Hw. Qed.
Lemma ex_grow x i w : says rs x i w -> says rs' x i w.
Proof. intros Hs. apply ex_says; [eapply says_defined; exact Hs|exact Hs]. Qed.
(** the names in an alternative are defined *)
Lemma interleave_elem {A} (g e : A) w : e ∈ interleave g w -> e = g \/ e ∈ w.
Proof.
  induction w as [|a w IH]; [auto|]. destruct w as [|b w]; [auto|]. intros He. cbn in He.
  apply elem_of_cons in He as [->|He]; [right; left|]. apply elem_of_cons in He as [->|He]; [auto|]. destruct (IH He) as [->|H]; [auto|right; right; exact H].
Qed.
Lemma says_names x i w y : says rs x i w -> (y, NonTerminal) ∈ w -> defined rs y.
Proof.
  destruct Hc as (_ & Hu & Hi). intros Hs Hy. destruct Hs as [w Hw _|w z Hw Hz _].
  - apply (Hu x). exists w. split; [apply elem_of_list_lookup; eauto|exact Hy].
  - apply interleave_elem in Hy as [[= ->]|Hy]; [apply (Hi x), Hz|]. apply (Hu x). exists w. split; [apply elem_of_list_lookup; eauto|exact Hy].
Qed.

(** ** growing *)
Lemma ex_derives u w : nderives rs u w -> nderives rs' u w.
Proof. apply rtc_subrel. intros a b [u' x v' i w' Hw]. econstructor. apply ex_grow. exact Hw. Qed.
Lemma ex_nullable w : nnullable rs w -> nnullable rs' w.
Proof. intros (x & H1 & H2). exists x. auto using ex_derives. Qed.
Lemma ex_first w c : nfirst rs w c -> nfirst rs' w c.
Proof. intros (x & s & v & H1 & H2). exists x, s, v. auto using ex_derives. Qed.
Lemma ex_follow e a : nfollow rs e a -> nfollow rs' e a.
Proof.
  destruct a; cbn.
  - intros (x & u & v & H1 & H2 & H3). exists x, u, v. auto using ex_defined, ex_derives, ex_first.
  - intros (u & v & H1 & H2). exists u, v. auto using ex_derives, ex_nullable.
Qed.
Lemma ex_choose x w a : nchoose rs x w a -> nchoose rs' x w a.
Proof.
  destruct w; cbn; [apply ex_follow|]. intros [(c & -> & Hf)|[Hn Hf]]; [left; exists c; auto using ex_first|right; auto using ex_nullable, ex_follow].
Qed.
Lemma ex_parsable : parsable rs' -> parsable rs.
Proof.
  intros [P1 P2 P3 P4 P5 P6]. pose proof Hc as (C1 & C2 & C3). split; [assumption..| | |].
  - intros x Ht. apply (P4 x). revert Ht. generalize x at 2 4. intros y. induction 1 as [a b Hl|a b c Hl _ IH]; [apply tc_once|eapply tc_l; [|exact IH]];
      destruct Hl as (i & u & v & Hs & Hn); exists i, u, v; auto using ex_grow, ex_nullable.
  - intros x i w Hs. eapply P5, ex_grow, Hs.
  - intros x i j w w' a S1 S2 Hne C4 C5. eapply P6; [apply ex_grow, S1|apply ex_grow, S2|exact Hne|apply ex_choose, C4|apply ex_choose, C5].
Qed.

(** ** derivations are the same *)
Lemma ex_derivation nt : nderivation rs nt -> nderivation rs' nt.
Proof.
  revert nt. fix IH 2. intros nt [b|x i subs Hs Hf]; [constructor|]. apply (nder_node _ x i); [apply ex_grow, Hs|].
  clear Hs. induction Hf as [|s subs0 Hd Hf IHf]; constructor; [apply IH, Hd|apply IHf].
Qed.
Lemma ex_derivation_back nt : nderivation rs' nt -> (forall x, nroot nt = (x, NonTerminal) -> defined rs x) -> nderivation rs nt.
Proof.
  revert nt. fix IH 2. intros nt [b|x i subs Hs Hf] Hd; [constructor|]. specialize (Hd x eq_refl). apply (ex_says x i _ Hd) in Hs.
  apply (nder_node _ x i); [exact Hs|]. assert (forall s y, s ∈ subs -> nroot s = (y, NonTerminal) -> defined rs y) as Hsub.
  { intros s y Hin E. eapply says_names; [exact Hs|]. rewrite <- E. apply elem_of_list_fmap_1. exact Hin. }
  clear Hs. induction Hf as [|s subs0 Hd0 Hf IHf]; constructor.
  - apply IH; [exact Hd0|]. intros y E. eapply Hsub; [left|exact E].
  - apply IHf. intros s0 y Hin E. eapply Hsub; [right; exact Hin|exact E].
Qed.
Lemma ex_before nt a : stands_before rs nt a -> stands_before rs' nt a.
Proof. intros Hs y w He. apply ex_choose, Hs, He. Qed.
End extend.

Section actions.
Context {vm : VM} (rs rs' : list (arule (vm_instr vm))) (Hx : extends rs rs').
Lemma nder_post nt : nderivation rs nt -> forall n, Forall (fun '(_, x, _) => defined rs x) (npost_order n nt).
Proof.
  revert nt. fix IH 2. intros nt [b|x i subs Hs Hf] n; [constructor|]. cbn [npost_order]. apply Forall_app. split.
  - clear Hs. generalize (S n). induction Hf as [|s subs0 Hd Hf IHf]; intros k; [constructor|]. apply Forall_app. split; [apply IH, Hd|apply IHf].
  - constructor; [|constructor]. eapply says_defined. exact Hs.
Qed.
Lemma ex_run nt v : nderivation rs nt -> run_tree rs' nt v = run_tree rs nt v.
Proof.
  intros Hd. unfold run_tree. pose proof (nder_post nt Hd 0) as Hf. revert v. generalize (nhistory 0 None nt) as h. revert Hf. generalize (npost_order 0 nt) as l.
  induction l as [|[[i x] k] l IH]; intros Hf h v; [reflexivity|]. apply Forall_cons in Hf as [Hdx Hf]. cbn [ofold]. rewrite (ex_instr rs rs' Hx x Hdx).
  destruct (ofold _ v (instructions_for rs x)); try reflexivity. cbn. apply IH. exact Hf.
Qed.
End actions.
