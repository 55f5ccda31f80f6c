(** * Proofs for C85: grammars with fewer alternatives *)
From Verif Require Import Base Tree Sets ParserData Vm SpecTree SpecWeave SpecRules SpecLanguage SpecFewer
  Language_proofs Start_proofs Naming_proofs NamingAll_proofs.

Section fewer.
Context {I : Type} (rs rs' : list (arule I)) (Hfew : fewer_alternatives rs rs').
Lemma Hf x i w : says rs x i w -> exists j, says rs' x j w.
Proof. intros Hs. destruct (Hfew x) as (f & _ & H). eauto. Qed.
Lemma fewer_derives w z : nderives rs w z -> nderives rs' w z.
Proof.
  induction 1 as [|w y z Hs _ IH]; [apply rtc_refl|]. eapply rtc_l; [|exact IH]. destruct Hs as [u x v i q Hq]. destruct (Hf x i q Hq) as [j Hj]. constructor 1 with j. assumption.
Qed.
Lemma fewer_nullable w : nnullable rs w -> nnullable rs' w.
Proof. intros (z & Hd & He). exists z. split; [apply fewer_derives|]; assumption. Qed.
Lemma fewer_first w c : nfirst rs w c -> nfirst rs' w c.
Proof. intros (x & s & v & Hd & He). exists x, s, v. split; [apply fewer_derives|]; assumption. Qed.
Lemma fewer_follow e a : nfollow rs e a -> nfollow rs' e a.
Proof.
  destruct a as [c|]; cbn [nfollow].
  - intros (x & u & v & Hx & Hd & Hc). exists x, u, v. split; [|split; [apply fewer_derives; assumption|apply fewer_first; assumption]].
    inversion Hd as [w E|w y z Hs _]; subst.
    + destruct u as [|? [|? ?]]; try discriminate. cbn [app] in *. assert (v = []) as -> by congruence. destruct (nfirst_nil rs c Hc).
    + inversion Hs as [u0 x0 v0 i q Hq E]. destruct u0 as [|? [|? ?]]; try discriminate. cbn [app] in E. assert (x0 = x) as -> by congruence.
      destruct (Hf x i q Hq) as [j Hj]. eapply says_defined, Hj.
  - intros (u & v & Hd & Hn). exists u, v. split; [apply fewer_derives; assumption|apply fewer_nullable; assumption].
Qed.
Lemma fewer_choose x w a : nchoose rs x w a -> nchoose rs' x w a.
Proof.
  destruct w as [|e w]; cbn [nchoose]; [apply fewer_follow|]. intros [(c & -> & Hc)|[Hn Hfo]].
  - left. exists c. split; [reflexivity|]. apply fewer_first. assumption.
  - right. split; [apply fewer_nullable|apply fewer_follow]; assumption.
Qed.
Lemma fewer_left x y : nleft_calls rs x y -> nleft_calls rs' x y.
Proof. intros (i & u & v & Hs & Hn). destruct (Hf x i _ Hs) as [j Hj]. exists j, u, v. split; [assumption|apply fewer_nullable; assumption]. Qed.
Lemma fewer_parsable : parsable rs' -> defined rs (lit "start") -> (forall x y, uses rs x y -> defined rs y) -> (forall x y, ignores rs x y -> defined rs y) -> parsable rs.
Proof.
  intros Hp Hst Hu Hi. split; try assumption.
  - intros x Ht. apply (pa_no_left_recursion _ Hp x). revert Ht. generalize x at 2 4. intros y Ht.
    induction Ht as [a b Hc|a z b Hc _ IH]; [apply tc_once, fewer_left; assumption|eapply tc_l; [apply fewer_left; eassumption|assumption]].
  - intros x i w Hs. destruct (Hf x i w Hs) as [j Hj]. exact (pa_no_empty_terminal _ Hp x j w Hj).
  - intros x i j w w' a H1 H2 Hij C1 C2. destruct (Hfew x) as (f & Hinj & H).
    apply (pa_distinct _ Hp x (f i) (f j) w w' a); auto using fewer_choose. 
Qed.
Lemma fewer_derivation t : nderivation rs t -> nderivation rs' t.
Proof.
  induction t as [b|x subs IH] using ntree_ind'; intros Hd; [constructor|]. inversion Hd as [|? i ? Hs Hsubs]; subst.
  destruct (Hf x i _ Hs) as [j Hj]. apply (nder_node rs' x j); [assumption|]. clear Hs Hd Hj. induction IH as [|s subs Hs _ IHs]; [constructor|]. inversion Hsubs; subst. constructor; auto.
Qed.
Lemma fewer_before nt a : stands_before rs nt a -> stands_before rs' nt a.
Proof. intros Hs y w He. apply fewer_choose, Hs, He. Qed.
End fewer.
Lemma names_defined {I} (rs : list (arule I)) t : nderivation rs t -> Forall (defined rs) (names_post t).
Proof.
  induction t as [b|x subs IH] using ntree_ind'; intros Hd; [constructor|]. inversion Hd as [|? i ? Hs Hsubs]; subst. cbn [names_post]. apply Forall_app. split.
  - clear Hs Hd. induction IH as [|s subs Hs _ IHs]; [constructor|]. inversion Hsubs; subst. cbn [map concat]. apply Forall_app. auto.
  - repeat constructor. eapply says_defined; eassumption.
Qed.
Lemma fewer_run {vm : VM} (rs rs' : list (arule (vm_instr vm))) t v : nderivation rs t -> (forall x, defined rs x -> instructions_for rs' x = instructions_for rs x) ->
  run_tree rs' t v = run_tree rs t v.
Proof.
  intros Hd Hi. apply names_defined in Hd. unfold run_tree. rewrite <- (npost_names t 0) in Hd. revert Hd v. generalize (npost_order 0 t) as l.
  induction l as [|[[i x] k] l IH]; intros Hd v; [reflexivity|]. cbn [map] in Hd. inversion Hd; subst. cbn [ofold]. rewrite (Hi x) by assumption.
  destruct (ofold _ v (instructions_for rs x)); cbn; [apply IH; assumption|reflexivity..].
Qed.
(** Leaving out alternatives. *)
Lemma sublist_positions {A} (l l' : list A) : l `sublist_of` l' -> exists g : nat -> nat, (forall i j, g i = g j -> i = j) /\ forall i a, l !! i = Some a -> l' !! (g i) = Some a.
Proof.
  induction 1 as [|a l l' _ (g & Hg & Hl)|a l l' _ (g & Hg & Hl)].
  - exists id. split; [auto|discriminate].
  - exists (fun i => match i with 0 => 0 | S i => S (g i) end). split.
    + intros [|i] [|j] E; try discriminate; [reflexivity|]. f_equal. apply Hg. congruence.
    + intros [|i] b Hb; [assumption|]. apply Hl. assumption.
  - exists (fun i => S (g i)). split; [intros i j E; apply Hg; congruence|]. intros i b Hb. apply Hl. assumption.
Qed.
