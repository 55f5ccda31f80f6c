(** * Proofs for C100: every expression can be written as rules, and the rules as a text *)
From Verif Require Import Base Tree Sets ParserData Vm SpecText SpecTree SpecWeave SpecRules SpecLanguage SpecExtend SpecRename SpecNaming SpecEffect SpecCompose SpecNested SpecEmbed SpecExpr
  Language_proofs Compose_proofs Embed_proofs.
Notation start := (lit "start").

(** st_0, st_1, ...: s and more than four t. *)
Definition nth_name (k : nat) : str := 115%N :: replicate (5 + k) 116%N.
Lemma nth_length k : length (nth_name k) = 6 + k.
Proof. unfold nth_name. cbn [length]. rewrite replicate_length. reflexivity. Qed.
Lemma nth_inj i j : nth_name i = nth_name j -> i = j.
Proof. intros E. apply (f_equal length) in E. rewrite !nth_length in E. lia. Qed.
Lemma nth_start k : nth_name k <> start.
Proof. intros E. apply (f_equal length) in E. rewrite nth_length in E. cbn in E. lia. Qed.

Section rules.
Context {U : Unicode} {I : Type} (reads : str -> str -> list I -> Prop).
Lemma nth_valid k : valid_name (nth_name k).
Proof. split; [reflexivity|]. apply Forall_replicate. left. reflexivity. Qed.
Lemma start_valid : valid_name start.
Proof. split; [reflexivity|]. repeat (constructor; [left; reflexivity|]). constructor. Qed.

Fixpoint rules_of (e : expr I) (k : nat) : list (arule I) * nat :=
  match e with
  | Nothing is => ([mkARule start OvAbsent [[]] is], k)
  | Word s is => ([mkARule start OvAbsent [[(s, Terminal)]] is], k)
  | Alt e1 e2 => let (G1, k1) := rules_of e1 k in let (G2, k2) := rules_of e2 k1 in
      (either (nth_name k2) (nth_name (S k2)) [] (embedded (nth_name k2) G1) (embedded (nth_name (S k2)) G2), S (S k2))
  | Then e1 e2 => let (G1, k1) := rules_of e1 k in let (G2, k2) := rules_of e2 k1 in
      (in_turn (nth_name k2) (nth_name (S k2)) [] (embedded (nth_name k2) G1) (embedded (nth_name (S k2)) G2), S (S k2))
  | Many e => let (G, k') := rules_of e k in (repeated (nth_name k') [] (embedded (nth_name k') G), S k')
  | Nest op cl e => let (G, k') := rules_of e k in (nested (nth_name k') op cl [] (embedded (nth_name k') G), S k')
  end.

(** A rule that can be written, with names among [ok]. *)
Definition good_element (ok : str -> Prop) (e : str * ElementType) : Prop := match e.2 with NonTerminal => ok e.1 | Terminal => quoted_body e.1 end.
Record good (ok : str -> Prop) (r : arule I) : Prop := {
  go_override : ar_override r = OvAbsent;
  go_name : ok (ar_name r);
  go_some : ar_alts r <> [];
  go_alts : Forall (Forall (good_element ok)) (ar_alts r);
  go_instr : readable reads (ar_instr r);
}.
Lemma good_mono (ok ok' : str -> Prop) r : (forall y, ok y -> ok' y) -> good ok r -> good ok' r.
Proof.
  intros Hm [H1 H2 H3 H4 H5]. split; auto. eapply Forall_impl; [exact H4|]. intros w Hw. eapply Forall_impl; [exact Hw|]. intros [y []]; unfold good_element; cbn; auto.
Qed.
Lemma good_embedded (ok ok' : str -> Prop) x G : (forall y, ok y -> ok' (called x y)) -> Forall (good ok) G -> Forall (good ok') (embedded x G).
Proof.
  intros Hm HG. unfold embedded. apply Forall_fmap. eapply Forall_impl; [exact HG|]. intros r [H1 H2 H3 H4 H5]. unfold renamed, compose. split; cbn.
  - rewrite H1. reflexivity.
  - auto.
  - destruct (ar_alts r); [congruence|discriminate].
  - apply Forall_fmap. eapply Forall_impl; [exact H4|]. intros w Hw. unfold compose. apply Forall_fmap. eapply Forall_impl; [exact Hw|]. intros [y []]; unfold good_element, compose; cbn; auto.
  - assumption.
Qed.
Lemma good_mentions ok G y : Forall (good ok) G -> (y, NonTerminal) ∈ concat (map mentioned G) -> ok y.
Proof.
  intros HG Hy. apply elem_of_list_In, in_concat in Hy as (l & Hl & Hy). apply in_map_iff in Hl as (r & <- & Hr). apply elem_of_list_In in Hr. destruct (proj1 (Forall_forall _ _) HG r Hr) as [H1 H2 H3 H4 H5].
  apply elem_of_list_In in Hy. unfold mentioned in Hy. rewrite H1 in Hy. cbn [override_element app] in Hy. apply elem_of_cons in Hy as [E|Hy]; [injection E as ->; assumption|].
  apply elem_of_list_In, in_concat in Hy as (w & Hw & Hy). apply elem_of_list_In in Hw, Hy. exact (proj1 (Forall_forall _ _) (proj1 (Forall_forall _ _) H4 w Hw) _ Hy).
Qed.
Lemma good_defined ok G y : Forall (good ok) G -> defined G y -> ok y.
Proof.
  intros HG Hd. unfold defined in Hd. destruct (rules_for y G) as [|q l] eqn:E; [congruence|]. assert (q ∈ rules_for y G) as Hq by (rewrite E; left).
  apply elem_of_list_filter in Hq as [<- Hq]. apply (go_name _ _ (proj1 (Forall_forall _ _) HG q Hq)).
Qed.
Definition among (lo hi : nat) (y : str) : Prop := exists j, lo <= j < hi /\ y = nth_name j.
Definition allowed (lo hi : nat) (y : str) : Prop := y = start \/ among lo hi y.
Lemma unused_good lo hi j G : hi <= j -> Forall (good (allowed lo hi)) G -> unused (nth_name j) G.
Proof.
  intros Hj HG. split; [apply nth_start|]. intros Hin. apply (good_mentions _ _ _ HG) in Hin as [E|(i & Hi & E)]; [destruct (nth_start _ E)|]. apply nth_inj in E. lia.
Qed.
Lemma embed_good lo hi j G : hi <= j -> Forall (good (allowed lo hi)) G -> Forall (good (fun y => among lo hi y \/ y = nth_name j)) (embedded (nth_name j) G).
Proof.
  intros Hj. apply good_embedded. intros y [->|Hy]; unfold called.
  - destruct (decide (start = start)); [auto|congruence].
  - destruct Hy as (i & Hi & ->). destruct (decide (nth_name i = start)) as [E|_]; [destruct (nth_start _ E)|]. left. exists i. auto.
Qed.
Lemma start_good (ok : str -> Prop) alts P : ok start -> alts <> [] -> Forall (Forall (good_element ok)) alts -> Forall (good ok) P -> Forall (good ok) (starting alts [] P).
Proof. intros H1 H2 H3 H4. constructor; [|assumption]. split; auto. intros nm Hv. exists []. constructor. Qed.
Theorem rules_of_ok e : writable reads e -> forall k, k <= snd (rules_of e k) /\ Forall (good (allowed k (snd (rules_of e k)))) (fst (rules_of e k)) /\ expressed e (fst (rules_of e k)).
Proof.
  assert (forall e1 e2 k (IH1 : forall k, k <= snd (rules_of e1 k) /\ Forall (good (allowed k (snd (rules_of e1 k)))) (fst (rules_of e1 k)) /\ expressed e1 (fst (rules_of e1 k)))
    (IH2 : forall k, k <= snd (rules_of e2 k) /\ Forall (good (allowed k (snd (rules_of e2 k)))) (fst (rules_of e2 k)) /\ expressed e2 (fst (rules_of e2 k))),
    exists G1 k1 G2 k2, rules_of e1 k = (G1, k1) /\ rules_of e2 k1 = (G2, k2) /\ k <= k1 /\ k1 <= k2 /\ expressed e1 G1 /\ expressed e2 G2 /\
      unused (nth_name k2) G1 /\ unused (nth_name (S k2)) G2 /\ apart (embedded (nth_name k2) G1) (embedded (nth_name (S k2)) G2) /\
      Forall (good (allowed k (S (S k2)))) (embedded (nth_name k2) G1 ++ embedded (nth_name (S k2)) G2)) as Two.
  { intros e1 e2 k IH1 IH2. specialize (IH1 k). destruct (rules_of e1 k) as [G1 k1] eqn:R1. specialize (IH2 k1). destruct (rules_of e2 k1) as [G2 k2] eqn:R2. cbn [fst snd] in *.
    destruct IH1 as (L1 & F1 & E1), IH2 as (L2 & F2 & E2). exists G1, k1, G2, k2. do 6 (split; [solve [auto]|]).
    split; [apply (unused_good k k1); [lia|assumption]|]. split; [apply (unused_good k1 k2); [lia|assumption]|].
    pose proof (embed_good k k1 k2 G1 ltac:(lia) F1) as M1. pose proof (embed_good k1 k2 (S k2) G2 ltac:(lia) F2) as M2. split.
    - intros y Hy1 Hy2. apply (good_defined _ _ _ M1) in Hy1. apply (good_defined _ _ _ M2) in Hy2.
      destruct Hy1 as [(i & Hi & ->)| ->], Hy2 as [(j & Hj & E)|E]; apply nth_inj in E; lia.
    - apply Forall_app. split; [eapply Forall_impl; [exact M1|]|eapply Forall_impl; [exact M2|]]; intros r; apply good_mono; intros y [(i & Hi & ->)| ->]; right; eexists; (split; [|reflexivity]); lia. }
  induction e as [is|s is|e1 IH1 e2 IH2|e1 IH1 e2 IH2|e IH|op cl e IH]; cbn [writable]; intros Hw k; cbn [rules_of].
  - split; [cbn; lia|]. split; [|constructor]. constructor; [|constructor]. split; cbn; try reflexivity; [left; reflexivity|discriminate|repeat constructor|assumption].
  - destruct Hw as [Hq Hr]. split; [cbn; lia|]. split; [|constructor]. constructor; [|constructor]. split; cbn; try reflexivity; [left; reflexivity|discriminate|repeat (constructor; try assumption)|assumption].
  - destruct Hw as [W1 W2]. destruct (Two e1 e2 k (IH1 W1) (IH2 W2)) as (G1 & k1 & G2 & k2 & -> & -> & L1 & L2 & E1 & E2 & U1 & U2 & Hap & F). cbn [fst snd]. split; [lia|].
    split; [|constructor; assumption]. apply start_good; [left; reflexivity|discriminate| |assumption].
    repeat (apply Forall_nil_2 || apply Forall_cons_2); unfold good_element; cbn; right; eexists; (split; [|reflexivity]); lia.
  - destruct Hw as [W1 W2]. destruct (Two e1 e2 k (IH1 W1) (IH2 W2)) as (G1 & k1 & G2 & k2 & -> & -> & L1 & L2 & E1 & E2 & U1 & U2 & Hap & F). cbn [fst snd]. split; [lia|].
    split; [|constructor; assumption]. apply start_good; [left; reflexivity|discriminate| |assumption].
    repeat (apply Forall_nil_2 || apply Forall_cons_2); unfold good_element; cbn; right; eexists; (split; [|reflexivity]); lia.
  - specialize (IH Hw k). destruct (rules_of e k) as [G k1]. cbn [fst snd] in *. destruct IH as (L & F & E). split; [lia|]. split; [|constructor; [assumption|apply (unused_good k k1); [lia|assumption]]].
    apply start_good; [left; reflexivity|discriminate| |].
    + repeat (apply Forall_nil_2 || apply Forall_cons_2); unfold good_element; cbn; [right; eexists; (split; [|reflexivity]); lia|left; reflexivity].
    + eapply Forall_impl; [apply (embed_good k k1 k1); [lia|exact F]|]. intros r. apply good_mono. intros y [(i & Hi & ->)| ->]; right; eexists; (split; [|reflexivity]); lia.
  - destruct Hw as ([Q1 N1] & [Q2 N2] & Hw). specialize (IH Hw k). destruct (rules_of e k) as [G k1]. cbn [fst snd] in *. destruct IH as (L & F & E). split; [lia|].
    split; [|constructor; [assumption..|apply (unused_good k k1); [lia|assumption]]]. apply start_good; [left; reflexivity|discriminate| |].
    + repeat (apply Forall_nil_2 || apply Forall_cons_2); unfold good_element; cbn; [assumption|left; reflexivity|assumption|right; eexists; (split; [|reflexivity]); lia].
    + eapply Forall_impl; [apply (embed_good k k1 k1); [lia|exact F]|]. intros r. apply good_mono. intros y [(i & Hi & ->)| ->]; right; eexists; (split; [|reflexivity]); lia.
Qed.

(** ** The text *)
Lemma element_written e : good_element valid_name e -> exists t, element_text e t.
Proof. destruct e as [y []]; unfold good_element; cbn; intros He; eexists; constructor; exact He. Qed.
Lemma blank_space : blank [32%N]. Proof. constructor; [reflexivity|constructor]. Qed.
Lemma elements_written w : w <> [] -> Forall (good_element valid_name) w -> exists t, elements_text w t.
Proof.
  intros Hne Hw. induction Hw as [|e w He Hw IH]; [congruence|]. destruct (element_written e He) as [t Ht]. destruct w as [|e' w]; [exists t; constructor; assumption|].
  destruct IH as [t' Ht']; [discriminate|]. eexists. eapply (els_cons e t [32%N]); [assumption|apply blank_space|exact Ht'|]. intros _ [E|E]; vm_compute in E; discriminate.
Qed.
Lemma alternative_written w : Forall (good_element valid_name) w -> exists t, alternative_text w t.
Proof. destruct w as [|e w]; [intros _; eexists; constructor|]. intros Hw. destruct (elements_written (e :: w)) as [t Ht]; [discriminate|assumption|]. exists t. constructor. assumption. Qed.
Lemma alternatives_written alts : alts <> [] -> Forall (Forall (good_element valid_name)) alts -> exists t, alternatives_text alts t.
Proof.
  intros Hne Ha. induction Ha as [|w alts Hw _ IH]; [congruence|]. destruct (alternative_written w Hw) as [t Ht]. destruct alts as [|w' alts]; [exists t; constructor; assumption|].
  destruct IH as [t' Ht']; [discriminate|]. eexists. apply (alts_cons w t [] [] _ t'); [assumption|constructor..|assumption].
Qed.
Lemma grammar_written G : Forall (good valid_name) G -> exists t, grammar_text reads G t.
Proof.
  intros HG. induction HG as [|r G [H1 H2 H3 H4 H5] _ [t Ht]]; [exists []; constructor; constructor|]. destruct (alternatives_written _ H3 H4) as [ta Hta]. destruct (H5 _ H2) as [ts Hts].
  eexists. eapply (gr_cons reads r _ [] G t); [constructor| |exact Ht]. apply (rule_intro reads r [] [] [] [] [] [] ta ts); try (constructor; fail); try assumption. rewrite H1. constructor.
Qed.
Theorem expressed_written e : writable reads e -> exists G t, expressed e G /\ grammar_text reads G t.
Proof.
  intros Hw. destruct (rules_of_ok e Hw 0) as (_ & F & E). destruct (grammar_written (fst (rules_of e 0))) as [t Ht]; [|eauto].
  eapply Forall_impl; [exact F|]. intros r. apply good_mono. intros y [->|(i & _ & ->)]; [apply start_valid|apply nth_valid].
Qed.
End rules.
