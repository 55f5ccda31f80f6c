(** * Proofs for C100: grammars written as expressions *)
From Verif Require Import Base Tree Sets ParserData Vm SpecTree SpecWeave SpecRules SpecLanguage SpecExtend SpecRename SpecNaming SpecEffect SpecCompose SpecNested SpecEmbed SpecExpr
  Language_proofs Rename_proofs Start_proofs Naming_proofs NamingAll_proofs Effect_proofs Compose_proofs Nested_proofs Embed_proofs Props_embed.
Notation start := (lit "start").

Lemma disjoint_spec l l' : disjoint_chars l l' = true <-> forall c, c ∈ l -> c ∉ l'.
Proof. unfold disjoint_chars. rewrite forallb_forall. setoid_rewrite bool_decide_eq_true. split; intros H c Hc; apply H; apply elem_of_list_In; assumption. Qed.
Lemma take_head (s : str) c : c ∈ take 1 s <-> head s = Some c.
Proof. destruct s as [|d s]; cbn; [split; [inversion 1|discriminate]|]. rewrite elem_of_list_singleton. split; [intros ->; reflexivity|intros [= ->]; reflexivity]. Qed.
Lemma in_if {A} (b : bool) (l : list A) c : c ∈ (if b then l else []) <-> b = true /\ c ∈ l.
Proof. destruct b; [tauto|]. split; [inversion 1|intros [? _]; discriminate]. Qed.

Section general.
Context {I : Type}.
Lemma nnullable_unfold (rs : list (arule I)) x : nnullable rs [NTm x] <-> exists i w, says rs x i w /\ nnullable rs w.
Proof.
  split.
  - intros (z & Hd & He). inversion Hd as [w E|w y z' Hs Hr]; subst; [inversion He; discriminate|]. inversion Hs as [p q r i k Hk E Ey]. symmetry in E. apply single in E as (E & -> & ->).
    assert (q = x) as -> by congruence. exists i, k. split; [assumption|]. subst y. cbn [app] in Hr. rewrite app_nil_r in Hr. exists z. auto.
  - intros (i & w & Hs & Hn). eapply nnullable_back; [|exact Hn]. apply rtc_once. pose proof (nstep_intro rs [] x [] i w Hs) as E. cbn [app] in E. rewrite app_nil_r in E. exact E.
Qed.
Lemma nfirst_fold (rs : list (arule I)) x c : nfirst rs [NTm x] c <-> exists i w, says rs x i w /\ nfirst rs w c.
Proof.
  split; [apply nfirst_unfold|]. intros (i & w & Hs & Hn). eapply nfirst_back; [|exact Hn]. apply rtc_once.
  pose proof (nstep_intro rs [] x [] i w Hs) as E. cbn [app] in E. rewrite app_nil_r in E. exact E.
Qed.
(** A rule for start in front of closed rules. *)
Definition closed_rules (P : list (arule I)) : Prop := (forall x y, uses P x y -> defined P y) /\ forall x y, ignores P x y -> defined P y.
Lemma st_closed alts is (P : list (arule I)) : ~ defined P start -> closed_rules P -> (forall w y, w ∈ alts -> NTm y ∈ w -> y = start \/ defined P y) -> closed_rules (starting alts is P).
Proof.
  intros Hns [Hu Hi] Ha. split; intros x y Hxy; apply st_defined; try assumption; destruct (decide (x = start)) as [->|Hx].
  - destruct Hxy as (w & Hw & Hy). rewrite st_alts in Hw by assumption. eapply Ha; eassumption.
  - right. apply (Hu x). unfold uses, alternatives_for in *. rewrite st_rules in Hxy by assumption. assumption.
  - destruct (st_ignores _ _ _ Hns _ Hxy).
  - right. apply (Hi x). unfold ignores in *. rewrite st_rules in Hxy by assumption. assumption.
Qed.
Lemma part_closed (P : list (arule I)) a : part P a -> closed_rules P.
Proof. intros HP. split; apply HP. Qed.
Lemma both_closed (P Q : list (arule I)) a b : part P a -> part Q b -> apart P Q -> closed_rules (P ++ Q).
Proof.
  intros HP HQ Hap. pose proof (extends_left P Q Hap) as XP. pose proof (extends_right P Q Hap) as XQ. split; intros x y Hxy; apply defined_app.
  - assert (defined (P ++ Q) x) as Hx by (eapply puses_defined; exact Hxy). apply defined_app in Hx as [Hx|Hx].
    + left. apply (pt_uses _ _ HP x). apply (pa_uses P _ XP); assumption.
    + right. apply (pt_uses _ _ HQ x). apply (pa_uses Q _ XQ); assumption.
  - assert (defined (P ++ Q) x) as Hx by (destruct Hxy as (r & l & E & _); unfold defined; rewrite E; discriminate). apply defined_app in Hx as [Hx|Hx].
    + left. apply (pt_ignores _ _ HP x). apply (pa_ignores P _ XP); assumption.
    + right. apply (pt_ignores _ _ HQ x). apply (pa_ignores Q _ XQ); assumption.
Qed.

Section entry_goes.
Context (P : list (arule I)) (a : str) (Hpt : part P a) (is : list I) (rs : list (arule I)) (Hx : extends P rs).
Context (Hent : forall y i u x v, ~ defined P y -> says rs y i (u ++ NTm x :: v) -> defined P x -> x = a).
Notation G := (alone a is P).
Lemma part_goes_in c x i j w w' : parsable G -> defined P x -> says rs x i w -> says rs x j w' -> i <> j -> nchoose rs x w MTerminate -> nchoose rs x w' (MChar c) -> goes_on G c.
Proof.
  intros Hp Hd R1 R2 Hij C1 C2. assert (says G x i w) as H1 by (apply (both_says P a Hpt is rs Hx); assumption). assert (says G x j w') as H2 by (apply (both_says P a Hpt is rs Hx); assumption).
  pose proof (pa_no_empty_terminal _ Hp _ _ _ H1) as E1. pose proof (pa_no_empty_terminal _ Hp _ _ _ H2) as E2.
  apply (choose_out P a Hpt is rs Hx Hent x i) in C1; [|assumption..]. apply (choose_out P a Hpt is rs Hx Hent x j) in C2; [|assumption..].
  destruct C1 as [(c' & E & _)|[C1 _]]; [discriminate|]. destruct C2 as [(c' & E & C2)|[C2 _]].
  - exists x, i, j, w, w'. auto.
  - destruct (pa_distinct _ Hp x i j w w' MTerminate H1 H2 Hij C1 C2).
Qed.
Lemma part_goes_out c : parsable G -> nfol rs a MTerminate -> goes_on G c -> goes_on rs c.
Proof.
  intros Hp Hf (x & i & j & w & w' & H1 & H2 & Hij & C1 & C2). pose proof H1 as H1'. apply (al_cases P a Hpt) in H1' as [[-> _]|[Hd _]].
  - apply (al_start P a Hpt) in H1 as [-> _]. apply (al_start P a Hpt) in H2 as [-> _]. destruct (Hij eq_refl).
  - exists x, i, j, w, w'. split; [apply (both_says P a Hpt is rs Hx); assumption|]. split; [apply (both_says P a Hpt is rs Hx); assumption|]. split; [assumption|]. split.
    + eapply (choose_through P a Hpt is rs Hx); try eassumption. eapply pa_no_empty_terminal; eassumption.
    + eapply (choose_char P a Hpt is rs Hx); try eassumption. eapply pa_no_empty_terminal; eassumption.
Qed.
End entry_goes.

(** ** What the check is about *)
Record sound (e : expr I) (G : list (arule I)) : Prop := {
  so_start : defined G start;
  so_closed : closed_rules G;
  so_ok : parsable G <-> fine e = true;
  so_null : fine e = true -> nnullable G [NTm start] <-> empties e = true;
  so_first : fine e = true -> forall c, nfirst G [NTm start] c <-> c ∈ begins_with e;
  so_ann : fine e = true -> forall c, announces G start (MChar c) <-> c ∈ taken_before e;
  so_go : fine e = true -> forall c, goes_on G c <-> c ∈ may_go_on e;
}.
Record inner (e : expr I) (P : list (arule I)) (x : str) : Prop := {
  in_part : part P x;
  in_ok : parsable (alone x [] P) <-> fine e = true;
  in_null : fine e = true -> nnullable (alone x [] P) [NTm x] <-> empties e = true;
  in_first : fine e = true -> forall c, nfirst (alone x [] P) [NTm x] c <-> c ∈ begins_with e;
  in_ann : fine e = true -> forall c, announces (alone x [] P) x (MChar c) <-> c ∈ taken_before e;
  in_go : fine e = true -> forall c, goes_on (alone x [] P) c <-> c ∈ may_go_on e;
}.
Lemma sound_inner e G x : sound e G -> unused x G -> inner e (embedded x G) x.
Proof.
  intros [S1 [S2 S3] S4 S5 S6 S7 S8] Hu. pose proof (emb_part x G Hu S1 S2 S3) as HP. destruct (C99_language I x G [] Hu HP) as (_ & L1 & L2 & L3 & L4).
  split.
  - assumption.
  - rewrite (w_parsable x G Hu [] HP). assumption.
  - intros Hf. rewrite L2. auto.
  - intros Hf c. rewrite L1. auto.
  - intros Hf c. rewrite L3. auto.
  - intros Hf c. rewrite (L4 (proj2 S4 Hf)). auto.
Qed.
Lemma ann_end (rs : list (arule I)) : announces rs start MTerminate <-> nnullable rs [NTm start].
Proof.
  unfold announces. split; [intros [(c & E & _)|[Hn _]]; [discriminate|assumption]|]. intros Hn. right. split; [assumption|]. apply nfol_follow. constructor.
Qed.
Lemma al_ann_end (P : list (arule I)) a is : part P a -> announces (alone a is P) a MTerminate <-> nnullable (alone a is P) [NTm a].
Proof.
  intros HP. unfold announces. split; [intros [(c & E & _)|[Hn _]]; [discriminate|assumption]|]. intros Hn. right. split; [assumption|]. apply nfol_follow, al_fol_a, HP.
Qed.
(** Where only the end follows start. *)
Lemma ann_first (rs : list (arule I)) c : (forall l, nfol rs start l -> l = MTerminate) -> announces rs start (MChar c) <-> nfirst rs [NTm start] c.
Proof.
  intros Hf. unfold announces. split.
  - intros [(c' & [= ->] & Hc)|[_ Hl]]; [assumption|]. apply nfol_follow, Hf in Hl. discriminate.
  - intros Hc. left. eauto.
Qed.
Lemma fine_begins (e : expr I) : fine e = true -> empties e = true \/ exists c, c ∈ begins_with e.
Proof.
  induction e as [is|s is|e1 IH1 e2 IH2|e1 IH1 e2 IH2|e IH|op cl e IH]; cbn [fine empties begins_with].
  - auto.
  - destruct s as [|c s]; [discriminate|]. intros _. right. exists c. left.
  - rewrite !andb_true_iff. intros [[[F1 _] _] _]. destruct (IH1 F1) as [->|[c Hc]]; [auto|]. right. exists c. apply elem_of_app. auto.
  - rewrite !andb_true_iff. intros [[F1 F2] _]. destruct (IH1 F1) as [E1|[c Hc]]; [|right; exists c; apply elem_of_app; auto]. rewrite E1.
    destruct (IH2 F2) as [->|[c Hc]]; [auto|]. right. exists c. apply elem_of_app. auto.
  - auto.
  - rewrite !andb_true_iff. intros [[[F _] _] _]. destruct (IH F) as [->|[c Hc]]; [auto|]. right. exists c. apply elem_of_app. auto.
Qed.

(** ** The leaves *)
Section leaf.
Context (w : list (str * ElementType)) (is : list I).
Notation G := ([mkARule start OvAbsent [w] is]).
Lemma leaf_rules x : rules_for x G = if decide (x = start) then G else [].
Proof. unfold rules_for. rewrite filter_cons. cbn [ar_name]. destruct (decide (start = x)), (decide (x = start)); try congruence; reflexivity. Qed.
Lemma leaf_defined x : defined G x <-> x = start.
Proof. unfold defined. rewrite leaf_rules. destruct (decide (x = start)); split; try congruence; try discriminate. Qed.
Lemma leaf_ignores x y : ~ ignores G x y.
Proof. intros (r & l & E & Ho). rewrite leaf_rules in E. destruct (decide (x = start)); [|discriminate]. injection E as <- <-. discriminate. Qed.
Lemma leaf_alts x : alternatives_for G x = if decide (x = start) then [w] else [].
Proof. unfold alternatives_for. rewrite leaf_rules. destruct (decide (x = start)); reflexivity. Qed.
Lemma leaf_says x i w' : says G x i w' <-> x = start /\ i = 0 /\ w' = w.
Proof.
  split.
  - intros [k Hk _|k y _ Hy _]; [|destruct (leaf_ignores _ _ Hy)]. rewrite leaf_alts in Hk. destruct (decide (x = start)); [|discriminate]. destruct i as [|i]; [|discriminate]. injection Hk as <-. auto.
  - intros (-> & -> & ->). apply says_plain; [rewrite leaf_alts, decide_True by reflexivity; reflexivity|]. intros y Hy. destruct (leaf_ignores _ _ Hy).
Qed.
Context (Hw : Forall (fun e => e.2 = Terminal) w).
Lemma leaf_no y u v : w <> u ++ NTm y :: v.
Proof. intros ->. apply Forall_app in Hw as [_ Hw']. apply Forall_cons in Hw' as [E _]. discriminate E. Qed.
Lemma leaf_closed : closed_rules G.
Proof.
  split; intros x y Hxy; [|destruct (leaf_ignores _ _ Hxy)]. destruct Hxy as (k & Hk & Hy). rewrite leaf_alts in Hk. destruct (decide (x = start)); [|inversion Hk].
  apply elem_of_list_singleton in Hk as ->. apply elem_of_list_split in Hy as (u & v & E). destruct (leaf_no _ _ _ E).
Qed.
Lemma leaf_fol x l : nfol G x l -> l = MTerminate.
Proof.
  intros Hn. destruct Hn as [|y i u x v c Hs _|y i u x v l Hs _ _]; [reflexivity|..]; apply leaf_says in Hs as (_ & _ & E); destruct (leaf_no _ _ _ (eq_sym E)).
Qed.
Lemma leaf_go c : ~ goes_on G c.
Proof. intros (x & i & j & k & k' & H1 & H2 & Hij & _). apply leaf_says in H1 as (_ & -> & _). apply leaf_says in H2 as (_ & -> & _). exact (Hij eq_refl). Qed.
Lemma leaf_parsable : head w <> Some ([], Terminal) -> parsable G.
Proof.
  intros Hh. split.
  - apply leaf_defined. reflexivity.
  - apply leaf_closed.
  - apply leaf_closed.
  - intros x Ht. assert (exists z, nleft_calls G x z) as (z & i & u & v & Hs & _) by (inversion Ht; eauto). apply leaf_says in Hs as (_ & _ & E). destruct (leaf_no _ _ _ (eq_sym E)).
  - intros x i k Hs. apply leaf_says in Hs as (_ & _ & ->). assumption.
  - intros x i j k k' l H1 H2 Hij _ _. apply leaf_says in H1 as (_ & -> & _). apply leaf_says in H2 as (_ & -> & _). exact (Hij eq_refl).
Qed.
Lemma leaf_null : nnullable G [NTm start] <-> nnullable G w.
Proof. rewrite nnullable_unfold. setoid_rewrite leaf_says. split; [intros (i & k & (_ & _ & ->) & Hk); assumption|eauto 10]. Qed.
Lemma leaf_first c : nfirst G [NTm start] c <-> nfirst G w c.
Proof. rewrite nfirst_fold. setoid_rewrite leaf_says. split; [intros (i & k & (_ & _ & ->) & Hk); assumption|eauto 10]. Qed.
Lemma leaf_ann c : announces G start (MChar c) <-> nfirst G w c.
Proof. rewrite ann_first by (intros l; apply leaf_fol). apply leaf_first. Qed.
End leaf.
Lemma sound_nothing is : sound (Nothing is) [mkARule start OvAbsent [[]] is].
Proof.
  assert (Forall (fun e : str * ElementType => e.2 = Terminal) []) as Hw by constructor. split; cbn [fine empties begins_with may_go_on].
  - apply leaf_defined. reflexivity.
  - apply leaf_closed, Hw.
  - split; [reflexivity|]. intros _. apply leaf_parsable; [assumption|discriminate].
  - intros _. rewrite leaf_null. split; [reflexivity|]. intros _. apply nnullable_nil.
  - intros _ c. rewrite leaf_first. split; [intros Hc; destruct (nfirst_nil _ _ Hc)|inversion 1].
  - intros _ c. rewrite leaf_ann by assumption. split; [intros Hc; destruct (nfirst_nil _ _ Hc)|inversion 1].
  - intros _ c. split; [intros Hc; destruct (leaf_go _ _ _ Hc)|inversion 1].
Qed.
Lemma sound_word s is : sound (Word s is) [mkARule start OvAbsent [[(s, Terminal)]] is].
Proof.
  assert (Forall (fun e : str * ElementType => e.2 = Terminal) [(s, Terminal)]) as Hw by (constructor; [reflexivity|constructor]).
  assert (nonempty s = true <-> s <> []) as Hne by (destruct s; cbn; split; congruence || discriminate).
  split; cbn [fine empties begins_with may_go_on].
  - apply leaf_defined. reflexivity.
  - apply leaf_closed, Hw.
  - rewrite Hne. split.
    + intros Hp ->. apply (pa_no_empty_terminal _ Hp start 0 [([], Terminal)]); [apply leaf_says; auto|reflexivity].
    + intros Hn. apply leaf_parsable; [assumption|]. cbn. intros E. apply Hn. congruence.
  - rewrite Hne. intros Hn. rewrite leaf_null. split; [|discriminate]. intros Hx. apply terminal_nullable in Hx. destruct (Hn Hx).
  - rewrite Hne. intros Hn c. rewrite leaf_first, take_head. apply quoted_first. assumption.
  - rewrite Hne. intros Hn c. rewrite leaf_ann by assumption. unfold taken_before. rewrite app_nil_r. cbn [begins_with]. rewrite take_head. apply quoted_first. assumption.
  - intros _ c. split; [intros Hc; destruct (leaf_go _ _ _ Hc)|inversion 1].
Qed.

(** ** One or the other *)
Lemma sound_alt e1 e2 P1 P2 x1 x2 : inner e1 P1 x1 -> inner e2 P2 x2 -> apart P1 P2 -> sound (Alt e1 e2) (either x1 x2 [] P1 P2).
Proof.
  intros J1 J2 Hap. pose proof (in_part _ _ _ J1) as HP. pose proof (in_part _ _ _ J2) as HQ.
  assert (fine (Alt e1 e2) = true <-> fine e1 = true /\ fine e2 = true /\ ~ (empties e1 = true /\ empties e2 = true) /\ forall c, c ∈ taken_before e1 -> c ∉ taken_before e2) as Hfine.
  { cbn [fine]. rewrite !andb_true_iff, disjoint_spec, negb_true_iff. destruct (empties e1), (empties e2); cbn [andb]; intuition discriminate. }
  assert (parsable (either x1 x2 [] P1 P2) <-> fine (Alt e1 e2) = true) as Hok.
  { rewrite Hfine, (either_parsable P1 P2 x1 x2 HP HQ Hap [] [] []), (in_ok _ _ _ J1), (in_ok _ _ _ J2). split.
    - intros (F1 & F2 & Hd). split; [assumption|]. split; [assumption|]. split.
      + intros [N1 N2]. apply (Hd MTerminate); apply al_ann_end; try assumption; [apply (in_null _ _ _ J1 F1), N1|apply (in_null _ _ _ J2 F2), N2].
      + intros c C1 C2. apply (Hd (MChar c)); [apply (in_ann _ _ _ J1 F1), C1|apply (in_ann _ _ _ J2 F2), C2].
    - intros (F1 & F2 & Hn & Hd). split; [assumption|]. split; [assumption|]. intros [c|] A1 A2.
      + apply (Hd c); [apply (in_ann _ _ _ J1 F1), A1|apply (in_ann _ _ _ J2 F2), A2].
      + apply Hn. apply al_ann_end in A1; [|assumption]. apply al_ann_end in A2; [|assumption]. split; [apply (in_null _ _ _ J1 F1), A1|apply (in_null _ _ _ J2 F2), A2]. }
  pose proof (ei_left P1 P2 x1 x2 HP HQ Hap []) as X1. pose proof (ei_right P1 P2 x1 x2 HP HQ Hap []) as X2. pose proof (re_in_a P1 x1 HP) as I1. pose proof (re_in_a P2 x2 HQ) as I2.
  assert (forall c, nfirst (either x1 x2 [] P1 P2) [NTm start] c <-> nfirst (alone x1 [] P1) [NTm x1] c \/ nfirst (alone x2 [] P2) [NTm x2] c) as Hfirst.
  { intros c. rewrite nfirst_fold. setoid_rewrite (ei_start P1 P2 x1 x2 HP HQ). rewrite <- (both_first P1 x1 HP [] _ X1 _ c I1), <- (both_first P2 x2 HQ [] _ X2 _ c I2). split.
    - intros (i & w & [[_ ->]|[_ ->]] & Hc); auto.
    - intros [Hc|Hc]; eauto 10. }
  assert (nnullable (either x1 x2 [] P1 P2) [NTm start] <-> nnullable (alone x1 [] P1) [NTm x1] \/ nnullable (alone x2 [] P2) [NTm x2]) as Hnull.
  { rewrite nnullable_unfold. setoid_rewrite (ei_start P1 P2 x1 x2 HP HQ). rewrite <- (both_nullable P1 x1 HP [] _ X1 _ I1), <- (both_nullable P2 x2 HQ [] _ X2 _ I2). split.
    - intros (i & w & [[_ ->]|[_ ->]] & Hc); auto.
    - intros [Hc|Hc]; eauto 10. }
  split; try exact Hok.
  - apply st_defined; [apply (two_no_start _ _ x1 x2 HP HQ)|]. auto.
  - apply st_closed; [apply (two_no_start _ _ x1 x2 HP HQ)|apply (both_closed _ _ x1 x2); assumption|]. intros w y Hw Hy. right. apply defined_app.
    destruct (ei_alts x1 x2 w _ Hw Hy) as [E|E]; [left|right]; injection E as ->; [apply (pt_entry _ _ HP)|apply (pt_entry _ _ HQ)].
  - intros F. apply Hfine in F as (F1 & F2 & _). rewrite Hnull, (in_null _ _ _ J1 F1), (in_null _ _ _ J2 F2). cbn [empties]. rewrite orb_true_iff. reflexivity.
  - intros F c. apply Hfine in F as (F1 & F2 & _). rewrite Hfirst, (in_first _ _ _ J1 F1), (in_first _ _ _ J2 F2). cbn [begins_with]. rewrite elem_of_app. reflexivity.
  - intros F c. apply Hfine in F as (F1 & F2 & _). rewrite ann_first by (intros l; apply (two_fol_start P1 P2 x1 x2 HP HQ Hap [] _ (ei_alts x1 x2))).
    rewrite Hfirst, (in_first _ _ _ J1 F1), (in_first _ _ _ J2 F2). unfold taken_before. rewrite app_nil_r. cbn [begins_with]. rewrite elem_of_app. reflexivity.
  - intros F c. pose proof (proj2 Hok F) as Hp. apply Hfine in F as (F1 & F2 & Hn & _). pose proof (proj2 (in_ok _ _ _ J1) F1) as Hp1. pose proof (proj2 (in_ok _ _ _ J2) F2) as Hp2.
    cbn [may_go_on]. rewrite !elem_of_app, !in_if, <- (in_go _ _ _ J1 F1), <- (in_go _ _ _ J2 F2).
    assert (forall e P x, inner e P x -> fine e = true -> empties e <> true -> announces (alone x [] P) x (MChar c) <-> c ∈ begins_with e) as Ha.
    { intros e P x J F Hne. rewrite (in_ann _ _ _ J F). unfold taken_before. rewrite elem_of_app. split; [|auto]. intros [?|Hx]; [assumption|]. destruct e; try (inversion Hx; fail).
      apply in_if in Hx as [E _]. destruct (Hne E). }
    split.
    + intros (y & i & j & w & w' & H1 & H2 & Hij & C1 & C2). pose proof H1 as H1'. apply (two_cases P1 P2 x1 x2 HP HQ Hap [] _) in H1' as [[-> _]|[[Hd _]|[Hd _]]].
      * apply (ei_start P1 P2 x1 x2 HP HQ) in H1. apply (ei_start P1 P2 x1 x2 HP HQ) in H2.
        destruct H1 as [[-> ->]|[-> ->]], H2 as [[-> ->]|[-> ->]]; try (destruct (Hij eq_refl)).
        -- apply (ei_announces_a P1 P2 x1 x2 HP HQ Hap [] []), al_ann_end in C1; [|assumption]. apply (ei_announces_b P1 P2 x1 x2 HP HQ Hap [] []) in C2.
           apply (in_null _ _ _ J1 F1) in C1. assert (empties e2 <> true) as N2 by auto. apply (Ha e2 P2 x2 J2 F2 N2) in C2. auto.
        -- apply (ei_announces_b P1 P2 x1 x2 HP HQ Hap [] []), al_ann_end in C1; [|assumption]. apply (ei_announces_a P1 P2 x1 x2 HP HQ Hap [] []) in C2.
           apply (in_null _ _ _ J2 F2) in C1. assert (empties e1 <> true) as N1 by auto. apply (Ha e1 P1 x1 J1 F1 N1) in C2. auto.
      * left. exact (part_goes_in P1 x1 HP [] _ X1 (two_entry_P P1 P2 x1 x2 HP HQ Hap [] _ (ei_alts x1 x2)) c y i j w w' Hp1 Hd H1 H2 Hij C1 C2).
      * right. left. exact (part_goes_in P2 x2 HQ [] _ X2 (two_entry_Q P1 P2 x1 x2 HP HQ Hap [] _ (ei_alts x1 x2)) c y i j w w' Hp2 Hd H1 H2 Hij C1 C2).
    + intros [Hg|[Hg|[[N Hc]|[N Hc]]]].
      * apply (part_goes_out P1 x1 HP [] _ X1); [assumption|apply (ei_fol_a P1 P2 x1 x2 HP HQ)|assumption].
      * apply (part_goes_out P2 x2 HQ [] _ X2); [assumption|apply (ei_fol_b P1 P2 x1 x2 HP HQ)|assumption].
      * exists start, 0, 1, [NTm x1], [NTm x2]. split; [apply (ei_start P1 P2 x1 x2 HP HQ); auto|]. split; [apply (ei_start P1 P2 x1 x2 HP HQ); auto|]. split; [discriminate|]. split.
        -- apply (ei_announces_a P1 P2 x1 x2 HP HQ Hap [] []), al_ann_end; [assumption|]. apply (in_null _ _ _ J1 F1), N.
        -- apply (ei_announces_b P1 P2 x1 x2 HP HQ Hap [] []), (Ha e2 P2 x2 J2 F2); auto.
      * exists start, 1, 0, [NTm x2], [NTm x1]. split; [apply (ei_start P1 P2 x1 x2 HP HQ); auto|]. split; [apply (ei_start P1 P2 x1 x2 HP HQ); auto|]. split; [discriminate|]. split.
        -- apply (ei_announces_b P1 P2 x1 x2 HP HQ Hap [] []), al_ann_end; [assumption|]. apply (in_null _ _ _ J2 F2), N.
        -- apply (ei_announces_a P1 P2 x1 x2 HP HQ Hap [] []), (Ha e1 P1 x1 J1 F1); auto.
Qed.

(** ** One after the other *)
Lemma sound_then e1 e2 P1 P2 x1 x2 : inner e1 P1 x1 -> inner e2 P2 x2 -> apart P1 P2 -> sound (Then e1 e2) (in_turn x1 x2 [] P1 P2).
Proof.
  intros J1 J2 Hap. pose proof (in_part _ _ _ J1) as HP. pose proof (in_part _ _ _ J2) as HQ.
  assert (fine (Then e1 e2) = true <-> fine e1 = true /\ fine e2 = true /\ forall c, c ∈ may_go_on e1 -> c ∉ begins_with e2) as Hfine.
  { cbn [fine]. rewrite !andb_true_iff, disjoint_spec. tauto. }
  assert (parsable (in_turn x1 x2 [] P1 P2) <-> fine (Then e1 e2) = true) as Hok.
  { rewrite Hfine, (in_turn_parsable P1 P2 x1 x2 HP HQ Hap [] [] []), (in_ok _ _ _ J1), (in_ok _ _ _ J2).
    - split; intros (F1 & F2 & Hd); (split; [assumption|]; split; [assumption|]); intros c.
      + intros C1 C2. apply (Hd c); [apply (in_first _ _ _ J2 F2), C2|apply (in_go _ _ _ J1 F1), C1].
      + intros C1 C2. apply (Hd c); [apply (in_go _ _ _ J1 F1), C2|apply (in_first _ _ _ J2 F2), C1].
    - intros Hp. apply (in_ok _ _ _ J2) in Hp. destruct (fine_begins e2 Hp) as [E|[c Hc]]; [left; apply (in_null _ _ _ J2 Hp), E|right; exists c; apply (in_first _ _ _ J2 Hp), Hc]. }
  pose proof (it_left P1 P2 x1 x2 HP HQ Hap []) as X1. pose proof (it_right P1 P2 x1 x2 HP HQ Hap []) as X2. pose proof (re_in_a P1 x1 HP) as I1. pose proof (re_in_a P2 x2 HQ) as I2.
  assert (forall c, nfirst (in_turn x1 x2 [] P1 P2) [NTm start] c <-> nfirst (alone x1 [] P1) [NTm x1] c \/ (nnullable (alone x1 [] P1) [NTm x1] /\ nfirst (alone x2 [] P2) [NTm x2] c)) as Hfirst.
  { intros c. rewrite nfirst_fold. setoid_rewrite (it_start P1 P2 x1 x2 HP HQ). rewrite <- (both_first P1 x1 HP [] _ X1 _ c I1), <- (both_first P2 x2 HQ [] _ X2 _ c I2), <- (both_nullable P1 x1 HP [] _ X1 _ I1).
    rewrite <- (nfirst_app _ [NTm x1] [NTm x2]). cbn [app]. split; [intros (i & w & [_ ->] & Hc); assumption|eauto 10]. }
  assert (nnullable (in_turn x1 x2 [] P1 P2) [NTm start] <-> nnullable (alone x1 [] P1) [NTm x1] /\ nnullable (alone x2 [] P2) [NTm x2]) as Hnull.
  { rewrite nnullable_unfold. setoid_rewrite (it_start P1 P2 x1 x2 HP HQ). rewrite <- (both_nullable P1 x1 HP [] _ X1 _ I1), <- (both_nullable P2 x2 HQ [] _ X2 _ I2).
    rewrite <- (nnullable_app _ [NTm x1] [NTm x2]). cbn [app]. split; [intros (i & w & [_ ->] & Hc); assumption|eauto 10]. }
  split; try exact Hok.
  - apply st_defined; [apply (two_no_start _ _ x1 x2 HP HQ)|]. auto.
  - apply st_closed; [apply (two_no_start _ _ x1 x2 HP HQ)|apply (both_closed _ _ x1 x2); assumption|]. intros w y Hw Hy. right. apply defined_app.
    destruct (it_alts x1 x2 w _ Hw Hy) as [E|E]; [left|right]; injection E as ->; [apply (pt_entry _ _ HP)|apply (pt_entry _ _ HQ)].
  - intros F. apply Hfine in F as (F1 & F2 & _). rewrite Hnull, (in_null _ _ _ J1 F1), (in_null _ _ _ J2 F2). cbn [empties]. rewrite andb_true_iff. reflexivity.
  - intros F c. apply Hfine in F as (F1 & F2 & _). rewrite Hfirst, (in_first _ _ _ J1 F1), (in_null _ _ _ J1 F1), (in_first _ _ _ J2 F2). cbn [begins_with]. rewrite elem_of_app, in_if. reflexivity.
  - intros F c. apply Hfine in F as (F1 & F2 & _). rewrite ann_first by (intros l; apply (two_fol_start P1 P2 x1 x2 HP HQ Hap [] _ (it_alts x1 x2))).
    rewrite Hfirst, (in_first _ _ _ J1 F1), (in_null _ _ _ J1 F1), (in_first _ _ _ J2 F2). unfold taken_before. rewrite app_nil_r. cbn [begins_with]. rewrite elem_of_app, in_if. reflexivity.
  - intros F c. apply Hfine in F as (F1 & F2 & _). pose proof (proj2 (in_ok _ _ _ J1) F1) as Hp1. pose proof (proj2 (in_ok _ _ _ J2) F2) as Hp2.
    cbn [may_go_on]. rewrite !elem_of_app, !in_if, <- (in_go _ _ _ J1 F1), <- (in_go _ _ _ J2 F2).
    split.
    + intros (y & i & j & w & w' & H1 & H2 & Hij & C1 & C2). pose proof H1 as H1'. apply (two_cases P1 P2 x1 x2 HP HQ Hap [] _) in H1' as [[-> _]|[[Hd _]|[Hd _]]].
      * apply (it_start P1 P2 x1 x2 HP HQ) in H1 as [-> _]. apply (it_start P1 P2 x1 x2 HP HQ) in H2 as [-> _]. destruct (Hij eq_refl).
      * right. pose proof (two_entry_P P1 P2 x1 x2 HP HQ Hap [] _ (it_alts x1 x2)) as Ent. split; [|exact (part_goes_in P1 x1 HP [] _ X1 Ent c y i j w w' Hp1 Hd H1 H2 Hij C1 C2)].
        assert (says (alone x1 [] P1) y i w) as G1 by (apply (both_says P1 x1 HP [] _ X1); assumption).
        apply (choose_out P1 x1 HP [] _ X1 Ent y i) in C1; [|assumption|assumption|exact (pa_no_empty_terminal _ Hp1 _ _ _ G1)]. destruct C1 as [(c' & E & _)|[_ Ho]]; [discriminate|].
        destruct Ho as (z & k & u & v & Hz & Hs & Hl). destruct (two_outside_P P1 P2 x1 x2 HP HQ Hap [] _ z k u v Hz Hs) as [-> _]. apply (it_start P1 P2 x1 x2 HP HQ) in Hs as [_ E]. symmetry in E.
        destruct (pair_split P1 P2 x1 x2 HP HQ _ _ _ E) as [(_ & -> & ->)|(E' & _)]; [|destruct (a_not_b P1 P2 x1 x2 HP HQ Hap E')]. destruct Hl as [(c' & E' & _)|[Hn _]]; [discriminate|].
        apply (in_null _ _ _ J2 F2). apply (both_nullable P2 x2 HQ [] _ X2 _ I2), Hn.
      * left. exact (part_goes_in P2 x2 HQ [] _ X2 (two_entry_Q P1 P2 x1 x2 HP HQ Hap [] _ (it_alts x1 x2)) c y i j w w' Hp2 Hd H1 H2 Hij C1 C2).
    + intros [Hg|[N Hg]].
      * apply (part_goes_out P2 x2 HQ [] _ X2); [assumption|apply (it_fol_b P1 P2 x1 x2 HP HQ)|assumption].
      * apply (part_goes_out P1 x1 HP [] _ X1); [assumption| |assumption]. apply (it_fol_a_end P1 P2 x1 x2 HP HQ Hap [] []). apply (in_null _ _ _ J2 F2), N.
Qed.

(** ** Any number of times *)
Lemma sound_many e P x : inner e P x -> sound (Many e) (repeated x [] P).
Proof.
  intros J. pose proof (in_part _ _ _ J) as HP. pose proof (pt_no_start _ _ HP) as Hns.
  assert (fine (Many e) = true <-> fine e = true /\ empties e <> true /\ forall c, c ∈ may_go_on e -> c ∉ begins_with e) as Hfine.
  { cbn [fine]. rewrite !andb_true_iff, disjoint_spec, negb_true_iff, not_true_iff_false. tauto. }
  assert (parsable (repeated x [] P) <-> fine (Many e) = true) as Hok.
  { rewrite Hfine, (repeated_parsable P x HP [] []), (in_ok _ _ _ J). split; intros (F & Hn & Hd); (split; [assumption|]); (split; [rewrite (in_null _ _ _ J F) in *; assumption|]); intros c.
    - intros C1 C2. apply (Hd c); [apply (in_first _ _ _ J F), C2|apply (in_go _ _ _ J F), C1].
    - intros C1 C2. apply (Hd c); [apply (in_go _ _ _ J F), C2|apply (in_first _ _ _ J F), C1]. }
  pose proof (re_left P x HP []) as X. pose proof (re_in_a P x HP) as I1.
  assert (fine (Many e) = true -> forall c, nfirst (repeated x [] P) [NTm start] c <-> c ∈ begins_with e) as Hfirst.
  { intros F c. apply Hfine in F as (F & Hn & _). rewrite <- (in_null _ _ _ J F) in Hn. rewrite <- (in_first _ _ _ J F). split; [apply (re_first_back P x HP [] [] c Hn)|apply (re_first P x HP)]. }
  split; try exact Hok.
  - apply st_defined; auto.
  - apply st_closed; [assumption|eapply part_closed; eassumption|]. intros w y Hw Hy. apply elem_of_cons in Hw as [->|Hw]; [|apply elem_of_list_singleton in Hw as ->; inversion Hy].
    apply elem_of_cons in Hy as [E|Hy]; [right; injection E as ->; apply (pt_entry _ _ HP)|left]. apply elem_of_list_singleton in Hy. congruence.
  - intros _. cbn [empties]. split; [reflexivity|]. intros _. apply (re_nullable P x HP).
  - exact Hfirst.
  - intros F c. rewrite ann_first by (intros l; apply (re_fol_start P x HP)). rewrite (Hfirst F). unfold taken_before. rewrite app_nil_r. reflexivity.
  - intros F c. pose proof (Hfirst F c) as Hfc. apply Hfine in F as (F & Hn & _). pose proof (proj2 (in_ok _ _ _ J) F) as Hp. cbn [may_go_on]. rewrite elem_of_app, <- (in_go _ _ _ J F).
    rewrite <- (in_null _ _ _ J F) in Hn. rewrite <- (in_first _ _ _ J F). split.
    + intros (y & i & j & w & w' & H1 & H2 & Hij & C1 & C2). pose proof H1 as H1'. apply (re_cases P x HP) in H1' as [[-> _]|[Hd _]].
      * apply (re_start P x HP) in H1. apply (re_start P x HP) in H2. destruct H1 as [[-> ->]|[-> ->]], H2 as [[-> ->]|[-> ->]]; try (destruct (Hij eq_refl)).
        -- destruct C1 as [(c' & E & _)|[Hn' _]]; [discriminate|]. destruct Hn. apply (both_nullable P x HP [] _ X _ I1), Hn'.
        -- left. destruct C2 as [(c' & [= <-] & Hc)|[Hn' _]]; [apply (both_first P x HP [] _ X _ c I1), Hc|]. destruct Hn. apply (both_nullable P x HP [] _ X _ I1), Hn'.
      * right. exact (part_goes_in P x HP [] _ X (re_entry P x HP []) c y i j w w' Hp Hd H1 H2 Hij C1 C2).
    + intros [Hc|Hg].
      * exists start, 1, 0, [], [NTm x; NTm start]. split; [apply (re_start P x HP); auto|]. split; [apply (re_start P x HP); auto|]. split; [discriminate|]. split.
        -- cbn [nchoose]. apply nfol_follow. constructor.
        -- left. exists c. split; [reflexivity|]. apply (both_first P x HP [] _ X _ c I1), Hc.
      * apply (part_goes_out P x HP [] _ X); [assumption|apply (re_fol_a P x HP)|assumption].
Qed.

(** ** In brackets *)
Lemma sound_nest op cl e P x : op <> [] -> cl <> [] -> inner e P x -> sound (Nest op cl e) (nested x op cl [] P).
Proof.
  intros Hop Hcl J. pose proof (in_part _ _ _ J) as HP. pose proof (pt_no_start _ _ HP) as Hns.
  assert (disjoint_chars (take 1 op) (take 1 cl) = true <-> head op <> head cl) as Hoc.
  { rewrite disjoint_spec. setoid_rewrite take_head. destruct op as [|c op], cl as [|d cl]; try congruence. cbn. split; [intros Hd [= E]; apply (Hd c); congruence|intros Hd c' [= <-] [= E]; congruence]. }
  assert (fine (Nest op cl e) = true <-> fine e = true /\ (forall c, head op = Some c -> c ∉ taken_before e) /\ (empties e = true -> head op <> head cl) /\ forall c, head cl = Some c -> c ∉ may_go_on e) as Hfine.
  { cbn [fine]. rewrite !andb_true_iff. rewrite (disjoint_spec (take 1 op) (taken_before e)), (disjoint_spec (take 1 cl)). setoid_rewrite take_head.
    destruct (empties e); cbn [andb negb]; [rewrite negb_involutive, Hoc|]; intuition discriminate. }
  assert (parsable (nested x op cl [] P) <-> fine (Nest op cl e) = true) as Hok.
  { rewrite Hfine, (nested_parsable P x op cl HP Hop Hcl [] []), (in_ok _ _ _ J). split; intros (F & Ha & Hn & Hg); (split; [assumption|]); (split; [|split]).
    - intros c Hc. rewrite <- (in_ann _ _ _ J F). auto.
    - rewrite <- (in_null _ _ _ J F). assumption.
    - intros c Hc. rewrite <- (in_go _ _ _ J F). auto.
    - intros c Hc. rewrite (in_ann _ _ _ J F). apply Ha, Hc.
    - rewrite (in_null _ _ _ J F). assumption.
    - intros c Hc. rewrite (in_go _ _ _ J F). apply Hg, Hc. }
  pose proof (ne_left P x op cl HP []) as X. pose proof (re_in_a P x HP) as I1.
  assert (forall c, nfirst (nested x op cl [] P) [NTm start] c <-> head op = Some c \/ nfirst (alone x [] P) [NTm x] c) as Hfirst.
  { intros c. rewrite nfirst_fold. setoid_rewrite (ne_start P x op cl HP). rewrite <- (both_first P x HP [] _ X _ c I1). rewrite <- (quoted_first (nested x op cl [] P) op [NTm start; (cl, Terminal)] c Hop). split.
    - intros (i & w & [[_ ->]|[_ ->]] & Hc); auto.
    - intros [Hc|Hc]; eauto 10. }
  assert (nnullable (nested x op cl [] P) [NTm start] <-> nnullable (alone x [] P) [NTm x]) as Hnull.
  { rewrite nnullable_unfold. setoid_rewrite (ne_start P x op cl HP). rewrite <- (both_nullable P x HP [] _ X _ I1). split.
    - intros (i & w & [[_ ->]|[_ ->]] & Hc); [|assumption]. apply (nnullable_app _ [(op, Terminal)]) in Hc as [Hc _]. apply terminal_nullable in Hc. destruct (Hop Hc).
    - eauto 10. }
  split; try exact Hok.
  - apply st_defined; auto.
  - apply st_closed; [assumption|eapply part_closed; eassumption|]. intros w y Hw Hy. apply elem_of_cons in Hw as [->|Hw].
    + left. apply elem_of_cons in Hy as [E|Hy]; [discriminate|]. apply elem_of_cons in Hy as [E|Hy]; [congruence|]. apply elem_of_list_singleton in Hy. discriminate.
    + right. apply elem_of_list_singleton in Hw as ->. apply elem_of_list_singleton in Hy. assert (y = x) as -> by congruence. apply (pt_entry _ _ HP).
  - intros F. apply Hfine in F as (F & _). rewrite Hnull. apply (in_null _ _ _ J F).
  - intros F c. apply Hfine in F as (F & _). rewrite Hfirst, (in_first _ _ _ J F). cbn [begins_with]. rewrite elem_of_app, take_head. reflexivity.
  - intros F c. apply Hfine in F as (F & _). unfold taken_before. cbn [begins_with]. rewrite elem_of_app, elem_of_app, in_if, !take_head, <- (in_first _ _ _ J F), <- Hfirst, <- (in_null _ _ _ J F), <- Hnull.
    unfold announces. rewrite <- nfol_follow. split.
    + intros [(c' & [= <-] & Hc)|[Hn Hl]]; [auto|]. apply (ne_fol_start P x op cl HP Hcl) in Hl as [?|(c' & [= <-] & Hc)]; [discriminate|auto].
    + intros [Hc|[Hn Hc]]; [left; eauto|]. right. split; [assumption|]. apply (ne_fol_cl P x op cl HP Hcl), Hc.
  - intros F c. pose proof (proj2 Hok F) as Hpw. apply Hfine in F as (F & Ha & Hne & _). pose proof (proj2 (in_ok _ _ _ J) F) as Hp. cbn [may_go_on]. rewrite elem_of_app, in_if, take_head, <- (in_go _ _ _ J F), <- (in_null _ _ _ J F). split.
    + intros (y & i & j & w & w' & H1 & H2 & Hij & C1 & C2). pose proof H1 as H1'. apply (ne_cases P x op cl HP) in H1' as [[-> _]|[Hd _]].
      * apply (ne_start P x op cl HP) in H1. apply (ne_start P x op cl HP) in H2. destruct H1 as [[-> ->]|[-> ->]], H2 as [[-> ->]|[-> ->]]; try (destruct (Hij eq_refl)).
        -- destruct C1 as [(c' & E & _)|[Hn' _]]; [discriminate|]. apply terminal_nullable in Hn'. destruct (Hop Hn').
        -- right. destruct C1 as [(c' & E & _)|[Hn' _]]; [discriminate|]. apply (both_nullable P x HP [] _ X _ I1) in Hn'. split; [assumption|].
           destruct C2 as [(c' & [= <-] & Hc)|[Hn2 _]]; [apply quoted_first in Hc; assumption|]. apply terminal_nullable in Hn2. destruct (Hop Hn2).
      * left. exact (part_goes_in P x HP [] _ X (ne_entry P x op cl HP []) c y i j w w' Hp Hd H1 H2 Hij C1 C2).
    + intros [Hg|[Hn Hc]].
      * apply (part_goes_out P x HP [] _ X); [assumption|apply (ne_fol_a P x op cl HP []); constructor|assumption].
      * exists start, 1, 0, [NTm x], [(op, Terminal); NTm start; (cl, Terminal)]. split; [apply (ne_start P x op cl HP); auto|]. split; [apply (ne_start P x op cl HP); auto|]. split; [discriminate|]. split.
        -- right. split; [apply (both_nullable P x HP [] _ X _ I1), Hn|]. apply nfol_follow, (ne_fol_a P x op cl HP []). constructor.
        -- left. exists c. split; [reflexivity|]. apply quoted_first; assumption.
Qed.
Theorem expressed_sound e G : expressed e G -> sound e G.
Proof.
  induction 1 as [is|s is|e1 e2 G1 G2 x1 x2 _ S1 _ S2 U1 U2 Hap|e1 e2 G1 G2 x1 x2 _ S1 _ S2 U1 U2 Hap|e G x _ S U|op cl e G x Hop Hcl _ S U].
  - apply sound_nothing.
  - apply sound_word.
  - apply sound_alt; [apply sound_inner; assumption..|assumption].
  - apply sound_then; [apply sound_inner; assumption..|assumption].
  - apply sound_many, sound_inner; assumption.
  - apply sound_nest; [assumption..|apply sound_inner; assumption].
Qed.
End general.
