(** * Property theorems: how a sentence may go on, and what no grammar text describes (C106) *)
From stdpp Require finite.
From Verif Require Import Base Peekables Tree Errors Sets ParserData Vm SimpleStackVm StackVm RuleParsing FirstSets FollowSets SteuerMap ScriptParser
  SpecText SpecData SpecGrammar SpecParser SpecTree SpecScript SpecContract SpecWeave SpecRules SpecNames SpecLanguage SpecIgnore SpecTyping SpecResidue Grammar_proofs Construct_proofs Checks Tree_proofs Script_proofs Parse_proofs Residue_proofs
  Weave_proofs Names_proofs RuleBuild_proofs RuleText_proofs Language_proofs Ignore_proofs Accept_proofs Props_steuer Props_script Props_weave Props_rules Props_vm Props_names Props_language Props_errors Props_main SpecRecipes Recipes_proofs Props_recipes Props_depth Samples.
Notation start := (lit "start").

Section names.
Context {vm : VM} (pd pd' : ParserData (vm_instr vm)) (rs : list (arule (vm_instr vm))) (Hd : described pd rs) (Hed : edited_data pd pd').
Notation nr := (fun s => nroot (named pd' s)).
Lemma same_names g g0 : Forall (derivation pd') g -> Forall (derivation pd') g0 -> map root g = map root g0 -> map nr g = map nr g0.
Proof.
  intros Hg. revert g0. induction Hg as [|s g Hs _ IH]; intros [|s0 g0] Hg0 E; try discriminate; [reflexivity|]. apply Forall_cons in Hg0 as [Hs0 Hg0]. cbn [map] in *.
  injection E as E1 E2. rewrite (IH g0 Hg0 E2). f_equal. destruct (named_derivation pd pd' rs Hd Hed s Hs) as [_ N1], (named_derivation pd pd' rs Hd Hed s0 Hs0) as [_ N2]. congruence.
Qed.
Lemma forest_texts g : Forall (derivation pd') g -> texts_of rs (map nr g) (map (yield pd') g).
Proof.
  induction 1 as [|s g Hs _ IH]; [constructor|]. cbn [map]. constructor; [|exact IH]. destruct (named_derivation pd pd' rs Hd Hed s Hs) as [N1 _].
  unfold element_text. rewrite <- named_yield. destruct (named pd' s) as [b|x subs]; [reflexivity|]. cbn [nroot fst snd]. exists (NNode x subs). auto.
Qed.
Lemma texts_forest g0 : Forall (derivation pd') g0 -> forall ss, texts_of rs (map nr g0) ss -> exists g, Forall (derivation pd') g /\ map root g = map root g0 /\ map (yield pd') g = ss.
Proof.
  induction 1 as [|s g0 Hs _ IH]; cbn [map]; intros ss Hss; inversion Hss as [|? x ? ss' Hx Hss' E1 E2]; subst; [exists []; split; [constructor|auto]|].
  destruct (IH ss' Hss') as (g & G1 & G2 & <-).
  assert (exists s', derivation pd' s' /\ root s' = root s /\ yield pd' s' = x) as (s' & S1 & S2 & S3).
  { destruct (named_derivation pd pd' rs Hd Hed s Hs) as [_ N2]. pose proof (named_yield pd' s) as Hy. unfold element_text in Hx. destruct (named pd' s) as [b|y subs]; cbn [nroot fst snd] in Hx.
    - exists s. split; [assumption|]. split; [reflexivity|]. cbn in Hy. congruence.
    - destruct Hx as (nt & T1 & T2 & T3). destruct (derivation_named pd pd' rs Hd Hed nt T1 (root s)) as (pt & P1 & P2 & P3); [rewrite T2; exact N2|]. exists pt. split; [assumption|]. split; [assumption|].
      rewrite <- named_yield, P3. assumption. }
  exists (s' :: g). split; [apply Forall_cons; auto|]. cbn [map]. split; congruence.
Qed.
End names.

(** ** C106.  If a text can go on to a sentence, there are a text and elements (quoted texts and
    names) such that the ways to go on are exactly: that text, then any texts of the elements,
    in order and independent of each other.  And the next char alone says which of the
    elements it belongs to. *)
Theorem C106_continuations : forall (U : Unicode) (H : HashOrder) m (vm : VM) rs t ps, read_from m vm rs t ps ->
  forall u, can_go_on rs u -> exists b zs,
    (forall v, sentence rs (u ++ v) <-> exists ss, texts_of rs zs ss /\ v = b ++ concat ss) /\
    (forall ss ss' c, texts_of rs zs ss -> texts_of rs zs ss' -> head (concat ss) = Some c -> head (concat ss') = Some c ->
      forall i, concat (take i ss) = [] <-> concat (take i ss') = []).
Proof.
  intros U H m vm rs t ps Hr u [more0 Hs0].
  destruct (read_from_built m vm rs t ps Hr) as (pd & pd' & st & fl & Hd & Hed & Hst & Hb & Hsz). apply built_spec in Hb as (Hwf & Hcon & Htab).
  assert (get_element_verbose pd st = Some (start, NonTerminal)) as Hstart by (rewrite <- (ed_verbose pd pd' Hed); apply Hst; reflexivity).
  destruct u as [|c0 u0].
  { exists [], [(start, NonTerminal)]. split.
    - intros v. cbn [app]. split.
      + intros Hv. exists [v]. split; [constructor; [exact Hv|constructor]|]. cbn. rewrite app_nil_r. reflexivity.
      + intros (ss & Hss & ->). inversion Hss as [|? x ? ss' Hx Hss' E1 E2]; subst. inversion Hss'; subst. cbn. rewrite app_nil_r. exact Hx.
    - intros ss ss' c Hss Hss' Hc Hc' i. inversion Hss as [|? x ? ? Hx Hn E1 E2]; subst. inversion Hn; subst. inversion Hss' as [|? x' ? ? Hx' Hn' E1 E2]; subst. inversion Hn'; subst.
      destruct i as [|i]; cbn [take]; [reflexivity|]. rewrite !take_nil. destruct x, x'; try discriminate. split; discriminate. }
  set (u := c0 :: u0) in *. set (n := length u). assert (0 < n) as Hn by (unfold n, u; cbn; lia).
  assert (forall s, sentence rs s -> exists pt, derivation pd' pt /\ root pt = st /\ yield pd' pt = s /\ pred pd' st st s pt []) as Hpt.
  { intros s (nt & T1 & T2 & T3). destruct (derivation_named pd pd' rs Hd Hed nt T1 st) as (pt & P1 & P2 & P3); [congruence|]. exists pt. split; [assumption|]. split; [assumption|].
    assert (yield pd' pt = s) as Hy by (rewrite <- named_yield, P3; assumption). split; [assumption|].
    pose proof (complete pd' st Hwf Hcon pt P1 [] (fun _ => ltac:(rewrite P2; exact (fol_start pd' st)))) as Hc. rewrite P2, app_nil_r, Hy in Hc. exact Hc. }
  assert (forall pt, derivation pd' pt -> root pt = st -> sentence rs (yield pd' pt)) as Hsen.
  { intros pt P1 P2. destruct (named_derivation pd pd' rs Hd Hed pt P1) as [N1 N2]. exists (named pd' pt). split; [assumption|]. split; [congruence|]. apply named_yield. }
  pose proof (con_disjoint pd' st Hcon) as Hdj. pose proof (wf_rules pd' Hwf) as Hwr.
  destruct (Hpt _ Hs0) as (pt0 & P1 & P2 & P3 & P4).
  assert (n <= length (yield pd' pt0)) as Hn0 by (rewrite P3, app_length; fold n; lia).
  destruct (proj1 (pending_parts pd' st) _ _ _ _ P4 n Hn0) as (mid0 & _ & Hp0). apply pred_sound in Hp0 as (Hg0 & _ & _).
  destruct (pend pd' pt0 n) as [b g0] eqn:E0. cbn [fst snd] in *.
  assert (forall g, Forall (derivation pd') g -> map root g = map root g0 -> exists pt, derivation pd' pt /\ root pt = st /\
    yield pd' pt = u ++ b ++ concat (map (yield pd') g) /\ pend pd' pt n = (b, g)) as Hrep.
  { intros g Hg Eg. destruct (pending_replaced pd' pt0 P1 n Hn0 g Hg) as (pt & R1 & R2 & R3 & R4); [rewrite E0; exact Eg|]. exists pt. rewrite E0 in R3, R4. cbn [fst] in R3, R4. split; [assumption|].
    split; [congruence|]. split; [|assumption]. rewrite R3, P3. unfold n. rewrite take_app. reflexivity. }
  exists b, (map (fun s => nroot (named pd' s)) g0). split.
  - intros v. split.
    + intros Hv. destruct (Hpt _ Hv) as (pt & Q1 & Q2 & Q3 & Q4).
      assert (n <= length (yield pd' pt)) as Hn1 by (rewrite Q3, app_length; fold n; lia).
      destruct (proj1 (pending_parts pd' st) _ _ _ _ Q4 n Hn1) as (mid & Emid & Hp). apply pred_sound in Hp as (Hg & _ & ->).
      destruct (proj1 (pending_unique pd' st Hdj Hwr) _ _ _ _ P4 _ _ _ n Q4 Hn) as [(_ & _ & Ep)|[Hlt _]]; [unfold n; rewrite !take_app; reflexivity| |lia].
      rewrite E0 in Ep. unfold roots in Ep. cbn [fst snd] in Ep. injection Ep as Eb Eg. rewrite <- Eb in *.
      exists (map (yield pd') (pend pd' pt n).2). split.
      * rewrite (same_names pd pd' rs Hd Hed g0 _ Hg0 Hg Eg). exact (forest_texts pd pd' rs Hd Hed _ Hg).
      * rewrite Q3 in Emid. unfold n in Emid at 1. rewrite take_app, app_nil_r in Emid. apply app_inv_head in Emid. exact Emid.
    + intros (ss & Hss & ->). destruct (texts_forest pd pd' rs Hd Hed g0 Hg0 ss Hss) as (g & G1 & G2 & <-). destruct (Hrep g G1 G2) as (pt & R1 & R2 & R3 & _).
      rewrite <- R3. exact (Hsen pt R1 R2).
  - assert (forall ss, texts_of rs (map (fun s => nroot (named pd' s)) g0) ss -> exists g, map (yield pd') g = ss /\ map root g = map root g0 /\ preds pd' st (map root g) (concat ss) g []) as Hpr.
    { intros ss Hss. destruct (texts_forest pd pd' rs Hd Hed g0 Hg0 ss Hss) as (g & G1 & G2 & <-). exists g. split; [reflexivity|]. split; [assumption|].
      destruct (Hrep g G1 G2) as (pt & R1 & R2 & R3 & R4). destruct (Hpt _ (Hsen pt R1 R2)) as (pt' & Q1 & Q2 & Q3 & Q4).
      assert (pt' = pt) as ->.
      { pose proof (complete pd' st Hwf Hcon pt R1 [] (fun _ => ltac:(rewrite R2; exact (fol_start pd' st)))) as Hc. rewrite R2, app_nil_r in Hc.
        exact (proj1 (proj1 (pred_deterministic pd' st Hdj Hwr) _ _ _ _ Q4 _ _ Hc)). }
      assert (n <= length (yield pd' pt)) as Hn1 by (rewrite R3, app_length; fold n; lia).
      destruct (proj1 (pending_parts pd' st) _ _ _ _ Q4 n Hn1) as (mid & Emid & Hp). rewrite R4 in Hp. cbn [snd] in Hp.
      pose proof Hp as Hp'. apply pred_sound in Hp' as (_ & _ & E). rewrite app_nil_r in E. rewrite <- E. exact Hp. }
    intros ss ss' c Hss Hss' Hc Hc' i. destruct (Hpr ss Hss) as (g & <- & G2 & G3), (Hpr ss' Hss') as (g' & <- & G2' & G3').
    rewrite G2 in G3. rewrite G2' in G3'. rewrite !firstn_map. exact (first_part pd' st Hdj Hwr _ _ _ _ _ _ _ c G3 G3' Hc Hc' i).
Qed.
Print Assumptions C106_continuations.

(** ** Languages that no grammar text describes *)
Section limits.
Context {I : Type} (rs : list (arule I)).
Lemma named_rule x s : derives_text rs x s -> x ∈ map ar_name rs.
Proof.
  intros (nt & Hd & Hr & _). destruct Hd as [b|y i subs Hw _]; cbn in Hr; [discriminate|]. injection Hr as ->.
  assert (alternatives_for rs x <> []) as Hne by (intros E; inversion Hw as [w Hl|w y' Hl]; subst; rewrite E in *; discriminate).
  unfold alternatives_for, rules_for in Hne. destruct (filter _ rs) as [|r more] eqn:E; [contradiction|].
  assert (r ∈ filter (fun r => ar_name r = x) rs) as Hin by (rewrite E; left). apply elem_of_list_filter in Hin as [<- Hin]. apply elem_of_list_fmap. eauto.
Qed.
Lemma mixed zs ss ss' i : texts_of rs zs ss -> texts_of rs zs ss' -> texts_of rs zs (take i ss ++ drop i ss').
Proof. intros H1 H2. unfold texts_of. rewrite <- (take_drop i zs). apply Forall2_app; [apply Forall2_take|apply Forall2_drop]; assumption. Qed.
Lemma at_place zs ss i z s s' : texts_of rs zs ss -> zs !! i = Some z -> ss !! i = Some s -> element_text rs z s' -> texts_of rs zs (take i ss ++ s' :: drop (S i) ss).
Proof.
  intros Hss Hz Hs Hs'. unfold texts_of. rewrite <- (take_drop_middle zs i z Hz). apply Forall2_app; [apply Forall2_take; assumption|]. constructor; [assumption|]. apply Forall2_drop. assumption.
Qed.
Lemma concat_parts (ss : list str) i s : ss !! i = Some s -> concat ss = concat (take i ss) ++ s ++ concat (drop (S i) ss).
Proof. intros Hs. rewrite <- (take_drop_middle ss i s Hs) at 1. rewrite concat_app. reflexivity. Qed.
(** the first member that is not empty *)
Lemma first_member (ss : list str) : concat ss <> [] -> exists i s, ss !! i = Some s /\ s <> [] /\ concat (take i ss) = [].
Proof.
  induction ss as [|x ss IH]; cbn [concat]; [intros E; contradiction|]. intros Hne. destruct x as [|c x].
  - destruct (IH Hne) as (i & s & H1 & H2 & H3). exists (S i), s. auto.
  - exists 0, (c :: x). split; [reflexivity|]. split; [discriminate|reflexivity].
Qed.
Lemma times_split n c (s s' : str) : times n c = s ++ s' -> s = times (length s) c /\ s' = times (length s') c /\ length s + length s' = n.
Proof.
  revert n. induction s as [|x s IH]; intros n E; cbn [app length] in *.
  - subst s'. unfold times. rewrite repeat_length. auto.
  - destruct n as [|n]; [discriminate|]. cbn in E. injection E as <- E. destruct (IH n E) as (E1 & E2 & E3). cbn [times repeat Nat.add]. split; [f_equal; exact E1|]. split; [exact E2|lia].
Qed.
(** Infinitely many numbers, finitely many names. *)
Lemma two_numbers (P : nat -> str -> Prop) (names : list str) : (forall n, 1 <= n -> exists x, x ∈ names /\ P n x) -> exists i j x, 1 <= i /\ i < j /\ P i x /\ P j x.
Proof.
  intros Hall. assert (forall k, exists l, length l = k /\ l ⊆ names /\ forall i x, l !! i = Some x -> P (S i) x) as Hl.
  { induction k as [|k (l & L1 & L2 & L3)]; [exists []; split; [reflexivity|]; split; [intros x Hx; inversion Hx|intros i x Hx; rewrite lookup_nil in Hx; discriminate]|].
    destruct (Hall (S k) ltac:(lia)) as (x & Hx & HP). exists (l ++ [x]). split; [rewrite app_length; cbn; lia|]. split.
    - intros y Hy. apply elem_of_app in Hy as [Hy|Hy]; [apply L2; assumption|]. apply elem_of_list_singleton in Hy as ->. assumption.
    - intros i y Hy. apply lookup_app_Some in Hy as [Hy|[Hle Hy]]; [auto|]. destruct (i - length l) as [|d] eqn:Ed; [|destruct d; discriminate]. cbn in Hy. injection Hy as <-.
      replace i with k by lia. assumption. }
  destruct (Hl (S (length names))) as (l & L1 & L2 & L3). destruct (finite.list_pigeonhole l names L2 ltac:(lia)) as (i & j & x & Hij & Hi & Hj).
  exists (S i), (S j), x. split; [lia|]. split; [lia|]. auto.
Qed.
(** A name that can take the place of the chars [b] behind [n] times [a]. *)
Definition stands_in (a b : char) (n : nat) (x : str) : Prop := derives_text rs x (times n b) /\ forall k, derives_text rs x (times k b) -> sentence rs (times n a ++ times k b).
Lemma stands_in_two a b : (forall n, 1 <= n -> exists x, stands_in a b n x) ->
  exists i j, 1 <= i /\ i < j /\ sentence rs (times j a ++ times i b) /\ sentence rs (times i a ++ times j b).
Proof.
  intros Hall. destruct (two_numbers (stands_in a b) (map ar_name rs)) as (i & j & x & Hi & Hij & [P1 P2] & [P3 P4]).
  { intros n Hn. destruct (Hall n Hn) as (x & Hx). exists x. split; [|assumption]. destruct Hx as [Hx _]. eapply named_rule, Hx. }
  exists i, j. auto.
Qed.
(** one member has it all *)
Lemma member_stands_in a b n zs ss i z : (forall v, sentence rs (times n a ++ v) <-> exists ss, texts_of rs zs ss /\ v = [] ++ concat ss) ->
  texts_of rs zs ss -> zs !! i = Some z -> ss !! i = Some (times n b) -> concat (take i ss) = [] -> concat (drop (S i) ss) = [] ->
  (exists s, element_text rs z s /\ s <> times n b) -> stands_in a b n z.1.
Proof.
  intros Hc Hss Hz Hi H1 H2 (s & Hs & Hne). pose proof (Forall2_lookup_lr _ _ _ _ _ _ Hss Hz Hi) as He. destruct z as [x []]; cbn in He, Hs; [congruence|].
  split; [exact He|]. intros k Hk. apply Hc. exists (take i ss ++ times k b :: drop (S i) ss). split; [eapply at_place; eassumption|]. cbn [app].
  rewrite concat_app. cbn [concat]. rewrite H1, H2, app_nil_r. reflexivity.
Qed.
End limits.

(** As many [b]s as [a]s, or as many [c]s as [a]s: whether it is [b] or [c] is decided too late. *)
Lemma either_or {U : Unicode} {H : HashOrder} m (vm : VM) rs t ps a b c : read_from m vm rs t ps -> b <> c ->
  (forall n, 1 <= n -> sentence rs (times n a ++ times n b) /\ sentence rs (times n a ++ times n c)) ->
  ~ (forall n k l, 1 <= n -> sentence rs (times n a ++ times k b ++ times l c) -> k = 0 \/ n <= k).
Proof.
  intros Hr Hbc Hyes Hno. destruct (stands_in_two rs a b) as (i & j & Hi & Hij & H1 & _).
  2:{ destruct (Hno j i 0 ltac:(lia)) as [|]; [cbn [times repeat]; rewrite app_nil_r; assumption|lia|lia]. }
  intros n Hn. destruct (Hyes n Hn) as [Sb Sc]. destruct (C106_continuations U H m vm rs t ps Hr (times n a)) as (b0 & zs & Hc & _); [eexists; exact Sb|].
  apply Hc in Sb as (ss & Hss & Eb). apply Hc in Sc as (tt & Htt & Ec).
  assert (b0 = []) as ->.
  { destruct n as [|n]; [lia|]. destruct b0 as [|x b0]; [reflexivity|]. cbn in Eb, Ec. congruence. }
  cbn [app] in Eb, Ec. destruct (first_member ss) as (i & s & Hs & Hne & Hfirst); [rewrite <- Eb; destruct n; [lia|discriminate]|].
  pose proof (concat_parts ss i s Hs) as Ep. rewrite Hfirst, <- Eb in Ep. cbn [app] in Ep. apply times_split in Ep as (Es & Er & El).
  destruct (times_split n c (concat (take (S i) tt)) (concat (drop (S i) tt))) as (_ & Ed & _); [rewrite <- concat_app, take_drop; exact Ec|].
  assert (n <= length s) as Hlen.
  { destruct (Hno n (length s) (length (concat (drop (S i) tt))) Hn) as [E|E]; [|destruct s; [contradiction|discriminate]|exact E].
    apply Hc. exists (take (S i) ss ++ drop (S i) tt). split; [apply mixed; assumption|]. rewrite concat_app, (take_S_r _ _ _ Hs), concat_app, Hfirst, <- Ed, <- Es. cbn. rewrite app_nil_r. reflexivity. }
  destruct (Forall2_lookup_r _ _ _ _ _ Hss Hs) as (z & Hz & _). exists z.1.
  assert (s = times n b) as -> by (rewrite Es; f_equal; lia).
  eapply (member_stands_in rs a b n zs ss i z); try eassumption.
  - destruct (concat (drop (S i) ss)); [reflexivity|]. cbn [length] in El. lia.
  - destruct (Forall2_lookup_l _ _ _ _ _ Htt Hz) as (s' & Hs' & He). exists s'. split; [assumption|]. intros ->.
    pose proof (concat_parts tt i _ Hs') as Ep. rewrite <- Ec in Ep. apply times_split in Ep as (_ & Ep & _). symmetry in Ep. apply (f_equal head) in Ep. destruct n as [|n]; [lia|]. cbn in Ep. congruence.
Qed.
Lemma same_run a n n' (s s' : str) : times n a ++ s = times n' a ++ s' -> head s <> Some a -> head s' <> Some a -> n = n' /\ s = s'.
Proof.
  revert n'. induction n as [|n IH]; intros [|n'] E H1 H2; cbn in E.
  - auto.
  - subst s. exfalso. apply H1. reflexivity.
  - subst s'. exfalso. apply H2. reflexivity.
  - injection E as E. destruct (IH n' E H1 H2) as [-> ->]. auto.
Qed.
Lemma head_run b n (s : str) x : 1 <= n -> head (times n b ++ s) = Some x -> x = b.
Proof. destruct n; [lia|]. intros _ [= ->]. reflexivity. Qed.
Lemma head_runs b c k l x : head (times k b ++ times l c) = Some x -> x = b \/ x = c.
Proof. destruct k; [|intros [= ->]; auto]. destruct l; [discriminate|]. intros [= ->]. auto. Qed.
(** a text of [b]s and then [c]s that begins with [n] times [b] *)
Lemma at_least b c n k l (s : str) : b <> c -> times k b ++ times l c = times n b ++ s -> n <= k.
Proof.
  intros Hbc. revert k. induction n as [|n IH]; intros [|k] E; [lia..| |].
  - cbn in E. destruct l; [discriminate|]. cbn in E. congruence.
  - cbn in E. injection E as E. specialize (IH k E). lia.
Qed.
Lemma beginning_counts a b c n k l n' (s : str) : a <> b -> a <> c -> b <> c -> 1 <= n' -> times n a ++ times k b ++ times l c = times n' a ++ times n' b ++ s -> n = n' /\ n <= k.
Proof.
  intros Hab Hac Hbc Hn E. destruct (same_run a n n' _ _ E) as [-> E'].
  - intros Hh. apply head_runs in Hh as [?|?]; contradiction.
  - intros Hh. apply (head_run b n' s a Hn) in Hh. contradiction.
  - split; [reflexivity|]. eapply at_least; eassumption.
Qed.
Lemma beginning_other a b c n k l n' (s : str) : a <> b -> a <> c -> b <> c -> 1 <= n' -> times n a ++ times k b ++ times l c = times n' a ++ times n' c ++ s -> n = n' /\ k = 0.
Proof.
  intros Hab Hac Hbc Hn E. destruct (same_run a n n' _ _ E) as [-> E'].
  - intros Hh. apply head_runs in Hh as [?|?]; contradiction.
  - intros Hh. apply (head_run c n' s a Hn) in Hh. contradiction.
  - split; [reflexivity|]. destruct k as [|k]; [reflexivity|]. destruct n'; [lia|]. cbn in E'. congruence.
Qed.

(** No grammar text describes: as many [b]s as [a]s, or as many [c]s as [a]s. *)
Theorem C106_either_or : forall (U : Unicode) (H : HashOrder) m (vm : VM) rs t ps, read_from m vm rs t ps -> forall a b c, a <> b -> a <> c -> b <> c ->
  ~ (forall s, sentence rs s <-> exists n, 1 <= n /\ (s = times n a ++ times n b \/ s = times n a ++ times n c)).
Proof.
  intros U H m vm rs t ps Hr a b c Hab Hac Hbc Hall. apply (either_or m vm rs t ps a b c Hr Hbc).
  - intros n Hn. split; apply Hall; exists n; auto.
  - intros n k l Hn Hs. apply Hall in Hs as (n' & Hn' & [Hs|Hs]).
    + right. destruct (beginning_counts a b c n k l n' [] Hab Hac Hbc Hn'); [rewrite app_nil_r; assumption|]. assumption.
    + left. destruct (beginning_other a b c n k l n' [] Hab Hac Hbc Hn'); [rewrite app_nil_r; assumption|]. assumption.
Qed.
Print Assumptions C106_either_or.

(** Nor does any parser accept exactly the scripts that begin like this. *)
Theorem C106_either_or_scripts : forall (U : Unicode) (H : HashOrder) m rs t ps, read_from m NullVm rs t ps -> forall a b c, a <> b -> a <> c -> b <> c ->
  ~ (forall script, (exists fuel tr v, parse NullVm ps fuel script 0%N = (Ok tr, v)) <->
      exists n more, 1 <= n /\ (script = times n a ++ times n b ++ more \/ script = times n a ++ times n c ++ more)).
Proof.
  intros U H m rs t ps Hr a b c Hab Hac Hbc Hall.
  assert (forall s, sentence rs s -> exists n more, 1 <= n /\ (s = times n a ++ times n b ++ more \/ s = times n a ++ times n c ++ more)) as Hsen.
  { intros s (nt & T1 & T2 & <-). apply Hall. exists ((length (nyield nt) + 1) * length t).
    pose proof (C57_sentences_are_parsed U H m NullVm rs t ps Hr nt 0%N _ T1 T2 (le_n _)) as Hp.
    rewrite null_actions_succeed in Hp. destruct Hp as (tr & Hp & _). eauto. }
  assert (forall n x, 1 <= n -> x = b \/ x = c -> sentence rs (times n a ++ times n x)) as Hin.
  { intros n x Hn Hx. destruct (proj2 (Hall (times n a ++ times n x))) as (fuel & tr & v & Hp).
    { exists n, []. split; [assumption|]. destruct Hx as [->| ->]; rewrite !app_nil_r; auto. }
    destruct (C57_only_sentences U H m NullVm rs t ps Hr fuel _ 0%N tr v Hp) as (nt & rest & T1 & T2 & T3 & _).
    assert (sentence rs (nyield nt)) as Hs by (exists nt; auto). pose proof Hs as Hs'. apply Hsen in Hs' as (n' & more & Hn' & Hor).
    assert (exists y, (y = b \/ y = c) /\ nyield nt = times n' a ++ times n' y ++ more) as (y & Hy & E) by (destruct Hor as [E|E]; eauto).
    rewrite E, <- !app_assoc in T3. assert (a <> x /\ a <> y) as [Hax Hay] by (split; [destruct Hx as [->| ->]|destruct Hy as [->| ->]]; assumption).
    destruct (same_run a n n' _ _ T3) as [<- T4].
    { intros Hh. replace (times n x) with (times n x ++ []) in Hh by apply app_nil_r. apply (head_run x n [] a Hn) in Hh. contradiction. }
    { intros Hh. apply (head_run y n' _ a Hn') in Hh. contradiction. }
    assert (y = x) as -> by (destruct n; [lia|cbn in T4; congruence]).
    replace (times n x) with (times n x ++ []) in T4 at 1 by apply app_nil_r. apply app_inv_head in T4. symmetry in T4. apply app_eq_nil in T4 as [-> ->].
    rewrite app_nil_r in E. rewrite <- E. exact Hs. }
  apply (either_or m NullVm rs t ps a b c Hr Hbc).
  - intros n Hn. split; apply Hin; auto.
  - intros n k l Hn Hs. apply Hsen in Hs as (n' & more & Hn' & [Hs|Hs]).
    + right. destruct (beginning_counts a b c n k l n' more Hab Hac Hbc Hn' Hs). assumption.
    + left. destruct (beginning_other a b c n k l n' more Hab Hac Hbc Hn' Hs). assumption.
Qed.
Print Assumptions C106_either_or_scripts.

(** No grammar text describes: at most as many [b]s as [a]s (an [a] may or may not have its
    [b], like an if that may or may not have its else). *)
Theorem C106_dangling : forall (U : Unicode) (H : HashOrder) m (vm : VM) rs t ps, read_from m vm rs t ps -> forall a b, a <> b ->
  ~ (forall s, sentence rs s <-> exists n k, k <= n /\ s = times n a ++ times k b).
Proof.
  intros U H m vm rs t ps Hr a b Hab Hall.
  assert (forall n k, sentence rs (times n a ++ times k b) -> k <= n) as Hno.
  { intros n k Hs. apply Hall in Hs as (n' & k' & Hk & E). assert (forall j, head (times j b) <> Some a) as Hh by (intros [|j]; [discriminate|]; cbn; congruence).
    destruct (same_run a n n' _ _ E (Hh _) (Hh _)) as [-> E']. apply (f_equal length) in E'. unfold times in E'. rewrite !repeat_length in E'. lia. }
  destruct (stands_in_two rs a b) as (i & j & Hi & Hij & _ & H2); [|apply Hno in H2; lia].
  intros n Hn. assert (forall k, k <= n -> sentence rs (times n a ++ times k b)) as Hyes by (intros k Hk; apply Hall; eauto).
  destruct (C106_continuations U H m vm rs t ps Hr (times n a)) as (b0 & zs & Hc & Huniq); [eexists; apply (Hyes 0); lia|].
  destruct (proj1 (Hc _) (Hyes 0 ltac:(lia))) as (s0 & T0 & E0). symmetry in E0. apply app_eq_nil in E0 as [-> E0].
  destruct (proj1 (Hc _) (Hyes 1 ltac:(lia))) as (s1 & T1 & E1). destruct (proj1 (Hc _) (Hyes n ltac:(lia))) as (sn & Tn & En). cbn [app] in E1, En.
  assert (head (concat s1) = Some b) as Hh1 by (rewrite <- E1; reflexivity).
  assert (head (concat sn) = Some b) as Hhn by (rewrite <- En; destruct n; [lia|reflexivity]).
  destruct (first_member sn) as (i & s & Hs & Hne & Hfirst); [intros E; rewrite E in Hhn; discriminate|].
  pose proof (Huniq sn s1 b Tn T1 Hhn Hh1 (S i)) as Hu. rewrite (take_S_r _ _ _ Hs), concat_app, Hfirst in Hu. cbn [concat app] in Hu. rewrite app_nil_r in Hu.
  assert (concat (drop (S i) sn) = []) as Hlast.
  { pose proof (concat_parts sn i s Hs) as Ep. rewrite Hfirst, <- En in Ep. cbn [app] in Ep. apply times_split in Ep as (_ & Er & _).
    destruct (concat (drop (S i) sn)) as [|x more] eqn:Ed; [reflexivity|]. exfalso. cbn [length times repeat] in Er. injection Er as -> _.
    assert (concat (take (S i) s0) = []) as Ez by (rewrite <- (take_drop (S i) s0), concat_app in E0; apply app_eq_nil in E0 as [E0 _]; exact E0).
    assert (length s0 = length sn) as Hl by (rewrite <- (Forall2_length _ _ _ T0), (Forall2_length _ _ _ Tn); reflexivity). pose proof (lookup_lt_Some _ _ _ Hs) as Hlt.
    pose proof (Huniq (take (S i) s0 ++ drop (S i) sn) s1 b (mixed rs _ _ _ _ T0 Tn) T1 ltac:(rewrite concat_app, Ez, Ed; reflexivity) Hh1 (S i)) as Hu'.
    rewrite take_app_alt in Hu' by (rewrite take_length; lia). apply Hne, Hu, Hu', Ez. }
  destruct (Forall2_lookup_r _ _ _ _ _ Tn Hs) as (z & Hz & _). exists z.1.
  assert (s = times n b) as -> by (pose proof (concat_parts sn i s Hs) as Ep; rewrite Hfirst, Hlast, <- En, app_nil_r in Ep; symmetry; exact Ep).
  eapply (member_stands_in rs a b n zs sn i z); try eassumption.
  destruct (Forall2_lookup_l _ _ _ _ _ T0 Hz) as (s' & Hs' & He). exists s'. split; [assumption|]. intros ->.
  pose proof (concat_parts s0 i _ Hs') as Ep. rewrite E0 in Ep. destruct (concat (take i s0)); [|discriminate]. destruct n; [lia|discriminate].
Qed.
Print Assumptions C106_dangling.

(** ** Non-vacuity: one of the two halves can be described: [start -> "a" start "b" | #;] is
    accepted and its sentences are as many [b]s as [a]s, so [aa] can go on. *)
Section example.
Local Existing Instance ascii_unicode.
Local Existing Instance plain_order.
Ltac name := split; [reflexivity|repeat constructor].
Ltac quoted := apply one_quoted; discriminate.
Ltac fits := split; cbn [first_fuel follow_fuel]; apply Nat.leb_le || apply Nat.ltb_lt; vm_compute; reflexivity.
Definition ab_alts : list (list (str * ElementType)) := [[(lit "a", Terminal); (start, NonTerminal); (lit "b", Terminal)]; []].
Definition ab_rules : list (arule (vm_instr NullVm)) := [mkARule start OvAbsent ab_alts []].
Definition ab_text : str := lit "start->""a""start""b""|#;".
Lemma ab_text_ok : grammar_text null_reads ab_rules ab_text.
Proof.
  rewrite <- (app_nil_r ab_text). apply null_then; [|apply null_end]. apply (null_rule start _ (lit """a""start""b""|#")); [name|].
  apply (SpecRules.alts_cons _ (lit """a""start""b""") [] [] _ (lit "#")); [|constructor..|apply alts_one, alt_empty].
  apply alt_elements, (els_cons _ (lit """a""") [] _ (lit "start""b""")); [quoted|constructor| |intros E; discriminate E].
  apply (els_cons _ start [] _ (lit """b""")); [apply el_name; name|constructor|apply els_one; quoted|]. intros _ [E|E]; vm_compute in E; discriminate.
Qed.
Lemma times_last n c : times n c ++ [c] = times (S n) c.
Proof. induction n as [|n IH]; [reflexivity|]. cbn [times repeat app] in *. f_equal. exact IH. Qed.
Lemma ab_sentences s : sentence ab_rules s <-> exists n, s = times n 97%N ++ times n 98%N.
Proof.
  assert (forall nt, nderivation ab_rules nt -> nroot nt = (start, NonTerminal) -> exists n, nyield nt = times n 97%N ++ times n 98%N) as Hd.
  { induction nt as [b|x subs IH] using ntree_ind'; intros Hd Hr; [discriminate|]. injection Hr as ->. apply Recipes_proofs.plain_node in Hd as [Hw Hf]; [|apply one_rule_plain].
    unfold ab_rules in Hw. rewrite Recipes_proofs.alts_cons in Hw. cbn [ar_name ar_alts] in Hw. rewrite decide_True in Hw by reflexivity. apply elem_of_app in Hw as [Hw|Hw]; [|inversion Hw].
    apply elem_of_cons in Hw as [Hw|Hw].
    - destruct subs as [|s1 [|s2 [|s3 [|]]]]; try discriminate. cbn [map] in Hw. injection Hw as H1 H2 H3. destruct s1 as [b1|]; [|discriminate]. destruct s3 as [b3|]; [|discriminate]. injection H1 as ->. injection H3 as ->.
      apply Forall_cons in IH as [_ IH]. apply Forall_cons in IH as [IH _]. apply Forall_cons in Hf as [_ Hf]. apply Forall_cons in Hf as [Hf _]. destruct (IH Hf H2) as [n Hn].
      exists (S n). cbn [nyield map concat]. rewrite Hn, app_nil_r, <- app_assoc. rewrite <- (times_last n 98%N). reflexivity.
    - apply elem_of_list_singleton in Hw. destruct subs; [|discriminate]. exists 0. reflexivity. }
  split; [intros (nt & T1 & T2 & <-); auto|]. intros [n ->].
  assert (forall w, w ∈ ab_alts -> w ∈ alternatives_for ab_rules start) as Ha.
  { intros w Hw. unfold ab_rules. rewrite Recipes_proofs.alts_cons. cbn [ar_name ar_alts]. rewrite decide_True by reflexivity. apply elem_of_app. auto. }
  induction n as [|n (nt & T1 & T2 & T3)].
  - exists (NNode start []). split; [apply Recipes_proofs.plain_node; [apply one_rule_plain|]; split; [apply Ha; right; left|constructor]|]. auto.
  - exists (NNode start [NLeaf (lit "a"); nt; NLeaf (lit "b")]). split; [|split; [reflexivity|]].
    + apply Recipes_proofs.plain_node; [apply one_rule_plain|]. split; [apply Ha; cbn [map nroot]; rewrite T2; left|]. repeat (apply Forall_cons; split); [constructor|assumption|constructor|]. constructor.
    + cbn [nyield map concat]. rewrite T3, app_nil_r, <- app_assoc. rewrite <- (times_last n 98%N). reflexivity.
Qed.
Example C106_example : (exists ps, read_from Checked NullVm ab_rules ab_text ps) /\ can_go_on ab_rules (lit "aa") /\
  (forall s, sentence ab_rules s <-> exists n, s = times n 97%N ++ times n 98%N).
Proof.
  split; [|split; [|apply ab_sentences]].
  - destruct (verdicts_ok 400 (new_from_text Checked NullVm (mkFuels 60 2200) ab_text) (lit "aabb") (lit "aab")) as (ps & Eps & _); [vm_compute; reflexivity|]. exists ps.
    apply (read_null ab_rules ab_text _ ab_text_ok eq_refl ltac:(fits) Eps). reflexivity.
  - exists (lit "bb"). apply ab_sentences. exists 2. reflexivity.
Qed.
End example.
