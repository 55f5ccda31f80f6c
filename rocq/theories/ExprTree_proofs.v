(** * Proofs for C100: the trees of a grammar written as an expression *)
From Verif Require Import Base Tree Sets ParserData Vm SpecTree SpecWeave SpecRules SpecLanguage SpecExtend SpecRename SpecNaming SpecEffect SpecCompose SpecNested SpecEmbed SpecExpr
  Script_proofs Language_proofs Rename_proofs Start_proofs Naming_proofs NamingAll_proofs Effect_proofs Compose_proofs Nested_proofs Embed_proofs Props_compose Props_embed Expr_proofs.
Notation start := (lit "start").

Section trees.
Context {vm : VM}.
Notation I := (vm_instr vm).
Notation piece := (option str * list I)%type.
Lemma text_app (ps qs : list piece) : text_of (ps ++ qs) = text_of ps ++ text_of qs.
Proof. unfold text_of. rewrite map_app, concat_app. reflexivity. Qed.
Definition done (rs : list (arule I)) (n : ntree) (ps : list piece) : Prop := nyield n = text_of ps /\ forall v, effect rs n v = do_pieces ps v.
Definition trees (e : expr I) (rs : list (arule I)) (x : str) : Prop :=
  (forall n, nderivation rs n /\ nroot n = NTm x -> exists ps, matches e ps /\ done rs n ps) /\
  (forall ps, matches e ps -> exists n, (nderivation rs n /\ nroot n = NTm x) /\ done rs n ps).
Lemma trees_inner e G x : unused x G -> part (embedded x G) x -> trees e G start -> trees e (alone x [] (embedded x G)) x.
Proof.
  intros Hu HQ [T1 T2].
  assert (forall m, nderivation G m -> nroot m = NTm start -> forall v, effect (alone x [] (embedded x G)) (rename_tree (exch x) m) v = effect G m v) as Ee.
  { intros m Hm Hr v. rewrite <- (exch_effect x G m v), <- (embedded_eq x G Hu).
    apply (effect_same (embedded x G) x HQ (embedded x G) _ (fun _ _ => eq_refl) (al_extends _ x HQ [])).
    - rewrite (embedded_eq x G Hu). apply (ren_nderivation _ (exch_inj x)). assumption.
    - rewrite rename_nroot, Hr. cbn. rewrite exch_start. intros _. apply (pt_entry _ _ HQ). }
  split.
  - intros n [Hn Hr]. destruct (proj2 (al_tree (embedded x G) x HQ [] (NNode start [n]))) as [D R]; [eauto|].
    destruct (proj1 (w_tree x G Hu [] HQ _) (conj D R)) as (m & E & Hm & Hrm). injection E as ->. destruct (T1 m (conj Hm Hrm)) as (ps & Hps & Hy & He). exists ps. split; [assumption|]. split.
    + rewrite rename_nyield. assumption.
    + intros v. rewrite Ee by assumption. apply He.
  - intros ps Hps. destruct (T2 ps Hps) as (m & [Hm Hrm] & Hy & He). exists (rename_tree (exch x) m).
    destruct (proj2 (w_tree x G Hu [] HQ (NNode start [rename_tree (exch x) m]))) as [D R]; [eauto|].
    destruct (proj1 (al_tree (embedded x G) x HQ [] _) (conj D R)) as (s & E & Hs & Hrs). injection E as <-. split; [auto|]. split.
    + rewrite rename_nyield. assumption.
    + intros v. rewrite Ee by assumption. apply He.
Qed.
(** The effect within the whole. *)
Lemma moved (P : list (arule I)) x (HP : part P x) (rs : list (arule I)) (Hx : extends P rs) n v : nderivation (alone x [] P) n -> nroot n = NTm x -> effect rs n v = effect (alone x [] P) n v.
Proof. intros Hd Hr. apply (effect_same P x HP _ _ (al_extends P x HP []) Hx n Hd). rewrite Hr. intros _. apply (pt_entry _ _ HP). Qed.
Lemma effects_cons (rs : list (arule I)) n ns v : effects rs (n :: ns) v = let* v1 := effect rs n v in effects rs ns v1.
Proof. reflexivity. Qed.

Lemma trees_leaf w (is : list I) (G : list (arule I)) : G = [mkARule start OvAbsent [w] is] -> forall n, nderivation G n /\ nroot n = NTm start <-> exists subs, n = NNode start subs /\ map nroot subs = w /\ Forall (nderivation G) subs.
Proof.
  intros -> n. split.
  - intros [Hd Hr]. destruct (node_of _ _ _ Hd Hr) as (i & subs & -> & Hs & Hf). apply leaf_says in Hs as (_ & _ & E). eauto.
  - intros (subs & -> & E & Hf). split; [|reflexivity]. apply (nder_node _ _ 0); [|assumption]. apply leaf_says. auto.
Qed.
Lemma leaf_instr w (is : list I) : instructions_for [mkARule start OvAbsent [w] is] start = is.
Proof. unfold instructions_for. rewrite leaf_rules. destruct (decide (start = start)); [reflexivity|congruence]. Qed.
Lemma leaf_effect w (is : list I) subs v : effects [mkARule start OvAbsent [w] is] subs v = Ok v ->
  effect [mkARule start OvAbsent [w] is] (NNode start subs) v = ofold (fun v ins => let* '(_t, v') := vm_execute vm (own_tree (NNode start subs)) (mkNodeId 0 0) ins v in Ok v') v is.
Proof. intros E. rewrite effect_node, E. cbn [obind]. unfold own_instructions. rewrite leaf_instr. reflexivity. Qed.
Lemma do_one p (v : vm_state vm) : do_pieces [p] v = do_piece p v.
Proof. unfold do_pieces. cbn [ofold]. destruct (do_piece p v) as [w|[]| |]; reflexivity. Qed.
Lemma trees_nothing (is : list I) : trees (Nothing is) [mkARule start OvAbsent [[]] is] start.
Proof.
  pose proof (trees_leaf [] is _ eq_refl) as L.
  assert (done [mkARule start OvAbsent [[]] is] (NNode start []) [(None, is)]) as Dn by (split; [reflexivity|]; intros v; rewrite do_one; apply leaf_effect; reflexivity).
  split.
  - intros n Hn. apply L in Hn as (subs & -> & E & _). destruct subs; [|discriminate]. exists [(None, is)]. split; [constructor|exact Dn].
  - intros ps Hps. inversion Hps; subst. exists (NNode start []). split; [|exact Dn]. apply L. eauto.
Qed.
Lemma trees_word s (is : list I) : trees (Word s is) [mkARule start OvAbsent [[(s, Terminal)]] is] start.
Proof.
  pose proof (trees_leaf [(s, Terminal)] is _ eq_refl) as L.
  assert (done [mkARule start OvAbsent [[(s, Terminal)]] is] (NNode start [NLeaf s]) [(Some s, is)]) as Dn by (split; [reflexivity|]; intros v; rewrite do_one; apply leaf_effect; reflexivity).
  split.
  - intros n Hn. apply L in Hn as (subs & -> & E & _). apply roots_one in E as (t & -> & E). assert (t = NLeaf s) as -> by (destruct t; cbn in E; congruence). exists [(Some s, is)]. split; [constructor|exact Dn].
  - intros ps Hps. inversion Hps; subst. exists (NNode start [NLeaf s]). split; [|exact Dn]. apply L. exists [NLeaf s]. split; [reflexivity|]. split; [reflexivity|]. repeat constructor.
Qed.
Lemma trees_alt e1 e2 (P1 P2 : list (arule I)) x1 x2 : part P1 x1 -> part P2 x2 -> apart P1 P2 -> trees e1 (alone x1 [] P1) x1 -> trees e2 (alone x2 [] P2) x2 -> trees (Alt e1 e2) (either x1 x2 [] P1 P2) start.
Proof.
  intros HP HQ Hap [A1 A2] [B1 B2]. pose proof (ei_left P1 P2 x1 x2 HP HQ Hap []) as X1. pose proof (ei_right P1 P2 x1 x2 HP HQ Hap []) as X2.
  pose proof (two_no_start P1 P2 x1 x2 HP HQ) as Hns.
  pose proof (ei_tree P1 P2 x1 x2 HP HQ Hap [] [] []) as T. setoid_rewrite (al_tree P1 x1 HP) in T. setoid_rewrite (al_tree P2 x2 HQ) in T.
  assert (forall s ps, nderivation (alone x1 [] P1) s -> nroot s = NTm x1 -> done (alone x1 [] P1) s ps -> done (either x1 x2 [] P1 P2) (NNode start [s]) ps) as D1.
  { intros s ps Hs Hr [Hy He]. split; [cbn; rewrite app_nil_r; assumption|]. intros v. unfold either at 1. rewrite start_effect, one_effect by assumption. rewrite (moved P1 x1 HP _ X1) by assumption. apply He. }
  assert (forall s ps, nderivation (alone x2 [] P2) s -> nroot s = NTm x2 -> done (alone x2 [] P2) s ps -> done (either x1 x2 [] P1 P2) (NNode start [s]) ps) as D2.
  { intros s ps Hs Hr [Hy He]. split; [cbn; rewrite app_nil_r; assumption|]. intros v. unfold either at 1. rewrite start_effect, one_effect by assumption. rewrite (moved P2 x2 HQ _ X2) by assumption. apply He. }
  split.
  - intros n Hn. apply T in Hn as [(s & -> & Hs & Hr)|(s & -> & Hs & Hr)].
    + destruct (A1 s (conj Hs Hr)) as (ps & Hps & Hd). exists ps. split; [apply ma_left; assumption|]. auto.
    + destruct (B1 s (conj Hs Hr)) as (ps & Hps & Hd). exists ps. split; [apply ma_right; assumption|]. auto.
  - intros ps Hps. inversion Hps as [| |? ? ? Hm|? ? ? Hm| | | |]; subst.
    + destruct (A2 ps Hm) as (s & [Hs Hr] & Hd). exists (NNode start [s]). split; [apply T; eauto|auto].
    + destruct (B2 ps Hm) as (s & [Hs Hr] & Hd). exists (NNode start [s]). split; [apply T; eauto|auto].
Qed.
Lemma trees_then e1 e2 (P1 P2 : list (arule I)) x1 x2 : part P1 x1 -> part P2 x2 -> apart P1 P2 -> trees e1 (alone x1 [] P1) x1 -> trees e2 (alone x2 [] P2) x2 -> trees (Then e1 e2) (in_turn x1 x2 [] P1 P2) start.
Proof.
  intros HP HQ Hap [A1 A2] [B1 B2]. pose proof (it_left P1 P2 x1 x2 HP HQ Hap []) as X1. pose proof (it_right P1 P2 x1 x2 HP HQ Hap []) as X2.
  pose proof (two_no_start P1 P2 x1 x2 HP HQ) as Hns. pose proof (it_tree P1 P2 x1 x2 HP HQ Hap [] [] []) as T.
  assert (forall s1 s2 ps qs, nderivation (alone x1 [] P1) s1 -> nroot s1 = NTm x1 -> nderivation (alone x2 [] P2) s2 -> nroot s2 = NTm x2 -> done (alone x1 [] P1) s1 ps -> done (alone x2 [] P2) s2 qs ->
    done (in_turn x1 x2 [] P1 P2) (NNode start [s1; s2]) (ps ++ qs)) as D.
  { intros s1 s2 ps qs Hs1 Hr1 Hs2 Hr2 [Hy1 He1] [Hy2 He2]. split; [cbn; rewrite app_nil_r, text_app; congruence|]. intros v. unfold in_turn at 1. rewrite start_effect by assumption. fold (in_turn x1 x2 [] P1 P2).
    rewrite effects_cons, (moved P1 x1 HP _ X1), He1 by assumption. unfold do_pieces. rewrite ofold_app. fold (do_pieces ps v). destruct (do_pieces ps v) as [v1|[]| |]; cbn [obind]; try reflexivity.
    rewrite one_effect, (moved P2 x2 HQ _ X2) by assumption. apply He2. }
  split.
  - intros n Hn. apply T in Hn as (s1 & s2 & -> & [Hs1 Hr1] & [Hs2 Hr2]). destruct (A1 s1 (conj Hs1 Hr1)) as (ps & Hps & Hd1). destruct (B1 s2 (conj Hs2 Hr2)) as (qs & Hqs & Hd2).
    exists (ps ++ qs). split; [constructor; assumption|auto].
  - intros ps Hps. inversion Hps as [| | | |? ? ps1 ps2 M1 M2| | |]; subst. destruct (A2 ps1 M1) as (s1 & [Hs1 Hr1] & Hd1). destruct (B2 ps2 M2) as (s2 & [Hs2 Hr2] & Hd2).
    exists (NNode start [s1; s2]). split; [apply T; eauto 10|auto].
Qed.
Lemma trees_many e (P : list (arule I)) x : part P x -> trees e (alone x [] P) x -> trees (Many e) (repeated x [] P) start.
Proof.
  intros HP [A1 A2]. pose proof (re_left P x HP []) as X. pose proof (pt_no_start _ _ HP) as Hns. pose proof (re_tree P x HP [] []) as T.
  assert (forall ns pss, Forall2 (fun n ps => (nderivation (alone x [] P) n /\ nroot n = NTm x) /\ done (alone x [] P) n ps) ns pss -> done (repeated x [] P) (listed ns) (concat pss)) as D.
  { intros ns pss Hf. induction Hf as [|n ps ns pss [[Hn Hr] [Hy He]] _ [IHy IHe]]; cbn [listed concat].
    - split; [reflexivity|]. intros v. unfold repeated. rewrite start_effect by assumption. reflexivity.
    - split; [cbn; rewrite app_nil_r, text_app; congruence|]. intros v. unfold repeated at 1. rewrite start_effect by assumption. fold (repeated x [] P).
      rewrite effects_cons, (moved P x HP _ X), He by assumption. unfold do_pieces. rewrite ofold_app. fold (do_pieces ps v). destruct (do_pieces ps v) as [v1|[]| |]; cbn [obind]; try reflexivity.
      rewrite one_effect. apply IHe. }
  split.
  - intros n Hn. apply T in Hn as (ns & -> & Hns'). assert (exists pss, Forall (matches e) pss /\ Forall2 (fun n ps => (nderivation (alone x [] P) n /\ nroot n = NTm x) /\ done (alone x [] P) n ps) ns pss) as (pss & M & F2).
    { induction Hns' as [|n ns Hn _ (pss & M & F2)]; [exists []; split; constructor|]. destruct (A1 n Hn) as (ps & Mp & Dp). exists (ps :: pss). split; constructor; auto. }
    exists (concat pss). split; [constructor; assumption|auto].
  - intros ps Hps. inversion Hps as [| | | | |? pss M| |]; subst. assert (exists ns, Forall2 (fun n ps => (nderivation (alone x [] P) n /\ nroot n = NTm x) /\ done (alone x [] P) n ps) ns pss) as (ns & F2).
    { clear Hps. induction M as [|ps pss Mp _ (ns & F2)]; [exists []; constructor|]. destruct (A2 ps Mp) as (n & Hn & Dn). exists (n :: ns). constructor; auto. }
    exists (listed ns). split; [|auto]. apply T. exists ns. split; [reflexivity|]. clear -F2. induction F2 as [|n ps ns pss [H _] _ IH]; constructor; assumption.
Qed.
Lemma trees_nest op cl e (P : list (arule I)) x : part P x -> trees e (alone x [] P) x -> trees (Nest op cl e) (nested x op cl [] P) start.
Proof.
  intros HP [A1 A2]. pose proof (ne_left P x op cl HP []) as X. pose proof (pt_no_start _ _ HP) as Hns. pose proof (ne_tree P x op cl HP [] []) as T.
  assert (forall s ps, nderivation (alone x [] P) s -> nroot s = NTm x -> done (alone x [] P) s ps -> done (nested x op cl [] P) (NNode start [s]) ps) as D0.
  { intros s ps Hs Hr [Hy He]. split; [cbn; rewrite app_nil_r; assumption|]. intros v. unfold nested at 1. rewrite start_effect, one_effect by assumption. rewrite (moved P x HP _ X) by assumption. apply He. }
  assert (forall n ps, done (nested x op cl [] P) n ps -> done (nested x op cl [] P) (NNode start [NLeaf op; n; NLeaf cl]) ([(Some op, [])] ++ ps ++ [(Some cl, [])])) as D1.
  { intros n ps [Hy He]. split; [rewrite !text_app, <- Hy; cbn; rewrite !app_nil_r; reflexivity|]. intros v. unfold nested at 1. rewrite start_effect by assumption. fold (nested x op cl [] P).
    rewrite effects_cons. cbn [effect own_instructions obind]. rewrite effects_cons, He. unfold do_pieces. rewrite ofold_app. cbn [ofold do_piece snd obind]. rewrite ofold_app. fold (do_pieces ps v).
    destruct (do_pieces ps v) as [v1|[]| |]; reflexivity. }
  split.
  - intros n Hn. apply T in Hn as (k & s & -> & Hs & Hr). destruct (A1 s (conj Hs Hr)) as (ps0 & Hps & Hd). induction k as [|k (ps & M & Dn)]; cbn [nested_tree].
    + exists ps0. split; [apply ma_bare; assumption|auto].
    + exists ([(Some op, [])] ++ ps ++ [(Some cl, [])]). split; [apply ma_nest; assumption|auto].
  - assert (forall ps, matches (Nest op cl e) ps -> exists k s, (nderivation (alone x [] P) s /\ nroot s = NTm x) /\ done (nested x op cl [] P) (nested_tree op cl k s) ps) as H.
    { intros ps M. remember (Nest op cl e) as e0 eqn:E0. induction M as [| | | | | |op' cl' e' ps M _|op' cl' e' ps M IH]; try discriminate; injection E0 as -> -> ->.
      - destruct (A2 ps M) as (s & [Hs Hr] & Hd). exists 0, s. split; [auto|]. cbn [nested_tree]. auto.
      - destruct (IH eq_refl) as (k & s & Hs & Hd). exists (S k), s. split; [assumption|]. cbn [nested_tree]. auto. }
    intros ps M. destruct (H ps M) as (k & s & [Hs Hr] & Hd). eexists. split; [|exact Hd]. apply T. eauto.
Qed.
Theorem expressed_trees e G : expressed e G -> trees e G start.
Proof.
  intros He. induction He as [is|s is|e1 e2 G1 G2 x1 x2 E1 T1 E2 T2 U1 U2 Hap|e1 e2 G1 G2 x1 x2 E1 T1 E2 T2 U1 U2 Hap|e G x E T U|op cl e G x Hop Hcl E T U].
  - apply trees_nothing.
  - apply trees_word.
  - pose proof (in_part _ _ _ (sound_inner _ _ _ (expressed_sound _ _ E1) U1)). pose proof (in_part _ _ _ (sound_inner _ _ _ (expressed_sound _ _ E2) U2)).
    apply trees_alt; [assumption..|apply trees_inner; assumption|apply trees_inner; assumption].
  - pose proof (in_part _ _ _ (sound_inner _ _ _ (expressed_sound _ _ E1) U1)). pose proof (in_part _ _ _ (sound_inner _ _ _ (expressed_sound _ _ E2) U2)).
    apply trees_then; [assumption..|apply trees_inner; assumption|apply trees_inner; assumption].
  - pose proof (in_part _ _ _ (sound_inner _ _ _ (expressed_sound _ _ E) U)). apply trees_many; [assumption|apply trees_inner; assumption].
  - pose proof (in_part _ _ _ (sound_inner _ _ _ (expressed_sound _ _ E) U)). apply trees_nest; [assumption|apply trees_inner; assumption].
Qed.
End trees.
