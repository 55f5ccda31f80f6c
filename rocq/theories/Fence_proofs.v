(** * Processes with a stop char: every history of calls (for C02-C04) *)
From Verif Require Import Base Peekables SpecText SpecFence Streams_proofs Terminal_proofs.

(** What the escape flag remembers. *)
Definition flag_is (stop esc : option char) (looked : option char) (flag : bool) : Prop :=
  match stop, esc with
  | Some _, Some e => flag = true <-> looked = Some e
  | _, _ => flag = false
  end.

(** A peekable over a text: [st n w] stands in front of [w] after [n] chars. *)
Definition exact_peek {S} (T : TPeek S) (st : nat -> str -> S) : Prop :=
  (forall n w, tp_peek T (st n w) = (head w, st n w)) /\
  (forall n, tp_next T (st n []) = (None, st n [])) /\
  (forall n c w, tp_next T (st n (c :: w)) = (Some c, st (n + 1) w)) /\
  (forall f n, tp_peek_mut T f (st n []) = (None, st n [])) /\
  (forall f n c w, tp_peek_mut T f (st n (c :: w)) = (Some c, st n (f c :: w))) /\
  (forall f n, tp_next_if T f (st n []) = (None, st n [])) /\
  (forall f n c w, tp_next_if T f (st n (c :: w)) = if f c then (Some c, st (n + 1) w) else (None, st n (c :: w))) /\
  (forall d n, tp_next_if_eq T d (st n []) = (None, st n [])) /\
  (forall d n c w, tp_next_if_eq T d (st n (c :: w)) = if N.eqb d c then (Some c, st (n + 1) w) else (None, st n (c :: w))).

Lemma base_exact : exact_peek base_tp (fun _ w => w).
Proof. repeat split; try reflexivity. intros n [|c w]; reflexivity. Qed.
Lemma outer_exact : exact_peek (pp_tp base_tp) (fun n w => outer w n).
Proof.
  repeat split; try reflexivity.
  - intros n [|c w]; reflexivity.
  - intros f n c w. cbn. unfold pp_next_if. cbn. destruct (f c); reflexivity.
  - intros d n c w. cbn. unfold pp_next_if_eq. cbn. unfold base_next_if_eq. cbn. destruct (N.eqb d c); reflexivity.
Qed.

Section fence.
Context {S : Type} (T : TPeek S) (st : nat -> str -> S) (HT : exact_peek T st).
Context (stop esc : option char).

Lemma check_fence n m c w looked flag : flag_is stop esc looked flag ->
  exists flag', flag_is stop esc (Some c) flag' /\
  check_allowed T (mkPP (st n (c :: w)) m stop esc flag)
  = (bool_decide (~ stopped stop esc c looked), mkPP (st n (c :: w)) m stop esc flag').
Proof.
  intros Hf. destruct HT as (Hpk & _). unfold check_allowed. cbn [pp_inner]. rewrite Hpk. cbn.
  destruct esc as [e|] eqn:He, stop as [s|] eqn:Hs; cbn in *.
  - destruct (N.eqb_spec c e) as [->|Hce].
    + exists true. split; [tauto|]. rewrite bool_decide_eq_true_2; [reflexivity|]. intros (e' & E & E2 & ? & ?). congruence.
    + destruct (N.eqb_spec c s) as [->|Hcs]; cbn.
      * destruct flag; cbn.
        -- exists false. split; [split; intros ?; congruence|]. rewrite bool_decide_eq_true_2; [reflexivity|].
           intros (e' & E & E2 & ? & ?). injection E as <-. apply H0. tauto.
        -- exists false. split; [split; intros ?; congruence|]. rewrite bool_decide_eq_false_2; [reflexivity|].
           intros Hn. apply Hn. exists e. repeat split; auto. intros E. apply Hf in E. discriminate.
      * exists false. split; [split; intros ?; congruence|]. rewrite bool_decide_eq_true_2; [reflexivity|].
        intros (e' & E & E2 & ? & ?). congruence.
  - exists flag. split; [assumption|reflexivity].
  - exists flag. split; [assumption|reflexivity].
  - exists flag. split; [assumption|reflexivity].
Qed.
Lemma check_end n m flag :
  check_allowed T (mkPP (st n []) m stop esc flag) = (true, mkPP (st n []) m stop esc flag).
Proof. destruct HT as (Hpk & _). unfold check_allowed. cbn [pp_inner]. rewrite Hpk. reflexivity. Qed.

Lemma op_fence o t i n looked flag : i <= length t -> flag_is stop esc looked flag ->
  let '(r, (t', i', looked')) := fenced_step stop esc o t i looked in
  exists flag', op_on T o (mkPP (st (n + i) (drop i t)) (n + i) stop esc flag)
    = (r, mkPP (st (n + i') (drop i' t')) (n + i') stop esc flag')
  /\ i' <= length t' /\ flag_is stop esc looked' flag'.
Proof.
  intros Hi Hf. pose proof HT as (Hpk & Hn0 & Hn & Hm0 & Hm & Hi0 & Hif & He0 & Heq).
  destruct (t !! i) as [c|] eqn:Hc.
  - pose proof (drop_S t c i Hc) as Hd. rewrite <- Nat.add_1_r in Hd.
    assert (i < length t) by (apply lookup_lt_is_Some; eauto).
    destruct (check_fence (n + i) (n + i) c (drop (i + 1) t) looked flag Hf) as (flag' & Hf' & Hch).
    unfold fenced_step. rewrite Hc.
    assert (forall d, d = decide (stopped stop esc c looked) ->
      bool_decide (~ stopped stop esc c looked) = if d then false else true) as Hb.
    { intros d ->. destruct (decide (stopped stop esc c looked)); [rewrite bool_decide_eq_false_2|rewrite bool_decide_eq_true_2]; auto. }
    specialize (Hb _ eq_refl).
    destruct o as [| |f|f|d]; cbn [op_on].
    + unfold pp_next. rewrite Hd, Hch, Hb. destruct (decide (stopped stop esc c looked)); cbn.
      * exists flag'. rewrite Hd. repeat split; auto.
      * rewrite Hc, Hn. cbn. exists flag'. rewrite Nat.add_assoc. repeat split; auto. lia.
    + unfold pp_peek. rewrite Hd, Hch, Hb. destruct (decide (stopped stop esc c looked)); cbn.
      * exists flag'. rewrite Hd. repeat split; auto.
      * rewrite Hc, Hpk. cbn. exists flag'. rewrite Hd. repeat split; auto.
    + unfold pp_peek_mut. cbn. rewrite Hd, Hm. exists flag. rewrite (drop_insert_same t i c (f c) Hc), insert_length. repeat split; auto.
    + unfold pp_next_if. rewrite Hd, Hch, Hb. destruct (decide (stopped stop esc c looked)); cbn.
      * exists flag'. rewrite Hd. repeat split; auto.
      * rewrite Hc, Hif. destruct (f c); cbn; exists flag'.
        -- rewrite Nat.add_assoc. repeat split; auto. lia.
        -- rewrite Hd. repeat split; auto.
    + unfold pp_next_if_eq. rewrite Hd, Hch, Hb. destruct (decide (stopped stop esc c looked)); cbn.
      * exists flag'. rewrite Hd. repeat split; auto.
      * rewrite Hc, Heq. destruct (N.eqb_spec d c) as [->|Hne]; [rewrite decide_True by reflexivity|rewrite decide_False by assumption]; cbn; exists flag'.
        -- rewrite Nat.add_assoc. repeat split; auto. lia.
        -- rewrite Hd. repeat split; auto.
  - assert (i = length t) as -> by (apply lookup_ge_None in Hc; lia).
    assert (fenced_step stop esc o t (length t) looked = (None, (t, length t, looked))) as ->.
    { unfold fenced_step. rewrite Hc. destruct o; reflexivity. }
    exists flag. rewrite drop_all. repeat split; auto.
    destruct o as [| |f|f|d]; cbn [op_on]; unfold pp_next, pp_peek, pp_peek_mut, pp_next_if, pp_next_if_eq;
      rewrite ?check_end; cbn; rewrite ?Hpk, ?Hn0, ?Hm0, ?Hi0, ?He0; reflexivity.
Qed.

Lemma ops_fence l : forall t i n looked flag, i <= length t -> flag_is stop esc looked flag ->
  let '(rs, (t', i', looked')) := fenced_run stop esc l t i looked in
  exists flag', ops_on T l (mkPP (st (n + i) (drop i t)) (n + i) stop esc flag)
    = (rs, mkPP (st (n + i') (drop i' t')) (n + i') stop esc flag')
  /\ i' <= length t' /\ flag_is stop esc looked' flag'.
Proof.
  induction l as [|o l IH]; intros t i n looked flag Hi Hf; cbn [fenced_run ops_on].
  - exists flag. auto.
  - pose proof (op_fence o t i n looked flag Hi Hf) as Ho.
    destruct (fenced_step stop esc o t i looked) as [r [[t1 i1] looked1]]. destruct Ho as (flag1 & -> & Hi1 & Hf1).
    specialize (IH t1 i1 n looked1 flag1 Hi1 Hf1).
    destruct (fenced_run stop esc l t1 i1 looked1) as [rs [[t2 i2] looked2]]. destruct IH as (flag2 & -> & Hi2 & Hf2).
    exists flag2. auto.
Qed.
End fence.

Lemma flag_fresh stop esc : flag_is stop esc None false.
Proof. unfold flag_is. destruct stop, esc; auto. split; discriminate. Qed.

(** ** Histories that overwrite nothing *)
Lemma fenced_run_snoc stop esc l o : forall t i looked,
  fenced_run stop esc (l ++ [o]) t i looked
  = let '(rs, (t1, i1, looked1)) := fenced_run stop esc l t i looked in
    let '(r, fin) := fenced_step stop esc o t1 i1 looked1 in (rs ++ [r], fin).
Proof.
  induction l as [|o' l IH]; intros t i looked; cbn [fenced_run app].
  - destruct (fenced_step stop esc o t i looked) as [r [[t1 i1] looked1]]. reflexivity.
  - destruct (fenced_step stop esc o' t i looked) as [r [[t1 i1] looked1]]. rewrite IH.
    destruct (fenced_run stop esc l t1 i1 looked1) as [rs [[t2 i2] looked2]].
    destruct (fenced_step stop esc o t2 i2 looked2) as [r3 [[t3 i3] looked3]]. reflexivity.
Qed.
Lemma just_consumed_snoc c l o rs r :
  just_consumed c (l ++ [o]) (rs ++ [r]) <-> consumes o = true /\ r = Some c.
Proof.
  split.
  - intros (l0 & o0 & rs0 & E & Hc & E2). apply app_inj_tail in E as [_ ->]. apply app_inj_tail in E2 as [_ ->]. auto.
  - intros [Hc ->]. exists l, o, rs. auto.
Qed.
Lemma fenced_history s e l t : s <> e -> Forall (fun o => ~ overwrites o) l ->
  let '(rs, (t', i, looked)) := fenced_run (Some s) (Some e) l t 0 None in
  t' = t /\ i = length (consumed l rs) /\ length rs = length l /\
  (t !! i = Some s -> (looked = Some e <-> just_consumed e l rs)).
Proof.
  intros Hse. induction l as [|o l IH] using rev_ind; intros Hl.
  - cbn. repeat split; try discriminate. intros (l0 & o & rs & E & _). destruct l0; discriminate.
  - apply Forall_app in Hl as [Hl Ho]. rewrite Forall_cons in Ho. destruct Ho as [Ho _]. specialize (IH Hl).
    rewrite fenced_run_snoc. destruct (fenced_run (Some s) (Some e) l t 0 None) as [rs [[t1 i1] looked1]].
    destruct IH as (-> & Hi & Hlen & _).
    assert (forall r, consumed (l ++ [o]) (rs ++ [r]) = consumed l rs ++ match r with Some c => if consumes o then [c] else [] | None => [] end) as Hcon.
    { intros r. clear Hi Hl. revert rs Hlen. induction l as [|o' l IHl]; intros [|r' rs] Hlen; try discriminate; cbn.
      - destruct r; [destruct (consumes o)|]; reflexivity.
      - injection Hlen as Hlen. rewrite (IHl rs Hlen). destruct r'; [destruct (consumes o')|]; reflexivity. }
    unfold fenced_step. destruct (t !! i1) as [c|] eqn:Hc.
    + destruct (decide (stopped (Some s) (Some e) c looked1)) as [Hst|Hst].
      * replace (match o with CPeekMut f => (Some c, (<[i1 := f c]> t, i1, looked1)) | _ => (None, (t, i1, Some c)) end)
          with (@None char, (t, i1, Some c)) by (destruct o; try reflexivity; exfalso; exact (Ho Logic.I)).
        rewrite Hcon, app_nil_r, !app_length, Hlen. repeat split; auto.
        -- intros E. injection E as ->. destruct Hst as (e' & E1 & E2 & Hne & _). congruence.
        -- intros E. apply just_consumed_snoc in E as [_ ?]. discriminate.
      * destruct o as [| |f|f|d]; [..|]; try (exfalso; exact (Ho Logic.I)); unfold cursor_step; rewrite Hc.
        -- rewrite Hcon. cbn. rewrite !app_length, Hlen. cbn. repeat split; try lia.
           ++ intros E. apply just_consumed_snoc. auto.
           ++ intros E. apply just_consumed_snoc in E as [_ E]. exact E.
        -- rewrite Hcon. cbn. rewrite !app_length, Hlen. cbn. repeat split; try lia; intros E.
           ++ rewrite Hc in H. congruence.
           ++ apply just_consumed_snoc in E as [E _]. discriminate.
        -- destruct (f c).
           ++ rewrite Hcon. cbn. rewrite !app_length, Hlen. cbn. repeat split; try lia; intros E.
              ** apply just_consumed_snoc. auto.
              ** apply just_consumed_snoc in E as [_ E]. exact E.
           ++ rewrite Hcon. cbn. rewrite !app_length, Hlen. cbn. repeat split; try lia; intros E.
              ** rewrite Hc in H. congruence.
              ** apply just_consumed_snoc in E as [_ E]. discriminate.
        -- destruct (decide (d = c)).
           ++ rewrite Hcon. cbn. rewrite !app_length, Hlen. cbn. repeat split; try lia; intros E.
              ** apply just_consumed_snoc. auto.
              ** apply just_consumed_snoc in E as [_ E]. exact E.
           ++ rewrite Hcon. cbn. rewrite !app_length, Hlen. cbn. repeat split; try lia; intros E.
              ** rewrite Hc in H. congruence.
              ** apply just_consumed_snoc in E as [_ E]. discriminate.
    + destruct o; rewrite Hcon, app_nil_r, !app_length, Hlen; repeat split; auto; congruence.
Qed.
