(** * Property theorems: every history of calls on a process with a stop char (C02, C03, C04) *)
From Verif Require Import Base Peekables SpecText SpecFence Streams_proofs Terminal_proofs Fence_proofs.

(** ** C02: whatever calls are made on a process with any stop and escape char, overwriting
    calls included, every answer, the position and what is left are those of [fenced_run],
    for a process over a text and for one nested in another process at position [n]. *)
Theorem C02_every_history : forall (stop esc : option char) (l : list cursor_op) (t : str) (n : nat),
  let '(answers, (t', i, looked)) := fenced_run stop esc l t 0 None in
  (exists flag, ops_on base_tp l (pp_new t stop esc)
    = (answers, mkPP (drop i t') i stop esc flag)) /\
  (exists flag, ops_on (pp_tp base_tp) l (pp_new_nested (outer t n) stop esc n)
    = (answers, mkPP (outer (drop i t') (n + i)) (n + i) stop esc flag)) /\
  i <= length t'.
Proof.
  intros stop esc l t n.
  pose proof (ops_fence base_tp (fun _ w => w) base_exact stop esc l t 0 0 None false (Nat.le_0_l _) (flag_fresh stop esc)) as H1.
  pose proof (ops_fence (pp_tp base_tp) (fun n w => outer w n) outer_exact stop esc l t 0 n None false (Nat.le_0_l _) (flag_fresh stop esc)) as H2.
  destruct (fenced_run stop esc l t 0 None) as [rs [[t' i] looked]]. cbn in H1, H2. rewrite Nat.add_0_r in H2.
  destruct H1 as (f1 & H1 & Hi & _). destruct H2 as (f2 & H2 & _ & _).
  split; [exists f1; exact H1|]. split; [exists f2; exact H2|]. exact Hi.
Qed.
Print Assumptions C02_every_history.
(** stop char 125, escape char 92: a peek at an escaped stop char makes the next call stop *)
Example C02_every_history_example :
  fst (fenced_run (Some 125%N) (Some 92%N) [CNext; CPeek; CNext; CPeekMut (fun _ => 120%N); CNext; CNext] (lit "\}y") 0 None)
  = [Some 92; Some 125; None; Some 125; Some 120; Some 121]%N.
Proof. vm_compute. reflexivity. Qed.

(** ** C03: after any history of calls on a nested process that overwrites nothing, peek followed
    by next gives two different answers exactly when the process stands at a stop char and the
    very last call consumed an escape char. *)
Theorem C03_when_peek_misleads : forall (s e : char) (w : str) (n : nat) (l : list cursor_op),
  s <> e -> Forall (fun o => ~ overwrites o) l ->
  let '(answers, p) := ops_on (pp_tp base_tp) l (pp_new_nested (outer w n) (Some s) (Some e) n) in
  let '(seen, p') := pp_peek (pp_tp base_tp) p in
  fst (pp_next (pp_tp base_tp) p') <> seen <->
  w !! length (consumed l answers) = Some s /\ just_consumed e l answers.
Proof.
  intros s e w n l Hse Hl.
  pose proof (ops_fence (pp_tp base_tp) (fun n w => outer w n) outer_exact (Some s) (Some e) l w 0 n None false (Nat.le_0_l _) (flag_fresh _ _)) as H2.
  pose proof (fenced_history s e l w Hse Hl) as H3.
  destruct (fenced_run (Some s) (Some e) l w 0 None) as [rs [[t' i] looked]]. cbn in H2. rewrite Nat.add_0_r in H2.
  destruct H2 as (flag & H2 & Hi & Hf). destruct H3 as (-> & Hic & _ & Hj). unfold pp_new_nested.
  rewrite drop_0 in H2. rewrite H2. rewrite <- Hic.
  set (p := mkPP (outer (drop i w) (n + i)) (n + i) (Some s) (Some e) flag).
  assert (tsim (pp_tp base_tp) (fun p w => exists n, p = mkPP w n None None false)) as HT by apply pp_outer_tsim.
  pose proof (peek_then_next (pp_tp base_tp) _ p (drop i w) HT (ex_intro _ (n + i) eq_refl)) as Hx.
  destruct (pp_peek (pp_tp base_tp) p) as [seen p']. cbn in Hx.
  assert (at_escaped_stop p (drop i w) <-> w !! i = Some s /\ just_consumed e l rs) as Heq.
  { unfold at_escaped_stop, p. cbn. rewrite head_lookup, lookup_drop, Nat.add_0_r. cbn in Hf. split.
    - intros (s' & e' & E1 & E2 & _ & Hh & E3). injection E1 as <-. injection E2 as <-. split; [exact Hh|]. apply Hj; [exact Hh|]. apply Hf. exact E3.
    - intros [Hh Hc]. exists s, e. repeat split; auto. apply Hf. apply Hj; assumption. }
  rewrite <- Heq. rewrite Hx. destruct (decide (flag = true /\ w !! i = Some s)) as [[Hf1 Hw]|Hno].
  - split; [|intros Ha Hb; exact (Hb Ha)]. intros _. apply Heq. split; [exact Hw|]. apply Hj; [exact Hw|]. apply Hf. exact Hf1.
  - split; [|intros Ha Hb; exact (Hb Ha)]. intros Hn. exfalso. apply Hn. intros Ha. apply Hno. apply Heq in Ha as [Hw Hc].
    split; [|exact Hw]. apply Hf. apply Hj; assumption.
Qed.
Print Assumptions C03_when_peek_misleads.
Example C03_misleads_example :
  just_consumed 92 [CPeek; CNext] (fst (ops_on (pp_tp base_tp) [CPeek; CNext]
    (pp_new_nested (outer (lit "\}y") 7) (Some 125%N) (Some 92%N) 7))).
Proof. exists [CPeek], CNext, [Some 92%N]. repeat split. Qed.
