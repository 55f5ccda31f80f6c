(** * Lemmas about processes: simulation by a plain text. *)
From Verif Require Import Base Peekables Errors ParseFuncs SpecText.

(** A peekable [T] in a state related by [R] to a text behaves like that text. *)
Record tsim {S} (T : TPeek S) (R : S -> str -> Prop) : Prop := {
  ts_peek : forall s w, R s w -> fst (tp_peek T s) = head w /\ R (snd (tp_peek T s)) w;
  ts_next : forall s w, R s w -> fst (tp_next T s) = head w /\ R (snd (tp_next T s)) (tail w);
  ts_size : forall s w, R s w -> length w <= tp_size T s;
}.

(** A process over [T] in a state related by [R] to a position and a text. *)
Record psim {S} (T : TPeek S) (R : PP S -> nat -> str -> Prop) : Prop := {
  ps_peek_sim : forall p n w, R p n w -> fst (pp_peek T p) = head w /\ R (snd (pp_peek T p)) n w;
  ps_next_sim : forall p n c w, R p n (c :: w) ->
      fst (pp_next T p) = Some c /\ R (snd (pp_next T p)) (n + 1) w;
  ps_next_nil : forall p n, R p n [] -> fst (pp_next T p) = None /\ R (snd (pp_next T p)) n [];
  ps_pos_sim : forall p n w, R p n w -> cur_pos p = n;
  ps_size_sim : forall p n w, R p n w -> length w <= pp_size T p;
}.

Lemma base_tsim : tsim base_tp (fun s w => s = w).
Proof. split; intros s w ->; destruct w; simpl; auto. Qed.

(** A process without stop char over the text itself. *)
Definition plainR (p : PP str) (n : nat) (w : str) : Prop := p = mkPP w n None None false.

Lemma plain_psim : psim base_tp plainR.
Proof.
  split.
  - intros p n w ->. destruct w; split; reflexivity.
  - intros p n c w ->. split; reflexivity.
  - intros p n ->. split; reflexivity.
  - intros p n w ->. reflexivity.
  - intros p n w ->. simpl. reflexivity.
Qed.


(** A nested process over a plain one.  [w] is what is still to be delivered, [rest]
    what follows in the outer process. *)
Definition nestR (s e : char) (rest : str) (p : PP (PP str)) (n : nat) (w : str) : Prop :=
  exists flag,
    p = mkPP (mkPP (w ++ rest) n None None false) n (Some s) (Some e) flag /\
    (rest = [] \/ head rest = Some s) /\
    s ∉ w /\
    match last w with
    | None => rest = [] \/ flag = false
    | Some c => rest = [] \/ c <> e
    end.

Ltac last_some H :=
  match goal with
  | |- context [last (?a :: ?w)] =>
      destruct (last (a :: w)) eqn:?Hl; [auto|apply last_None in Hl; discriminate]
  end.

Lemma nest_psim s e rest : s <> e -> psim (pp_tp base_tp) (nestR s e rest).
Proof.
  intros Hse. split.
  - intros p n w (flag & -> & Hrest & Hin & Hlast).
    destruct w as [|c w].
    + destruct rest as [|r rest].
      * simpl. split; [reflexivity|]. exists flag. auto.
      * destruct Hrest as [?|Hh]; [discriminate|]. simpl in Hh; injection Hh as ->.
        assert (flag = false) as -> by (destruct Hlast; [discriminate|assumption]).
        unfold pp_peek, check_allowed; cbn.
        replace (N.eqb s e) with false by (symmetry; apply N.eqb_neq; assumption).
        rewrite N.eqb_refl. cbn. split; [reflexivity|]. exists false. simpl; auto.
    + unfold pp_peek, check_allowed; cbn.
      destruct (N.eqb_spec c e) as [->|Hce]; cbn.
      * split; [reflexivity|]. exists true. split; [reflexivity|]. split; [assumption|].
        split; [assumption|]. last_some Hlast.
      * assert (c <> s) as Hcs by (intros ->; apply Hin; left).
        replace (N.eqb c s) with false by (symmetry; apply N.eqb_neq; assumption). cbn.
        split; [reflexivity|]. exists false. split; [reflexivity|]. split; [assumption|].
        split; [assumption|]. last_some Hlast.
  - intros p n c w (flag & -> & Hrest & Hin & Hlast).
    unfold pp_next, check_allowed; cbn.
    assert (c <> s) as Hcs by (intros ->; apply Hin; left).
    assert (s ∉ w) as Hin' by (intros ?; apply Hin; right; assumption).
    destruct (N.eqb_spec c e) as [->|Hce]; cbn.
    + split; [reflexivity|]. exists true. split; [reflexivity|]. split; [assumption|].
      split; [assumption|]. destruct w as [|d w].
      * left. simpl in Hlast. destruct Hlast as [?|Hl]; [assumption|congruence].
      * rewrite last_cons_cons in Hlast. last_some Hlast.
    + replace (N.eqb c s) with false by (symmetry; apply N.eqb_neq; assumption). cbn.
      split; [reflexivity|]. exists false. split; [reflexivity|]. split; [assumption|].
      split; [assumption|]. destruct w as [|d w]; [right; reflexivity|].
      rewrite last_cons_cons in Hlast. last_some Hlast.
  - intros p n (flag & -> & Hrest & Hin & Hlast).
    destruct rest as [|r rest].
    + simpl. split; [reflexivity|]. exists flag. auto.
    + destruct Hrest as [?|Hh]; [discriminate|]. simpl in Hh; injection Hh as ->.
      simpl in Hlast. assert (flag = false) as -> by (destruct Hlast; [discriminate|assumption]).
      unfold pp_next, check_allowed; cbn.
      replace (N.eqb s e) with false by (symmetry; apply N.eqb_neq; assumption).
      rewrite N.eqb_refl. cbn. split; [reflexivity|]. exists false. simpl; auto.
  - intros p n w (flag & -> & _). reflexivity.
  - intros p n w (flag & -> & _). unfold pp_size; simpl. rewrite app_length. lia.
Qed.

(** ** C01: the plain process against the cursor *)
Definition model_op (o : cursor_op) (p : PP str) : option char * PP str :=
  match o with
  | CNext => pp_next base_tp p
  | CPeek => pp_peek base_tp p
  | CPeekMut f => pp_peek_mut base_tp f p
  | CNextIf f => pp_next_if base_tp f p
  | CNextIfEq c => pp_next_if_eq base_tp c p
  end.
Fixpoint model_ops (l : list cursor_op) (p : PP str) : list (option char) * PP str :=
  match l with
  | [] => ([], p)
  | o :: l' => let '(r, p') := model_op o p in
               let '(rs, fin) := model_ops l' p' in (r :: rs, fin)
  end.

Lemma drop_insert_same (t : str) i c d : t !! i = Some c ->
  drop i (<[i := d]> t) = d :: drop (i + 1) t.
Proof.
  intros Hc. assert (i < length t) by (apply lookup_lt_is_Some; eauto).
  rewrite (drop_S (<[i:=d]> t) d i) by (apply list_lookup_insert; assumption).
  rewrite Nat.add_1_r, drop_insert_gt by lia. reflexivity.
Qed.

Lemma model_op_cursor o t i : i <= length t ->
  let '(r, (t', i')) := cursor_step o t i in
  model_op o (mkPP (drop i t) i None None false) = (r, mkPP (drop i' t') i' None None false)
  /\ i' <= length t' /\ length t' = length t.
Proof.
  intros Hi. destruct (t !! i) as [c|] eqn:Hc.
  - pose proof (drop_S t c i Hc) as Hd. rewrite <- Nat.add_1_r in Hd.
    assert (i < length t) by (apply lookup_lt_is_Some; eauto).
    destruct o; unfold cursor_step; rewrite Hc; simpl model_op.
    + rewrite Hd. cbn. repeat split; lia.
    + rewrite Hd. cbn. rewrite <- Hd. repeat split; lia.
    + rewrite (drop_insert_same t i c (f c) Hc), Hd. cbn. rewrite insert_length.
      repeat split; lia.
    + rewrite Hd. destruct (f c) eqn:Hf; cbn; rewrite Hf; cbn; rewrite <- ?Hd; repeat split; lia.
    + rewrite Hd. unfold pp_next_if_eq. cbn. unfold base_next_if_eq. cbn.
      destruct (decide (c0 = c)) as [->|Hne].
      * rewrite N.eqb_refl. cbn. repeat split; lia.
      * replace (N.eqb c0 c) with false by (symmetry; apply N.eqb_neq; assumption).
        cbn. rewrite <- Hd. repeat split; lia.
  - assert (i = length t) as -> by (apply lookup_ge_None in Hc; lia).
    rewrite drop_all. destruct o; unfold cursor_step; rewrite Hc; cbn;
      rewrite ?drop_all; repeat split; auto.
Qed.

Lemma model_ops_cursor l t i : i <= length t ->
  let '(rs, (t', i')) := cursor_run l t i in
  model_ops l (mkPP (drop i t) i None None false) = (rs, mkPP (drop i' t') i' None None false)
  /\ i' <= length t' /\ length t' = length t.
Proof.
  revert t i. induction l as [|o l IH]; intros t i Hi; simpl.
  - repeat split; auto.
  - pose proof (model_op_cursor o t i Hi) as Ho.
    destruct (cursor_step o t i) as [r [t' i']].
    destruct Ho as (-> & Hi' & Hlen).
    specialize (IH t' i' Hi'). destruct (cursor_run l t' i') as [rs [t'' i'']].
    destruct IH as (-> & ? & ?). repeat split; auto; congruence.
Qed.

(** ** C02: any calls on a nested process *)
Definition op_on {S} (T : TPeek S) (o : cursor_op) (p : PP S) : option char * PP S :=
  match o with
  | CNext => pp_next T p
  | CPeek => pp_peek T p
  | CPeekMut f => pp_peek_mut T f p
  | CNextIf f => pp_next_if T f p
  | CNextIfEq c => pp_next_if_eq T c p
  end.
Fixpoint ops_on {S} (T : TPeek S) (l : list cursor_op) (p : PP S) : list (option char) * PP S :=
  match l with
  | [] => ([], p)
  | o :: l' => let '(r, p') := op_on T o p in
               let '(rs, fin) := ops_on T l' p' in (r :: rs, fin)
  end.
(** the flag is set only behind or in front of an escape char *)
Definition flag_ok (e : char) (last_read : option char) (rest : str) (flag : bool) : Prop :=
  flag = true -> last_read = Some e \/ head rest = Some e.
Lemma op_on_nested s e o rest n flag prev : s <> e -> ~ overwrites o -> flag_ok e prev rest flag ->
  let '(r, p) := op_on (pp_tp base_tp) o (mkPP (mkPP rest n None None false) n (Some s) (Some e) flag) in
  exists flag',
  match r, consumes o with
  | Some c, true => exists rest', rest = c :: rest' /\ p = mkPP (mkPP rest' (n + 1) None None false) (n + 1) (Some s) (Some e) flag' /\
      (c = s -> prev = Some e) /\ flag_ok e (Some c) rest' flag'
  | _, _ => p = mkPP (mkPP rest n None None false) n (Some s) (Some e) flag' /\ flag_ok e prev rest flag'
  end.
Proof.
  intros Hse Ho Hf. destruct rest as [|c rest].
  - destruct o; cbn in *; try tauto; exists flag; auto.
  - assert (forall b, b = true -> c = e -> flag_ok e prev (c :: rest) b) as Hat by (intros b _ ->; right; reflexivity).
    assert (flag_ok e prev (c :: rest) false) as Hoff by (intros ?; discriminate).
    assert (forall r0, flag_ok e (Some c) r0 false) as Hoff' by (intros ? ?; discriminate).
    destruct (N.eqb_spec c e) as [->|Hce].
    + assert (forall r0 b, flag_ok e (Some e) r0 b) as Hl by (intros ? ? ?; left; reflexivity).
      destruct o as [| |f|f|d]; cbn in *; try tauto; unfold pp_next, pp_peek, pp_next_if, pp_next_if_eq, check_allowed; cbn;
        rewrite N.eqb_refl; cbn; unfold pp_next, pp_peek, pp_next_if, pp_next_if_eq, check_allowed, base_next_if_eq; cbn.
      * exists true, rest. repeat split; auto; congruence.
      * exists true. split; [reflexivity|]. apply Hat; reflexivity.
      * destruct (f e); cbn; exists true; [exists rest; repeat split; auto; congruence|]. split; [reflexivity|]. apply Hat; reflexivity.
      * destruct (N.eqb d e); cbn; exists true; [exists rest; repeat split; auto; congruence|]. split; [reflexivity|]. apply Hat; reflexivity.
    + assert (flag = true -> prev = Some e) as Hp. { intros E. destruct (Hf E) as [|Hh]; [assumption|]. injection Hh as ->. congruence. }
      destruct (N.eqb_spec c s) as [->|Hcs].
      * destruct flag.
        -- specialize (Hp eq_refl). destruct o as [| |f|f|d]; cbn in *; try tauto; unfold pp_next, pp_peek, pp_next_if, pp_next_if_eq, check_allowed; cbn;
             rewrite N.eqb_refl, (proj2 (N.eqb_neq s e) Hse); cbn; unfold pp_next, pp_peek, pp_next_if, pp_next_if_eq, check_allowed, base_next_if_eq; cbn.
           ++ exists false, rest. repeat split; auto.
           ++ exists false. auto.
           ++ destruct (f s); cbn; exists false; [exists rest; repeat split; auto|auto].
           ++ destruct (N.eqb d s); cbn; exists false; [exists rest; repeat split; auto|auto].
        -- destruct o as [| |f|f|d]; cbn in *; try tauto; unfold pp_next, pp_peek, pp_next_if, pp_next_if_eq, check_allowed; cbn;
             rewrite N.eqb_refl, (proj2 (N.eqb_neq s e) Hse); cbn; exists false; auto.
      * destruct o as [| |f|f|d]; cbn in *; try tauto; unfold pp_next, pp_peek, pp_next_if, pp_next_if_eq, check_allowed; cbn;
          rewrite (proj2 (N.eqb_neq c e) Hce), (proj2 (N.eqb_neq c s) Hcs); cbn; unfold pp_next, pp_peek, pp_next_if, pp_next_if_eq, check_allowed, base_next_if_eq; cbn.
        -- exists false, rest. repeat split; auto; congruence.
        -- exists false. auto.
        -- destruct (f c); cbn; exists false; [exists rest; repeat split; auto; congruence|auto].
        -- destruct (N.eqb d c); cbn; exists false; [exists rest; repeat split; auto; congruence|auto].
Qed.
Lemma ops_on_nested s e l : s <> e -> Forall (fun o => ~ overwrites o) l -> forall rest n flag prev, flag_ok e prev rest flag ->
  let '(rs, p) := ops_on (pp_tp base_tp) l (mkPP (mkPP rest n None None false) n (Some s) (Some e) flag) in
  exists rest', rest = consumed l rs ++ rest' /\ pp_inner p = mkPP rest' (n + length (consumed l rs)) None None false /\
    cur_pos p = n + length (consumed l rs) /\
    forall i, consumed l rs !! i = Some s -> match i with O => prev | S j => consumed l rs !! j end = Some e.
Proof.
  intros Hse Hl. induction Hl as [|o l Ho Hl IH]; intros rest n flag prev Hf; cbn [ops_on].
  - exists rest. cbn. rewrite Nat.add_0_r. repeat split; auto. intros i Hi. discriminate.
  - pose proof (op_on_nested s e o rest n flag prev Hse Ho Hf) as Hs.
    destruct (op_on (pp_tp base_tp) o (mkPP (mkPP rest n None None false) n (Some s) (Some e) flag)) as [r p].
    destruct Hs as [flag' Hs]. destruct r as [c|]; cbn [consumed]; [destruct (consumes o)|].
    + destruct Hs as (rest' & -> & -> & Hc & Hf'). specialize (IH rest' (n + 1) flag' (Some c) Hf').
      destruct (ops_on (pp_tp base_tp) l (mkPP (mkPP rest' (n + 1) None None false) (n + 1) (Some s) (Some e) flag')) as [rs fin].
      destruct IH as (rest2 & -> & Hi & Hp & Hall). exists rest2. cbn [consumed app length]. rewrite Nat.add_1_r in Hi, Hp.
      rewrite Hi, Hp. replace (n + S (length (consumed l rs))) with (S n + length (consumed l rs)) by lia. repeat split.
      intros [|i] Hlook; [injection Hlook as ->; auto|]. specialize (Hall i Hlook). destruct i; exact Hall.
    + destruct Hs as (-> & Hf'). specialize (IH rest n flag' prev Hf').
      destruct (ops_on (pp_tp base_tp) l (mkPP (mkPP rest n None None false) n (Some s) (Some e) flag')) as [rs fin]. exact IH.
    + assert (p = mkPP (mkPP rest n None None false) n (Some s) (Some e) flag' /\ flag_ok e prev rest flag') as (-> & Hf') by (destruct (consumes o); exact Hs).
      specialize (IH rest n flag' prev Hf').
      destruct (ops_on (pp_tp base_tp) l (mkPP (mkPP rest n None None false) n (Some s) (Some e) flag')) as [rs fin]. exact IH.
Qed.

(** ** C02: draining a nested process *)
Fixpoint next_times {S} (T : TPeek S) (k : nat) (p : PP S) : list (option char) * PP S :=
  match k with
  | O => ([], p)
  | Datatypes.S k' => let '(c, p') := pp_next T p in
                      let '(cs, fin) := next_times T k' p' in (c :: cs, fin)
  end.

(** [stops_between] threaded through a flag "the previous char was the escape" *)
Fixpoint esc_ok (s e : char) (flag : bool) (body : str) : Prop :=
  match body with
  | [] => True
  | c :: body' => (c = s -> flag = true) /\ esc_ok s e (N.eqb c e) body'
  end.
Definition end_flag (e : char) (flag : bool) (body : str) : bool :=
  match last body with None => flag | Some c => N.eqb c e end.

Lemma stops_between_ok s e body rest : stops_between s e body rest ->
  esc_ok s e false body /\ (rest = [] \/ (head rest = Some s /\ end_flag e false body = false)).
Proof.
  intros [Hb Hr]. split.
  - assert (forall flag pre, (pre = [] -> flag = false) ->
              (forall c, last pre = Some c -> flag = N.eqb c e) ->
              (forall i, (pre ++ body) !! i = Some s -> exists j, i = S j /\ (pre ++ body) !! j = Some e) ->
              esc_ok s e flag body) as Hgen.
    { clear Hb Hr rest. induction body as [|c body IH]; intros flag pre Hp Hl Hall; simpl; [exact I|].
      split.
      - intros ->. destruct (Hall (length pre)) as (j & Hj & Hlk).
        { rewrite lookup_app_r, Nat.sub_diag by lia. reflexivity. }
        rewrite lookup_app_l in Hlk by lia.
        rewrite (Hl e), N.eqb_refl; [reflexivity|].
        rewrite last_lookup. replace (pred (length pre)) with j by lia. exact Hlk.
      - apply (IH (N.eqb c e) (pre ++ [c])).
        + intros Hnil. destruct pre; discriminate.
        + intros d Hd. rewrite last_snoc in Hd. congruence.
        + intros i Hi. rewrite <- app_assoc in Hi. simpl in Hi.
          destruct (Hall i Hi) as (j & -> & Hj). exists j. rewrite <- app_assoc. auto. }
    apply (Hgen false []); auto.
    intros c Hc; discriminate.
  - destruct Hr as [?|[Hh Hl]]; [auto|]. right. split; [assumption|].
    unfold end_flag. destruct (last body) as [c|]; [|reflexivity].
    apply N.eqb_neq. congruence.
Qed.

Lemma nested_next_step s e c flag w n : s <> e -> (c = s -> flag = true) ->
  pp_next (pp_tp base_tp)
    (mkPP (mkPP (c :: w) n None None false) n (Some s) (Some e) flag)
  = (Some c, mkPP (mkPP w (n + 1) None None false) (n + 1) (Some s) (Some e) (N.eqb c e)).
Proof.
  intros Hse Hc. unfold pp_next, check_allowed; cbn.
  destruct (N.eqb_spec c e) as [->|Hce]; cbn; [reflexivity|].
  destruct (N.eqb_spec c s) as [->|Hcs]; cbn; [|reflexivity].
  rewrite (Hc eq_refl). reflexivity.
Qed.

Lemma nested_drain s e body : s <> e -> forall flag rest n, esc_ok s e flag body ->
  next_times (pp_tp base_tp) (length body)
    (mkPP (mkPP (body ++ rest) n None None false) n (Some s) (Some e) flag)
  = (map Some body,
     mkPP (mkPP rest (n + length body) None None false) (n + length body) (Some s) (Some e)
          (end_flag e flag body)).
Proof.
  intros Hse. induction body as [|c body IH]; intros flag rest n [Hc Hok] || intros flag rest n Hok.
  - simpl. rewrite Nat.add_0_r. reflexivity.
  - simpl length. cbn [next_times app]. rewrite nested_next_step by auto.
    rewrite IH by auto. cbn [map]. replace (n + 1 + length body) with (n + S (length body)) by lia.
    f_equal. f_equal. unfold end_flag. destruct body as [|d body']; [reflexivity|].
    rewrite (last_cons_cons c d body').
    destruct (last (d :: body')) eqn:Hl; [reflexivity|]. apply last_None in Hl; discriminate.
Qed.

Lemma nested_stopped s e flag rest n k : s <> e ->
  rest = [] \/ (head rest = Some s /\ flag = false) ->
  next_times (pp_tp base_tp) k
    (mkPP (mkPP rest n None None false) n (Some s) (Some e) flag)
  = (replicate k None, mkPP (mkPP rest n None None false) n (Some s) (Some e) flag).
Proof.
  intros Hse Hr.
  assert (pp_next (pp_tp base_tp) (mkPP (mkPP rest n None None false) n (Some s) (Some e) flag)
          = (None, mkPP (mkPP rest n None None false) n (Some s) (Some e) flag)) as Hstep.
  { destruct rest as [|r rest]; [reflexivity|].
    destruct Hr as [?|[Hh ->]]; [discriminate|]. simpl in Hh. injection Hh as ->.
    unfold pp_next, check_allowed; cbn.
    replace (N.eqb s e) with false by (symmetry; apply N.eqb_neq; assumption).
    rewrite N.eqb_refl. reflexivity. }
  induction k as [|k IH]; [reflexivity|]. cbn [next_times]. rewrite Hstep, IH. reflexivity.
Qed.

Lemma next_times_app {S} (T : TPeek S) j k p :
  next_times T (j + k) p =
  let '(a, p1) := next_times T j p in let '(b, p2) := next_times T k p1 in (a ++ b, p2).
Proof.
  revert p. induction j as [|j IH]; intros p; cbn [next_times plus].
  - destruct (next_times T k p). reflexivity.
  - destruct (pp_next T p) as [c p1]. rewrite IH.
    destruct (next_times T j p1) as [a p2]. destruct (next_times T k p2). reflexivity.
Qed.

Lemma nested_drain_all s e body rest n k : s <> e -> stops_between s e body rest ->
  exists flag,
  next_times (pp_tp base_tp) (length body + k)
    (pp_new_nested (mkPP (body ++ rest) n None None false) (Some s) (Some e) n)
  = (map Some body ++ replicate k None,
     mkPP (mkPP rest (n + length body) None None false) (n + length body) (Some s) (Some e) flag).
Proof.
  intros Hse Hst. destruct (stops_between_ok s e body rest Hst) as [Hok Hr].
  exists (end_flag e false body). rewrite next_times_app. unfold pp_new_nested.
  rewrite nested_drain by assumption. rewrite nested_stopped by assumption. reflexivity.
Qed.

(** Every text splits in exactly one way. *)
Lemma stops_split_exists s e w : exists body rest, w = body ++ rest /\ stops_between s e body rest.
Proof.
  assert (forall pre, (forall i, pre !! i = Some s -> exists j, i = S j /\ pre !! j = Some e) ->
     exists body rest, pre ++ w = body ++ rest /\ stops_between s e body rest) as Hgen.
  { induction w as [|c w IH]; intros pre Hpre.
    - exists pre, []. split; [reflexivity|]. split; [assumption|left; reflexivity].
    - destruct (decide (c = s /\ last pre <> Some e)) as [[-> Hl]|Hn].
      + exists pre, (s :: w). split; [reflexivity|]. split; [assumption|right; auto].
      + destruct (IH (pre ++ [c])) as (body & rest & Heq & Hst).
        { intros i Hi. destruct (decide (i < length pre)).
          - rewrite lookup_app_l in Hi by lia. destruct (Hpre i Hi) as (j & -> & Hj).
            exists j. split; [reflexivity|]. rewrite lookup_app_l by lia. assumption.
          - rewrite lookup_app_r in Hi by lia.
            destruct (i - length pre) as [|k] eqn:Hk; [|destruct k; discriminate].
            simpl in Hi. injection Hi as ->.
            assert (last pre = Some e) as Hl.
            { destruct (decide (last pre = Some e)); [assumption|]. exfalso. auto. }
            rewrite last_lookup in Hl. destruct pre as [|x pre']; [discriminate|].
            exists (length pre'). split; [simpl in *; lia|].
            rewrite lookup_app_l by (simpl; lia). exact Hl. }
        exists body, rest. rewrite <- app_assoc in Heq. auto. }
  apply (Hgen []). intros i Hi; discriminate.
Qed.

Lemma stops_split_unique s e b1 r1 b2 r2 :
  b1 ++ r1 = b2 ++ r2 -> stops_between s e b1 r1 -> stops_between s e b2 r2 -> b1 = b2 /\ r1 = r2.
Proof.
  assert (forall b1 r1 b2 r2, length b1 <= length b2 -> b1 ++ r1 = b2 ++ r2 ->
     stops_between s e b1 r1 -> stops_between s e b2 r2 -> b1 = b2 /\ r1 = r2) as Hw.
  { clear. intros b1 r1 b2 r2 Hlen Heq [H1 H1'] [H2 H2'].
    apply app_eq_inv in Heq as [(k & -> & ->)|(k & -> & ->)].
    - assert (k = []) as ->.
      { rewrite app_length in Hlen. destruct k; [reflexivity|simpl in Hlen; lia]. }
      rewrite app_nil_r. auto.
    - destruct k as [|c k]; [rewrite app_nil_r; auto|]. exfalso.
      destruct H1' as [?|[Hh Hl]]; [discriminate|]. simpl in Hh. injection Hh as ->.
      destruct (H2 (length b1)) as (j & Hj & Hlk).
      { rewrite lookup_app_r, Nat.sub_diag by lia. reflexivity. }
      rewrite lookup_app_l in Hlk by lia. apply Hl. rewrite last_lookup.
      rewrite Hj. exact Hlk. }
  intros Heq H1 H2. destruct (decide (length b1 <= length b2)).
  - eauto.
  - destruct (Hw b2 r2 b1 r1) as [-> ->]; auto. lia.
Qed.

(** ** C03 *)
Lemma peek_next_same {S} (T : TPeek S) R p w : tsim T R -> R (pp_inner p) w ->
  fst (pp_next T p) = fst (pp_peek T p).
Proof.
  intros HT HR. unfold pp_next, pp_peek.
  destruct (check_allowed T p) as [ok p1] eqn:Hc.
  destruct ok; simpl; [|reflexivity].
  assert (R (pp_inner p1) w) as HR1.
  { unfold check_allowed in Hc. destruct (ts_peek T R HT _ _ HR) as [_ Hp].
    destruct (tp_peek T (pp_inner p)) as [nx s'] eqn:Hpk. simpl in Hp.
    destruct nx, (pp_esc p), (pp_stop p); try (inversion Hc; subst; assumption).
    destruct (N.eqb _ _); [inversion Hc; subst; assumption|].
    destruct (N.eqb _ _ && _); inversion Hc; subst; assumption. }
  destruct (ts_peek T R HT _ _ HR1) as [H1 _]. destruct (ts_next T R HT _ _ HR1) as [H2 _].
  destruct (tp_next T (pp_inner p1)) as [r s']. destruct (tp_peek T (pp_inner p1)) as [r2 s2].
  simpl in *. subst. destruct (head w); reflexivity.
Qed.

Definition at_escaped_stop {S} (p : PP S) (w : str) : Prop :=
  exists s e, pp_stop p = Some s /\ pp_esc p = Some e /\ s <> e /\
              head w = Some s /\ pp_flag p = true.

Lemma check_allowed_eq {S} (T : TPeek S) R p w : tsim T R -> R (pp_inner p) w ->
  exists s', R s' w /\ snd (tp_peek T (pp_inner p)) = s' /\
  check_allowed T p =
    match head w, pp_esc p, pp_stop p with
    | Some c, Some e, Some s =>
        if N.eqb c e then (true, set_flag (set_inner p s') true)
        else if N.eqb c s && negb (pp_flag p) then (false, set_inner p s')
        else (true, set_flag (set_inner p s') false)
    | _, _, _ => (true, set_inner p s')
    end.
Proof.
  intros HT HR. destruct (ts_peek T R HT _ _ HR) as [Hh Hp].
  unfold check_allowed. destruct (tp_peek T (pp_inner p)) as [nx s']. simpl in *. subst.
  exists s'. auto.
Qed.

Lemma pp_peek_eq {S} (T : TPeek S) R p w : tsim T R -> R (pp_inner p) w ->
  exists s', R s' w /\
  pp_peek T p =
    match head w, pp_esc p, pp_stop p with
    | Some c, Some e, Some s =>
        if N.eqb c e then (Some c, set_flag (set_inner p s') true)
        else if N.eqb c s && negb (pp_flag p) then (None, set_inner p s')
        else (Some c, set_flag (set_inner p s') false)
    | o, _, _ => (o, set_inner p s')
    end.
Proof.
  intros HT HR. destruct (check_allowed_eq T R p w HT HR) as (s1 & HR1 & _ & Hc).
  unfold pp_peek. rewrite Hc.
  destruct (ts_peek T R HT s1 w HR1) as [Hh HR2].
  destruct (tp_peek T s1) as [o s2] eqn:Hpk. simpl in Hh, HR2. subst o.
  destruct (head w) as [c|] eqn:Hw; simpl.
  - destruct (pp_esc p) as [e|], (pp_stop p) as [s|]; simpl; rewrite ?Hpk; eauto.
    destruct (N.eqb c e); simpl; rewrite ?Hpk; eauto.
    destruct (N.eqb c s && negb (pp_flag p)); simpl; rewrite ?Hpk; eauto.
  - rewrite Hpk. eauto.
Qed.

Lemma peek_then_next {S} (T : TPeek S) R p w : tsim T R -> R (pp_inner p) w ->
  (fst (pp_next T (snd (pp_peek T p))) = fst (pp_peek T p) <-> ~ at_escaped_stop p w).
Proof.
  intros HT HR. destruct (pp_peek_eq T R p w HT HR) as (s1 & HR1 & Hpk).
  assert (R (pp_inner (snd (pp_peek T p))) w) as HR2.
  { rewrite Hpk. destruct (head w), (pp_esc p), (pp_stop p); simpl; auto.
    destruct (N.eqb _ _); simpl; auto. destruct (N.eqb _ _ && _); simpl; auto. }
  rewrite (peek_next_same T R _ w HT HR2).
  destruct (pp_peek_eq T R _ w HT HR2) as (s2 & _ & Hpk2). rewrite Hpk2.
  rewrite Hpk. unfold at_escaped_stop.
  destruct (head w) as [c|]; [|simpl; split; [intros _ (?&?&?&?&?&?&?); congruence|auto]].
  destruct (pp_esc p) as [e|] eqn:He;
    [|simpl; rewrite ?He; simpl; split; [intros _ (?&?&?&?&?&?&?); congruence|auto]].
  destruct (pp_stop p) as [s|] eqn:Hs;
    [|simpl; rewrite ?He, ?Hs; simpl; split; [intros _ (?&?&?&?&?&?&?); congruence|auto]].
  destruct (N.eqb_spec c e) as [->|Hce].
  - simpl. rewrite He, Hs, N.eqb_refl. simpl. split; [|auto].
    intros _ (s' & e' & Hs' & He' & Hne & Hh & _). congruence.
  - apply N.eqb_neq in Hce. destruct (N.eqb_spec c s) as [->|Hcs].
    + simpl. destruct (pp_flag p) eqn:Hf; simpl; rewrite ?He, ?Hs, ?Hce, N.eqb_refl; simpl.
      * split; [discriminate|]. intros Hn. exfalso. apply Hn. exists s, e.
        apply N.eqb_neq in Hce. auto.
      * rewrite Hf. simpl. split; [|auto]. intros _ (? & ? & _ & _ & _ & _ & ?). congruence.
    + apply N.eqb_neq in Hcs. simpl. rewrite He, Hs, Hce, Hcs. simpl. split; [|auto].
      intros _ (s' & e' & Hs' & He' & Hne & Hh & _). apply N.eqb_neq in Hcs. congruence.
Qed.

Lemma pp_outer_tsim stop : tsim (pp_tp base_tp)
  (fun p w => exists n, p = mkPP w n stop None false).
Proof.
  split.
  - intros p w (n & ->). destruct w; simpl; split; eauto.
  - intros p w (n & ->). destruct w; simpl; split; eauto.
  - intros p w (n & ->). reflexivity.
Qed.

(** ** C04 *)
Lemma no_escape_never_stops w s n k :
  next_times base_tp (length w + k) (mkPP w n (Some s) None false)
  = (map Some w ++ replicate k None, mkPP [] (n + length w) (Some s) None false).
Proof.
  revert n. induction w as [|c w IH]; intros n.
  - simpl. rewrite Nat.add_0_r. induction k as [|k IHk]; [reflexivity|].
    cbn [next_times].
    change (pp_next base_tp (mkPP [] n (Some s) None false))
      with (@None N, mkPP (@nil N) n (Some s) None false).
    cbv iota beta. rewrite IHk. reflexivity.
  - simpl length. cbn [plus next_times].
    change (pp_next base_tp (mkPP (c :: w) n (Some s) None false))
      with (Some c, mkPP w (n + 1) (Some s) None false).
    cbv iota beta. rewrite IH.
    replace (n + S (length w)) with (n + 1 + length w) by lia. reflexivity.
Qed.
