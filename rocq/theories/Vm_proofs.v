(** * The stack machines follow their specification (C51) *)
From Verif Require Import Base Tree SpecText SpecTree SpecVm Vm SimpleStackVm StackVm ParseFuncs_proofs Tree_proofs.
Local Open Scope Z_scope.

Lemma in_word_dec lo z : {in_word lo z} + {~ in_word lo z}.
Proof. unfold in_word. destruct (Z_le_dec lo z), (Z_lt_dec z (lo + 2 ^ 64)); [left|right|right|right]; lia. Defined.

(** ** The spec is deterministic *)
Lemma same_word lo a b z : in_word lo a -> in_word lo b -> same_bits a z -> same_bits b z -> a = b.
Proof. intros [] [] [k Hk] [l Hl]. assert (k = l) by lia. subst. lia. Qed.
Lemma word_det m lo z r r' : word m lo z r -> word m lo z r' -> r = r'.
Proof.
  intros [] H'; inversion H'; subst; try tauto; try congruence. f_equal. eapply same_word; eauto.
Qed.
Lemma power_det m lo b x y v r r' : power m lo b x y v r -> power m lo b x y v r' -> r = r'.
Proof.
  intros H H'; inversion H as [A|p q A B C D|p q u w A B C D E]; inversion H' as [A'|p' q' A' B' C' D'|p' q' u' w' A' B' C' D' E']; subst; auto;
    pose proof (word_det _ _ _ _ _ A A') as Hx; try discriminate Hx; injection Hx as ->;
    pose proof (same_word _ _ _ _ C C' B B'); subst; pose proof (word_det _ _ _ _ _ D D') as Hy; try discriminate Hy; injection Hy as ->.
  eapply word_det; eauto.
Qed.
Lemma sign_digits ds ds' : ds = 43%N :: ds' \/ ds = 45%N :: ds' -> ~ Forall digit_char ds.
Proof. intros [-> | ->] H; inversion H as [|? ? Hc]; unfold digit_char in Hc; lia. Qed.
Lemma reads_number_det lo txt z z' : reads_number lo txt z -> reads_number lo txt z' -> z = z'.
Proof.
  intros [_ (ds & N1 & D1 & H1)] [_ (ds' & N2 & D2 & H2)].
  destruct H1 as [[[-> | ->] ->]|(_ & -> & ->)]; destruct H2 as [[[E|E] ->]|(_ & E & ->)].
  1: { congruence. }
  3: { subst ds'. exfalso; eapply sign_digits; [|exact D2]; eauto. }
  3: { congruence. }
  4: { subst ds'. exfalso; eapply sign_digits; [|exact D2]; eauto. }
  1, 2: subst ds; exfalso; eapply sign_digits; [|exact D1]; eauto.
  1, 2: discriminate E.
  congruence.
Qed.
Lemma step_det m lo child o s r r' : step m lo child o s r -> step m lo child o s r' -> r = r'.
Proof.
  intros H H'; inversion H; subst; inversion H'; subst; simpl in *; try tauto; try congruence;
    repeat match goal with A : stack ?s = _, B : stack ?s = _ |- _ => rewrite A in B; try discriminate B; injection B as -> -> end; subst;
    try (f_equal; fail); try reflexivity.
  all: try (f_equal; eapply word_det; eassumption).
  all: try (f_equal; eapply power_det; eassumption).
  all: try (match goal with A : Some _ = Some _ |- _ => injection A as -> end).
  all: try (match goal with A : reads_number ?l ?t ?a, B : reads_number ?l ?t ?b |- _ => pose proof (reads_number_det _ _ _ _ A B); subst; reflexivity end).
  all: try (exfalso; match goal with A : forall z, ~ reads_number _ _ z |- _ => eapply A; eassumption end).
Qed.

(** ** Arithmetic of the model *)
Definition word_of {A} (f : A -> Z) (r : outcome Empty_set A) : option Z := match r with Ok x => Some (f x) | _ => None end.
Definition fine {E A} (r : outcome E A) : Prop := match r with Ok _ | Panic => True | _ => False end.
Lemma same_bits_mod a : same_bits (a mod 2 ^ 64) a.
Proof. exists (- (a / 2 ^ 64)). pose proof (Z_div_mod_eq_full a (2 ^ 64)). lia. Qed.
Lemma usize_word m z : fine (@usize_result Empty_set m z) /\ word m 0 z (word_of Z.of_N (usize_result m z)).
Proof.
  unfold usize_result. destruct ((0 <=? z) && (z <? 2 ^ 64)) eqn:E.
  - apply andb_true_iff in E as [E1%Z.leb_le E2%Z.ltb_lt]. simpl. split; [exact I|]. rewrite Z2N.id by lia. constructor. unfold in_word. lia.
  - assert (~ in_word 0 z) as Hn. { apply andb_false_iff in E as [E%Z.leb_gt|E%Z.ltb_ge]; unfold in_word; lia. }
    destruct m; simpl; (split; [exact I|]); [constructor; auto|].
    pose proof (Z.mod_pos_bound z (2 ^ 64) eq_refl). rewrite Z2N.id by lia. apply w_wraps; auto using same_bits_mod.
Qed.
Lemma wrap_word z : in_word (- 2 ^ 63) (wrap_isize z) /\ same_bits (wrap_isize z) z.
Proof.
  unfold wrap_isize. pose proof (Z.mod_pos_bound (z + 2 ^ 63) (2 ^ 64) eq_refl). split; [unfold in_word; lia|].
  destruct (same_bits_mod (z + 2 ^ 63)) as [k Hk]. exists k. lia.
Qed.
Lemma isize_word m z : fine (@isize_result Empty_set m z) /\ word m (- 2 ^ 63) z (word_of (fun x => x) (isize_result m z)).
Proof.
  unfold isize_result, isize_min, isize_max. destruct ((- 2 ^ 63 <=? z) && (z <=? 2 ^ 63 - 1)) eqn:E.
  - apply andb_true_iff in E as [E1%Z.leb_le E2%Z.leb_le]. simpl. split; [exact I|]. constructor. unfold in_word. lia.
  - assert (~ in_word (- 2 ^ 63) z) as Hn. { apply andb_false_iff in E as [E%Z.leb_gt|E%Z.leb_gt]; unfold in_word; lia. }
    destruct m; simpl; (split; [exact I|]); [constructor; auto|]. destruct (wrap_word z). apply w_wraps; auto.
Qed.
Lemma same_bits_refl a : same_bits a a. Proof. exists 0. lia. Qed.

(** ** Numbers *)
Lemma digits_value_some s : forall acc n, digits_value acc s = Some n -> Forall digit_char s.
Proof.
  induction s as [|c s IH]; intros acc n H; [constructor|]. simpl in H. destruct (is_ascii_digit c) eqn:E; [|discriminate].
  constructor; [apply is_ascii_digit_iff, E|eauto].
Qed.
Lemma parse_digits_str_some s n : parse_digits_str s = Some n -> s <> [] /\ Forall digit_char s /\ n = dec_value s.
Proof.
  intros H. assert (s <> [] /\ Forall digit_char s) as [H1 H2] by (destruct s; [discriminate|]; split; [discriminate|eapply digits_value_some, H]).
  split; [auto|]. split; [auto|]. rewrite parse_digits_str_spec in H by auto. congruence.
Qed.
Lemma usize_text txt z : str_parse_usize txt = Some z -> reads_number 0 txt (Z.of_N z).
Proof.
  unfold str_parse_usize. intros H.
  destruct (parse_digits_str _) as [n|] eqn:E; [|discriminate]. destruct (n <? usize_bound)%N eqn:Hb; [|discriminate]. injection H as ->.
  apply N.ltb_lt in Hb. unfold usize_bound in Hb. apply parse_digits_str_some in E as (E1 & E2 & ->). split; [unfold in_word; lia|].
  eexists. split; [exact E1|]. split; [exact E2|]. left. split; [|reflexivity].
  destruct txt as [|c [|d r]]; auto. destruct (N.eqb c 43) eqn:Hc; auto. apply N.eqb_eq in Hc as ->. auto.
Qed.
Lemma usize_text_conv txt z : reads_number 0 txt z -> str_parse_usize txt = Some (Z.to_N z).
Proof.
  intros [[H1 H2] (ds & N1 & D1 & [[[-> | ->] ->]|(? & _)])]; [..|lia]; rewrite N2Z.id.
  - rewrite str_parse_usize_spec by auto. replace (dec_value ds <? 2 ^ 64)%N with true; [reflexivity|]. symmetry. apply N.ltb_lt. lia.
  - unfold str_parse_usize. destruct ds as [|d ds]; [congruence|]. change (N.eqb 43 43) with true. cbv iota.
    rewrite parse_digits_str_spec by auto. replace (dec_value (d :: ds) <? usize_bound)%N with true; [reflexivity|]. symmetry. apply N.ltb_lt. unfold usize_bound. lia.
Qed.
Lemma isize_text txt z : str_parse_isize txt = Some z -> reads_number (- 2 ^ 63) txt z.
Proof.
  unfold str_parse_isize. intros H. destruct (match txt with [] => _ | _ => _ end) as [neg body] eqn:Eb.
  destruct (parse_digits_str body) as [n|] eqn:E; [|discriminate]. unfold isize_min, isize_max in H.
  destruct ((_ <=? _) && (_ <=? _)) eqn:Hb; [|discriminate]. injection H as Hz. rewrite Hz in Hb.
  apply andb_true_iff in Hb as [B1 B2]. apply Z.leb_le in B1, B2. apply parse_digits_str_some in E as (E1 & E2 & ->).
  split; [unfold in_word; lia|]. exists body. split; [exact E1|]. split; [exact E2|].
  destruct txt as [|c [|d r]]; [injection Eb as <- <-; left; auto..|].
  destruct (N.eqb c 43) eqn:Hc; [injection Eb as <- <-; apply N.eqb_eq in Hc as ->; left; auto|].
  destruct (N.eqb c 45) eqn:Hd; injection Eb as <- <-; [apply N.eqb_eq in Hd as ->; right; repeat split; auto; lia|left; auto].
Qed.
Lemma isize_text_conv txt z : reads_number (- 2 ^ 63) txt z -> str_parse_isize txt = Some z.
Proof.
  intros [[H1 H2] (ds & N1 & D1 & [[[-> | ->] ->]|(_ & -> & ->)])].
  - rewrite str_parse_isize_pos by auto. cbv zeta. unfold isize_min, isize_max.
    rewrite (proj2 (Z.leb_le _ _)), (proj2 (Z.leb_le _ _)) by lia. reflexivity.
  - unfold str_parse_isize. destruct ds as [|d ds]; [congruence|]. change (N.eqb 43 43) with true. cbv iota.
    rewrite parse_digits_str_spec by auto. cbv zeta. unfold isize_min, isize_max. rewrite (proj2 (Z.leb_le _ _)), (proj2 (Z.leb_le _ _)) by lia. reflexivity.
  - rewrite str_parse_isize_neg by auto. cbv zeta. unfold isize_min, isize_max.
    rewrite (proj2 (Z.leb_le _ _)), (proj2 (Z.leb_le _ _)) by lia. reflexivity.
Qed.

(** ** The first child *)
Lemma first_child_ok h n : grown h -> (n < length h)%nat ->
  exists child, first_child_data (snd (do_adds h tree_new)) (id_of n) = Ok child /\ first_child h n child.
Proof.
  intros Hg Hn. pose proof (tree_of_repr h Hg) as Hr. change (snd (do_adds h tree_new)) with (tree_of h) in *.
  destruct (lookup_lt_is_Some_2 h n Hn) as [[p d] Hpd]. destruct (repr_node _ h n p d Hr Hpd) as (nd & Hnd & _).
  unfold first_child_data, get_by_path_or_none, first_child. rewrite (get_node_repr _ h n nd Hr Hnd). cbn [obind path_loop].
  rewrite (nth_child_repr _ h n nd 0 Hr Hnd). destruct (kids h n) as [|k ks] eqn:Hk; simpl; [eauto|].
  assert (k ∈ kids h n) as Hin by (rewrite Hk; left). apply kids_lt in Hin. destruct (lookup_lt_is_Some_2 h k Hin) as [[p' d'] Hpd'].
  destruct (repr_node _ h k p' d' Hr Hpd') as (nk & Hnk & _ & Hd & _). rewrite Hnk. simpl. rewrite Hd. eauto 10.
Qed.

(** ** The machines *)
Ltac bindcase L z := let A := fresh "A" in let B := fresh "B" in destruct L as [A B]; destruct z as [?|[]| |]; simpl in A, B; try contradiction; simpl.
Lemma pow_word m b e : word m 0 (Z.of_N b ^ Z.of_N e) (word_of Z.of_N (usize_pow m b e)) /\ fine (usize_pow m b e).
Proof. unfold usize_pow. rewrite <- N2Z.inj_pow. destruct (usize_word m (Z.of_N (b ^ e))). auto. Qed.

Lemma simple_follows m h n i s : grown h -> (n < length h)%nat ->
  follows 0 simple_view m h n (simple_op i) s (simple_execute m (snd (do_adds h tree_new)) (id_of n) i s).
Proof.
  intros Hg Hn. destruct (first_child_ok h n Hg Hn) as (child & Hc & Hfc). exists child. split; [exact Hfc|].
  unfold simple_execute, simple_exec. set (t := snd (do_adds h tree_new)) in *.
  assert (forall k, pops (simple_op i) ->
    (forall v st, ss_stack s = v :: st -> match k v (s_set_stack s st) with Ok s' => step m 0 child (simple_op i) (simple_view s) (Some (simple_view s')) | Panic => step m 0 child (simple_op i) (simple_view s) None | _ => False end) ->
    match (let* s' := s_pop s k in Ok (t, s')) with
    | Ok (t', s') => t' = t /\ step m 0 child (simple_op i) (simple_view s) (Some (simple_view s'))
    | Panic => step m 0 child (simple_op i) (simple_view s) None
    | _ => False end) as Hpop.
  { intros k Hp Hk. unfold s_pop. destruct (ss_stack s) as [|v st] eqn:E.
    - split; [reflexivity|]. apply (s_empty _ _ _ _ (simple_view s)); [exact Hp|]. unfold simple_view. rewrite E. reflexivity.
    - specialize (Hk v st eq_refl). destruct (k v _); simpl; auto. }
  destruct i; simpl simple_op in *.
  all: try (apply Hpop; [exact I|]; clear Hpop; intros v st E).
  - pose proof (usize_word m (Z.of_N (ss_reg s) + Z.of_N v)) as L. bindcase L (@usize_result Empty_set m (Z.of_N (ss_reg s) + Z.of_N v)).
    + apply (s_add _ _ _ (simple_view s) (Z.of_N v) (map Z.of_N st) (Some _)); [simpl; rewrite E; reflexivity|]. simpl. rewrite Z.add_comm. exact B.
    + apply (s_add _ _ _ (simple_view s) (Z.of_N v) (map Z.of_N st) None); [simpl; rewrite E; reflexivity|]. simpl. rewrite Z.add_comm. exact B.
  - clear Hpop. pose proof (usize_word m (Z.of_N (ss_reg s) + Z.of_N c)) as L. bindcase L (@usize_result Empty_set m (Z.of_N (ss_reg s) + Z.of_N c)).
    + split; [reflexivity|]. apply (s_add_const _ _ _ _ (simple_view s) (Some _)). exact B.
    + apply (s_add_const _ _ _ _ (simple_view s) None). exact B.
  - pose proof (usize_word m (Z.of_N v - Z.of_N (ss_reg s))) as L. bindcase L (@usize_result Empty_set m (Z.of_N v - Z.of_N (ss_reg s))).
    + apply (s_sub _ _ _ (simple_view s) (Z.of_N v) (map Z.of_N st) (Some _)); [simpl; rewrite E; reflexivity|]. exact B.
    + apply (s_sub _ _ _ (simple_view s) (Z.of_N v) (map Z.of_N st) None); [simpl; rewrite E; reflexivity|]. exact B.
  - split; [reflexivity|]. constructor.
  - apply (s_pop_reg _ _ _ (simple_view s)). simpl. rewrite E. reflexivity.
  - apply (s_pop_reg2 _ _ _ (simple_view s)). simpl. rewrite E. reflexivity.
  - apply (s_drop _ _ _ (simple_view s) (Z.of_N v)). simpl. rewrite E. reflexivity.
  - split; [reflexivity|]. apply (s_push _ _ _ _ (simple_view s)).
  - clear Hpop. rewrite Hc. simpl. destruct child as [txt|]; simpl; [|split; [reflexivity|]; apply (s_no_child _ _ _ (simple_view s)); reflexivity].
    destruct (str_parse_usize txt) as [z|] eqn:E; simpl; (split; [reflexivity|]).
    + apply (s_push_child _ _ _ (simple_view s) txt); [reflexivity|]. apply usize_text, E.
    + apply (s_no_number _ _ _ (simple_view s) txt); [reflexivity|]. intros z Hz. apply usize_text_conv in Hz. congruence.
  - split; [reflexivity|]. apply (s_push_reg _ _ _ (simple_view s)).
  - split; [reflexivity|]. apply (s_push_reg2 _ _ _ (simple_view s)).
  - split; [reflexivity|]. unfold simple_view at 2. simpl. rewrite map_app. apply (s_print_reg _ _ _ (simple_view s)).
  - split; [reflexivity|]. unfold simple_view at 2. simpl. rewrite map_app. apply (s_print_reg2 _ _ _ (simple_view s)).
  - split; [reflexivity|]. unfold simple_view at 2. simpl. rewrite map_app. apply (s_print_error _ _ _ (simple_view s)).
  - assert (Z.of_N (as_u32 (ss_reg s)) = (Z.of_N (ss_reg s)) mod 2 ^ 32) as He by (unfold as_u32; rewrite N2Z.inj_mod; reflexivity).
    pose proof (pow_word m base (as_u32 (ss_reg s))) as [Lw Lf]. rewrite He in Lw.
    assert (stack (simple_view s) = Z.of_N v :: map Z.of_N st) as Es by (simpl; rewrite E; reflexivity).
    destruct (usize_pow m base (as_u32 (ss_reg s))) as [pw|[]| |]; simpl in Lf, Lw; try contradiction; simpl;
      [|apply (s_pow _ _ _ _ (simple_view s) _ _ None Es); apply p_power, Lw].
    assert (in_word 0 (Z.of_N pw)) as Hin by (inversion Lw; subst; auto).
    pose proof (usize_word m (Z.of_N v * Z.of_N pw)) as L. bindcase L (@usize_result Empty_set m (Z.of_N v * Z.of_N pw));
      [|apply (s_pow _ _ _ _ (simple_view s) _ _ None Es); apply (p_product _ _ _ _ _ _ _ (Z.of_N pw) Lw (same_bits_refl _) Hin B)].
    rename B into B0. pose proof (usize_word m (Z.of_N a + Z.of_N (ss_reg2 s))) as L. bindcase L (@usize_result Empty_set m (Z.of_N a + Z.of_N (ss_reg2 s)));
      [apply (s_pow _ _ _ _ (simple_view s) _ _ (Some _) Es)|apply (s_pow _ _ _ _ (simple_view s) _ _ None Es)];
      eapply (p_sum _ _ _ _ _ _ _ (Z.of_N pw) _ _ Lw (same_bits_refl _) Hin B0 B).
Qed.

Lemma stack_follows m h n i s : grown h -> (n < length h)%nat ->
  follows (- 2 ^ 63) stack_view m h n (stack_op i) s (stack_execute m (snd (do_adds h tree_new)) (id_of n) i s).
Proof.
  intros Hg Hn. destruct (first_child_ok h n Hg Hn) as (child & Hc & Hfc). exists child. split; [exact Hfc|].
  unfold stack_execute, stack_exec. set (t := snd (do_adds h tree_new)) in *. set (lo := - 2 ^ 63).
  assert (forall k, pops (stack_op i) ->
    (forall v st, ks_stack s = v :: st -> match k v (k_set_stack s st) with Ok s' => step m lo child (stack_op i) (stack_view s) (Some (stack_view s')) | Panic => step m lo child (stack_op i) (stack_view s) None | _ => False end) ->
    match (let* s' := k_pop s k in Ok (t, s')) with
    | Ok (t', s') => t' = t /\ step m lo child (stack_op i) (stack_view s) (Some (stack_view s'))
    | Panic => step m lo child (stack_op i) (stack_view s) None
    | _ => False end) as Hpop.
  { intros k Hp Hk. unfold k_pop. destruct (ks_stack s) as [|v st] eqn:E.
    - split; [reflexivity|]. apply (s_empty _ _ _ _ (stack_view s)); [exact Hp|]. unfold stack_view. rewrite E. reflexivity.
    - specialize (Hk v st eq_refl). destruct (k v _); simpl; auto. }
  destruct i; simpl stack_op in *.
  all: try (apply Hpop; [exact I|]; clear Hpop; intros v st E).
  - pose proof (isize_word m (ks_reg s + v)) as L. bindcase L (@isize_result Empty_set m (ks_reg s + v)).
    + apply (s_add _ _ _ (stack_view s) v st (Some _)); [exact E|]. simpl. rewrite Z.add_comm. exact B.
    + apply (s_add _ _ _ (stack_view s) v st None); [exact E|]. simpl. rewrite Z.add_comm. exact B.
  - clear Hpop. pose proof (isize_word m (ks_reg s + c)) as L. bindcase L (@isize_result Empty_set m (ks_reg s + c)).
    + split; [reflexivity|]. apply (s_add_const _ _ _ _ (stack_view s) (Some _)). exact B.
    + apply (s_add_const _ _ _ _ (stack_view s) None). exact B.
  - pose proof (isize_word m (v - ks_reg s)) as L. bindcase L (@isize_result Empty_set m (v - ks_reg s)).
    + apply (s_sub _ _ _ (stack_view s) v st (Some _)); [exact E|]. exact B.
    + apply (s_sub _ _ _ (stack_view s) v st None); [exact E|]. exact B.
  - split; [reflexivity|]. constructor.
  - apply (s_pop_reg _ _ _ (stack_view s)). exact E.
  - apply (s_pop_reg2 _ _ _ (stack_view s)). exact E.
  - apply (s_drop _ _ _ (stack_view s) v). exact E.
  - split; [reflexivity|]. apply (s_push _ _ _ _ (stack_view s)).
  - clear Hpop. rewrite Hc. simpl. destruct child as [txt|]; simpl; [|split; [reflexivity|]; apply (s_no_child _ _ _ (stack_view s)); reflexivity].
    destruct (str_parse_isize txt) as [z|] eqn:E; simpl; (split; [reflexivity|]).
    + apply (s_push_child _ _ _ (stack_view s) txt); [reflexivity|]. apply isize_text, E.
    + apply (s_no_number _ _ _ (stack_view s) txt); [reflexivity|]. intros z Hz. apply isize_text_conv in Hz. congruence.
  - split; [reflexivity|]. apply (s_push_reg _ _ _ (stack_view s)).
  - split; [reflexivity|]. apply (s_push_reg2 _ _ _ (stack_view s)).
  - split; [reflexivity|]. apply (s_print_reg _ _ _ (stack_view s)).
  - split; [reflexivity|]. apply (s_print_reg2 _ _ _ (stack_view s)).
  - split; [reflexivity|]. apply (s_print_error _ _ _ (stack_view s)).
  - assert (Z.of_N (isize_as_u32 (ks_reg s)) = (ks_reg s) mod 2 ^ 32) as He by (unfold isize_as_u32; apply Z2N.id, Z.mod_pos_bound; reflexivity).
    pose proof (pow_word m base (isize_as_u32 (ks_reg s))) as [Lw Lf]. rewrite He in Lw.
    assert (stack (stack_view s) = v :: st) as Es by exact E.
    destruct (usize_pow m base (isize_as_u32 (ks_reg s))) as [pw|[]| |]; simpl in Lf, Lw; try contradiction; simpl;
      [|apply (s_pow _ _ _ _ (stack_view s) _ _ None Es); apply p_power, Lw].
    destruct (wrap_word (Z.of_N pw)) as [Hin Hsb]. set (q := wrap_isize (Z.of_N pw)) in *.
    pose proof (isize_word m (v * q)) as L. bindcase L (@isize_result Empty_set m (v * q));
      [|apply (s_pow _ _ _ _ (stack_view s) _ _ None Es); apply (p_product _ _ _ _ _ _ _ q Lw Hsb Hin B)].
    rename B into B0. pose proof (isize_word m (a + ks_reg2 s)) as L. bindcase L (@isize_result Empty_set m (a + ks_reg2 s));
      [apply (s_pow _ _ _ _ (stack_view s) _ _ (Some _) Es)|apply (s_pow _ _ _ _ (stack_view s) _ _ None Es)];
      eapply (p_sum _ _ _ _ _ _ _ q _ _ Lw Hsb Hin B0 B).
Qed.
