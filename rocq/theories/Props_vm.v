(** * C51: the stack machines *)
From Verif Require Import Base Peekables Tree Errors ParserData Vm SimpleStackVm StackVm ScriptParser
  SpecText SpecTree SpecScript SpecContract SpecVm Tree_proofs Parse_proofs Vm_proofs Props_script.

(** ** Every instruction on every node of every grown tree in every state does what the
    machine of SpecVm.v does, whose [step] determines the result.  In particular nothing
    but an overflow panics, an empty stack sets the error register to 1, a missing child
    sets it to 1 and an unreadable child to 2, with everything else unchanged. *)
Theorem C51_simple_machine : forall m h n i s, grown h -> n < length h ->
  follows 0 simple_view m h n (simple_op i) s (vm_execute (SimpleStackVm m) (snd (do_adds h tree_new)) (id_of n) i s).
Proof. exact simple_follows. Qed.
Print Assumptions C51_simple_machine.
Theorem C51_stack_machine : forall (U : Unicode) m h n i s, grown h -> n < length h ->
  follows (- 2 ^ 63) stack_view m h n (stack_op i) s (vm_execute (StackVm m) (snd (do_adds h tree_new)) (id_of n) i s).
Proof. intros U. exact stack_follows. Qed.
Print Assumptions C51_stack_machine.
Theorem C51_step_is_deterministic : forall m lo child o s r r', step m lo child o s r -> step m lo child o s r' -> r = r'.
Proof. exact step_det. Qed.
Print Assumptions C51_step_is_deterministic.

(** ** A pop on the empty stack only sets the error register. *)
Theorem C51_empty_stack : forall m lo child o s r, pops o -> stack s = [] -> step m lo child o s r ->
  r = Some (mkMach [] (reg s) (reg2 s) 1 (printed s)).
Proof.
  intros m lo child o s r Hp He Hs. pose proof (s_empty m lo child o s Hp He) as Hx. unfold failing in Hx. rewrite He in Hx. eapply step_det; eauto.
Qed.
Print Assumptions C51_empty_stack.

(** create_new_state: an empty stack, registers and error register 0, nothing printed. *)
Theorem C51_fresh_states : forall (U : Unicode) m,
  simple_view (vm_new_state (SimpleStackVm m)) = mkMach [] 0 0 0 [] /\
  stack_view (vm_new_state (StackVm m)) = mkMach [] 0 0 0 [] /\
  vm_new_state (CountingVm m) = 0%N /\ vm_new_state NullVm = 0%N.
Proof. repeat split. Qed.
Print Assumptions C51_fresh_states.

(** ** Panics: only by overflow, only in a debug build *)
Lemma word_none m lo z : word m lo z None <-> m = Checked /\ ~ in_word lo z.
Proof. split; [inversion 1; auto|]. intros [-> ?]. constructor; auto. Qed.
Lemma word_some lo z w : word Checked lo z (Some w) <-> w = z /\ in_word lo z.
Proof. split; [inversion 1; subst; auto; congruence|]. intros [-> ?]. constructor; auto. Qed.
Lemma word_exists m lo z : exists r, word m lo z r.
Proof.
  destruct (in_word_dec lo z); [exists (Some z); constructor; auto|]. destruct m; [exists None; constructor; auto|].
  exists (Some ((z - lo) mod 2 ^ 64 + lo)%Z). pose proof (Z.mod_pos_bound (z - lo) (2 ^ 64) eq_refl). constructor; auto; [unfold in_word; lia|].
  destruct (same_bits_mod (z - lo)) as [k Hk]. exists k. lia.
Qed.
Lemma step_panics m lo child o s : step m lo child o s None <-> m = Checked /\ overflows lo o s.
Proof.
  split.
  - intros H. inversion H; subst; match goal with A : option_map _ ?r = None |- _ => destruct r; [discriminate|] end; unfold overflows;
      repeat match goal with A : stack s = _ |- _ => rewrite A end; try (match goal with A : word _ _ _ None |- _ => apply word_none in A; exact A end).
    match goal with A : power _ _ _ _ _ _ None |- _ => inversion A as [B|p q B C D E|p q x y B C D E F]; subst end.
    + apply word_none in B as [-> B]. auto.
    + apply word_none in E as [-> E]. apply word_some in B as [-> B]. eauto 10.
    + apply word_none in F as [-> F]. apply word_some in B as [-> B]. apply word_some in E as [-> E]. eauto 10.
  - intros [-> Ho]. unfold overflows in Ho. destruct o; try (destruct (stack s); contradiction).
    + destruct (stack s) as [|v st] eqn:E; [contradiction|]. apply (s_add Checked lo child s v st None E), word_none; auto.
    + apply (s_add_const Checked lo child c s None), word_none. auto.
    + destruct (stack s) as [|v st] eqn:E; [contradiction|]. apply (s_sub Checked lo child s v st None E), word_none; auto.
    + destruct (stack s) as [|v st] eqn:E; [contradiction|]. apply (s_pow Checked lo child b s v st None E).
      destruct (in_word_dec 0 (b ^ (reg s mod 2 ^ 32))) as [Hp|Hp]; [|apply p_power, word_none; auto].
      destruct Ho as [Ho|(q & Hq & Hw & Ho)]; [contradiction|].
      destruct (in_word_dec lo (v * q)) as [Hx|Hx]; [|eapply (p_product _ _ _ _ _ _ _ q); eauto; [constructor; auto|apply word_none; auto]].
      destruct Ho as [Ho|Ho]; [contradiction|]. eapply (p_sum _ _ _ _ _ _ _ q (v * q)%Z); eauto; [constructor; auto|constructor; auto|apply word_none; auto].
Qed.
Theorem C51_simple_panics_iff_overflow : forall m h n i s, grown h -> n < length h ->
  (vm_execute (SimpleStackVm m) (snd (do_adds h tree_new)) (id_of n) i s = Panic <-> m = Checked /\ overflows 0 (simple_op i) (simple_view s)) /\
  vm_execute (SimpleStackVm m) (snd (do_adds h tree_new)) (id_of n) i s <> Diverge.
Proof.
  intros m h n i s Hg Hn. destruct (C51_simple_machine m h n i s Hg Hn) as (child & _ & Hf).
  destruct (vm_execute _ _ _ _ _) as [[t s']|[]| |]; [|split; [split; auto|discriminate]; intros _; eapply step_panics, Hf|contradiction].
  split; [|discriminate]. split; [discriminate|]. intros Ho. apply (step_panics m 0 child) in Ho. destruct Hf as [_ Hf]. pose proof (step_det _ _ _ _ _ _ _ Ho Hf). discriminate.
Qed.
Print Assumptions C51_simple_panics_iff_overflow.
Theorem C51_stack_panics_iff_overflow : forall (U : Unicode) m h n i s, grown h -> n < length h ->
  (vm_execute (StackVm m) (snd (do_adds h tree_new)) (id_of n) i s = Panic <-> m = Checked /\ overflows (- 2 ^ 63) (stack_op i) (stack_view s)) /\
  vm_execute (StackVm m) (snd (do_adds h tree_new)) (id_of n) i s <> Diverge.
Proof.
  intros U m h n i s Hg Hn. destruct (C51_stack_machine U m h n i s Hg Hn) as (child & _ & Hf).
  destruct (vm_execute _ _ _ _ _) as [[t s']|[]| |]; [|split; [split; auto|discriminate]; intros _; eapply step_panics, Hf|contradiction].
  split; [|discriminate]. split; [discriminate|]. intros Ho. apply (step_panics m (- 2 ^ 63) child) in Ho. destruct Hf as [_ Hf]. pose proof (step_det _ _ _ _ _ _ _ Ho Hf). discriminate.
Qed.
Print Assumptions C51_stack_panics_iff_overflow.

(** ** A release build never panics: not the machines, not a whole parse with them. *)
Lemma simple_returns m : always_returns (SimpleStackVm m).
Proof. intros h n i s Hg Hn. apply C51_simple_panics_iff_overflow; assumption. Qed.
Lemma stack_returns {U : Unicode} m : always_returns (StackVm m).
Proof. intros h n i s Hg Hn. apply C51_stack_panics_iff_overflow; assumption. Qed.
Theorem C51_release_parse_never_panics : forall (U : Unicode) (H : HashOrder) m fl start fuel text,
  (forall pd ps v, built m (SimpleStackVm Wrapping) fl pd start ps -> start_element pd start ->
     fst (parse (SimpleStackVm Wrapping) ps fuel text v) <> Panic) /\
  (forall pd ps v, built m (StackVm Wrapping) fl pd start ps -> start_element pd start ->
     fst (parse (StackVm Wrapping) ps fuel text v) <> Panic).
Proof.
  intros U H m fl start fuel text. split; intros pd ps v Hb Hst Hp.
  - pose proof (C29_parse_fails_only_on_text H m _ fl pd start ps fuel text v Hb Hst (simple_keeps_tree _)) as Hx. rewrite Hp in Hx.
    apply Hx. intros h n i s Hg Hn He. apply C51_simple_panics_iff_overflow in He; try assumption. destruct He. discriminate.
  - pose proof (C29_parse_fails_only_on_text H m _ fl pd start ps fuel text v Hb Hst (stack_keeps_tree _)) as Hx. rewrite Hp in Hx.
    apply Hx. intros h n i s Hg Hn He. apply (C51_stack_panics_iff_overflow U) in He; try assumption. destruct He. discriminate.
Qed.
Print Assumptions C51_release_parse_never_panics.

(** A concrete run: on a node whose first child is "7", PushFromTree pushes 7; on an empty
    stack Sub only reports; subtracting 1 from 0 panics or wraps. *)
Definition seven : history str := [(None, []); (Some 0, lit "7")].
Lemma seven_grown : grown seven.
Proof. intros [|[|i]] p d E; simpl in E; try discriminate; injection E as <- <-; lia. Qed.
Example C51_example : forall m,
  vm_execute (SimpleStackVm m) (snd (do_adds seven tree_new)) (id_of 0) SPushFromTree (mkSState [] 0 0 0 []) =
    Ok (snd (do_adds seven tree_new), mkSState [7%N] 0 0 0 []) /\
  vm_execute (SimpleStackVm m) (snd (do_adds seven tree_new)) (id_of 1) SPushFromTree (mkSState [] 0 0 0 []) =
    Ok (snd (do_adds seven tree_new), mkSState [] 0 0 1 []) /\
  vm_execute (SimpleStackVm m) (snd (do_adds seven tree_new)) (id_of 0) SSub (mkSState [] 5 6 0 []) =
    Ok (snd (do_adds seven tree_new), mkSState [] 5 6 1 []) /\
  vm_execute (SimpleStackVm Checked) (snd (do_adds seven tree_new)) (id_of 0) SSub (mkSState [0%N] 1 6 0 []) = Panic /\
  vm_execute (SimpleStackVm Wrapping) (snd (do_adds seven tree_new)) (id_of 0) SSub (mkSState [0%N] 1 6 0 []) =
    Ok (snd (do_adds seven tree_new), mkSState [(2 ^ 64 - 1)%N] 1 6 0 []).
Proof. intros m. repeat split; vm_compute; reflexivity. Qed.
