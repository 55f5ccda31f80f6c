(** * Lemmas about src/parse_funcs.rs, for any process simulated by a text. *)
From stdpp Require Import pretty.
From Verif Require Import Base Peekables Errors ParseFuncs SpecText Streams_proofs.

Lemma in_range_iff lo hi c : in_range lo hi c = true <-> (lo <= c <= hi)%N.
Proof. unfold in_range. rewrite andb_true_iff, !N.leb_le. reflexivity. Qed.
Lemma is_ascii_digit_iff c : is_ascii_digit c = true <-> digit_char c.
Proof. apply in_range_iff. Qed.

Section funcs.
Context {U : Unicode} {S : Type} (T : TPeek S) (R : PP S -> nat -> str -> Prop).
Context (HR : psim T R).

Lemma peek_case p n w : R p n w ->
  exists p1, pp_peek T p = (head w, p1) /\ R p1 n w.
Proof.
  intros H. destruct (ps_peek_sim T R HR p n w H) as [Ho Hp].
  destruct (pp_peek T p) as [o p1]. simpl in *. subst. eauto.
Qed.
Lemma next_case p n c w : R p n (c :: w) ->
  exists p1, pp_next T p = (Some c, p1) /\ R p1 (n + 1) w.
Proof.
  intros H. destruct (ps_next_sim T R HR p n c w H) as [Ho Hp].
  destruct (pp_next T p) as [o p1]. simpl in *. subst. eauto.
Qed.
Lemma next_nil_case p n : R p n [] ->
  exists p1, pp_next T p = (None, p1) /\ R p1 n [].
Proof.
  intros H. destruct (ps_next_nil T R HR p n H) as [Ho Hp].
  destruct (pp_next T p) as [o p1]. simpl in *. subst. eauto.
Qed.

(** ** parse_whitespace *)
Lemma whitespace_loop_sim fuel : forall p n ws rest,
  R p n (ws ++ rest) -> Forall (fun c => is_whitespace c = true) ws ->
  not_starting (fun c => is_whitespace c = true) rest -> length ws < fuel ->
  exists p', whitespace_loop T fuel p = (Ok tt, p') /\ R p' (n + length ws) rest.
Proof.
  induction fuel as [|f IH]; intros p n ws rest HRp Hws Hrest Hf; [lia|].
  simpl. destruct (peek_case _ _ _ HRp) as (p1 & -> & H1).
  destruct ws as [|c ws].
  - simpl in *. rewrite Nat.add_0_r. destruct rest as [|c rest]; simpl; [eauto|].
    simpl in Hrest. destruct (is_whitespace c); [congruence|]. simpl. eauto.
  - simpl in *. inversion Hws as [|? ? Hc Hws']; subst. rewrite Hc. simpl.
    destruct (next_case _ _ _ _ H1) as (p2 & -> & H2).
    destruct (IH p2 (n + 1) ws rest H2 Hws' Hrest) as (p' & -> & H'); [lia|].
    exists p'. split; [reflexivity|]. replace (n + Datatypes.S (length ws)) with (n + 1 + length ws) by lia.
    assumption.
Qed.
Lemma parse_whitespace_sim p n ws rest :
  R p n (ws ++ rest) -> Forall (fun c => is_whitespace c = true) ws ->
  not_starting (fun c => is_whitespace c = true) rest ->
  exists p', parse_whitespace T p = (Ok tt, p') /\ R p' (n + length ws) rest.
Proof.
  intros H Hws Hr. unfold parse_whitespace. apply whitespace_loop_sim; auto.
  pose proof (ps_size_sim T R HR _ _ _ H) as Hs. rewrite app_length in Hs. lia.
Qed.

(** ** parse_digits *)
Lemma digits_loop_sim fuel : forall p n ds rest acc,
  R p n (ds ++ rest) -> Forall digit_char ds -> not_starting digit_char rest ->
  length ds < fuel ->
  exists p', digits_loop T fuel (head (ds ++ rest)) acc p = (Ok (acc ++ ds), p')
             /\ R p' (n + length ds) rest.
Proof.
  induction fuel as [|f IH]; intros p n ds rest acc HRp Hds Hrest Hf; [lia|].
  destruct ds as [|c ds]; simpl.
  - rewrite app_nil_r, Nat.add_0_r. destruct rest as [|c rest]; simpl; [eauto|].
    simpl in Hrest. destruct (is_ascii_digit c) eqn:Hc; [exfalso; apply Hrest, is_ascii_digit_iff, Hc|].
    simpl. eauto.
  - inversion Hds as [|? ? Hc Hds']; subst. apply is_ascii_digit_iff in Hc. rewrite Hc. simpl.
    simpl in HRp. destruct (next_case _ _ _ _ HRp) as (p1 & -> & H1).
    destruct (peek_case _ _ _ H1) as (p2 & -> & H2). simpl in Hf.
    destruct (IH p2 (n + 1) ds rest (acc ++ [c]) H2 Hds' Hrest) as (p' & -> & H'); [lia|].
    exists p'. rewrite <- app_assoc. split; [reflexivity|].
    replace (n + Datatypes.S (length ds)) with (n + 1 + length ds) by lia. assumption.
Qed.
Lemma parse_digits_sim p n ds rest :
  R p n (ds ++ rest) -> Forall digit_char ds -> not_starting digit_char rest ->
  exists p', parse_digits T p = (Ok ds, p') /\ R p' (n + length ds) rest.
Proof.
  intros H Hds Hr. unfold parse_digits. destruct (peek_case _ _ _ H) as (p1 & -> & H1).
  destruct (digits_loop_sim (Datatypes.S (pp_size T p)) p1 n ds rest [] H1 Hds Hr) as (p' & -> & H').
  { pose proof (ps_size_sim T R HR _ _ _ H) as Hs. rewrite app_length in Hs. lia. }
  eauto.
Qed.

(** ** parse_required_digits *)
Lemma parse_required_digits_sim p n ds rest : ds <> [] ->
  R p n (ds ++ rest) -> Forall digit_char ds -> not_starting digit_char rest ->
  exists p', parse_required_digits T p = (Ok ds, p') /\ R p' (n + length ds) rest.
Proof.
  intros Hne H Hds Hr. destruct ds as [|c ds]; [congruence|]. unfold parse_required_digits.
  destruct (peek_case _ _ _ H) as (p1 & -> & H1). simpl head.
  inversion Hds as [|? ? Hc Hds']; subst. pose proof Hc as Hc'. apply is_ascii_digit_iff in Hc'.
  rewrite Hc'. simpl negb. cbv iota.
  apply parse_digits_sim; auto.
Qed.
Lemma parse_required_digits_end p n : R p n [] ->
  exists p', parse_required_digits T p = (Err (EndOfCharsError n), p') /\ R p' n [].
Proof.
  intros H. unfold parse_required_digits.
  destruct (peek_case _ _ _ H) as (p1 & -> & H1). simpl.
  rewrite (ps_pos_sim T R HR _ _ _ H). eauto.
Qed.
Lemma parse_required_digits_other p n c w : R p n (c :: w) -> ~ digit_char c ->
  exists p', parse_required_digits T p
             = (Err (UnexpectedCharError c n (lit "digit expected")), p') /\ R p' n (c :: w).
Proof.
  intros H Hc. unfold parse_required_digits.
  destruct (peek_case _ _ _ H) as (p1 & -> & H1). simpl head. cbv iota.
  destruct (is_ascii_digit c) eqn:Hd; [exfalso; apply Hc, is_ascii_digit_iff, Hd|].
  simpl. rewrite (ps_pos_sim T R HR _ _ _ H1). eauto.
Qed.

(** ** str::parse *)
Lemma digits_value_spec ds : Forall digit_char ds -> forall acc,
  digits_value acc ds = Some (foldl (fun a c => a * 10 + (c - 48))%N acc ds).
Proof.
  induction 1 as [|c ds Hc Hds IH]; intros acc; [reflexivity|].
  cbn [digits_value foldl]. apply is_ascii_digit_iff in Hc. rewrite Hc. apply IH.
Qed.
Lemma parse_digits_str_spec ds : ds <> [] -> Forall digit_char ds ->
  parse_digits_str ds = Some (dec_value ds).
Proof. intros Hne Hds. destruct ds; [congruence|]. apply digits_value_spec; assumption. Qed.
Lemma digit_not_sign c : digit_char c -> N.eqb c 43 = false /\ N.eqb c 45 = false.
Proof. unfold digit_char. intros Hc. split; apply N.eqb_neq; lia. Qed.

Lemma str_parse_usize_spec ds : ds <> [] -> Forall digit_char ds ->
  str_parse_usize ds = if (dec_value ds <? 2 ^ 64)%N then Some (dec_value ds) else None.
Proof.
  intros Hne Hds. unfold str_parse_usize.
  assert (match ds with c :: d :: r => if N.eqb c 43 then d :: r else ds | _ => ds end = ds) as ->.
  { destruct ds as [|c [|d r]]; auto. inversion Hds as [|? ? Hc ?]; subst.
    rewrite (proj1 (digit_not_sign c Hc)). reflexivity. }
  rewrite parse_digits_str_spec by assumption. reflexivity.
Qed.

(** ** parse_usize *)
Lemma parse_usize_ok p n ds rest : ds <> [] ->
  R p n (ds ++ rest) -> Forall digit_char ds -> not_starting digit_char rest ->
  exists p', parse_usize T p
    = (if (dec_value ds <? 2 ^ 64)%N then Ok (dec_value ds) else Err Impossible, p')
    /\ R p' (n + length ds) rest.
Proof.
  intros Hne H Hds Hr. unfold parse_usize, sbind.
  destruct (parse_required_digits_sim p n ds rest Hne H Hds Hr) as (p' & -> & H').
  rewrite (str_parse_usize_spec ds Hne Hds).
  destruct (dec_value ds <? 2 ^ 64)%N; cbv [sret sfail]; eauto.
Qed.
Lemma parse_usize_end p n : R p n [] ->
  exists p', parse_usize T p = (Err (EndOfCharsError n), p') /\ R p' n [].
Proof.
  intros H. unfold parse_usize, sbind.
  destruct (parse_required_digits_end p n H) as (p' & -> & H'). eauto.
Qed.
Lemma parse_usize_other p n c w : R p n (c :: w) -> ~ digit_char c ->
  exists p', parse_usize T p = (Err (UnexpectedCharError c n (lit "digit expected")), p')
             /\ R p' n (c :: w).
Proof.
  intros H Hc. unfold parse_usize, sbind.
  destruct (parse_required_digits_other p n c w H Hc) as (p' & -> & H'). eauto.
Qed.

(** ** parse_isize *)
Lemma str_parse_isize_pos ds : ds <> [] -> Forall digit_char ds ->
  str_parse_isize ds = let z := Z.of_N (dec_value ds) in
    if (isize_min <=? z)%Z && (z <=? isize_max)%Z then Some z else None.
Proof.
  intros Hne Hds. unfold str_parse_isize.
  assert (match ds with
          | c :: d :: r => if N.eqb c 43 then (false, d :: r)
                           else if N.eqb c 45 then (true, d :: r) else (false, ds)
          | _ => (false, ds) end = (false, ds)) as ->.
  { destruct ds as [|c [|d r]]; auto. inversion Hds as [|? ? Hc ?]; subst.
    destruct (digit_not_sign c Hc) as [-> ->]. reflexivity. }
  rewrite parse_digits_str_spec by assumption. reflexivity.
Qed.
Lemma str_parse_isize_neg ds : ds <> [] -> Forall digit_char ds ->
  str_parse_isize (45%N :: ds) = let z := (- Z.of_N (dec_value ds))%Z in
    if (isize_min <=? z)%Z && (z <=? isize_max)%Z then Some z else None.
Proof.
  intros Hne Hds. unfold str_parse_isize. destruct ds as [|d ds]; [congruence|].
  change (N.eqb 45 43) with false. change (N.eqb 45 45) with true. cbv iota.
  rewrite parse_digits_str_spec by assumption. reflexivity.
Qed.

Definition isize_answer (z : Z) : outcome ParserError Z :=
  if (isize_min <=? z)%Z && (z <=? isize_max)%Z then Ok z else Err Impossible.

Lemma parse_isize_pos p n ds rest : ds <> [] ->
  R p n (ds ++ rest) -> Forall digit_char ds -> not_starting digit_char rest ->
  exists p', parse_isize T p = (isize_answer (Z.of_N (dec_value ds)), p')
    /\ R p' (n + length ds) rest.
Proof.
  intros Hne H Hds Hr. unfold parse_isize.
  destruct (peek_case _ _ _ H) as (p1 & -> & H1).
  destruct ds as [|c ds]; [congruence|]. simpl head. cbv iota.
  inversion Hds as [|? ? Hc Hds']; subst.
  rewrite (proj2 (digit_not_sign c Hc)).
  pose proof Hc as Hc'. apply is_ascii_digit_iff in Hc'. rewrite Hc'. simpl negb. cbv iota.
  unfold sbind. destruct (parse_required_digits_sim p1 n (c :: ds) rest Hne H1 Hds Hr) as (p' & -> & H').
  rewrite (app_nil_l (c :: ds)), (str_parse_isize_pos (c :: ds) Hne Hds). unfold isize_answer. cbv zeta.
  destruct (_ && _); cbv [sret sfail]; eauto.
Qed.
Lemma parse_isize_neg p n ds rest : ds <> [] ->
  R p n (45%N :: ds ++ rest) -> Forall digit_char ds -> not_starting digit_char rest ->
  exists p', parse_isize T p = (isize_answer (- Z.of_N (dec_value ds)), p')
    /\ R p' (n + 1 + length ds) rest.
Proof.
  intros Hne H Hds Hr. unfold parse_isize.
  destruct (peek_case _ _ _ H) as (p1 & -> & H1). simpl head. cbv iota.
  change (N.eqb 45 45) with true. cbv iota.
  destruct (next_case _ _ _ _ H1) as (p2 & -> & H2).
  unfold sbind. destruct (parse_required_digits_sim p2 (n + 1) ds rest Hne H2 Hds Hr) as (p' & -> & H').
  change ([45%N] ++ ds) with (45%N :: ds). rewrite (str_parse_isize_neg ds Hne Hds). unfold isize_answer. cbv zeta.
  destruct (_ && _); cbv [sret sfail]; eauto.
Qed.
Lemma parse_isize_end p n : R p n [] ->
  exists p', parse_isize T p = (Err (EndOfCharsError n), p') /\ R p' n [].
Proof.
  intros H. unfold parse_isize. destruct (peek_case _ _ _ H) as (p1 & -> & H1). simpl.
  rewrite (ps_pos_sim T R HR _ _ _ H). eauto.
Qed.
Lemma parse_isize_other p n c w : R p n (c :: w) -> ~ digit_char c -> c <> 45%N ->
  exists p', parse_isize T p = (Err (UnexpectedCharError c n (lit "digit or - expected")), p')
             /\ R p' n (c :: w).
Proof.
  intros H Hc Hm. unfold parse_isize. destruct (peek_case _ _ _ H) as (p1 & -> & H1).
  simpl head. cbv iota. replace (N.eqb c 45) with false by (symmetry; apply N.eqb_neq; assumption).
  destruct (is_ascii_digit c) eqn:Hd; [exfalso; apply Hc, is_ascii_digit_iff, Hd|].
  simpl. rewrite (ps_pos_sim T R HR _ _ _ H1). eauto.
Qed.
Lemma parse_isize_lone_minus_end p n : R p n [45%N] ->
  exists p', parse_isize T p = (Err (EndOfCharsError (n + 1)), p') /\ R p' (n + 1) [].
Proof.
  intros H. unfold parse_isize. destruct (peek_case _ _ _ H) as (p1 & -> & H1).
  simpl head. cbv iota. change (N.eqb 45 45) with true. cbv iota.
  destruct (next_case _ _ _ _ H1) as (p2 & -> & H2). unfold sbind.
  destruct (parse_required_digits_end p2 (n + 1) H2) as (p' & -> & H'). eauto.
Qed.
Lemma parse_isize_lone_minus p n c w : R p n (45%N :: c :: w) -> ~ digit_char c ->
  exists p', parse_isize T p = (Err (UnexpectedCharError c (n + 1) (lit "digit expected")), p')
             /\ R p' (n + 1) (c :: w).
Proof.
  intros H Hc. unfold parse_isize. destruct (peek_case _ _ _ H) as (p1 & -> & H1).
  simpl head. cbv iota. change (N.eqb 45 45) with true. cbv iota.
  destruct (next_case _ _ _ _ H1) as (p2 & -> & H2). unfold sbind.
  destruct (parse_required_digits_other p2 (n + 1) c w H2 Hc) as (p' & -> & H'). eauto.
Qed.

(** ** parse_symbol *)
Lemma parse_symbol_ok p n c w : R p n (c :: w) ->
  exists p', parse_symbol T c p = (Ok tt, p') /\ R p' (n + 1) w.
Proof.
  intros H. unfold parse_symbol. destruct (peek_case _ _ _ H) as (p1 & -> & H1). simpl.
  rewrite N.eqb_refl. destruct (next_case _ _ _ _ H1) as (p2 & -> & H2). eauto.
Qed.
Lemma parse_symbol_other p n c d w : R p n (d :: w) -> d <> c ->
  exists p', parse_symbol T c p = (Err (UnexpectedCharError d n [c]), p') /\ R p' n (d :: w).
Proof.
  intros H Hd. unfold parse_symbol. destruct (peek_case _ _ _ H) as (p1 & -> & H1). simpl.
  replace (N.eqb d c) with false by (symmetry; apply N.eqb_neq; assumption).
  rewrite (ps_pos_sim T R HR _ _ _ H1). eauto.
Qed.
Lemma parse_symbol_end p n c : R p n [] ->
  exists p', parse_symbol T c p = (Err (EndOfCharsError n), p') /\ R p' n [].
Proof.
  intros H. unfold parse_symbol. destruct (peek_case _ _ _ H) as (p1 & -> & H1). simpl.
  rewrite (ps_pos_sim T R HR _ _ _ H1). eauto.
Qed.

(** ** parse_var_name *)
Definition name_char (c : char) : Prop := is_alphanumeric c = true \/ c = 95%N.
Lemma name_char_bool c : is_alphanumeric c || N.eqb c 95 = true <-> name_char c.
Proof. unfold name_char. rewrite orb_true_iff, N.eqb_eq. reflexivity. Qed.

Lemma var_name_loop_sim fuel : forall p n cs rest acc,
  R p n (cs ++ rest) -> Forall name_char cs -> not_starting name_char rest ->
  length cs < fuel ->
  exists p', var_name_loop T fuel (head (cs ++ rest)) acc p = (Ok (acc ++ cs), p')
             /\ R p' (n + length cs) rest.
Proof.
  induction fuel as [|f IH]; intros p n cs rest acc HRp Hcs Hrest Hf; [lia|].
  destruct cs as [|c cs]; simpl.
  - rewrite app_nil_r, Nat.add_0_r. destruct rest as [|c rest]; simpl; [eauto|].
    simpl in Hrest. destruct (is_alphanumeric c || N.eqb c 95) eqn:Hc;
      [exfalso; apply Hrest, name_char_bool, Hc|]. simpl. eauto.
  - inversion Hcs as [|? ? Hc Hcs']; subst. apply name_char_bool in Hc. rewrite Hc. simpl.
    simpl in HRp. destruct (next_case _ _ _ _ HRp) as (p1 & -> & H1).
    destruct (peek_case _ _ _ H1) as (p2 & -> & H2). simpl in Hf.
    destruct (IH p2 (n + 1) cs rest (acc ++ [c]) H2 Hcs' Hrest) as (p' & -> & H'); [lia|].
    exists p'. rewrite <- app_assoc. split; [reflexivity|].
    replace (n + Datatypes.S (length cs)) with (n + 1 + length cs) by lia. assumption.
Qed.
Lemma parse_var_name_ok p n c cs rest :
  R p n (c :: cs ++ rest) -> is_alphabetic c = true -> Forall name_char cs ->
  not_starting name_char rest ->
  exists p', parse_var_name T p = (Ok (c :: cs), p') /\ R p' (n + 1 + length cs) rest.
Proof.
  intros H Hc Hcs Hr. unfold parse_var_name.
  destruct (peek_case _ _ _ H) as (p1 & -> & H1). simpl head. cbv iota. rewrite Hc. simpl negb. cbv iota.
  destruct (next_case _ _ _ _ H1) as (p2 & -> & H2).
  destruct (peek_case _ _ _ H2) as (p3 & -> & H3).
  destruct (var_name_loop_sim (Datatypes.S (pp_size T p)) p3 (n + 1) cs rest [c] H3 Hcs Hr)
    as (p' & -> & H').
  { pose proof (ps_size_sim T R HR _ _ _ H) as Hs. simpl in Hs. rewrite app_length in Hs. lia. }
  eauto.
Qed.
Lemma parse_var_name_end p n : R p n [] ->
  exists p', parse_var_name T p = (Err (EndOfCharsError n), p') /\ R p' n [].
Proof.
  intros H. unfold parse_var_name. destruct (peek_case _ _ _ H) as (p1 & -> & H1). simpl.
  rewrite (ps_pos_sim T R HR _ _ _ H). eauto.
Qed.
Lemma parse_var_name_other p n c w : R p n (c :: w) -> is_alphabetic c = false ->
  exists p', parse_var_name T p
             = (Err (UnexpectedCharError c n (lit "alphabetic character")), p') /\ R p' n (c :: w).
Proof.
  intros H Hc. unfold parse_var_name. destruct (peek_case _ _ _ H) as (p1 & -> & H1).
  simpl head. cbv iota. rewrite Hc. simpl. rewrite (ps_pos_sim T R HR _ _ _ H1). eauto.
Qed.
End funcs.

(** ** Splitting a text at the end of a maximal run *)
Lemma span_exists (P : char -> Prop) `{forall c, Decision (P c)} w :
  exists a b, w = a ++ b /\ Forall P a /\ not_starting P b.
Proof.
  induction w as [|c w (a & b & -> & Ha & Hb)].
  - exists [], []. repeat split; auto.
  - destruct (decide (P c)).
    + exists (c :: a), b. repeat split; auto.
    + exists [], (c :: a ++ b). repeat split; auto.
Qed.

(** ** The decimal rendering *)
Lemma lit_cons a s : lit (String a s) = Ascii.N_of_ascii a :: lit s.
Proof. reflexivity. Qed.
Lemma pretty_char_value m : (m < 10)%N -> Ascii.N_of_ascii (pretty_N_char m) = (48 + m)%N.
Proof.
  intros Hm.
  assert (m = 0 \/ m = 1 \/ m = 2 \/ m = 3 \/ m = 4 \/ m = 5 \/ m = 6 \/ m = 7 \/ m = 8 \/ m = 9)%N
    as Hcases by lia.
  repeat (destruct Hcases as [->|Hcases]; [reflexivity|]). subst; reflexivity.
Qed.
Lemma decimal_go n : forall s, exists ds, Forall digit_char ds /\
  lit (pretty_N_go n s) = ds ++ lit s /\ dec_value ds = n /\ (n <> 0%N -> ds <> []).
Proof.
  induction (N.lt_wf_0 n) as [n _ IH]; intros s.
  destruct (decide (n = 0%N)) as [->|Hn].
  - rewrite pretty_N_go_0. exists []. repeat split; auto; congruence.
  - rewrite pretty_N_go_step by lia.
    destruct (IH (n / 10)%N) with (s := String (pretty_N_char (n mod 10)) s) as (ds & Hds & Heq & Hv & _).
    { apply N.div_lt; lia. }
    assert (Hm : (n mod 10 < 10)%N) by (apply N.mod_lt; lia).
    assert (Ascii.N_of_ascii (pretty_N_char (n mod 10)) = 48 + n mod 10)%N as Hchar.
    { apply pretty_char_value; assumption. }
    exists (ds ++ [(48 + n mod 10)%N]). split; [|split; [|split]].
    + apply Forall_app. split; [assumption|]. constructor; [|constructor]. unfold digit_char.
      clear -Hm. remember (n mod 10)%N as m. clear Heqm. lia.
    + rewrite Heq, lit_cons, Hchar.
      rewrite <- app_assoc. reflexivity.
    + unfold dec_value in *. rewrite foldl_app. simpl. rewrite Hv.
      rewrite N.mul_comm, N.add_comm, N.add_sub, N.add_comm || idtac.
      pose proof (N.div_mod n 10 ltac:(lia)) as Hdm.
      remember (n mod 10)%N as m. remember (n / 10)%N as q. lia.
    + intros _ Hx. destruct ds; discriminate.
Qed.
Lemma decimal_spec n : Forall digit_char (decimal n) /\ decimal n <> [] /\ dec_value (decimal n) = n.
Proof.
  unfold decimal. unfold pretty, pretty_N.
  destruct (decide (n = 0%N)) as [->|Hn].
  - split; [|split; [discriminate|reflexivity]]. repeat constructor; unfold digit_char; vm_compute; congruence.
  - destruct (decimal_go n "") as (ds & Hds & Heq & Hv & Hne).
    change (lit "") with (@nil N) in Heq. rewrite app_nil_r in Heq. rewrite Heq. auto.
Qed.
Lemma dec_value_zeros k ds : dec_value (replicate k 48%N ++ ds) = dec_value ds.
Proof.
  induction k as [|k IH]; [reflexivity|]. unfold dec_value in *. simpl. exact IH.
Qed.
