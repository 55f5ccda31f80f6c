(** * Reading instruction sections: the contract of SpecContract.v, proved for the four VMs
    of the crate. *)
From Verif Require Import Base Peekables Tree Errors ParseFuncs ParserData Vm SimpleStackVm StackVm
  RuleParsing SpecText SpecRules SpecContract Streams_proofs ParseFuncs_proofs Terminal_proofs.

(** ** Draining *)
Notation nst w n flag := (mkPP (outer w n) n (Some 125%N) (Some 92%N) flag).
Lemma drain_spec body : forall fuel n flag rest, length body < fuel -> esc_ok 125 92 flag body ->
  (rest = [] \/ head rest = Some 125%N /\ end_flag 92 flag body = false) ->
  drain (pp_tp base_tp) fuel (nst (body ++ rest) n flag)
  = (Ok tt, nst rest (n + length body) (end_flag 92 flag body)).
Proof.
  induction body as [|c body IH]; intros fuel n flag rest Hf Hok Hr; (destruct fuel as [|f]; [simpl in Hf; lia|]).
  - cbn [app length drain]. rewrite Nat.add_0_r.
    pose proof (nested_stopped 125 92 flag rest n 1 ltac:(discriminate) Hr) as Hs. cbn [next_times] in Hs.
    destruct (pp_next (pp_tp base_tp) (nst rest n flag)) as [o p1]. cbn in Hs. injection Hs as -> ->. reflexivity.
  - destruct Hok as [Hc Hok].
    assert (end_flag 92 flag (c :: body) = end_flag 92 (N.eqb c 92) body) as He.
    { unfold end_flag. destruct body as [|d body]; [reflexivity|]. rewrite last_cons_cons.
      destruct (last (d :: body)) eqn:Hl; [reflexivity|]. apply last_None in Hl; discriminate. }
    rewrite He in *. cbn [drain app]. rewrite nested_next_step by (auto; discriminate).
    rewrite IH; [|simpl in Hf; lia|assumption|assumption]. cbn [length].
    replace (n + S (length body)) with (n + 1 + length body) by lia. reflexivity.
Qed.
Lemma drain_all_spec body rest n : stops_between 125 92 body rest ->
  exists flag, drain_all (pp_tp base_tp) (brace_process (body ++ rest) n) = (Ok tt, nst rest (n + length body) flag).
Proof.
  intros Hst. destruct (stops_between_ok _ _ _ _ Hst) as [Hok Hr]. eexists. unfold drain_all, brace_process, pp_new_nested.
  apply drain_spec; auto. unfold pp_size. cbn. unfold pp_size. cbn. rewrite app_length. lia.
Qed.
Lemma stops_between_brace body rest : stops_between 125 92 body (125%N :: rest) <-> brace_free body.
Proof.
  unfold brace_free, stops_between. simpl. split; intros [H1 [H2|H2]]; (split; [assumption|]); try discriminate; auto.
Qed.

Lemma null_vm_reads {U : Unicode} : vm_reads NullVm null_reads.
Proof.
  split.
  - intros name w n. destruct (stops_split_exists 125 92 w) as (body & rest & -> & Hst).
    destruct (drain_all_spec body rest n Hst) as [flag Hd]. cbn [vm_parse_instructions NullVm]. unfold null_parse. rewrite Hd. cbn.
    eexists _, _, body, rest. split; [reflexivity|]. cbn. split; [reflexivity|]. split; [reflexivity|].
    intros rest' ->. split; [|reflexivity]. apply (stops_between_brace body rest'). assumption.
  - intros _ name body is n rest [Hb ->]. apply (stops_between_brace body rest) in Hb.
    destruct (drain_all_spec _ _ n Hb) as [flag Hd]. cbn [vm_parse_instructions NullVm]. unfold null_parse. rewrite Hd. cbn. eauto.
Qed.
Lemma counting_vm_reads {U : Unicode} m : vm_reads (CountingVm m) counting_reads.
Proof.
  split.
  - intros name w n. cbn. unfold counting_parse. eexists _, _, [], w. split; [reflexivity|]. cbn.
    rewrite Nat.add_0_r. split; [reflexivity|]. split; [reflexivity|]. intros _ _. split; reflexivity.
  - intros _ name body is n rest [-> ->]. cbn. unfold counting_parse. rewrite Nat.add_0_r. eauto.
Qed.
Lemma simple_vm_reads {U : Unicode} m : vm_reads (SimpleStackVm m) simple_reads.
Proof.
  split.
  - intros name w n. destruct (stops_split_exists 125 92 w) as (body & rest & -> & Hst).
    destruct (drain_all_spec body rest n Hst) as [flag Hd]. cbn [vm_parse_instructions SimpleStackVm]. unfold simple_parse. rewrite Hd. cbn [obind].
    eexists _, _, body, rest. split; [reflexivity|]. cbn. split; [reflexivity|]. split; [reflexivity|].
    intros rest' ->. split; [|reflexivity]. apply (stops_between_brace body rest'). assumption.
  - intros _ name body is n rest [Hb ->]. apply (stops_between_brace body rest) in Hb.
    destruct (drain_all_spec _ _ n Hb) as [flag Hd]. cbn [vm_parse_instructions SimpleStackVm]. unfold simple_parse. rewrite Hd. cbn [obind]. eauto.
Qed.

(** ** StackVm: the reading functions on the text between braces.  [nv p n w]: the
    nested process at position [n] in front of [w]; none of the functions used ever
    consumes a backslash. *)
Definition nv (p : PP (PP str)) (n : nat) (w : str) : Prop :=
  exists flag, p = nst w n flag /\ (flag = true -> head w = Some 92%N).
Definition seen (w : str) : option char :=
  match w with [] => None | c :: _ => if N.eqb c 125 then None else Some c end.
Lemma nv_peek p n w : nv p n w -> exists p', pp_peek (pp_tp base_tp) p = (seen w, p') /\ nv p' n w.
Proof.
  intros (flag & -> & Hf). destruct w as [|c w].
  - exists (nst [] n flag). split; [reflexivity|]. exists flag. auto.
  - unfold pp_peek, check_allowed. cbn. destruct (N.eqb_spec c 92) as [->|H92]; cbn.
    + eexists. split; [reflexivity|]. exists true. auto.
    + destruct flag; [exfalso; specialize (Hf eq_refl); simpl in Hf; congruence|].
      destruct (N.eqb_spec c 125) as [->|H125]; cbn; (eexists; split; [reflexivity|]; exists false; split; [reflexivity|discriminate]).
Qed.
Lemma nv_next p n c w : nv p n (c :: w) -> c <> 125%N -> c <> 92%N ->
  exists p', pp_next (pp_tp base_tp) p = (Some c, p') /\ nv p' (n + 1) w.
Proof.
  intros (flag & -> & Hf) H1 H2. rewrite nested_next_step by (auto; try discriminate; congruence).
  eexists. split; [reflexivity|]. exists (N.eqb c 92). split; [reflexivity|]. intros E. apply N.eqb_eq in E. congruence.
Qed.
Lemma nv_pos p n w : nv p n w -> cur_pos p = n.
Proof. intros (flag & -> & _). reflexivity. Qed.
Lemma nv_size p n w : nv p n w -> pp_size (pp_tp base_tp) p = length w.
Proof. intros (flag & -> & _). reflexivity. Qed.

Section stack.
Context {U : Unicode}.
Notation T := (pp_tp base_tp).
Lemma special_chars c : c = 125%N \/ c = 92%N -> is_whitespace c = false /\ is_alphanumeric c = false /\ is_alphabetic c = false /\ is_ascii_digit c = false.
Proof. intros [->| ->]; repeat split; reflexivity. Qed.
Lemma white_ok c : is_whitespace c = true -> c <> 125%N /\ c <> 92%N.
Proof. intros H. split; intros ->; discriminate. Qed.
Lemma namechar_ok c : namechar c -> c <> 125%N /\ c <> 92%N.
Proof. intros [H|H]; split; intros ->; discriminate. Qed.
Lemma digit_ok c : digit_char c -> c <> 125%N /\ c <> 92%N.
Proof. unfold digit_char. lia. Qed.
Lemma digit_not_white c : digit_char c -> ~ white c.
Proof.
  unfold digit_char, white, is_whitespace. intros Hc. rewrite !orb_true_iff, andb_true_iff, N.eqb_eq, in_range_iff, N.ltb_lt. lia.
Qed.
Lemma alphabetic_namechar c : is_alphabetic c = true -> namechar c.
Proof. intros H. left. unfold is_alphanumeric. rewrite H. reflexivity. Qed.

Lemma nv_whitespace p n ws rest : nv p n (ws ++ rest) -> blank ws -> not_starting white rest ->
  exists p', parse_whitespace T p = (Ok tt, p') /\ nv p' (n + length ws) rest.
Proof.
  intros H. unfold parse_whitespace. assert (length ws < S (pp_size T p)) as Hf by (rewrite (nv_size _ _ _ H), app_length; lia).
  revert Hf H. generalize (S (pp_size T p)) as fuel. intros fuel. revert p n ws.
  induction fuel as [|f IH]; intros p n ws Hf HRp Hws Hrest; [lia|].
  cbn [whitespace_loop]. destruct (nv_peek _ _ _ HRp) as (p1 & -> & H1). destruct ws as [|c ws].
  - cbn [app length] in *. rewrite Nat.add_0_r. destruct rest as [|c rest]; cbn [seen]; [eauto|].
    destruct (N.eqb c 125); [eauto|]. simpl in Hrest. unfold white in Hrest. destruct (is_whitespace c); [congruence|]. simpl. eauto.
  - cbn [app length] in *. inversion Hws as [|? ? Hc Hws']; subst. pose proof (white_ok c Hc) as [E1 E2]. cbn [seen].
    rewrite (proj2 (N.eqb_neq c 125) E1). unfold white in Hc. rewrite Hc. cbn [negb].
    destruct (nv_next _ _ _ _ H1 E1 E2) as (p2 & -> & H2).
    destruct (IH p2 (n + 1) ws) as (p' & -> & H'); [lia|assumption..|].
    exists p'. split; [reflexivity|]. replace (n + S (length ws)) with (n + 1 + length ws) by lia. assumption.
Qed.
Lemma nv_digits p n ds rest : nv p n (ds ++ rest) -> Forall digit_char ds -> not_starting digit_char rest ->
  exists p', parse_digits T p = (Ok ds, p') /\ nv p' (n + length ds) rest.
Proof.
  intros H Hds Hr. unfold parse_digits. assert (length ds < S (pp_size T p)) as Hf by (rewrite (nv_size _ _ _ H), app_length; lia).
  destruct (nv_peek _ _ _ H) as (p1 & -> & H1). clear H. revert Hf H1. generalize (S (pp_size T p)) as fuel. intros fuel Hf H1.
  change (Ok ds : outcome ParserError str) with (Ok ([] ++ ds) : outcome ParserError str). generalize (@nil N) at 1 2 as acc. intros acc. clear p.
  revert p1 n ds acc Hf H1 Hds. induction fuel as [|f IH]; intros p n ds acc Hf HRp Hds; [lia|].
  destruct ds as [|c ds]; cbn [app length digits_loop].
  - rewrite app_nil_r, Nat.add_0_r. destruct rest as [|c rest]; cbn [seen]; [eauto|].
    destruct (N.eqb c 125); [eauto|].
    simpl in Hr. destruct (is_ascii_digit c) eqn:Hc; [exfalso; apply Hr, is_ascii_digit_iff, Hc|]. simpl. eauto.
  - inversion Hds as [|? ? Hc Hds']; subst. destruct (digit_ok c Hc) as [E1 E2]. cbn [seen]. rewrite (proj2 (N.eqb_neq c 125) E1).
    apply is_ascii_digit_iff in Hc. rewrite Hc. cbn [negb].
    cbn [app length] in *. destruct (nv_next _ _ _ _ HRp E1 E2) as (p1 & -> & H1).
    destruct (nv_peek _ _ _ H1) as (p2 & -> & H2).
    destruct (IH p2 (n + 1) ds (acc ++ [c])) as (p' & -> & H'); [lia|assumption..|].
    exists p'. rewrite <- app_assoc. split; [reflexivity|].
    replace (n + S (length ds)) with (n + 1 + length ds) by lia. assumption.
Qed.
Lemma nv_usize p n ds rest : nv p n (ds ++ rest) -> Forall digit_char ds -> not_starting digit_char rest ->
  exists p', parse_usize T p
    = (match ds with
       | [] => match seen rest with Some c => Err (UnexpectedCharError c n (lit "digit expected")) | None => Err (EndOfCharsError n) end
       | _ => if (dec_value ds <? 2 ^ 64)%N then Ok (dec_value ds) else Err Impossible
       end, p') /\ nv p' (n + length ds) rest.
Proof.
  intros H Hds Hr. unfold parse_usize, sbind, parse_required_digits.
  destruct (nv_peek _ _ _ H) as (p1 & -> & H1). destruct ds as [|c ds].
  - cbn [app length] in *. rewrite Nat.add_0_r. rewrite (nv_pos _ _ _ H), (nv_pos _ _ _ H1).
    destruct rest as [|c rest]; cbn [seen]; [eauto|]. destruct (N.eqb c 125); [eauto|]. simpl in Hr.
    destruct (is_ascii_digit c) eqn:Hc; [exfalso; apply Hr, is_ascii_digit_iff, Hc|]. cbn [negb]. eauto.
  - inversion Hds as [|? ? Hc Hds']; subst. destruct (digit_ok c Hc) as [E1 E2]. cbn [app seen].
    rewrite (proj2 (N.eqb_neq c 125) E1). pose proof Hc as Hc'. apply is_ascii_digit_iff in Hc'. rewrite Hc'. cbn [negb].
    destruct (nv_digits p1 n (c :: ds) rest H1 Hds Hr) as (p' & -> & H').
    rewrite str_parse_usize_spec by (auto; discriminate).
    destruct (dec_value (c :: ds) <? 2 ^ 64)%N; unfold sret, sfail; eauto.
Qed.
Lemma nv_var_name p n x rest : nv p n (x ++ rest) -> valid_name x -> not_starting namechar rest ->
  exists p', parse_var_name T p = (Ok x, p') /\ nv p' (n + length x) rest.
Proof.
  intros H Hx Hr. destruct x as [|c cs]; [contradiction|]. destruct Hx as [Hc Hcs]. unfold parse_var_name.
  assert (length cs < S (pp_size T p)) as Hf by (rewrite (nv_size _ _ _ H); simpl; rewrite app_length; lia).
  cbn [app] in H. destruct (nv_peek _ _ _ H) as (p1 & -> & H1). destruct (namechar_ok c (alphabetic_namechar c Hc)) as [E1 E2].
  cbn [seen]. rewrite (proj2 (N.eqb_neq c 125) E1), Hc. cbn [negb].
  destruct (nv_next _ _ _ _ H1 E1 E2) as (p2 & -> & H2). destruct (nv_peek _ _ _ H2) as (p3 & -> & H3).
  revert Hf. generalize (S (pp_size T p)) as fuel. intros fuel Hf. cbn [length].
  change (c :: cs) with ([c] ++ cs). replace (n + S (length cs)) with (n + 1 + length cs) by lia. revert H3. generalize (n + 1) as k. generalize [c] as acc. intros acc k H3.
  clear -Hf H3 Hcs Hr. revert p3 k cs acc Hf H3 Hcs. induction fuel as [|f IH]; intros p n cs acc Hf HRp Hcs; [lia|].
  destruct cs as [|c cs]; cbn [app length var_name_loop].
  - rewrite app_nil_r, Nat.add_0_r. destruct rest as [|c rest]; cbn [seen]; [eauto|].
    destruct (N.eqb c 125); [eauto|].
    simpl in Hr. destruct (is_alphanumeric c || N.eqb c 95) eqn:Hc; [exfalso; apply Hr, name_char_bool, Hc|]. simpl. eauto.
  - inversion Hcs as [|? ? Hc Hcs']; subst. destruct (namechar_ok c Hc) as [E1 E2]. cbn [seen]. rewrite (proj2 (N.eqb_neq c 125) E1).
    apply name_char_bool in Hc. rewrite Hc. cbn [negb].
    cbn [app length] in *. destruct (nv_next _ _ _ _ HRp E1 E2) as (p1 & -> & H1).
    destruct (nv_peek _ _ _ H1) as (p2 & -> & H2).
    destruct (IH p2 (n + 1) cs (acc ++ [c])) as (p' & -> & H'); [lia|assumption..|].
    exists p'. rewrite <- app_assoc. split; [reflexivity|].
    replace (n + S (length cs)) with (n + 1 + length cs) by lia. assumption.
Qed.
Lemma nv_var_name_err p n w : nv p n w -> not_starting (fun c => is_alphabetic c = true) w ->
  exists p' e, parse_var_name T p = (Err e, p') /\ nv p' n w /\ error_at n e.
Proof.
  intros H Hr. unfold parse_var_name. destruct (nv_peek _ _ _ H) as (p1 & -> & H1).
  rewrite (nv_pos _ _ _ H), (nv_pos _ _ _ H1). destruct w as [|c w]; cbn [seen].
  { eexists _, _. split; [reflexivity|]. split; [assumption|]. reflexivity. }
  simpl in Hr. destruct (N.eqb c 125). { eexists _, _. split; [reflexivity|]. split; [assumption|]. reflexivity. }
  destruct (is_alphabetic c); [congruence|]. cbn [negb]. eexists _, _. split; [reflexivity|]. split; [assumption|]. reflexivity.
Qed.
Lemma nv_symbol p n w c : nv p n w -> c <> 125%N -> c <> 92%N ->
  (exists w' p', w = c :: w' /\ parse_symbol T c p = (Ok tt, p') /\ nv p' (n + 1) w') \/
  (head w <> Some c /\ exists e p', parse_symbol T c p = (Err e, p') /\ nv p' n w /\ error_at n e).
Proof.
  intros H E1 E2. unfold parse_symbol. destruct (nv_peek _ _ _ H) as (p1 & -> & H1). rewrite (nv_pos _ _ _ H1).
  destruct w as [|d w]; cbn [seen head].
  - right. split; [discriminate|]. eexists _, _. split; [reflexivity|]. split; [assumption|]. reflexivity.
  - destruct (N.eqb_spec d 125) as [->|Hd].
    + right. split; [congruence|]. eexists _, _. split; [reflexivity|]. split; [assumption|]. reflexivity.
    + destruct (N.eqb_spec d c) as [->|Hdc].
      * left. destruct (nv_next _ _ _ _ H1 E1 E2) as (p2 & -> & H2). eauto.
      * right. split; [congruence|]. eexists _, _. split; [reflexivity|]. split; [assumption|]. reflexivity.
Qed.

(** ** Instructions *)
Lemma wrap_as_isize v : (v < 2 ^ 64)%N -> wrap_isize (Z.of_N v) = as_isize v.
Proof.
  intros Hv. unfold wrap_isize, as_isize. change (2 ^ 64)%N with 18446744073709551616%N in Hv. change (2 ^ 63)%N with 9223372036854775808%N.
  change (2 ^ 63)%Z with 9223372036854775808%Z. change (2 ^ 64)%Z with 18446744073709551616%Z.
  destruct (N.ltb_spec v 9223372036854775808).
  - rewrite Z.mod_small by lia. lia.
  - replace (Z.of_N v + 9223372036854775808)%Z with (Z.of_N v - 9223372036854775808 + 1 * 18446744073709551616)%Z by lia.
    rewrite Z.mod_add by lia. rewrite Z.mod_small by lia. lia.
Qed.
Lemma one_instruction_cases name :
  (exists i, (name, i) ∈ plain_names /\ forall acc, one_instruction T name acc = sret (acc ++ [i])) \/
  (exists k k', (name, k) ∈ operand_names /\ (forall v, (v < 2 ^ 64)%N -> k' v = k v) /\
     forall acc, one_instruction T name acc = operand T k' acc) \/
  (name ∉ plain_names.*1 /\ name ∉ operand_names.*1 /\ forall acc, one_instruction T name acc = sret acc).
Proof.
  unfold one_instruction.
  repeat (match goal with |- context [decide (name = ?x)] => destruct (decide (name = x)) as [->|] end;
    [first [left; eexists; split; [|intros; reflexivity]; unfold plain_names; repeat first [apply elem_of_list_here|apply elem_of_list_further]
           |right; left; eexists _, _; split; [|split; [|intros; reflexivity]];
              [unfold operand_names; first [apply elem_of_list_here|apply elem_of_list_further, elem_of_list_here|apply elem_of_list_further, elem_of_list_further, elem_of_list_here]
              |intros v Hv; cbv beta; rewrite ?wrap_as_isize by assumption; reflexivity]]|]).
  right. right. unfold plain_names, operand_names. cbn [fmap list_fmap fst].
  split; [|split; [|reflexivity]]; rewrite !elem_of_cons, elem_of_nil; tauto.
Qed.
Lemma plain_unique x i : (x, i) ∈ plain_names -> x ∉ operand_names.*1 /\ forall i', (x, i') ∈ plain_names -> i' = i.
Proof.
  unfold plain_names, operand_names. rewrite !elem_of_cons, elem_of_nil. cbn [fmap list_fmap fst]. intros Hx. split.
  - rewrite !elem_of_cons, elem_of_nil. repeat (destruct Hx as [Hx|Hx]; [injection Hx as -> ->; intros Hy; repeat (destruct Hy as [Hy|Hy]; [discriminate|]); contradiction|]). contradiction.
  - intros i'. rewrite !elem_of_cons, elem_of_nil. intros Hy.
    repeat (destruct Hx as [Hx|Hx]; [injection Hx as -> ->; repeat (destruct Hy as [Hy|Hy]; [injection Hy; intros; subst; try reflexivity; discriminate|]); contradiction|]). contradiction.
Qed.
Lemma operand_unique x k : (x, k) ∈ operand_names -> x ∉ plain_names.*1 /\ forall k', (x, k') ∈ operand_names -> k' = k.
Proof.
  unfold plain_names, operand_names. rewrite !elem_of_cons, elem_of_nil. cbn [fmap list_fmap fst]. intros Hx. split.
  - rewrite !elem_of_cons, elem_of_nil. repeat (destruct Hx as [Hx|Hx]; [injection Hx as -> ->; intros Hy; repeat (destruct Hy as [Hy|Hy]; [discriminate|]); contradiction|]). contradiction.
  - intros k'. rewrite !elem_of_cons, elem_of_nil. intros Hy.
    repeat (destruct Hx as [Hx|Hx]; [injection Hx as -> ->; repeat (destruct Hy as [Hy|Hy]; [injection Hy; intros; subst; try reflexivity; discriminate|]); contradiction|]). contradiction.
Qed.
Lemma known_valid x : x ∈ plain_names.*1 \/ x ∈ operand_names.*1 -> valid_name x.
Proof.
  unfold plain_names, operand_names. cbn [fmap list_fmap fst]. rewrite !elem_of_cons, !elem_of_nil. intros Hx.
  repeat match type of Hx with _ \/ _ => destruct Hx as [Hx|Hx] end; try contradiction; subst x;
    (split; [reflexivity|repeat constructor; left; reflexivity]).
Qed.

(** ** The loop *)
Definition split_at (P : char -> Prop) (w : str) (a b : str) : Prop := w = a ++ b /\ Forall P a /\ not_starting P b.
Global Instance white_dec c : Decision (white c). Proof. unfold white. apply _. Qed.
Global Instance namechar_dec c : Decision (namechar c). Proof. unfold namechar. apply _. Qed.
Global Instance digit_dec c : Decision (digit_char c). Proof. unfold digit_char. apply _. Qed.
Lemma name_split w : (exists x rest, w = x ++ rest /\ valid_name x /\ not_starting namechar rest) \/
  not_starting (fun c => is_alphabetic c = true) w.
Proof.
  destruct w as [|c w]; [right; exact Logic.I|]. destruct (is_alphabetic c) eqn:Hc; [|right; simpl; congruence].
  left. destruct (span_exists namechar w) as (a & b & -> & Ha & Hb). exists (c :: a), b. repeat split; auto.
Qed.
Definition good_run (n : nat) (w : str) (acc : list KInstr) (Q : list KInstr -> str -> Prop)
    (run : outcome ParserError (list KInstr) * PP (PP str)) : Prop :=
  exists pre rest, w = pre ++ rest /\ nv run.2 (n + length pre) rest /\
    match run.1 with
    | Ok is => exists is', is = acc ++ is' /\ Q is' pre
    | Err e => error_at (n + length pre) e
    | Panic | Diverge => False
    end.
Lemma one_instruction_total p n w x acc : nv p n w -> valid_name x -> not_starting namechar w ->
  good_run n w acc (fun is pre => instr_text is (x ++ pre)) (one_instruction T x acc p).
Proof.
  intros Hp Hx Hw. destruct (one_instruction_cases x) as [(i & Hi & ->)|[(k & k' & Hk & Hkk & ->)|(H1 & H2 & ->)]].
  - exists [], w. cbn. rewrite Nat.add_0_r. split; [reflexivity|]. split; [assumption|]. exists [i]. split; [reflexivity|].
    rewrite app_nil_r. apply in_plain. assumption.
  - unfold operand, sbind. destruct (span_exists white w) as (l & w1 & -> & Hl & Hw1).
    destruct (nv_whitespace p n l w1 Hp Hl Hw1) as (p1 & -> & H1).
    destruct (span_exists digit_char w1) as (ds & w2 & -> & Hds & Hw2).
    destruct (nv_usize p1 _ ds w2 H1 Hds Hw2) as (p2 & -> & H2).
    exists (l ++ ds), w2. rewrite app_length, Nat.add_assoc. rewrite <- app_assoc. split; [reflexivity|].
    destruct ds as [|d ds].
    + cbn [length] in *. rewrite Nat.add_0_r in *. destruct (seen w2); cbn; (split; [assumption|reflexivity]).
    + destruct (N.ltb_spec (dec_value (d :: ds)) (2 ^ 64)) as [Hlt|Hge]; cbn [fst snd]; [|split; [assumption|exact Logic.I]].
      unfold sret. cbn [fst snd]. split; [assumption|]. rewrite Hkk by assumption. exists [k (dec_value (d :: ds))]. split; [reflexivity|].
      apply in_operand; [assumption|assumption| |discriminate|assumption|assumption]. rewrite app_assoc in Hw. destruct (l ++ d :: ds) eqn:E; [destruct l; discriminate|exact Hw].
  - exists [], w. cbn. rewrite Nat.add_0_r. split; [reflexivity|]. split; [assumption|]. exists []. rewrite app_nil_r. split; [reflexivity|].
    rewrite app_nil_r. apply in_unknown; assumption.
Qed.
Lemma stack_loop_total fuel : forall p n w acc, nv p n w -> length w < fuel ->
  good_run n w acc instrs_text (stack_parse_loop T fuel acc p).
Proof.
  induction fuel as [|f IH]; intros p n w acc Hp Hf; [lia|]. cbn [stack_parse_loop].
  destruct (nv_peek _ _ _ Hp) as (p1 & -> & H1). destruct (seen w) as [c0|] eqn:Hseen.
  2: { exists [], w. cbn. rewrite Nat.add_0_r. split; [reflexivity|]. split; [assumption|]. exists []. rewrite app_nil_r. split; [reflexivity|constructor]. }
  unfold sbind. destruct (name_split w) as [(x & w1 & -> & Hx & Hw1)|Hn].
  2: { destruct (nv_var_name_err p1 n w H1 Hn) as (p2 & e & -> & H2 & He). exists [], w. cbn. rewrite Nat.add_0_r. auto. }
  destruct (nv_var_name p1 n x w1 H1 Hx Hw1) as (p2 & -> & H2).
  destruct (one_instruction_total p2 _ w1 x acc H2 Hx Hw1) as (pre & w2 & -> & H3 & Hr).
  destruct (one_instruction T x acc p2) as [[is|e| |] p3]; cbn [fst snd] in *; try contradiction.
  2: { exists (x ++ pre), w2. cbn. rewrite app_length, Nat.add_assoc. rewrite <- app_assoc. auto. }
  destruct Hr as (is' & -> & Hin).
  destruct (nv_symbol p3 _ w2 59 H3 ltac:(discriminate) ltac:(discriminate)) as [(w3 & p4 & -> & -> & H4)|(Hh & e & p4 & -> & H4 & He)].
  2: { exists (x ++ pre), w2. cbn. rewrite app_length, Nat.add_assoc. rewrite <- app_assoc. auto. }
  destruct (span_exists white w3) as (l & w4 & -> & Hl & Hw4).
  destruct (nv_whitespace p4 _ l w4 H4 Hl Hw4) as (p5 & -> & H5).
  destruct (IH p5 _ w4 (acc ++ is') H5) as (pre' & w5 & -> & H6 & Hr').
  { destruct x; [contradiction|]. cbn [app length] in Hf. rewrite !app_length in Hf. cbn in Hf. rewrite app_length in Hf. lia. }
  exists (x ++ pre ++ lit ";" ++ l ++ pre'), w5.
  assert (n + length x + length pre + 1 + length l + length pre' = n + length (x ++ pre ++ lit ";" ++ l ++ pre')) as Hlen
    by (rewrite !app_length; cbn; lia).
  rewrite Hlen in *. split; [rewrite <- !app_assoc; reflexivity|]. split; [assumption|].
  destruct (stack_parse_loop T f (acc ++ is') p5) as [[is2|e| |] p6]; cbn [fst snd] in *; auto.
  destruct Hr' as (is3 & -> & Hin'). exists (is' ++ is3). rewrite app_assoc. split; [reflexivity|].
  rewrite app_assoc. apply ins_cons; auto.
Qed.
Lemma stack_loop_reads is t : tables_disjoint -> instrs_text is t -> forall fuel p n acc rest,
  nv p n (t ++ 125%N :: rest) -> length t < fuel ->
  exists p', stack_parse_loop T fuel acc p = (Ok (acc ++ is), p') /\ nv p' (n + length t) (125%N :: rest).
Proof.
  intros Hdis. induction 1 as [|is t l is' t' Hi Hl Ht IH]; intros fuel p n acc rest Hp Hf; (destruct fuel as [|f]; [simpl in Hf; lia|]);
    cbn [stack_parse_loop].
  - destruct (nv_peek _ _ _ Hp) as (p1 & -> & H1). cbn. rewrite app_nil_r, Nat.add_0_r. eauto.
  - destruct (nv_peek _ _ _ Hp) as (p1 & -> & H1).
    assert (not_starting white (t' ++ 125%N :: rest)) as Hw.
    { destruct t' as [|d t'']; [cbn; unfold white; discriminate|]. inversion Ht as [|is1 t1 l1 is2 t2 Hi1 Hl1 Ht1 E1 E2]; subst.
      assert (exists c s, t1 = c :: s /\ is_alphabetic c = true) as (c & s & -> & Hc).
      { assert (forall x, valid_name x -> forall y, exists c s, x ++ y = c :: s /\ is_alphabetic c = true) as Hv.
        { intros [|c x] Hvx y; [contradiction|]. destruct Hvx as [? _]. exists c, (x ++ y). auto. }
        destruct Hi1 as [x i Hx|x k l0 ds Hx|x Hx].
        - rewrite <- (app_nil_r x). apply Hv, known_valid. left. apply elem_of_list_fmap. exists (x, i). auto.
        - apply Hv, known_valid. right. apply elem_of_list_fmap. exists (x, k). auto.
        - rewrite <- (app_nil_r x). apply Hv. assumption. }
      cbn in E2. injection E2 as <- _. cbn. intros Hcw. apply (Hdis c Hcw), alphabetic_namechar, Hc. }
    assert (length t' < f) as Hf' by (rewrite !app_length in Hf; cbn in Hf; lia).
    assert (forall p4 k, nv p4 k (lit ";" ++ l ++ t' ++ 125%N :: rest) ->
       exists p', (do _u <- parse_symbol T 59; do _w <- parse_whitespace T; stack_parse_loop T f (acc ++ is)) p4
                  = (Ok (acc ++ is ++ is'), p') /\ nv p' (k + length (lit ";" ++ l ++ t')) (125%N :: rest)) as Htail.
    { intros p4 k H4. unfold sbind. destruct (nv_symbol p4 _ _ 59 H4 ltac:(discriminate) ltac:(discriminate)) as [(w3 & p5 & E & -> & H5)|(Hh & _)].
      2: { exfalso. apply Hh. reflexivity. }
      cbn in E. injection E as <-. destruct (nv_whitespace p5 _ l _ H5 Hl Hw) as (p6 & -> & H6).
      destruct (IH f p6 _ (acc ++ is) rest H6 Hf') as (p7 & -> & H7). exists p7. rewrite app_assoc. split; [reflexivity|].
      rewrite !app_length. cbn [length]. replace (k + (length (lit ";") + (length l + length t'))) with (k + 1 + length l + length t') by (cbn; lia). assumption. }
    rewrite <- !app_assoc in *. clear IH.
    assert (forall x y, valid_name x -> exists c, seen (x ++ y) = Some c) as Hseen.
    { intros [|c x] y Hx; [contradiction|]. destruct Hx as [Hc _]. cbn. destruct (N.eqb_spec c 125) as [->|]; [discriminate|eauto]. }
    destruct Hi as [x i Hx|x k l0 ds Hx Hl0 Hns Hne Hds Hlt|x Hx Hx1 Hx2].
    + assert (valid_name x) as Hv by (apply known_valid; left; apply elem_of_list_fmap; exists (x, i); auto).
      destruct (Hseen x (lit ";" ++ l ++ t' ++ 125%N :: rest) Hv) as [c ->].
      unfold sbind at 1. destruct (nv_var_name p1 n x _ H1 Hv) as (p2 & -> & H2). { cbn. intros [?|?]; discriminate. }
      unfold sbind at 1. destruct (one_instruction_cases x) as [(i' & Hi & ->)|[(k & k' & Hk & _)|(Hk & _)]].
      * rewrite (proj2 (plain_unique x i Hx) i' Hi). unfold sret at 1. destruct (Htail p2 _ H2) as (p' & -> & H').
        exists p'. split; [reflexivity|]. rewrite app_length. rewrite Nat.add_assoc. assumption.
      * exfalso. apply (proj1 (plain_unique x i Hx)). apply elem_of_list_fmap. exists (x, k). auto.
      * exfalso. apply Hk. apply elem_of_list_fmap. exists (x, i). auto.
    + assert (valid_name x) as Hv by (apply known_valid; right; apply elem_of_list_fmap; exists (x, k); auto).
      rewrite <- !app_assoc in H1 |- *.
      destruct (Hseen x (l0 ++ ds ++ lit ";" ++ l ++ t' ++ 125%N :: rest) Hv) as [c ->].
      unfold sbind at 1. destruct (nv_var_name p1 n x _ H1 Hv) as (p2 & -> & H2).
      { destruct l0 as [|c0 l0]; [destruct ds as [|c0 ds]; [congruence|]|]; cbn in *; assumption. }
      unfold sbind at 1. destruct (one_instruction_cases x) as [(i' & Hi & _)|[(k1 & k' & Hk & Hkk & ->)|(_ & Hk & _)]].
      * exfalso. apply (proj1 (operand_unique x k Hx)). apply elem_of_list_fmap. exists (x, i'). auto.
      * rewrite (proj2 (operand_unique x k Hx) k1 Hk) in Hkk. unfold operand, sbind at 1.
        destruct (nv_whitespace p2 _ l0 _ H2 Hl0) as (p3 & -> & H3).
        { destruct ds as [|d ds]; [congruence|]. cbn. inversion Hds; subst. apply digit_not_white. assumption. }
        unfold sbind at 1. destruct (nv_usize p3 _ ds _ H3 Hds) as (p4 & -> & H4). { change (~ digit_char 59%N). unfold digit_char. lia. }
        destruct ds as [|d ds]; [congruence|]. rewrite (proj2 (N.ltb_lt _ _) Hlt). unfold sret at 1. rewrite Hkk by assumption.
        destruct (Htail p4 _ H4) as (p' & -> & H'). exists p'. split; [reflexivity|].
        match goal with H : nv p' ?a _ |- nv p' ?b _ => replace b with a by (rewrite !app_length; lia) end. assumption.
      * exfalso. apply Hk. apply elem_of_list_fmap. exists (x, k). auto.
    + destruct (Hseen x (lit ";" ++ l ++ t' ++ 125%N :: rest) Hx) as [c ->].
      unfold sbind at 1. destruct (nv_var_name p1 n x _ H1 Hx) as (p2 & -> & H2). { cbn. intros [?|?]; discriminate. }
      unfold sbind at 1. destruct (one_instruction_cases x) as [(i' & Hi & _)|[(k & k' & Hk & _)|(_ & _ & ->)]].
      * exfalso. apply Hx1. apply elem_of_list_fmap. exists (x, i'). auto.
      * exfalso. apply Hx2. apply elem_of_list_fmap. exists (x, k). auto.
      * unfold sret at 1. cbn [app] in Htail. rewrite app_nil_r in Htail. destruct (Htail p2 _ H2) as (p' & -> & H').
        exists p'. split; [reflexivity|]. rewrite app_length. rewrite Nat.add_assoc. assumption.
Qed.
Lemma nv_start w n : nv (brace_process w n) n w.
Proof. exists false. split; [reflexivity|discriminate]. Qed.
Lemma stack_vm_reads m : vm_reads (StackVm m) stack_reads.
Proof.
  split.
  - intros name w n. cbn [vm_parse_instructions StackVm]. unfold stack_parse, sbind.
    destruct (span_exists white w) as (l & w1 & -> & Hl & Hw1).
    destruct (nv_whitespace _ _ l w1 (nv_start _ n) Hl Hw1) as (p1 & -> & H1).
    destruct (stack_loop_total (S (pp_size T (brace_process (l ++ w1) n))) p1 _ w1 [] H1) as (pre & rest & -> & H2 & Hr).
    { rewrite (nv_size _ _ _ (nv_start _ n)), app_length. lia. }
    destruct (stack_parse_loop T (S (pp_size T (brace_process (l ++ pre ++ rest) n))) [] p1) as [r g]. cbn [fst snd] in *.
    exists r, g, (l ++ pre), rest. split; [reflexivity|]. rewrite app_length, Nat.add_assoc.
    destruct H2 as (flag & -> & _). split; [reflexivity|]. split; [rewrite app_assoc; reflexivity|].
    destruct r as [is|e| |]; auto. intros rest' ->. destruct Hr as (is' & -> & Hi). exists l, pre. auto.
  - intros Hdis name body is n rest (l & t & Hl & -> & Hi). cbn [vm_parse_instructions StackVm]. unfold stack_parse, sbind.
    rewrite <- app_assoc.
    destruct (nv_whitespace _ _ l (t ++ 125%N :: rest) (nv_start _ n) Hl) as (p1 & -> & H1).
    { destruct t as [|d t'']; [cbn; unfold white; discriminate|]. inversion Hi as [|is1 t1 l1 is2 t2 Hi1 Hl1 Ht1 E1 E2]; subst.
      assert (exists c s, t1 = c :: s /\ is_alphabetic c = true) as (c & s & -> & Hc).
      { assert (forall x, valid_name x -> forall y, exists c s, x ++ y = c :: s /\ is_alphabetic c = true) as Hv.
        { intros [|c x] Hvx y; [contradiction|]. destruct Hvx as [? _]. exists c, (x ++ y). auto. }
        destruct Hi1 as [x i Hx|x k l0 ds Hx|x Hx].
        - rewrite <- (app_nil_r x). apply Hv, known_valid. left. apply elem_of_list_fmap. exists (x, i). auto.
        - apply Hv, known_valid. right. apply elem_of_list_fmap. exists (x, k). auto.
        - rewrite <- (app_nil_r x). apply Hv. assumption. }
      cbn in E2. injection E2 as <- _. cbn. intros Hcw. apply (Hdis c Hcw), alphabetic_namechar, Hc. }
    destruct (stack_loop_reads is t Hdis Hi (S (pp_size T (brace_process (l ++ t ++ 125%N :: rest) n))) p1 _ [] rest H1) as (g & -> & Hg).
    { rewrite (nv_size _ _ _ (nv_start _ n)), !app_length. lia. }
    exists g. split; [reflexivity|]. destruct Hg as (flag & -> & _). cbn. rewrite app_length, Nat.add_assoc. reflexivity.
Qed.
End stack.
