(** * Property theorems, text layer: C01-C10.
    [outer w n] is a ParseProcess without stop char that has consumed [n] chars and
    has [w] in front of it. *)
From stdpp Require Import pretty.
From Verif Require Import Base Peekables Errors ParseFuncs ParserData Vm RuleParsing SpecText
  Streams_proofs ParseFuncs_proofs Terminal_proofs Samples.

(** ** C01.  [model_ops] performs the calls on a fresh process over [t];
    [cursor_run] answers them from the text [t] and an index. *)
Theorem C01_plain_process_is_cursor : forall (l : list cursor_op) (t : str),
  let '(answers, (t', i)) := cursor_run l t 0 in
  model_ops l (pp_new t None None) = (answers, outer (drop i t') i) /\
  cur_pos (snd (model_ops l (pp_new t None None))) = i /\
  i <= length t.
Proof.
  intros l t. pose proof (model_ops_cursor l t 0 (Nat.le_0_l _)) as H.
  destruct (cursor_run l t 0) as [rs [t' i]]. rewrite drop_0 in H.
  destruct H as (H & Hi & Hl). unfold pp_new. rewrite H. repeat split; auto. lia.
Qed.
Print Assumptions C01_plain_process_is_cursor.
Example C01_example :
  cursor_run [CPeek; CNextIfEq 98; CNext; CPeekMut (fun _ => 122%N); CNextIf (N.eqb 122); CNext; CNext]
             (lit "abc") 0
  = ([Some 97; None; Some 97; Some 98; Some 122; Some 99; None]%N, (lit "azc", 3)).
Proof. reflexivity. Qed.

(** ** C02 *)
Theorem C02_nested_drain : forall (s e : char) (body rest : str) (n k : nat),
  s <> e -> stops_between s e body rest ->
  exists flag,
  next_times (pp_tp base_tp) (length body + k)
    (pp_new_nested (outer (body ++ rest) n) (Some s) (Some e) n)
  = (map Some body ++ replicate k None,
     mkPP (outer rest (n + length body)) (n + length body) (Some s) (Some e) flag).
Proof. exact (fun s e body rest n k => nested_drain_all s e body rest n k). Qed.
Print Assumptions C02_nested_drain.
Theorem C02_split_exists : forall (s e : char) (w : str),
  exists body rest, w = body ++ rest /\ stops_between s e body rest.
Proof. exact stops_split_exists. Qed.
Print Assumptions C02_split_exists.
Theorem C02_split_unique : forall s e b1 r1 b2 r2,
  b1 ++ r1 = b2 ++ r2 -> stops_between s e b1 r1 -> stops_between s e b2 r2 ->
  b1 = b2 /\ r1 = r2.
Proof. exact stops_split_unique. Qed.
Print Assumptions C02_split_unique.
(** Whatever calls are made on a nested process, in whatever order: what they consume is an
    initial piece of the underlying text, both positions count it, and no stop char is
    consumed unless an escape char was consumed directly before it. *)
Theorem C02_any_history : forall (s e : char) (w : str) (n : nat) (l : list cursor_op),
  s <> e -> Forall (fun o => ~ overwrites o) l ->
  let '(answers, p) := ops_on (pp_tp base_tp) l (pp_new_nested (outer w n) (Some s) (Some e) n) in
  let read := consumed l answers in
  exists rest, w = read ++ rest /\ pp_inner p = outer rest (n + length read) /\ cur_pos p = n + length read /\
  forall i, read !! i = Some s -> exists j, i = S j /\ read !! j = Some e.
Proof.
  intros s e w n l Hse Hl. pose proof (ops_on_nested s e l Hse Hl w n false None) as Ho. unfold pp_new_nested.
  destruct (ops_on (pp_tp base_tp) l (mkPP (outer w n) n (Some s) (Some e) false)) as [rs p].
  destruct Ho as (rest & Hw & Hi & Hp & Hs); [intros ?; discriminate|]. exists rest. repeat split; auto.
  intros [|j] Hj; specialize (Hs _ Hj); [discriminate|eauto].
Qed.
Print Assumptions C02_any_history.
Example C02_history_example :
  fst (ops_on (pp_tp base_tp) [CPeek; CNext; CNextIf (N.eqb 120); CNext; CNext; CPeek; CNext; CNext]
         (pp_new_nested (outer (lit "a\}b};") 7) (Some 125%N) (Some 92%N) 7))
  = [Some 97; Some 97; None; Some 92; Some 125; Some 98; Some 98; None]%N.
Proof. reflexivity. Qed.
(** [a\}b] in front of [};]: brace 125, backslash 92 *)
Example C02_example : stops_between 125 92 (lit "a\}b") (lit "};").
Proof.
  split.
  - intros i Hi. destruct i as [|[|[|[|i]]]]; try discriminate. exists 1. auto.
  - right. split; [reflexivity|]. vm_compute. congruence.
Qed.

(** ** C03.  For a process over any peekable [T] that behaves like a text [w]. *)
Theorem C03_peek_next_exact : forall (S : Type) (T : TPeek S) R (p : PP S) (w : str),
  tsim T R -> R (pp_inner p) w ->
  fst (pp_next T p) = fst (pp_peek T p) /\
  (fst (pp_next T (snd (pp_peek T p))) = fst (pp_peek T p) <-> ~ at_escaped_stop p w).
Proof.
  intros S T R p w HT HR. split; [exact (peek_next_same T R p w HT HR)|].
  exact (peek_then_next T R p w HT HR).
Qed.
Print Assumptions C03_peek_next_exact.
(** Both kinds of process the crate uses are covered. *)
Theorem C03_covered : tsim base_tp (fun s w => s = w) /\
  forall stop, tsim (pp_tp base_tp) (fun p w => exists n, p = mkPP w n stop None false).
Proof. exact (conj base_tsim pp_outer_tsim). Qed.
Print Assumptions C03_covered.
(** The unconditional claim is false: over [\}x] with stop [}] and escape [\], after
    one [next], [peek] shows [}] and the following [next] returns nothing. *)
Theorem C03_peek_predicts_next_refuted : exists (t : str) (s e : char),
  let p := pp_new t (Some s) (Some e) in
  let p1 := snd (pp_next base_tp p) in
  let '(o, p2) := pp_peek base_tp p1 in
  o = Some s /\ fst (pp_next base_tp p2) = None.
Proof. exists (lit "\}x"), 125%N, 92%N. vm_compute. auto. Qed.
Print Assumptions C03_peek_predicts_next_refuted.

(** ** C04.  Without an escape char the stop char has no effect at all. *)
Theorem C04_stop_without_escape_exact : forall (w : str) (s : char) (k : nat),
  fst (next_times base_tp (length w + k) (pp_new w (Some s) None))
  = map Some w ++ replicate k None.
Proof. intros w s k. unfold pp_new. rewrite no_escape_never_stops. reflexivity. Qed.
Print Assumptions C04_stop_without_escape_exact.
Theorem C04_stop_without_escape_refuted : exists (w : str) (s : char),
  In s w /\ fst (pp_next base_tp (pp_new w (Some s) None)) = Some s.
Proof. exists (lit "}"), 125%N. vm_compute. auto. Qed.
Print Assumptions C04_stop_without_escape_refuted.

(** ** C05-C09 hold for every process that behaves like a text: [psim T R] says that
    [peek], [next] and [cur_pos] on a state related by [R] to [(n, w)] behave as on the
    text [w] at position [n].  The processes used by the crate are instances. *)
Theorem processes_behave_like_texts :
  psim base_tp (fun p n w => p = outer w n) /\
  forall s e rest, s <> e -> psim (pp_tp base_tp) (nestR s e rest).
Proof. exact (conj plain_psim nest_psim). Qed.
Print Assumptions processes_behave_like_texts.
Theorem nested_start_behaves_like_text : forall (s e : char) (w rest : str) (n : nat),
  s ∉ w -> (rest = [] \/ (head rest = Some s /\ last w <> Some e)) ->
  nestR s e rest (pp_new_nested (outer (w ++ rest) n) (Some s) (Some e) n) n w.
Proof.
  intros s e w rest n Hin Hr. exists false. split; [reflexivity|].
  split; [destruct Hr as [?|[? _]]; auto|]. split; [assumption|].
  destruct (last w); [|auto]. destruct Hr as [?|[_ Hl]]; [auto|]. right. congruence.
Qed.
Print Assumptions nested_start_behaves_like_text.

Section C05_C09.
Context {U : Unicode} {S : Type} (T : TPeek S) (R : PP S -> nat -> str -> Prop) (HR : psim T R).

Theorem C05_parse_whitespace : forall p n ws rest,
  R p n (ws ++ rest) -> Forall (fun c => is_whitespace c = true) ws ->
  not_starting (fun c => is_whitespace c = true) rest ->
  exists p', parse_whitespace T p = (Ok tt, p') /\ R p' (n + length ws) rest.
Proof. exact (parse_whitespace_sim T R HR). Qed.

Theorem C06_parse_usize_value : forall p n ds rest,
  ds <> [] -> R p n (ds ++ rest) -> Forall digit_char ds -> not_starting digit_char rest ->
  exists p', parse_usize T p
    = (if (dec_value ds <? 2 ^ 64)%N then Ok (dec_value ds) else Err Impossible, p')
    /\ R p' (n + length ds) rest.
Proof. exact (fun p n ds rest => parse_usize_ok T R HR p n ds rest). Qed.
Theorem C06_parse_usize_roundtrip : forall p n v zeros rest,
  (v < 2 ^ 64)%N -> not_starting digit_char rest ->
  R p n (replicate zeros 48%N ++ decimal v ++ rest) ->
  exists p', parse_usize T p = (Ok v, p')
    /\ R p' (n + (zeros + length (decimal v))) rest.
Proof.
  intros p n v zeros rest Hv Hr H. destruct (decimal_spec v) as (Hd & Hne & Hval).
  rewrite app_assoc in H.
  destruct (parse_usize_ok T R HR p n (replicate zeros 48%N ++ decimal v) rest) as (p' & Hp & HR').
  - intros Hnil. apply app_eq_nil in Hnil as [_ ?]. congruence.
  - assumption.
  - apply Forall_app. split; [|assumption]. apply Forall_replicate. unfold digit_char. lia.
  - assumption.
  - rewrite dec_value_zeros, Hval in Hp. apply N.ltb_lt in Hv. rewrite Hv in Hp.
    rewrite app_length, replicate_length in HR'. eauto.
Qed.
Theorem C06_parse_usize_end : forall p n, R p n [] ->
  exists p', parse_usize T p = (Err (EndOfCharsError n), p') /\ R p' n [].
Proof. exact (parse_usize_end T R HR). Qed.
Theorem C06_parse_usize_no_digit : forall p n c w, R p n (c :: w) -> ~ digit_char c ->
  exists p', parse_usize T p = (Err (UnexpectedCharError c n (lit "digit expected")), p')
             /\ R p' n (c :: w).
Proof. exact (parse_usize_other T R HR). Qed.

Theorem C07_parse_isize_nonnegative : forall p n ds rest,
  ds <> [] -> R p n (ds ++ rest) -> Forall digit_char ds -> not_starting digit_char rest ->
  exists p', parse_isize T p
    = (if (Z.of_N (dec_value ds) <=? 2 ^ 63 - 1)%Z then Ok (Z.of_N (dec_value ds))
       else Err Impossible, p')
    /\ R p' (n + length ds) rest.
Proof.
  intros p n ds rest Hne H Hds Hr.
  destruct (parse_isize_pos T R HR p n ds rest Hne H Hds Hr) as (p' & -> & H').
  exists p'. split; [|assumption]. unfold isize_answer.
  replace (isize_min <=? Z.of_N (dec_value ds))%Z with true; [reflexivity|].
  symmetry. apply Z.leb_le. unfold isize_min. lia.
Qed.
Theorem C07_parse_isize_negative : forall p n ds rest,
  ds <> [] -> R p n (45%N :: ds ++ rest) -> Forall digit_char ds -> not_starting digit_char rest ->
  exists p', parse_isize T p
    = (if (- 2 ^ 63 <=? - Z.of_N (dec_value ds))%Z then Ok (- Z.of_N (dec_value ds))%Z
       else Err Impossible, p')
    /\ R p' (n + 1 + length ds) rest.
Proof.
  intros p n ds rest Hne H Hds Hr.
  destruct (parse_isize_neg T R HR p n ds rest Hne H Hds Hr) as (p' & -> & H').
  exists p'. split; [|assumption]. unfold isize_answer, isize_min.
  replace (- Z.of_N (dec_value ds) <=? isize_max)%Z with true; [rewrite andb_true_r; reflexivity|].
  symmetry. apply Z.leb_le. unfold isize_max. lia.
Qed.
Theorem C07_parse_isize_roundtrip : forall p n z rest,
  (- 2 ^ 63 <= z <= 2 ^ 63 - 1)%Z -> not_starting digit_char rest ->
  R p n (decimal_z z ++ rest) ->
  exists p', parse_isize T p = (Ok z, p') /\ R p' (n + length (decimal_z z)) rest.
Proof.
  intros p n z rest Hz Hr H. unfold decimal_z in *. destruct (Z.ltb_spec z 0) as [Hneg|Hpos].
  - destruct (decimal_spec (Z.to_N (- z))) as (Hd & Hne & Hval).
    destruct (C07_parse_isize_negative p n _ rest Hne H Hd Hr) as (p' & Hp & HR').
    rewrite Hval in Hp. rewrite Z2N.id in Hp by lia. rewrite Z.opp_involutive in Hp.
    replace (- 2 ^ 63 <=? z)%Z with true in Hp by (symmetry; apply Z.leb_le; lia).
    exists p'. split; [assumption|]. simpl length. replace (n + Datatypes.S _) with (n + 1 + length (decimal (Z.to_N (- z)))) by lia.
    assumption.
  - destruct (decimal_spec (Z.to_N z)) as (Hd & Hne & Hval).
    destruct (C07_parse_isize_nonnegative p n _ rest Hne H Hd Hr) as (p' & Hp & HR').
    rewrite Hval in Hp. rewrite Z2N.id in Hp by lia.
    replace (z <=? 2 ^ 63 - 1)%Z with true in Hp by (symmetry; apply Z.leb_le; lia). eauto.
Qed.
Theorem C07_parse_isize_errors : forall p n,
  (R p n [] -> exists p', parse_isize T p = (Err (EndOfCharsError n), p') /\ R p' n []) /\
  (forall c w, R p n (c :: w) -> ~ digit_char c -> c <> 45%N ->
     exists p', parse_isize T p = (Err (UnexpectedCharError c n (lit "digit or - expected")), p')
                /\ R p' n (c :: w)) /\
  (R p n [45%N] -> exists p', parse_isize T p = (Err (EndOfCharsError (n + 1)), p') /\ R p' (n + 1) []) /\
  (forall c w, R p n (45%N :: c :: w) -> ~ digit_char c ->
     exists p', parse_isize T p = (Err (UnexpectedCharError c (n + 1) (lit "digit expected")), p')
                /\ R p' (n + 1) (c :: w)).
Proof.
  intros p n. split; [|split; [|split]].
  - exact (parse_isize_end T R HR p n).
  - exact (parse_isize_other T R HR p n).
  - exact (parse_isize_lone_minus_end T R HR p n).
  - exact (parse_isize_lone_minus T R HR p n).
Qed.

Theorem C08_parse_var_name : forall p n c cs rest,
  R p n (c :: cs ++ rest) -> is_alphabetic c = true ->
  Forall (fun c => is_alphanumeric c = true \/ c = 95%N (* _ *)) cs ->
  not_starting (fun c => is_alphanumeric c = true \/ c = 95%N) rest ->
  exists p', parse_var_name T p = (Ok (c :: cs), p') /\ R p' (n + 1 + length cs) rest.
Proof. exact (parse_var_name_ok T R HR). Qed.
Theorem C08_parse_var_name_errors : forall p n,
  (R p n [] -> exists p', parse_var_name T p = (Err (EndOfCharsError n), p') /\ R p' n []) /\
  (forall c w, R p n (c :: w) -> is_alphabetic c = false ->
     exists p', parse_var_name T p
       = (Err (UnexpectedCharError c n (lit "alphabetic character")), p') /\ R p' n (c :: w)).
Proof.
  intros p n. split; [exact (parse_var_name_end T R HR p n)|exact (parse_var_name_other T R HR p n)].
Qed.

Theorem C09_parse_symbol : forall p n c,
  (forall w, R p n (c :: w) -> exists p', parse_symbol T c p = (Ok tt, p') /\ R p' (n + 1) w) /\
  (forall d w, R p n (d :: w) -> d <> c ->
     exists p', parse_symbol T c p = (Err (UnexpectedCharError d n [c]), p') /\ R p' n (d :: w)) /\
  (R p n [] -> exists p', parse_symbol T c p = (Err (EndOfCharsError n), p') /\ R p' n []).
Proof.
  intros p n c. split; [|split].
  - exact (parse_symbol_ok T R HR p n c).
  - exact (fun d => parse_symbol_other T R HR p n c d).
  - exact (parse_symbol_end T R HR p n c).
Qed.
End C05_C09.
Print Assumptions C05_parse_whitespace.
Print Assumptions C06_parse_usize_value.
Print Assumptions C06_parse_usize_roundtrip.
Print Assumptions C06_parse_usize_end.
Print Assumptions C06_parse_usize_no_digit.
Print Assumptions C07_parse_isize_nonnegative.
Print Assumptions C07_parse_isize_negative.
Print Assumptions C07_parse_isize_roundtrip.
Print Assumptions C07_parse_isize_errors.
Print Assumptions C08_parse_var_name.
Print Assumptions C08_parse_var_name_errors.
Print Assumptions C09_parse_symbol.

(** Every text has exactly the shape one of the cases above asks for. *)
Theorem maximal_run_exists : forall (P : char -> Prop) (_ : forall c, Decision (P c)) (w : str),
  exists a b, w = a ++ b /\ Forall P a /\ not_starting P b.
Proof. exact span_exists. Qed.
Print Assumptions maximal_run_exists.

Example C06_example :
  parse_usize base_tp (outer (lit "0018446744073709551615;x") 7)
  = (Ok (2 ^ 64 - 1)%N, outer (lit ";x") 29).
Proof. vm_compute. reflexivity. Qed.
Example C06_example_overflow :
  fst (parse_usize base_tp (outer (lit "18446744073709551616") 0)) = Err Impossible.
Proof. vm_compute. reflexivity. Qed.
Example C07_example_min :
  parse_isize base_tp (outer (decimal_z (- 2 ^ 63) ++ lit " ") 0)
  = (Ok (- 2 ^ 63)%Z, outer (lit " ") 20).
Proof. vm_compute. reflexivity. Qed.
Example C08_example :
  @parse_var_name ascii_unicode _ base_tp (outer (lit "a_1b-") 0) = (Ok (lit "a_1b"), outer (lit "-") 4).
Proof. vm_compute. reflexivity. Qed.
(** a nested process in the middle of rule text meets the hypothesis *)
Example nested_example :
  nestR 125 92 (lit "};") (pp_new_nested (outer (lit "PopToReg; Add;" ++ lit "};") 12)
                                         (Some 125%N) (Some 92%N) 12) 12 (lit "PopToReg; Add;").
Proof.
  apply nested_start_behaves_like_text.
  - apply (bool_decide_unpack _). vm_compute. exact I.
  - right. split; [reflexivity|]. vm_compute. congruence.
Qed.

(** ** C10 *)
Theorem C10_parse_terminal_ok : forall (body rest : str) (n : nat), quoted_body body ->
  parse_terminal (outer (34%N :: body ++ 34%N :: rest) n)
  = (Ok body, outer rest (n + length body + 2)).
Proof. exact parse_terminal_ok. Qed.
Print Assumptions C10_parse_terminal_ok.
Theorem C10_parse_terminal_unterminated : forall (w : str) (n : nat), unterminated w ->
  parse_terminal (outer (34%N :: w) n)
  = (Err (EndOfCharsError (n + 1 + length w)), outer [] (n + 1 + length w)).
Proof. exact parse_terminal_unterminated. Qed.
Print Assumptions C10_parse_terminal_unterminated.
Theorem C10_cases_exhaustive : forall w : str,
  (exists body rest, w = body ++ 34%N :: rest /\ quoted_body body) \/ unterminated w.
Proof. exact quote_split. Qed.
Print Assumptions C10_cases_exhaustive.
Theorem C10_result_is_quoted_body : forall w n r p,
  parse_terminal (outer w n) = (Ok r, p) ->
  quoted_body r /\ exists rest, w = 34%N :: r ++ 34%N :: rest /\ p = outer rest (n + length r + 2).
Proof. exact parse_terminal_inv. Qed.
Print Assumptions C10_result_is_quoted_body.
(** The terminal that matches a lone quote char cannot be written. *)
Theorem C10_lone_quote_inexpressible : forall w n p, parse_terminal (outer w n) <> (Ok [34%N], p).
Proof.
  intros w n p H. apply parse_terminal_inv in H as [Hq _]. inversion Hq; congruence.
Qed.
Print Assumptions C10_lone_quote_inexpressible.
Example C10_example : quoted_body (lit "say \""hi\"" \\").
Proof. repeat first [apply qb_nil | apply qb_esc | apply qb_plain; [discriminate|discriminate|]]. Qed.
