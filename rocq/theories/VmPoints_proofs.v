(** * Where the VMs of the crate stop reading an instruction section *)
From Verif Require Import Base Peekables Tree Errors ParseFuncs ParserData Vm SimpleStackVm StackVm RuleParsing
  SpecText SpecData SpecGrammar SpecRules SpecContract SpecPoints Streams_proofs ParseFuncs_proofs Terminal_proofs VmText_proofs.

Lemma same_next_app a b p : same_next a b -> same_next (p ++ a) (p ++ b).
Proof. intros [Ha Hh]. destruct p as [|c p]; [split; assumption|]. split; [discriminate|reflexivity]. Qed.
Lemma same_next_cons c a b : same_next (c :: a) (c :: b).
Proof. split; [discriminate|reflexivity]. Qed.
Lemma not_starting_next P a b : same_next a b -> not_starting P a -> not_starting P b.
Proof. intros [Ha Hh] Hs. destruct a as [|c a]; [congruence|]. destruct b as [|d b]; [exact Logic.I|]. cbn in *. injection Hh as ->. assumption. Qed.
Lemma seen_next a b : same_next a b -> seen b = seen a.
Proof. intros [Ha Hh]. destruct a as [|c a]; [congruence|]. destruct b as [|d b]; [discriminate|]. cbn in *. injection Hh as ->. reflexivity. Qed.
Lemma not_starting_app P a b : not_starting P (a ++ b) -> not_starting P a.
Proof. destruct a; [intros _; exact Logic.I|]. cbn. auto. Qed.

Section vms.
Context {U : Unicode}.

(** ** VMs that drain the section *)
Lemma brace_free_continue body : stops_between 125 92 body [] -> exists more, brace_free (body ++ more) /\ (body = [] -> more = []).
Proof.
  intros [Hb _]. destruct (decide (last body = Some 92%N)) as [Hl|Hl].
  - exists [32%N]. split; [|intros ->; discriminate]. split.
    + intros i Hi. destruct (decide (i < length body)) as [Hlt|Hge].
      * rewrite lookup_app_l in Hi by assumption. destruct (Hb i Hi) as (j & -> & Hj). exists j. split; [reflexivity|]. rewrite lookup_app_l by lia. assumption.
      * rewrite lookup_app_r in Hi by lia. destruct (i - length body) as [|k]; [discriminate|]. destruct k; discriminate.
    + right. split; [reflexivity|]. rewrite last_snoc. discriminate.
  - exists []. rewrite app_nil_r. split; [|reflexivity]. split; [assumption|]. right. auto.
Qed.
Lemma drained_points vm (reads : str -> str -> list (vm_instr vm) -> Prop) (f : str -> list (vm_instr vm)) :
  (forall name p, vm_parse_instructions vm (PP str) (pp_tp base_tp) name p
     = (let '(r, p1) := drain_all (pp_tp base_tp) p in (let* _u := r in Ok (f name), p1))) ->
  (forall name body, brace_free body -> reads name body (f name)) -> vm_points vm reads.
Proof.
  intros Hparse Hreads name w n Hw. destruct (stops_split_exists 125 92 w) as (body & rest & -> & Hst).
  destruct (drain_all_spec body rest n Hst) as [flag Hd]. rewrite Hparse, Hd. cbn [obind].
  eexists _, _, body, rest. split; [reflexivity|]. split; [reflexivity|]. split; [reflexivity|]. split.
  - intros rest2 [Hne Hh]. assert (stops_between 125 92 body rest2) as Hst2.
    { destruct Hst as [H1 [H2|[H2 H3]]]; [congruence|]. split; [assumption|]. right. rewrite Hh. auto. }
    destruct (drain_all_spec body rest2 n Hst2) as [flag2 Hd2]. rewrite Hparse, Hd2. cbn [obind]. eexists. split; reflexivity.
  - cbn. assert (stops_between 125 92 body []) as H0 by (destruct Hst as [H1 _]; split; [assumption|auto]).
    destruct (brace_free_continue body H0) as (more & Hm & He). exists more, (f name). split; [|apply Hreads; assumption].
    destruct body as [|c body]; [rewrite (He eq_refl); exact Logic.I|exact Hw].
Qed.
Lemma drained_hints vm (reads : str -> str -> list (vm_instr vm) -> Prop) (f : str -> list (vm_instr vm)) :
  (forall name p, vm_parse_instructions vm (PP str) (pp_tp base_tp) name p
     = (let '(r, p1) := drain_all (pp_tp base_tp) p in (let* _u := r in Ok (f name), p1))) ->
  (forall name body, brace_free body -> reads name body (f name)) -> vm_hints vm reads.
Proof.
  intros Hparse Hreads name w n r g pre rest Hw E Eg Ew. destruct (stops_split_exists 125 92 w) as (body & rest' & -> & Hst).
  destruct (drain_all_spec body rest' n Hst) as [flag Hd]. rewrite Hparse, Hd in E. cbn [obind] in E. injection E as <- <-.
  cbn in Eg. injection Eg as <- _. apply app_inv_tail in Ew as ->. intros Hne. exists (f name). apply Hreads.
  destruct Hst as [H1 [H2|[H2 H3]]]; [congruence|]. split; [assumption|]. right. auto.
Qed.
Lemma null_hints : vm_hints NullVm null_reads.
Proof. apply (drained_hints NullVm null_reads (fun _ => [0%N])); [intros; reflexivity|]. intros name body Hb. split; [assumption|reflexivity]. Qed.
Lemma simple_hints m : vm_hints (SimpleStackVm m) simple_reads.
Proof. apply (drained_hints (SimpleStackVm m) simple_reads simple_instrs); [intros; reflexivity|]. intros name body Hb. split; [assumption|reflexivity]. Qed.
Lemma counting_hints m : vm_hints (CountingVm m) counting_reads.
Proof.
  intros name w n r g pre rest Hw E Eg Ew. cbn in E. unfold counting_parse in E. injection E as <- <-. cbn in Eg. injection Eg as <- Hp.
  intros _. exists [0%N]. split; [|reflexivity]. destruct pre; [reflexivity|cbn in Hp; lia].
Qed.
Lemma null_points : vm_points NullVm null_reads.
Proof. apply (drained_points NullVm null_reads (fun _ => [0%N])); [intros; reflexivity|]. intros name body Hb. split; [assumption|reflexivity]. Qed.
Lemma simple_points m : vm_points (SimpleStackVm m) simple_reads.
Proof. apply (drained_points (SimpleStackVm m) simple_reads simple_instrs); [intros; reflexivity|]. intros name body Hb. split; [assumption|reflexivity]. Qed.
Lemma counting_points m : vm_points (CountingVm m) counting_reads.
Proof.
  intros name w n Hw. cbn. unfold counting_parse. eexists _, _, [], w. split; [reflexivity|]. cbn. rewrite Nat.add_0_r.
  split; [reflexivity|]. split; [reflexivity|]. split; [eauto|]. exists [], [0%N]. split; [exact Logic.I|]. split; reflexivity.
Qed.

(** ** StackVm *)
Notation T := (pp_tp base_tp).
(** a run of [m] on [w] at [n], and on every text with the same read part and next char *)
Definition nruns {A} (m : str -> st (PP (PP str)) ParserError A) (n : nat) (w : str)
    (r : outcome ParserError A) (pre rest : str) : Prop :=
  w = pre ++ rest /\ forall rest2, rest2 = rest \/ same_next rest rest2 -> forall p, nv p n (pre ++ rest2) ->
    exists p', m (pre ++ rest2) p = (r, p') /\ nv p' (n + length pre) rest2.
(* a name that fails *)
Lemma name_points n w : not_starting (fun c => is_alphabetic c = true) w ->
  exists e, nruns (fun _ => parse_var_name T) n w (Err e) [] w /\ error_position e <> None /\ names_char e w /\ is_hash_error e = false /\
    (forall ex, hint_of e = Some ex -> ex = alphabetic_hint).
Proof.
  intros Hw.
  exists (match seen w with None => EndOfCharsError n | Some c => UnexpectedCharError c n (lit "alphabetic character") end).
  split; [split; [reflexivity|]|].
  - intros rest2 Hr p Hp. cbn [app length] in *. rewrite Nat.add_0_r. unfold parse_var_name. destruct (nv_peek _ _ _ Hp) as (p1 & -> & H1).
    rewrite (nv_pos _ _ _ Hp), (nv_pos _ _ _ H1).
    assert (seen rest2 = seen w) as -> by (destruct Hr as [->|Hr]; [reflexivity|apply seen_next, Hr]).
    unfold seen. destruct w as [|c w]; [eauto|]. destruct (N.eqb c 125); [eauto|].
    cbn in Hw. destruct (is_alphabetic c); [congruence|]. cbn. eauto.
  - unfold seen. destruct w as [|c w]; cbn; [split; [discriminate|]; split; [auto|split; [reflexivity|congruence]]|].
    destruct (N.eqb_spec c 125) as [->|]; cbn; (split; [discriminate|]; split; [auto|split; [reflexivity|congruence]]).
Qed.
Lemma symbol_points c n w : c <> 125%N -> c <> 92%N -> head w <> Some c ->
  exists e, nruns (fun _ => parse_symbol T c) n w (Err e) [] w /\ error_position e <> None /\ names_char e w /\ is_hash_error e = false /\
    (forall ex, hint_of e = Some ex -> ex = [c]).
Proof.
  intros E1 E2 Hw.
  exists (match seen w with None => EndOfCharsError n | Some d => UnexpectedCharError d n [c] end).
  split; [split; [reflexivity|]|].
  - intros rest2 Hr p Hp. cbn [app length] in *. rewrite Nat.add_0_r. unfold parse_symbol. destruct (nv_peek _ _ _ Hp) as (p1 & -> & H1).
    rewrite (nv_pos _ _ _ H1).
    assert (seen rest2 = seen w) as -> by (destruct Hr as [->|Hr]; [reflexivity|apply seen_next, Hr]).
    unfold seen. destruct w as [|d w]; [eauto|]. destruct (N.eqb d 125); [eauto|].
    destruct (N.eqb_spec d c) as [->|]; [cbn in Hw; congruence|]. eauto.
  - unfold seen. destruct w as [|d w]; cbn; [split; [discriminate|]; split; [auto|split; [reflexivity|congruence]]|].
    destruct (N.eqb_spec d 125) as [->|]; cbn; (split; [discriminate|]; split; [auto|split; [reflexivity|congruence]]).
Qed.
(** a suggested digit: an operand, or part of a longer name *)
Lemma operand_digit x k l c (w : str) : (x, k) ∈ operand_names -> valid_name x -> blank l -> not_starting namechar (l ++ w) -> digit_char c ->
  exists is, instr_text is (x ++ l ++ [c]).
Proof.
  intros Hk Hx Hl Hw Hc. assert (dec_value [c] < 2 ^ 64)%N as Hv by (unfold digit_char in Hc; cbn; lia).
  destruct l as [|b l].
  - destruct (decide (namechar c)) as [Hn|Hn].
    + exists []. cbn [app]. apply in_unknown.
      * destruct x as [|d x]; [contradiction|]. destruct Hx as [H1 H2]. split; [assumption|]. apply Forall_app. split; [assumption|]. apply Forall_singleton. assumption.
      * unfold operand_names in Hk. intros Hin. cbn in Hin.
        repeat (apply elem_of_cons in Hk as [Hk|Hk]; [injection Hk as -> ->; cbn in Hin; repeat (apply elem_of_cons in Hin as [Hin|Hin]; [discriminate Hin|]); inversion Hin|]); inversion Hk.
      * unfold operand_names in Hk. intros Hin. cbn in Hin.
        repeat (apply elem_of_cons in Hk as [Hk|Hk]; [injection Hk as -> ->; cbn in Hin; repeat (apply elem_of_cons in Hin as [Hin|Hin]; [discriminate Hin|]); inversion Hin|]); inversion Hk.
    + exists [k (dec_value [c])]. apply in_operand; [assumption|constructor|exact Hn|discriminate|apply Forall_singleton; assumption|assumption].
  - exists [k (dec_value [c])]. apply in_operand; [assumption|assumption|exact Hw|discriminate|apply Forall_singleton; assumption|assumption].
Qed.
(** after the name of an instruction *)
Lemma one_points x n w acc : valid_name x -> not_starting namechar w ->
  exists r pre rest, nruns (fun _ => one_instruction T x acc) n w r pre rest /\
    match r with
    | Ok is => exists is', is = acc ++ is' /\ instr_text is' (x ++ pre)
    | Err e => (error_position e <> None -> exists more is, instr_text is (x ++ pre ++ more)) /\ names_char e rest /\ is_hash_error e = false /\
        (forall ex, hint_of e = Some ex -> ex = digit_hint /\ forall c, digit_char c -> exists is, instr_text is (x ++ pre ++ [c]))
    | Panic | Diverge => False
    end.
Proof.
  intros Hx Hw. destruct (one_instruction_cases x) as [(i & Hi & E)|[(k & k' & Hk & Hkk & E)|(H1 & H2 & E)]].
  - exists (Ok (acc ++ [i])), [], w. split.
    + split; [reflexivity|]. intros rest2 Hr p Hp. rewrite E. cbn in *. rewrite Nat.add_0_r. eexists. split; [reflexivity|assumption].
    + exists [i]. split; [reflexivity|]. rewrite app_nil_r. apply in_plain. assumption.
  - destruct (span_exists white w) as (l & w1 & -> & Hl & Hw1). destruct (span_exists digit_char w1) as (ds & w2 & -> & Hds & Hw2).
    eexists (match ds with
       | [] => match seen w2 with Some c => Err (UnexpectedCharError c (n + length l) (lit "digit expected")) | None => Err (EndOfCharsError (n + length l)) end
       | _ => if (dec_value ds <? 2 ^ 64)%N then Ok (acc ++ [k' (dec_value ds)]) else Err Impossible
       end), (l ++ ds), w2. split.
    + split; [rewrite <- app_assoc; reflexivity|]. intros rest2 Hr p Hp. rewrite E. unfold operand, sbind. rewrite <- app_assoc in Hp.
      assert (not_starting white (ds ++ rest2)) as Hn1.
      { destruct Hr as [->|Hr]; [assumption|]. eapply not_starting_next; [apply same_next_app; exact Hr|assumption]. }
      assert (not_starting digit_char rest2) as Hn2 by (destruct Hr as [->|Hr]; [assumption|eapply not_starting_next; eassumption]).
      assert (seen rest2 = seen w2) as Hs by (destruct Hr as [->|Hr]; [reflexivity|apply seen_next, Hr]).
      destruct (nv_whitespace p n l _ Hp Hl Hn1) as (p1 & -> & H1). destruct (nv_usize p1 _ ds rest2 H1 Hds Hn2) as (p2 & -> & H2).
      rewrite Hs. rewrite app_length, Nat.add_assoc.
      destruct ds as [|d ds]; [destruct (seen w2); eauto|]. destruct (dec_value (d :: ds) <? 2 ^ 64)%N; unfold sret; eauto.
    + destruct ds as [|d ds].
      * assert (exists more is, instr_text is (x ++ (l ++ []) ++ more)) as Hmore.
        { exists (lit " 0"), [k 0%N]. rewrite app_nil_r. change 0%N with (dec_value (lit "0")).
          replace (l ++ lit " 0") with ((l ++ lit " ") ++ lit "0") by (rewrite <- app_assoc; reflexivity).
          apply in_operand; [assumption| | |discriminate| |reflexivity].
          - apply Forall_app. split; [assumption|]. repeat constructor.
          - destruct l as [|c l]; [intros [?|?]; discriminate|exact Hw].
          - apply Forall_singleton. unfold digit_char. change (48 <= 48 <= 57)%N. lia. }
        assert (forall c, digit_char c -> exists is, instr_text is (x ++ (l ++ []) ++ [c])) as Hdig.
        { intros c Hc. rewrite app_nil_r. cbn in Hw. exact (operand_digit x k l c w2 Hk Hx Hl Hw Hc). }
        unfold seen. destruct w2 as [|c w2]; cbn; [split; [auto|]; split; [auto|split; [reflexivity|congruence]]|].
        destruct (N.eqb_spec c 125) as [->|]; cbn; (split; [auto|]; split; [auto|split; [reflexivity|]]); [congruence|].
        intros ex [= <-]. split; [reflexivity|exact Hdig].
      * destruct (N.ltb_spec (dec_value (d :: ds)) (2 ^ 64)) as [Hlt|Hge]; [|cbn; split; [congruence|]; split; [exact Logic.I|split; [reflexivity|congruence]]].
        rewrite Hkk by assumption. exists [k (dec_value (d :: ds))]. split; [reflexivity|].
        apply in_operand; [assumption|assumption| |discriminate|assumption|assumption]. rewrite app_assoc in Hw. destruct (l ++ d :: ds) eqn:El; [destruct l; discriminate|exact Hw].
  - exists (Ok acc), [], w. split.
    + split; [reflexivity|]. intros rest2 Hr p Hp. rewrite E. cbn in *. rewrite Nat.add_0_r. eexists. split; [reflexivity|assumption].
    + exists []. rewrite app_nil_r. split; [reflexivity|]. rewrite app_nil_r. apply in_unknown; assumption.
Qed.
Lemma valid_seen x y : valid_name x -> exists c, seen (x ++ y) = Some c.
Proof. destruct x as [|c x]; intros Hx; [contradiction|]. destruct Hx as [Hc _]. cbn. destruct (N.eqb_spec c 125) as [->|]; [discriminate|eauto]. Qed.
Lemma loop_points k : forall n w acc, length w <= k ->
  exists r pre rest, w = pre ++ rest /\
    (forall rest2, rest2 = rest \/ same_next rest rest2 -> forall fuel p, nv p n (pre ++ rest2) -> length (pre ++ rest2) < fuel ->
       exists p', stack_parse_loop T fuel acc p = (r, p') /\ nv p' (n + length pre) rest2) /\
    match r with
    | Ok _ => exists is, instrs_text is pre
    | Err e => (error_position e <> None -> exists more is, instrs_text is (pre ++ more)) /\ names_char e rest /\ is_hash_error e = false /\
        (forall ex, hint_of e = Some ex -> hint_known ex /\ forall c, suggests ex c ->
           (pre = [] -> is_alphabetic c = true) /\ exists more is, instrs_text is (pre ++ [c] ++ more))
    | Panic | Diverge => False
    end.
Proof.
  induction k as [|k IH]; intros n w acc Hk.
  { destruct w; [|cbn in Hk; lia]. exists (Ok acc), [], []. split; [reflexivity|]. split; [|exists []; constructor].
    intros rest2 [->|[? _]]; [|congruence]. intros [|f] p Hp Hf; [cbn in Hf; lia|]. cbn [stack_parse_loop]. destruct (nv_peek _ _ _ Hp) as (p1 & -> & H1).
    cbn. rewrite Nat.add_0_r. eauto. }
  destruct (seen w) as [c0|] eqn:Hseen.
  2: { exists (Ok acc), [], w. split; [reflexivity|]. split; [|exists []; constructor].
       intros rest2 Hr [|f] p Hp Hf; [lia|]. cbn [stack_parse_loop]. destruct (nv_peek _ _ _ Hp) as (p1 & -> & H1). cbn [app length] in *.
       assert (seen rest2 = None) as -> by (destruct Hr as [->|Hr]; [assumption|rewrite (seen_next _ _ Hr); assumption]). rewrite Nat.add_0_r. eauto. }
  destruct (name_split w) as [(x & w1 & -> & Hx & Hw1)|Hn].
  2: { destruct (name_points n w Hn) as (e & [_ He] & Hpos & Hch & Hh & Hhint). exists (Err e), [], w. split; [reflexivity|].
       split; [|split; [intros _; exists [], []; constructor|split; [assumption|split; [assumption|]]]].
       2: { intros ex Hex. rewrite (Hhint ex Hex). split; [right; left; reflexivity|]. intros c [Hc|[[_ Hc]|[Hc _]]]; [discriminate| |discriminate].
            split; [auto|]. exists (lit ";"), []. cbn [app]. apply (ins_cons [] [c] [] [] []); [|constructor|constructor].
            apply in_unknown; [split; [assumption|constructor]| |]; intros Hin; cbn in Hin; repeat (apply elem_of_cons in Hin as [Hin|Hin]; [discriminate Hin|]); inversion Hin. }
       intros rest2 Hr [|f] p Hp Hf; [lia|]. cbn [stack_parse_loop]. destruct (nv_peek _ _ _ Hp) as (p1 & -> & H1). cbn [app length] in *.
       assert (seen rest2 = Some c0) as -> by (destruct Hr as [->|Hr]; [assumption|rewrite (seen_next _ _ Hr); assumption]).
       unfold sbind at 1. destruct (He rest2 Hr p1 H1) as (p2 & -> & H2). eauto. }
  destruct (one_points x (n + length x) w1 acc Hx Hw1) as (r1 & pre1 & w2 & [-> H1] & Hr1).
  assert (forall rest2, same_next w2 rest2 -> not_starting namechar (pre1 ++ rest2)) as Hw1'.
  { intros rest2 Hr. eapply not_starting_next; [apply same_next_app; exact Hr|assumption]. }
  (* the run up to and including the instruction *)
  assert (forall rest2, rest2 = w2 \/ same_next w2 rest2 -> forall f p, nv p n (x ++ pre1 ++ rest2) ->
     exists p3, nv p3 (n + length x + length pre1) rest2 /\
       stack_parse_loop T (S f) acc p = match r1 with
         | Ok acc' => (do _u <- parse_symbol T 59; do _w <- parse_whitespace T; stack_parse_loop T f acc') p3
         | Err e => (Err e, p3) | Panic => (Panic, p3) | Diverge => (Diverge, p3) end) as Hrun.
  { intros rest2 Hr f p Hp. cbn [stack_parse_loop]. destruct (nv_peek _ _ _ Hp) as (p1 & -> & Hp1).
    destruct (valid_seen x (pre1 ++ rest2) Hx) as [c ->]. unfold sbind at 1.
    destruct (nv_var_name p1 n x (pre1 ++ rest2) Hp1 Hx) as (p2 & -> & Hp2).
    { destruct Hr as [->|Hr]; [assumption|apply Hw1'; assumption]. }
    unfold sbind at 1. destruct (H1 rest2 Hr p2 Hp2) as (p3 & -> & Hp3). exists p3. split; [assumption|]. destruct r1; reflexivity. }
  destruct r1 as [acc'|e| |]; try contradiction.
  2: { exists (Err e), (x ++ pre1), w2. split; [rewrite <- app_assoc; reflexivity|]. destruct Hr1 as (Hm & Hch & Hh & Hhint). split.
       - intros rest2 Hr [|f] p Hp Hf; [lia|]. rewrite <- app_assoc in Hp. destruct (Hrun rest2 Hr f p Hp) as (p3 & Hp3 & ->).
         exists p3. rewrite app_length, Nat.add_assoc. auto.
       - split; [|split; [assumption|split; [assumption|]]].
         2: { intros ex Hex. destruct (Hhint ex Hex) as [-> Hd]. split; [right; right; reflexivity|]. intros c [Hc|[[Hc _]|[_ Hc]]]; [discriminate..|].
              split; [intros Hnil; destruct x; [contradiction|discriminate]|]. destruct (Hd c Hc) as [is Hin]. exists (lit ";"), is.
              replace ((x ++ pre1) ++ [c] ++ lit ";") with ((x ++ pre1 ++ [c]) ++ lit ";" ++ [] ++ []) by (rewrite <- !app_assoc; reflexivity).
              rewrite <- (app_nil_r is). apply ins_cons; [assumption|constructor|constructor]. }
         intros Hpos. destruct (Hm Hpos) as (more & is & Hin). exists (more ++ lit ";"), is.
         replace ((x ++ pre1) ++ more ++ lit ";") with ((x ++ pre1 ++ more) ++ lit ";" ++ [] ++ []) by (rewrite <- !app_assoc; reflexivity).
         rewrite <- (app_nil_r is). apply ins_cons; [assumption|constructor|constructor]. }
  destruct Hr1 as (is' & -> & Hin). destruct (decide (head w2 = Some 59%N)) as [Hsemi|Hno].
  2: { destruct (symbol_points 59 (n + length x + length pre1) w2 ltac:(discriminate) ltac:(discriminate) Hno) as (e & [_ He] & Hpos & Hch & Hh & Hhint).
       exists (Err e), (x ++ pre1), w2. split; [rewrite <- app_assoc; reflexivity|]. split.
       - intros rest2 Hr [|f] p Hp Hf; [lia|]. rewrite <- app_assoc in Hp. destruct (Hrun rest2 Hr f p Hp) as (p3 & Hp3 & ->).
         unfold sbind at 1. destruct (He rest2 Hr p3 Hp3) as (p4 & -> & Hp4). exists p4. split; [reflexivity|]. cbn [length] in Hp4. rewrite Nat.add_0_r in Hp4.
         rewrite app_length, Nat.add_assoc. assumption.
       - split; [|split; [assumption|split; [assumption|]]].
         2: { intros ex Hex. rewrite (Hhint ex Hex). split; [left; eauto|]. intros c [Hc|[[Hc _]|[Hc _]]]; [|discriminate..]. injection Hc as <-.
              split; [intros Hnil; destruct x; [contradiction|discriminate]|]. exists [], is'.
              replace ((x ++ pre1) ++ [59%N] ++ []) with ((x ++ pre1) ++ lit ";" ++ [] ++ []) by reflexivity.
              rewrite <- (app_nil_r is'). apply ins_cons; [assumption|constructor|constructor]. }
         intros _. exists (lit ";"), is'.
         replace ((x ++ pre1) ++ lit ";") with ((x ++ pre1) ++ lit ";" ++ [] ++ []) by reflexivity.
         rewrite <- (app_nil_r is'). apply ins_cons; [assumption|constructor|constructor]. }
  destruct w2 as [|c w3]; [discriminate|]. injection Hsemi as ->.
  destruct (span_exists white w3) as (l & w4 & -> & Hl & Hw4).
  destruct (IH (n + length x + length pre1 + 1 + length l) w4 (acc ++ is')) as (r & pre & rest & -> & Hloop & Hr).
  { rewrite !app_length in Hk. cbn in Hk. rewrite app_length in Hk. lia. }
  exists r, (x ++ pre1 ++ lit ";" ++ l ++ pre), rest. split; [rewrite <- !app_assoc; reflexivity|]. split.
  - intros rest2 Hr2 [|f] p Hp Hf; [lia|]. rewrite <- !app_assoc in Hp.
    assert (lit ";" ++ l ++ pre ++ rest2 = 59%N :: l ++ pre ++ rest \/ same_next (59%N :: l ++ pre ++ rest) (lit ";" ++ l ++ pre ++ rest2)) as Hq
      by (right; apply same_next_cons).
    destruct (Hrun _ Hq f p Hp) as (p3 & Hp3 & ->). unfold sbind at 1.
    destruct (nv_symbol p3 _ _ 59 Hp3 ltac:(discriminate) ltac:(discriminate)) as [(w5 & p4 & E & -> & H4)|(Hh & _)]; [|exfalso; apply Hh; reflexivity].
    cbn in E. injection E as <-. unfold sbind. destruct (nv_whitespace p4 _ l _ H4 Hl) as (p5 & -> & H5).
    { destruct Hr2 as [->|Hr2]; [assumption|]. eapply not_starting_next; [apply same_next_app; exact Hr2|assumption]. }
    destruct (Hloop rest2 Hr2 f p5 H5) as (p' & -> & H').
    { rewrite !app_length in Hf. cbn in Hf. rewrite app_length. lia. }
    exists p'. split; [reflexivity|]. rewrite !app_length. cbn [length].
    match goal with H : nv p' ?a _ |- nv p' ?b _ => replace b with a by (cbn; lia) end. assumption.
  - destruct r as [is|e| |]; try contradiction.
    + destruct Hr as [is2 H2]. exists (is' ++ is2). rewrite app_assoc. apply ins_cons; assumption.
    + destruct Hr as (Hm & Hch & Hh & Hhint). split; [|split; [assumption|split; [assumption|]]].
      2: { intros ex Hex. destruct (Hhint ex Hex) as [Hkn Hs]. split; [assumption|]. intros c Hc. destruct (Hs c Hc) as (_ & more & is2 & H2).
           split; [intros Hnil; destruct x; [contradiction|discriminate]|]. exists more, (is' ++ is2).
           replace ((x ++ pre1 ++ lit ";" ++ l ++ pre) ++ [c] ++ more) with ((x ++ pre1) ++ lit ";" ++ l ++ (pre ++ [c] ++ more)) by (rewrite <- !app_assoc; reflexivity).
           apply ins_cons; assumption. }
      intros Hpos. destruct (Hm Hpos) as (more & is2 & H2). exists more, (is' ++ is2).
      replace ((x ++ pre1 ++ lit ";" ++ l ++ pre) ++ more) with ((x ++ pre1) ++ lit ";" ++ l ++ (pre ++ more)) by (rewrite <- !app_assoc; reflexivity).
      apply ins_cons; assumption.
Qed.
Lemma stack_points m : vm_points (StackVm m) stack_reads.
Proof.
  intros name w n Hw. cbn [vm_parse_instructions StackVm].
  destruct (loop_points (length w) n w [] (le_n _)) as (r & pre & rest & -> & Hloop & Hr).
  assert (forall rest2, rest2 = rest \/ same_next rest rest2 -> exists g, stack_parse (PP str) T name (brace_process (pre ++ rest2) n) = (r, g) /\ nv g (n + length pre) rest2) as Hrun.
  { intros rest2 Hr2. unfold stack_parse, sbind.
    destruct (nv_whitespace (brace_process (pre ++ rest2) n) n [] (pre ++ rest2) (nv_start _ n) ltac:(constructor)) as (p1 & -> & H1).
    { destruct Hr2 as [->|Hr2]; [assumption|]. eapply not_starting_next; [apply same_next_app; exact Hr2|assumption]. }
    cbn [length] in H1. rewrite Nat.add_0_r in H1. apply (Hloop rest2 Hr2); [assumption|]. rewrite (nv_size _ _ _ (nv_start _ n)). lia. }
  destruct (Hrun rest (or_introl eq_refl)) as (g & E & Hg). exists r, g, pre, rest. split; [assumption|].
  split; [destruct Hg as (flag & -> & _); reflexivity|]. split; [reflexivity|]. split.
  - intros rest2 Hr2. destruct (Hrun rest2 (or_intror Hr2)) as (g2 & E2 & (flag & -> & _)). eexists. split; [exact E2|reflexivity].
  - assert (forall more is, instrs_text is (pre ++ more) -> exists more' is', not_starting white (pre ++ more') /\ stack_reads name (pre ++ more') is') as Hc.
    { intros more is Hi. destruct pre as [|c pre].
      - exists [], []. split; [exact Logic.I|]. exists [], []. split; [constructor|]. split; [reflexivity|constructor].
      - exists more, is. split; [exact Hw|]. exists [], ((c :: pre) ++ more). split; [constructor|]. split; [reflexivity|assumption]. }
    cbn zeta. destruct r as [is|e| |]; try contradiction.
    + destruct Hr as [is2 H2]. apply (Hc [] is2). rewrite app_nil_r. assumption.
    + destruct Hr as (Hm & Hch & Hh & _). split; [|auto]. intros Hpos. destruct (Hm Hpos) as (more & is2 & H2). eapply Hc. exact H2.
Qed.
Lemma stack_hints m : tables_disjoint -> vm_hints (StackVm m) stack_reads.
Proof.
  intros Hdis name w n r0 g0 pre0 rest0 Hw E0 Eg0 Ew0. cbn [vm_parse_instructions StackVm] in E0.
  destruct (loop_points (length w) n w [] (le_n _)) as (r & pre & rest & -> & Hloop & Hr).
  assert (exists g, stack_parse (PP str) T name (brace_process (pre ++ rest) n) = (r, g) /\ nv g (n + length pre) rest) as (g & E & Hg).
  { unfold stack_parse, sbind.
    destruct (nv_whitespace (brace_process (pre ++ rest) n) n [] (pre ++ rest) (nv_start _ n) ltac:(constructor) Hw) as (p1 & -> & H1).
    cbn [length] in H1. rewrite Nat.add_0_r in H1. apply (Hloop rest (or_introl eq_refl)); [assumption|]. rewrite (nv_size _ _ _ (nv_start _ n)). lia. }
  rewrite E in E0. injection E0 as <- <-. destruct Hg as (flag & -> & _). injection Eg0 as <- _. apply app_inv_tail in Ew0 as <-.
  destruct r as [is|e| |]; [|destruct Hr as (_ & _ & _ & Hhint)|exact Logic.I..].
  - intros _. destruct Hr as [is2 H2]. exists is2, [], pre. split; [constructor|]. auto.
  - intros ex Hex. destruct (Hhint ex Hex) as [Hkn Hs]. split; [assumption|]. intros c Hc. destruct (Hs c Hc) as (Ha & more & is & Hi).
    exists more, is. split; [|exists [], (pre ++ [c] ++ more); split; [constructor|]; auto].
    destruct pre as [|d pre]; [|exact Hw]. intros Hwc. apply (Hdis c Hwc). left. unfold is_alphanumeric. rewrite (Ha eq_refl). reflexivity.
Qed.
End vms.
