(** * Property theorems: where a malformed rule text is rejected (C67).
    The specification is [begins] and [names_char] of SpecPoints.v over the syntax of
    SpecRules.v. *)
From Verif Require Import Base Peekables Tree Errors ParseFuncs ParserData Vm SimpleStackVm StackVm RuleParsing
  SpecText SpecData SpecGrammar SpecRules SpecContract SpecPoints Streams_proofs ParseFuncs_proofs Terminal_proofs VmText_proofs
  RuleText_proofs RuleRead_proofs RuleBuild_proofs Weave_proofs VmPoints_proofs RuleErr_proofs Props_rules Props_custom Samples.

Notation at_ w n pd := (mkRP (outer w n) pd).
Lemma begins_shorter {U : Unicode} {I} (reads : str -> str -> list I -> Prop) a b : begins reads (a ++ b) -> begins reads a.
Proof. intros (rs & more & H). exists rs, (b ++ more). rewrite app_assoc. assumption. Qed.
Lemma begins_takes {U : Unicode} {I} (reads : str -> str -> list I -> Prop) t i j : i <= j -> begins reads (take j t) -> begins reads (take i t).
Proof.
  intros Hij H. rewrite <- (take_drop i (take j t)) in H. apply begins_shorter in H. rewrite take_take, Nat.min_l in H by assumption. assumption.
Qed.

Section points.
Context {U : Unicode} {H : HashOrder} (vm : VM) (reads : str -> str -> list (vm_instr vm) -> Prop)
  (Hvm : vm_reads vm reads) (Hvp : vm_points vm reads).
Notation data vm rs := (fold_left (build_rule vm) rs pd_new).
(** A rejection with a position comes from reading, at the end of what was read. *)
Lemma rejected_reading t e s k : parse_rules_fn vm (rp_new vm t) = (Err e, s) -> error_position e = Some k ->
  exists pre w', t = pre ++ w' /\ k = length pre /\
    (forall w2, same_next w' w2 \/ is_hash_error e = true -> exists s2, rules_loop vm (S (length (pre ++ w2))) (at_ (pre ++ w2) 0 pd_new) = (Err e, s2)) /\
    stuck vm reads (begins reads) e pre w'.
Proof.
  intros E Hk. rewrite parse_rules_split in E.
  destruct (rloop_reads vm reads Hvm Hvp (length t) 0 t pd_new (le_n _)) as (r & pre & w' & pd' & Er & Ht & Ho & Hr).
  unfold rloop in Er. change (r_size vm (at_ t 0 pd_new)) with (length t) in Er. rewrite Er in E.
  destruct r as [u|e'| |]; [|injection E as <- <-|contradiction..].
  - exfalso. destruct (rules_loop_runs vm reads Hvm (S (length t)) 0 t pd_new ltac:(lia)) as (r2 & pre2 & w2 & pd2 & E2 & _ & Hr2).
    rewrite Er in E2. injection E2 as <- _ _ ->. destruct Hr2 as (_ & rs & _ & ->). cbn [rp_pd] in E.
    pose proof (edit_rules_spec (data vm rs) (data_wf vm rs) (data_indices vm rs)) as He.
    destruct (edit_rules vm (data vm rs)) as [pd3|e3| |] eqn:Ee; try discriminate; try contradiction. injection E as -> _.
    destruct He as (A & nr & ig & HA & Hig & Hc).
    pose proof (check_spec (data vm rs) ig A (data_wf vm rs) (data_indices vm rs) (proj2 (data_indices vm rs) A nr ig HA Hig)) as Hs. rewrite Hc in Hs.
    destruct Hs as (x & u1 & v & -> & _). discriminate.
  - exists pre, w'. destruct Hr as [He Hs]. unfold error_at in He. rewrite Hk in He. split; [assumption|]. split; [assumption|]. split.
    + intros w2 Hw2. eexists. change (length (pre ++ w2)) with (r_size vm (at_ (pre ++ w2) 0 (pd_new (I := vm_instr vm)))). apply (Ho w2). exact Hw2.
    + eapply stuck_weaken; [exact Hs|]. intros p (_ & more & rs & Hg). exists rs, more. assumption.
Qed.
End points.

(** ** C67.  The position of a rejection is the length of the longest prefix of the text that
    can be continued to a rule text - one more if a '#' follows other elements, the one error
    that is raised behind the offending char. *)
Theorem C67_longest_viable_prefix : forall (U : Unicode) (H : HashOrder) (vm : VM) reads t e s k,
  vm_reads vm reads -> vm_points vm reads -> tables_disjoint ->
  parse_rules_fn vm (rp_new vm t) = (Err e, s) -> error_position e = Some k ->
  forall j, j <= length t -> (begins reads (take j t) <-> if is_hash_error e then j < k else j <= k).
Proof.
  intros U H vm reads t e s k Hvm Hvp Hd E Hk j Hj. destruct (rejected_reading vm reads Hvm Hvp t e s k E Hk) as (pre & w' & -> & -> & Ho & _ & Hs).
  assert (forall w2, same_next w' w2 \/ is_hash_error e = true -> ~ exists rs, grammar_text reads rs (pre ++ w2)) as Hno.
  { intros w2 Hw2 [rs Hg]. destruct (Ho w2 Hw2) as [s2 E2]. rewrite (rules_loop_eq vm Hd reads Hvm rs _ Hg) in E2 by lia. discriminate. }
  destruct (is_hash_error e).
  - destruct Hs as (pre0 & -> & Hb). rewrite app_length. cbn [length]. split.
    + intros Hbj. destruct (decide (j < length pre0 + 1)) as [?|Hge]; [assumption|]. exfalso.
      apply (begins_takes _ _ (length (pre0 ++ [35%N])) j) in Hbj; [|rewrite app_length; cbn; lia]. rewrite take_app in Hbj.
      destruct Hbj as (rs & more & Hg). apply (Hno more); [auto|eauto].
    + intros Hlt. apply (begins_takes _ _ j (length pre0)); [lia|]. rewrite <- app_assoc, take_app. assumption.
  - specialize (Hs ltac:(congruence)). split.
    + intros Hbj. destruct (decide (j <= length pre)) as [?|Hge]; [assumption|]. exfalso. rewrite app_length in Hj.
      destruct w' as [|c w']; [cbn in Hj; lia|]. apply (begins_takes _ _ (length (pre ++ [c])) j) in Hbj; [|rewrite app_length; cbn; lia].
      replace (pre ++ c :: w') with ((pre ++ [c]) ++ w') in Hbj by (rewrite <- app_assoc; reflexivity). rewrite take_app in Hbj.
      destruct Hbj as (rs & more & Hg). rewrite <- app_assoc in Hg. apply (Hno ([c] ++ more)); [left; apply same_next_cons|eauto].
    + intros Hle. apply (begins_takes _ _ j (length pre)); [assumption|]. rewrite take_app. assumption.
Qed.
Print Assumptions C67_longest_viable_prefix.
(** The char an error names is the char at its position; "end of chars" is reported at the end
    of the text or in front of the brace that closes a section. *)
Theorem C67_reported_char : forall (U : Unicode) (H : HashOrder) (vm : VM) reads t e s k,
  vm_reads vm reads -> vm_points vm reads ->
  parse_rules_fn vm (rp_new vm t) = (Err e, s) -> error_position e = Some k ->
  k <= length t /\
  match e with
  | UnexpectedCharError c _ _ => t !! k = Some c
  | EndOfCharsError _ => k = length t \/ t !! k = Some 125%N
  | GramError (UnexpectedElementError ReasonEmptyWithOthers _) => exists j, k = S j /\ t !! j = Some 35%N
  | _ => True
  end.
Proof.
  intros U H vm reads t e s k Hvm Hvp E Hk. destruct (rejected_reading vm reads Hvm Hvp t e s k E Hk) as (pre & w' & -> & -> & _ & [Hc _] & Hs).
  split; [rewrite app_length; lia|].
  assert (forall c, head w' = Some c -> (pre ++ w') !! length pre = Some c) as Hhead.
  { intros c Hh. rewrite lookup_app_r, Nat.sub_diag by lia. destruct w'; [discriminate|]. exact Hh. }
  destruct e as [c| |[| | | | | |[] ?| | | ]| | | | | |]; cbn in Hc, Hs |- *; auto.
  - destruct Hc as [->|Hc]; [left; rewrite app_nil_r; reflexivity|right; auto].
  - destruct Hs as (pre0 & -> & _). exists (length pre0). rewrite app_length. split; [cbn; lia|]. rewrite <- app_assoc, lookup_app_r, Nat.sub_diag by lia. reflexivity.
Qed.
Print Assumptions C67_reported_char.
(** The VMs of the crate are covered. *)
Theorem C67_crate_vms : forall (U : Unicode) m,
  vm_points NullVm null_reads /\ vm_points (CountingVm m) counting_reads /\
  vm_points (SimpleStackVm m) simple_reads /\ vm_points (StackVm m) stack_reads.
Proof. intros U m. auto using null_points, counting_points, simple_points, stack_points. Qed.
Print Assumptions C67_crate_vms.

(** ** C77.  What an error suggests fits: every char named in the hint continues what was read
    in front of the error. *)
Theorem C77_hints_fit : forall (U : Unicode) (H : HashOrder) (vm : VM) reads t c k expected s,
  vm_reads vm reads -> vm_points vm reads -> vm_hints vm reads ->
  parse_rules_fn vm (rp_new vm t) = (Err (UnexpectedCharError c k expected), s) ->
  ((exists d, expected = [d]) \/ expected = lit "alphabetic character" \/ expected = lit "digit expected") /\
  forall d, suggests expected d -> begins reads (take k t ++ [d]).
Proof.
  intros U H vm reads t c k ex s Hvm Hvp Hvh E.
  destruct (rejected_reading vm reads Hvm Hvp t _ s k E eq_refl) as (pre & w' & -> & -> & _ & [_ Hi] & _).
  destruct (Hi Hvh ex eq_refl) as [H1 H2]. split; [exact H1|]. rewrite take_app. exact H2.
Qed.
Print Assumptions C77_hints_fit.
(** Following the hint - the suggested char put in front of, or in place of, the offending one -
    moves the error on: a text with this start is never rejected at or before the old position. *)
Theorem C77_progress : forall (U : Unicode) (H : HashOrder) (vm : VM) reads t c k expected s d more e' s' k',
  vm_reads vm reads -> vm_points vm reads -> vm_hints vm reads -> tables_disjoint ->
  parse_rules_fn vm (rp_new vm t) = (Err (UnexpectedCharError c k expected), s) -> suggests expected d ->
  parse_rules_fn vm (rp_new vm (take k t ++ [d] ++ more)) = (Err e', s') -> error_position e' = Some k' ->
  k < k'.
Proof.
  intros U H vm reads t c k ex s d more e' s' k' Hvm Hvp Hvh Hd E Hs E' Hk'.
  destruct (C77_hints_fit U H vm reads t c k ex s Hvm Hvp Hvh E) as [_ Hf]. specialize (Hf d Hs).
  destruct (C67_reported_char U H vm reads t _ s k Hvm Hvp E eq_refl) as [Hle _].
  assert (length (take k t) = k) as Hlen by (apply take_length_le; assumption).
  pose proof (C67_longest_viable_prefix U H vm reads _ e' s' k' Hvm Hvp Hd E' Hk' (k + 1)) as Hv.
  rewrite !app_length, Hlen in Hv. cbn [length] in Hv. specialize (Hv ltac:(lia)). destruct Hv as [Hv _].
  assert (take (k + 1) (take k t ++ [d] ++ more) = take k t ++ [d]) as Ht.
  { rewrite app_assoc. replace (k + 1) with (length (take k t ++ [d])) by (rewrite app_length, Hlen; reflexivity). apply take_app. }
  rewrite Ht in Hv. specialize (Hv Hf). destruct (is_hash_error e'); lia.
Qed.
Print Assumptions C77_progress.
Theorem C77_crate_vms : forall (U : Unicode) m, tables_disjoint ->
  vm_hints NullVm null_reads /\ vm_hints (CountingVm m) counting_reads /\
  vm_hints (SimpleStackVm m) simple_reads /\ vm_hints (StackVm m) stack_reads.
Proof. intros U m Hd. auto using null_hints, counting_hints, simple_hints, stack_hints. Qed.
Print Assumptions C77_crate_vms.
(** The hint is not complete: behind "a->b " only ';' is suggested, although '|' (and '{', a
    quote or a letter) continue the text as well. *)
Theorem C77_all_continuations_refuted : exists (t : str) c k expected d,
  fst (@parse_rules_fn ascii_unicode plain_order NullVm (rp_new NullVm t)) = Err (UnexpectedCharError c k expected) /\
  @begins ascii_unicode _ (@null_reads) (take k t ++ [d]) /\ ~ @suggests ascii_unicode expected d.
Proof.
  exists (lit "a->b !"), 33%N, 5, (lit ";"), 124%N. split; [vm_compute; reflexivity|]. split.
  2: { intros [Hd|[[Hd _]|[Hd _]]]; discriminate. }
  exists [mkARule (lit "a") OvAbsent [[(lit "b", NonTerminal)]; []] []], (lit "#;").
  change ((take 5 (lit "a->b !") ++ [124%N]) ++ lit "#;") with ([] ++ (lit "a->b |#;") ++ []).
  constructor; [constructor| |constructor; constructor].
  apply (rule_intro _ (mkARule (lit "a") OvAbsent [[(lit "b", NonTerminal)]; []] []) [] [] [] [] [] [] (lit "b |#") []); try constructor.
  - reflexivity.
  - constructor.
  - apply (alts_cons [(lit "b", NonTerminal)] (lit "b") (lit " ") [] [[]] (lit "#")); [| | |repeat constructor].
    + repeat constructor.
    + repeat constructor.
    + constructor.
Qed.
Print Assumptions C77_all_continuations_refuted.

(** ** Cases that meet the hypotheses *)
(** A second rule whose arrow is mistyped: "a->b;c=d" is rejected at the '='. *)
Example C67_char_example :
  fst (@parse_rules_fn ascii_unicode plain_order NullVm (rp_new NullVm (lit "a->b;c=d"))) = Err (UnexpectedCharError 61%N 6 (lit "-")).
Proof. vm_compute. reflexivity. Qed.
(** '#' behind an element: reported behind the '#'. *)
Example C67_hash_example :
  fst (@parse_rules_fn ascii_unicode plain_order NullVm (rp_new NullVm (lit "a->b # ;"))) = Err (GramError (UnexpectedElementError ReasonEmptyWithOthers 6)).
Proof. vm_compute. reflexivity. Qed.
(** Inside an instruction section, with escapes, braces and a missing operand. *)
Example C67_section_example :
  fst (@parse_rules_fn ascii_unicode plain_order (@StackVm ascii_unicode Checked) (rp_new (@StackVm ascii_unicode Checked) (lit "a->""x""{Add; Pow};"))) = Err (EndOfCharsError 15).
Proof. vm_compute. reflexivity. Qed.
(** An alternative is missing; the text ends in an unterminated quote. *)
Example C67_alternative_example :
  fst (@parse_rules_fn ascii_unicode plain_order NullVm (rp_new NullVm (lit "a->b | ;"))) = Err (GramError (UnexpectedElementError ReasonNoElements 7)) /\
  fst (@parse_rules_fn ascii_unicode plain_order NullVm (rp_new NullVm (lit "a->b ""c;"))) = Err (EndOfCharsError 8).
Proof. vm_compute. split; reflexivity. Qed.
Example C67_tables : @tables_disjoint ascii_unicode.
Proof. exact ascii_tables. Qed.

(** C77: a mistyped arrow, a name that starts with a digit, a section with a wrong operand; and
    the error after the last one was "repaired" with a digit is further on. *)
Example C77_hint_example :
  fst (@parse_rules_fn ascii_unicode plain_order (@StackVm ascii_unicode Checked) (rp_new (@StackVm ascii_unicode Checked) (lit "a=>b;"))) = Err (UnexpectedCharError 61%N 1 (lit "-")) /\
  fst (@parse_rules_fn ascii_unicode plain_order (@StackVm ascii_unicode Checked) (rp_new (@StackVm ascii_unicode Checked) (lit "1->b;"))) = Err (UnexpectedCharError 49%N 0 alphabetic_hint) /\
  fst (@parse_rules_fn ascii_unicode plain_order (@StackVm ascii_unicode Checked) (rp_new (@StackVm ascii_unicode Checked) (lit "a->b{Pow !;};"))) = Err (UnexpectedCharError 33%N 9 digit_hint) /\
  fst (@parse_rules_fn ascii_unicode plain_order (@StackVm ascii_unicode Checked) (rp_new (@StackVm ascii_unicode Checked) (lit "a->b{Pow 7!;};"))) = Err (UnexpectedCharError 33%N 10 (lit ";")).
Proof. vm_compute. repeat split. Qed.
Example C77_vms_example : @vm_reads ascii_unicode (@StackVm ascii_unicode Checked) (@stack_reads ascii_unicode) /\
  @vm_points ascii_unicode (@StackVm ascii_unicode Checked) (@stack_reads ascii_unicode) /\ @vm_hints ascii_unicode (@StackVm ascii_unicode Checked) (@stack_reads ascii_unicode).
Proof. split; [apply stack_vm_reads|]. split; [apply stack_points|]. apply stack_hints, ascii_tables. Qed.
