(** * Property theorems: a static check of the stack heights (C114) *)
From Verif Require Import Base Peekables Tree Errors Sets ParserData Vm SimpleStackVm StackVm RuleParsing FirstSets FollowSets SteuerMap ScriptParser
  SpecText SpecData SpecGrammar SpecParser SpecTree SpecScript SpecContract SpecWeave SpecRules SpecNames SpecLanguage SpecIgnore SpecSyntax SpecEffect SpecFailed SpecVm SpecHeights Grammar_proofs Construct_proofs Checks Tree_proofs Script_proofs Parse_proofs
  Weave_proofs Names_proofs RuleBuild_proofs RuleText_proofs Language_proofs Ignore_proofs Accept_proofs Effect_proofs Failed_proofs Vm_proofs Heights_proofs Props_steuer Props_script Props_weave Props_rules Props_vm Props_names Props_language Props_errors Props_main Props_effect Props_failed Samples.

Lemma accepts_or_not {U : Unicode} {H : HashOrder} {m vm rs t ps} script : read_from m vm rs t ps ->
  (exists nt rest, accepts_prefix rs script nt rest) \/ forall nt rest, ~ accepts_prefix rs script nt rest.
Proof.
  intros Hr. destruct (read_from_built m vm rs t ps Hr) as (pd & pd' & st & fl & Hd & Hed & Hst & Hb & Hsz). apply built_spec in Hb as (Hwf & Hcon & Htab).
  destruct (pred_or_fails pd' st H ps st script Hwf Hcon Htab Hst (con_start _ _ Hcon)) as [(pt & rest & Hpr)|(stk & rest & Hf)].
  - left. exists (named pd' pt), rest. apply (accepts_pred script _ rest Hd Hed Hwf Hcon Hst). exists pt. split; [reflexivity|]. split; [|assumption]. apply pred_sound in Hpr. tauto.
  - right. intros nt rest' Ha. apply (accepts_pred script _ rest' Hd Hed Hwf Hcon Hst) in Ha as (pt & _ & _ & Hpr).
    eapply (fails_no_pred pd' st (con_disjoint pd' st Hcon) (wf_rules pd' Hwf)); eauto.
Qed.
Section machine.
Context {U : Unicode} {H : HashOrder} {vm : VM} (m : ovf_mode) (lo : Z) (view : vm_state vm -> mach) (opof : vm_instr vm -> op)
  (Hf : forall h n i s, SpecTree.grown h -> n < length h -> follows lo view m h n (opof i) s (vm_execute vm (snd (do_adds h tree_new)) (id_of n) i s)) (Hl : looks_down vm).
Context (R : nat -> nat -> Prop) (Rrefl : forall n, R n n) (Rle : forall a b, R a b -> a <= b) (Rmore : forall a b j, R a b -> R (a + j) (b + j))
  (Rthen : forall a b c d, R a b -> R c d -> R c (d + (b - a))).
Lemma parse_heights_gen rs t ps types : read_from m vm rs t ps ->
  (forall y i w, part_of rs (lit "start") y -> says rs y i w -> exists h, height (types y).1 (map (element_usage types) w ++ map (fun ins => usage (opof ins)) (instructions_for rs y)) = Some h /\ forall b, R h b -> R (types y).2 b) ->
  (forall y i w ins, part_of rs (lit "start") y -> says rs y i w -> ins ∈ instructions_for rs y -> opof ins = OPushChild -> exists b w' z, w = (b, Terminal) :: w' /\ reads_number lo b z) ->
  forall fuel script v v2 top bottom bottom2, (length script + 1) * length t <= fuel -> stack (view v) = top ++ bottom -> length top = (types (lit "start")).1 ->
  view v2 = stacked (view v) (top ++ bottom2) ->
  match parse vm ps fuel script v, parse vm ps fuel script v2 with
  | (Ok _, v'), (Ok _, v2') => exists top', stack (view v') = top' ++ bottom /\ R (types (lit "start")).2 (length top') /\ err (view v') = err (view v) /\ view v2' = stacked (view v') (top' ++ bottom2)
  | (Err e, v'), (Err e2, v2') => error_position e = error_position e2 /\ exists top', stack (view v') = top' ++ bottom /\ err (view v') = err (view v) /\ view v2' = stacked (view v') (top' ++ bottom2)
  | (Panic, _), (Panic, _) => True
  | _, _ => False
  end.
Proof.
  intros Hr Hfit Hnum fuel script v v2 top bottom bottom2 Hfuel Hs Hlen Hv2. destruct (accepts_or_not script Hr) as [(nt & rest & Ha)|Hno].
  - pose proof Ha as (Hd & Hroot & _).
    pose proof (part_framed m lo view opof Hf R Rrefl Rle Rmore Rthen rs types (lit "start") Hfit Hnum nt Hd ltac:(intros x Hx; rewrite Hroot in Hx; injection Hx as <-; apply rtc_refl)) as HF.
    rewrite Hroot in HF. cbn [element_usage] in HF. specialize (HF v top bottom Hs Hlen).
    destruct (C88_state_after_a_parse _ _ _ _ _ _ _ Hr Hl fuel script v Hfuel) as [A1 A2]. destruct (C88_state_after_a_parse _ _ _ _ _ _ _ Hr Hl fuel script v2 Hfuel) as [B1 B2].
    destruct (effect rs nt v) as [v'|[]| |] eqn:Ee; [| |contradiction].
    + destruct HF as (top' & S1 & S2 & S3 & S4). destruct (S4 bottom2 v2 Hv2) as (v2' & Ee2 & Hv2').
      destruct (proj2 (A1 v')) as [tr ->]; [exists nt, rest; auto|]. destruct (proj2 (B1 v2')) as [tr2 ->]; [exists nt, rest; auto|]. exists top'. auto.
    + pose proof (A2 nt rest Ha ltac:(intros ?; rewrite Ee; discriminate)) as E1. pose proof (B2 nt rest Ha ltac:(intros ?; rewrite (HF bottom2 v2 Hv2); discriminate)) as E2.
      destruct (parse vm ps fuel script v) as [[| | |] ?], (parse vm ps fuel script v2) as [[| | |] ?]; try discriminate. exact Logic.I.
  - destruct (C113_failed_parse _ _ _ _ _ _ _ Hr Hl script Hno) as (parts & read & rest & Hu & Hsc & Hp).
    destruct (unfinished_framed m lo view opof Hf R Rrefl Rle Rmore Rthen rs types (lit "start") Hfit Hnum _ _ _ Hu (rtc_refl _ _)) as [k HF]. specialize (HF v top bottom Hs Hlen).
    pose proof (Hp fuel v Hfuel) as P1. pose proof (Hp fuel v2 Hfuel) as P2. destruct (effect_all rs parts v) as [v'|[]| |]; [| |contradiction].
    + destruct HF as (top' & S1 & S2 & S3 & S4). destruct (S4 bottom2 v2 Hv2) as (v2' & Ee2 & Hv2'). rewrite Ee2 in P2. destruct P1 as (e & -> & E1), P2 as (e2 & -> & E2). split; [congruence|]. exists top'. auto.
    + rewrite (HF bottom2 v2 Hv2) in P2. destruct (parse vm ps fuel script v) as [[| | |] ?], (parse vm ps fuel script v2) as [[| | |] ?]; try discriminate. exact Logic.I.
Qed.
End machine.
Section machine_fit.
Context {U : Unicode} {H : HashOrder} {vm : VM} (m : ovf_mode) (lo : Z) (view : vm_state vm -> mach) (opof : vm_instr vm -> op)
  (Hf : forall h n i s, SpecTree.grown h -> n < length h -> follows lo view m h n (opof i) s (vm_execute vm (snd (do_adds h tree_new)) (id_of n) i s)) (Hl : looks_down vm).
Lemma parse_heights rs t ps types : read_from m vm rs t ps -> heights_fit opof lo rs types (lit "start") ->
  forall fuel script v v2 top bottom bottom2, (length script + 1) * length t <= fuel -> stack (view v) = top ++ bottom -> length top = (types (lit "start")).1 ->
  view v2 = stacked (view v) (top ++ bottom2) ->
  match parse vm ps fuel script v, parse vm ps fuel script v2 with
  | (Ok _, v'), (Ok _, v2') => exists top', stack (view v') = top' ++ bottom /\ length top' = (types (lit "start")).2 /\ err (view v') = err (view v) /\ view v2' = stacked (view v') (top' ++ bottom2)
  | (Err e, v'), (Err e2, v2') => error_position e = error_position e2 /\ exists top', stack (view v') = top' ++ bottom /\ err (view v') = err (view v) /\ view v2' = stacked (view v') (top' ++ bottom2)
  | (Panic, _), (Panic, _) => True
  | _, _ => False
  end.
Proof.
  intros Hr Hfit fuel script v v2 top bottom bottom2 Hfuel Hs Hlen Hv2.
  pose proof (parse_heights_gen m lo view opof Hf Hl (fun k l => l = k) ltac:(cbn beta; intros; lia) ltac:(cbn beta; intros; lia) ltac:(cbn beta; intros; lia) ltac:(cbn beta; intros; lia) rs t ps types Hr ltac:(intros y i w P1 P2; eexists; split; [exact (hf_heights _ _ _ _ _ Hfit y i w P1 P2)|auto])
    (hf_numbers _ _ _ _ _ Hfit) fuel script v v2 top bottom bottom2 Hfuel Hs Hlen Hv2) as Hx. exact Hx.
Qed.
Lemma parse_heights_ge rs t ps types : read_from m vm rs t ps -> heights_reach opof lo rs types (lit "start") ->
  forall fuel script v v2 top bottom bottom2, (length script + 1) * length t <= fuel -> stack (view v) = top ++ bottom -> length top = (types (lit "start")).1 ->
  view v2 = stacked (view v) (top ++ bottom2) ->
  match parse vm ps fuel script v, parse vm ps fuel script v2 with
  | (Ok _, v'), (Ok _, v2') => exists top', stack (view v') = top' ++ bottom /\ (types (lit "start")).2 <= length top' /\ err (view v') = err (view v) /\ view v2' = stacked (view v') (top' ++ bottom2)
  | (Err e, v'), (Err e2, v2') => error_position e = error_position e2 /\ exists top', stack (view v') = top' ++ bottom /\ err (view v') = err (view v) /\ view v2' = stacked (view v') (top' ++ bottom2)
  | (Panic, _), (Panic, _) => True
  | _, _ => False
  end.
Proof.
  intros Hr Hfit fuel script v v2 top bottom bottom2 Hfuel Hs Hlen Hv2.
  pose proof (parse_heights_gen m lo view opof Hf Hl le ltac:(cbn beta; intros; lia) ltac:(cbn beta; intros; lia) ltac:(cbn beta; intros; lia) ltac:(cbn beta; intros; lia) rs t ps types Hr
    ltac:(intros y i w P1 P2; destruct (hr_heights _ _ _ _ _ Hfit y i w P1 P2) as (h & Hh & Hle); exists h; split; [exact Hh|intros b Hb; lia])
    (hr_numbers _ _ _ _ _ Hfit) fuel script v v2 top bottom bottom2 Hfuel Hs Hlen Hv2) as Hx. exact Hx.
Qed.
End machine_fit.
Lemma stacked_id s : stacked s (stack s) = s.
Proof. destruct s. reflexivity. Qed.
Lemma stack_view_inj v v' : stack_view v = stack_view v' -> v = v'.
Proof. destruct v, v'. unfold stack_view. cbn. intros [=]. subst. f_equal. lia. Qed.
Lemma simple_view_inj v v' : simple_view v = simple_view v' -> v = v'.
Proof.
  destruct v, v'. unfold simple_view. cbn. intros [= E1 E2 E3 E4 E5]. assert (forall l l' : list N, map Z.of_N l = map Z.of_N l' -> l = l') as Hi.
  { induction l as [|a l IH]; intros [|b l'] E; try discriminate; [reflexivity|]. injection E as E E'. f_equal; [lia|auto]. }
  apply Hi in E1, E5. subst. f_equal; lia.
Qed.

(** With StackVm: if the check succeeds and the values announced are there, then no
    instruction, whatever the script, finds the stack too low or meets a text that is no number
    (the error register keeps its value); what is below is not touched; a parse that succeeds
    has exchanged the number of values announced. *)
Theorem C114_stack_machine : forall (U : Unicode) (H : HashOrder) m rs t ps types, read_from m (StackVm m) rs t ps ->
  heights_fit stack_op (- 2 ^ 63) rs types (lit "start") ->
  forall fuel script v top bottom, (length script + 1) * length t <= fuel -> ks_stack v = top ++ bottom -> length top = (types (lit "start")).1 ->
  match parse (StackVm m) ps fuel script v with
  | (Ok _, v') => ks_error v' = ks_error v /\ exists top', ks_stack v' = top' ++ bottom /\ length top' = (types (lit "start")).2
  | (Err _, v') => ks_error v' = ks_error v /\ exists top', ks_stack v' = top' ++ bottom
  | (Panic, _) => True
  | (Diverge, _) => False
  end.
Proof.
  intros U H m rs t ps types Hr Hfit fuel script v top bottom Hfuel Hs Hlen. destruct (C88_vms_look_down U m) as (_ & _ & _ & L1 & L2).
  pose proof (parse_heights (vm := StackVm m) m _ stack_view stack_op (C51_stack_machine U m) (L2 _ L1) rs t ps types Hr Hfit fuel script v v top bottom bottom Hfuel Hs Hlen) as Hp.
  rewrite <- Hs in Hp. specialize (Hp (eq_sym (stacked_id (stack_view v)))). destruct (parse (StackVm m) ps fuel script v) as [[tr|e| |] v'].
  - destruct Hp as (top' & S1 & S2 & S3 & _). cbn in S1, S3. split; [lia|eauto].
  - destruct Hp as (_ & top' & S1 & S3 & _). cbn in S1, S3. split; [lia|eauto].
  - exact Logic.I.
  - exact Hp.
Qed.
Print Assumptions C114_stack_machine.
(** ... and the values below have no influence: registers, output, error and the values on
    top are the same on any other stack with the same values on top. *)
Theorem C114_stack_below : forall (U : Unicode) (H : HashOrder) m rs t ps types, read_from m (StackVm m) rs t ps ->
  heights_fit stack_op (- 2 ^ 63) rs types (lit "start") ->
  forall fuel script r r2 e out top bottom bottom2, (length script + 1) * length t <= fuel -> length top = (types (lit "start")).1 ->
  match parse (StackVm m) ps fuel script (mkKState (top ++ bottom) r r2 e out), parse (StackVm m) ps fuel script (mkKState (top ++ bottom2) r r2 e out) with
  | (Ok _, v'), (Ok _, v2') => exists top' r' r2' out', v' = mkKState (top' ++ bottom) r' r2' e out' /\ v2' = mkKState (top' ++ bottom2) r' r2' e out'
  | (Err er, v'), (Err er2, v2') => error_position er = error_position er2 /\
      exists top' r' r2' out', v' = mkKState (top' ++ bottom) r' r2' e out' /\ v2' = mkKState (top' ++ bottom2) r' r2' e out'
  | (Panic, _), (Panic, _) => True
  | _, _ => False
  end.
Proof.
  intros U H m rs t ps types Hr Hfit fuel script r r2 e out top bottom bottom2 Hfuel Hlen. destruct (C88_vms_look_down U m) as (_ & _ & _ & L1 & L2).
  pose proof (parse_heights (vm := StackVm m) m _ stack_view stack_op (C51_stack_machine U m) (L2 _ L1) rs t ps types Hr Hfit fuel script (mkKState (top ++ bottom) r r2 e out)
    (mkKState (top ++ bottom2) r r2 e out) top bottom bottom2 Hfuel eq_refl Hlen eq_refl) as Hp.
  assert (forall v' v2' top', stack (stack_view v') = top' ++ bottom -> err (stack_view v') = Z.of_N e -> stack_view v2' = stacked (stack_view v') (top' ++ bottom2) ->
    exists top' r' r2' out', v' = mkKState (top' ++ bottom) r' r2' e out' /\ v2' = mkKState (top' ++ bottom2) r' r2' e out') as Hx.
  { intros [s1 a1 b1 e1 o1] [s2 a2 b2 e2 o2] top' E1 E2 E3. cbn in E1, E2, E3. injection E3 as -> -> -> E3 ->. subst s1. assert (e1 = e /\ e2 = e) as [-> ->] by lia. exists top', a1, b1, o1. auto. }
  destruct (parse (StackVm m) ps fuel script (mkKState (top ++ bottom) r r2 e out)) as [[tr|er| |] v'], (parse (StackVm m) ps fuel script (mkKState (top ++ bottom2) r r2 e out)) as [[tr2|er2| |] v2'];
    try contradiction; [| |exact Logic.I].
  - destruct Hp as (top' & S1 & _ & S3 & S4). exact (Hx v' v2' top' S1 S3 S4).
  - destruct Hp as (E & top' & S1 & S3 & S4). split; [exact E|]. exact (Hx v' v2' top' S1 S3 S4).
Qed.
Print Assumptions C114_stack_below.

(** With lower bounds: the error register keeps its value, what is below stays, and at least
    the values announced are there at the end. *)
Theorem C114_at_least : forall (U : Unicode) (H : HashOrder) m rs t ps types, read_from m (StackVm m) rs t ps ->
  heights_reach stack_op (- 2 ^ 63) rs types (lit "start") ->
  forall fuel script v top bottom, (length script + 1) * length t <= fuel -> ks_stack v = top ++ bottom -> length top = (types (lit "start")).1 ->
  match parse (StackVm m) ps fuel script v with
  | (Ok _, v') => ks_error v' = ks_error v /\ exists top', ks_stack v' = top' ++ bottom /\ (types (lit "start")).2 <= length top'
  | (Err _, v') => ks_error v' = ks_error v /\ exists top', ks_stack v' = top' ++ bottom
  | (Panic, _) => True
  | (Diverge, _) => False
  end.
Proof.
  intros U H m rs t ps types Hr Hfit fuel script v top bottom Hfuel Hs Hlen. destruct (C88_vms_look_down U m) as (_ & _ & _ & L1 & L2).
  pose proof (parse_heights_ge (vm := StackVm m) m _ stack_view stack_op (C51_stack_machine U m) (L2 _ L1) rs t ps types Hr Hfit fuel script v v top bottom bottom Hfuel Hs Hlen) as Hp.
  rewrite <- Hs in Hp. specialize (Hp (eq_sym (stacked_id (stack_view v)))). destruct (parse (StackVm m) ps fuel script v) as [[tr|e| |] v'].
  - destruct Hp as (top' & S1 & S2 & S3 & _). cbn in S1, S3. split; [lia|eauto].
  - destruct Hp as (_ & top' & S1 & S3 & _). cbn in S1, S3. split; [lia|eauto].
  - exact Logic.I.
  - exact Hp.
Qed.
Print Assumptions C114_at_least.

(** The same for SimpleStackVm. *)
Theorem C114_simple_machine : forall (U : Unicode) (H : HashOrder) m rs t ps types, read_from m (SimpleStackVm m) rs t ps ->
  heights_fit simple_op 0 rs types (lit "start") ->
  forall fuel script v top bottom, (length script + 1) * length t <= fuel -> ss_stack v = top ++ bottom -> length top = (types (lit "start")).1 ->
  match parse (SimpleStackVm m) ps fuel script v with
  | (Ok _, v') => ss_error v' = ss_error v /\ exists top', ss_stack v' = top' ++ bottom /\ length top' = (types (lit "start")).2
  | (Err _, v') => ss_error v' = ss_error v /\ exists top', ss_stack v' = top' ++ bottom
  | (Panic, _) => True
  | (Diverge, _) => False
  end.
Proof.
  intros U H m rs t ps types Hr Hfit fuel script v top bottom Hfuel Hs Hlen. destruct (C88_vms_look_down U m) as (_ & _ & L1 & _ & L2).
  assert (stack (simple_view v) = map Z.of_N top ++ map Z.of_N bottom) as Hs' by (cbn; rewrite Hs; apply map_app).
  pose proof (parse_heights (vm := SimpleStackVm m) m _ simple_view simple_op (C51_simple_machine m) (L2 _ L1) rs t ps types Hr Hfit fuel script v v _ _ (map Z.of_N bottom) Hfuel Hs' ltac:(rewrite map_length; exact Hlen)) as Hp.
  rewrite <- Hs' in Hp. specialize (Hp (eq_sym (stacked_id (simple_view v)))).
  assert (forall v' top', map Z.of_N (ss_stack v') = top' ++ map Z.of_N bottom -> exists top2, ss_stack v' = top2 ++ bottom /\ length top2 = length top') as Hx.
  { intros v' top' E. apply map_eq_app in E as (l1 & l2 & -> & <- & E). exists l1. rewrite map_length. split; [|reflexivity]. f_equal.
    clear -E. revert bottom E. induction l2 as [|a l IH]; intros [|b l'] E; try discriminate; [reflexivity|]. injection E as E E'. f_equal; [lia|auto]. }
  destruct (parse (SimpleStackVm m) ps fuel script v) as [[tr|e| |] v'].
  - destruct Hp as (top' & S1 & S2 & S3 & _). cbn in S1, S3. split; [lia|]. destruct (Hx v' top' S1) as (top2 & X1 & X2). exists top2. split; [assumption|lia].
  - destruct Hp as (_ & top' & S1 & S3 & _). cbn in S1, S3. split; [lia|]. destruct (Hx v' top' S1) as (top2 & X1 & X2). eauto.
  - exact Logic.I.
  - exact Hp.
Qed.
Print Assumptions C114_simple_machine.

Theorem C114_simple_below : forall (U : Unicode) (H : HashOrder) m rs t ps types, read_from m (SimpleStackVm m) rs t ps ->
  heights_fit simple_op 0 rs types (lit "start") ->
  forall fuel script r r2 e out top bottom bottom2, (length script + 1) * length t <= fuel -> length top = (types (lit "start")).1 ->
  match parse (SimpleStackVm m) ps fuel script (mkSState (top ++ bottom) r r2 e out), parse (SimpleStackVm m) ps fuel script (mkSState (top ++ bottom2) r r2 e out) with
  | (Ok _, v'), (Ok _, v2') => exists top' r' r2' out', v' = mkSState (top' ++ bottom) r' r2' e out' /\ v2' = mkSState (top' ++ bottom2) r' r2' e out'
  | (Err er, v'), (Err er2, v2') => error_position er = error_position er2 /\
      exists top' r' r2' out', v' = mkSState (top' ++ bottom) r' r2' e out' /\ v2' = mkSState (top' ++ bottom2) r' r2' e out'
  | (Panic, _), (Panic, _) => True
  | _, _ => False
  end.
Proof.
  intros U H m rs t ps types Hr Hfit fuel script r r2 e out top bottom bottom2 Hfuel Hlen. destruct (C88_vms_look_down U m) as (_ & _ & L1 & _ & L2).
  pose proof (parse_heights (vm := SimpleStackVm m) m _ simple_view simple_op (C51_simple_machine m) (L2 _ L1) rs t ps types Hr Hfit fuel script (mkSState (top ++ bottom) r r2 e out)
    (mkSState (top ++ bottom2) r r2 e out) (map Z.of_N top) (map Z.of_N bottom) (map Z.of_N bottom2) Hfuel ltac:(cbn; apply map_app) ltac:(rewrite map_length; exact Hlen)
    ltac:(unfold simple_view, stacked; cbn; rewrite map_app; reflexivity)) as Hp.
  assert (forall l l' : list N, map Z.of_N l = map Z.of_N l' -> l = l') as Hi.
  { induction l as [|a l IH]; intros [|b l'] E; try discriminate; [reflexivity|]. injection E as E E'. f_equal; [lia|auto]. }
  assert (forall v' v2' top', stack (simple_view v') = top' ++ map Z.of_N bottom -> err (simple_view v') = Z.of_N e -> simple_view v2' = stacked (simple_view v') (top' ++ map Z.of_N bottom2) ->
    exists top' r' r2' out', v' = mkSState (top' ++ bottom) r' r2' e out' /\ v2' = mkSState (top' ++ bottom2) r' r2' e out') as Hx.
  { intros [s1 a1 b1 e1 o1] [s2 a2 b2 e2 o2] top' E1 E2 E3. cbn in E1, E2. apply map_eq_app in E1 as (l1 & l2 & -> & <- & E1). apply Hi in E1 as ->.
    assert (e1 = e) as -> by lia. exists l1, a1, b1, o1. split; [reflexivity|]. apply simple_view_inj. rewrite E3. unfold simple_view, stacked. cbn. rewrite map_app. reflexivity. }
  destruct (parse (SimpleStackVm m) ps fuel script (mkSState (top ++ bottom) r r2 e out)) as [[tr|er| |] v'], (parse (SimpleStackVm m) ps fuel script (mkSState (top ++ bottom2) r r2 e out)) as [[tr2|er2| |] v2'];
    try contradiction; [| |exact Logic.I].
  - destruct Hp as (top' & S1 & _ & S3 & S4). exact (Hx v' v2' top' S1 S3 S4).
  - destruct Hp as (E & top' & S1 & S3 & S4). split; [exact E|]. exact (Hx v' v2' top' S1 S3 S4).
Qed.
Print Assumptions C114_simple_below.

(** A part of a script, wherever it stands (C88), if the check succeeds for its name. *)
Theorem C114_parts : forall (U : Unicode) m (rs : list (arule KInstr)) types x, heights_fit stack_op (- 2 ^ 63) rs types x ->
  forall part v top bottom, nderivation rs part -> nroot part = (x, NonTerminal) -> ks_stack v = top ++ bottom -> length top = (types x).1 ->
  match effect (vm := StackVm m) rs part v with
  | Ok v' => ks_error v' = ks_error v /\ exists top', ks_stack v' = top' ++ bottom /\ length top' = (types x).2
  | Panic => True
  | _ => False
  end.
Proof.
  intros U m rs types x Hfit part v top bottom Hd Hroot Hs Hlen.
  pose proof (part_framed (vm := StackVm m) m _ stack_view stack_op (C51_stack_machine U m) (fun k l => l = k) ltac:(cbn beta; intros; lia) ltac:(cbn beta; intros; lia) ltac:(cbn beta; intros; lia) ltac:(cbn beta; intros; lia) rs types x
    ltac:(intros y i w P1 P2; eexists; split; [exact (hf_heights _ _ _ _ _ Hfit y i w P1 P2)|auto]) (hf_numbers _ _ _ _ _ Hfit) part Hd ltac:(intros y Hy; rewrite Hroot in Hy; injection Hy as <-; apply rtc_refl)) as HF.
  rewrite Hroot in HF. cbn [element_usage] in HF. specialize (HF v top bottom Hs Hlen). destruct (effect (vm := StackVm m) rs part v) as [v'|[]| |]; [|exact Logic.I|contradiction].
  destruct HF as (top' & S1 & S2 & S3 & _). cbn in S1, S3. split; [lia|eauto].
Qed.
Print Assumptions C114_parts.

(** ** Announcements.  A name with a tree changes the height by the same amount in all
    announcements that pass the check. *)
Lemma sum_cons a l : list_sum (a :: l) = a + list_sum l.
Proof. reflexivity. Qed.
Lemma height_sum l : forall h h', height h l = Some h' -> h' + list_sum (map fst l) = h + list_sum (map snd l).
Proof.
  induction l as [|[n k] l IH]; intros h h' E; cbn [height] in E; [injection E as ->; reflexivity|]. destruct (decide (n <= h)); [|discriminate]. apply IH in E. cbn [map fst snd]. rewrite !sum_cons. lia.
Qed.
Lemma height_less l l' : Forall2 (fun a b => b.1 <= a.1 /\ a.2 + b.1 = b.2 + a.1) l l' -> forall h h', height h l = Some h' -> height h l' = Some h'.
Proof.
  induction 1 as [|[n k] [n' k'] l l' [H1 H2] _ IH]; intros h h' E; cbn in *; [assumption|]. destruct (decide (n <= h)); [|discriminate]. rewrite decide_True by lia.
  replace (h - n' + k') with (h - n + k) by lia. apply IH, E.
Qed.
Theorem C114_changes_agree : forall (I : Type) (opof : I -> op) lo (rs : list (arule I)) types types' x, heights_fit opof lo rs types x -> heights_fit opof lo rs types' x ->
  forall part y, nderivation rs part -> nroot part = (y, NonTerminal) -> part_of rs x y -> (types y).2 + (types' y).1 = (types' y).2 + (types y).1.
Proof.
  intros I opof lo rs types types' x Hf Hf'. induction part as [b|z subs IH] using ntree_ind'; intros y Hd Hroot Hp; [discriminate|]. injection Hroot as ->. inversion Hd as [|? i ? Hw Hds]; subst.
  pose proof (height_sum _ _ _ (hf_heights _ _ _ _ _ Hf y i _ Hp Hw)) as H1. pose proof (height_sum _ _ _ (hf_heights _ _ _ _ _ Hf' y i _ Hp Hw)) as H2.
  rewrite !map_app, !list_sum_app in H1, H2.
  assert (list_sum (map snd (map (element_usage types) (map nroot subs))) + list_sum (map fst (map (element_usage types') (map nroot subs)))
        = list_sum (map snd (map (element_usage types') (map nroot subs))) + list_sum (map fst (map (element_usage types) (map nroot subs)))) as Hs; [|lia].
  assert (forall z, (z, NonTerminal) ∈ map nroot subs -> part_of rs x z) as Hin by (intros z Hz; eapply rtc_r; [exact Hp|]; exists i; eexists; split; [exact Hw|exact Hz]). clear Hw Hd H1 H2. revert Hin.
  induction IH as [|s subs Hs _ IHs]; intros Hin; [reflexivity|]. apply Forall_cons in Hds as [Hd1 Hd2]. specialize (IHs Hd2 ltac:(intros z Hz; apply Hin; right; exact Hz)).
  cbn [map]. rewrite !sum_cons. destruct s as [b|z ss]; cbn [nroot element_usage fst snd]; [lia|]. specialize (Hs z Hd1 eq_refl (Hin z ltac:(left))). lia.
Qed.
Print Assumptions C114_changes_agree.
(** Of two announcements that pass the check, the smaller ones, name by name, pass as well. *)
Theorem C114_smaller : forall (I : Type) (opof : I -> op) lo (rs : list (arule I)) types types' x, heights_fit opof lo rs types x -> heights_fit opof lo rs types' x ->
  (forall y, part_of rs x y -> exists part, nderivation rs part /\ nroot part = (y, NonTerminal)) ->
  heights_fit opof lo rs (fun y => if decide ((types y).1 <= (types' y).1) then types y else types' y) x.
Proof.
  intros I opof lo rs types types' x Hf Hf' Hall. split; [|exact (hf_numbers _ _ _ _ _ Hf)]. intros y i w Hp Hw.
  assert (forall z, part_of rs x z -> (types z).2 + (types' z).1 = (types' z).2 + (types z).1) as Hag.
  { intros z Hz. destruct (Hall z Hz) as (part & P1 & P2). exact (C114_changes_agree I opof lo rs types types' x Hf Hf' part z P1 P2 Hz). }
  assert (forall z, (z, NonTerminal) ∈ w -> part_of rs x z) as Hin by (intros z Hz; eapply rtc_r; [exact Hp|]; exists i; eexists; split; [exact Hw|exact Hz]).
  destruct (decide ((types y).1 <= (types' y).1)); (eapply height_less; [|eapply hf_heights; [|exact Hp|exact Hw]; eassumption]).
  - apply Forall2_app; [|apply Forall_Forall2_diag, Forall_forall; intros; lia]. clear Hw. induction w as [|[z [|]] w IH]; cbn [map]; constructor; try (apply IH; intros z' Hz; apply Hin; right; exact Hz); cbn [element_usage].
    + cbn; lia.
    + specialize (Hag z (Hin z ltac:(left))). destruct (decide ((types z).1 <= (types' z).1)); lia.
  - apply Forall2_app; [|apply Forall_Forall2_diag, Forall_forall; intros; lia]. clear Hw. induction w as [|[z [|]] w IH]; cbn [map]; constructor; try (apply IH; intros z' Hz; apply Hin; right; exact Hz); cbn [element_usage].
    + cbn; lia.
    + specialize (Hag z (Hin z ltac:(left))). destruct (decide ((types z).1 <= (types' z).1)); lia.
Qed.
Print Assumptions C114_smaller.

(** ** Non-vacuity: two numbers are added. *)
Section example.
Local Existing Instance ascii_unicode.
Local Existing Instance plain_order.
Ltac name := split; [reflexivity|repeat constructor].
Definition hx_rules : list (arule (vm_instr (StackVm Checked))) :=
  [mkARule (lit "start") OvAbsent [[(lit "n", NonTerminal); (lit "n", NonTerminal)]] [KPopToReg; KAdd];
   mkARule (lit "n") OvAbsent [[(lit "1", Terminal)]; [(lit "20", Terminal)]] [KPushFromTree]].
Definition hx_text : str := lit "start->n n{PopToReg;Add;};n->""1""|""20""{PushFromTree;};".
Definition hx_types (x : str) : nat * nat := (0, 1).
Lemma hx_text_ok : grammar_text stack_reads hx_rules hx_text.
Proof.
  apply (gr_cons stack_reads _ (lit "start->n n{PopToReg;Add;};") [] _ (lit "n->""1""|""20""{PushFromTree;};")); [constructor| |].
  - apply (rule_intro stack_reads (mkARule (lit "start") OvAbsent [[(lit "n", NonTerminal); (lit "n", NonTerminal)]] [KPopToReg; KAdd]) [] [] [] [] []
      [] (lit "n n") (lit "{PopToReg;Add;}")); try (constructor; fail); try name.
    + apply alts_one, alt_elements, (els_cons _ (lit "n") (lit " ") _ (lit "n")); [apply el_name; name|repeat constructor|apply els_one, el_name; name|intros _ [E|E]; vm_compute in E; discriminate].
    + apply (sec_braces stack_reads _ [] (lit "PopToReg;Add;")); [constructor|intros E; discriminate E|]. exists [], (lit "PopToReg;Add;"). split; [constructor|]. split; [reflexivity|].
      apply (ins_cons [KPopToReg] (lit "PopToReg") [] [KAdd] (lit "Add;")); [apply in_plain; apply elem_of_list_In; cbn; tauto|constructor|].
      apply (ins_cons [KAdd] (lit "Add") [] [] []); [apply in_plain; apply elem_of_list_In; cbn; tauto|constructor|constructor].
  - apply (gr_cons stack_reads _ (lit "n->""1""|""20""{PushFromTree;};") [] _ []); [constructor| |apply gr_end; constructor].
    apply (rule_intro stack_reads (mkARule (lit "n") OvAbsent [[(lit "1", Terminal)]; [(lit "20", Terminal)]] [KPushFromTree]) [] [] [] [] []
      [] (lit """1""|""20""") (lit "{PushFromTree;}")); try (constructor; fail); try name.
    + apply (alts_cons _ (lit """1""") [] [] _ (lit """20""")); [apply alt_elements, els_one, one_quoted; discriminate|constructor..|].
      apply alts_one, alt_elements, els_one, (el_quoted (lit "20")). apply qb_plain; [discriminate..|]. apply qb_plain; auto using qb_nil; discriminate.
    + apply (sec_braces stack_reads _ [] (lit "PushFromTree;")); [constructor|intros E; discriminate E|]. exists [], (lit "PushFromTree;"). split; [constructor|]. split; [reflexivity|].
      apply (ins_cons [KPushFromTree] (lit "PushFromTree") [] [] []); [apply in_plain; apply elem_of_list_In; cbn; tauto|constructor|constructor].
Qed.
Lemma hx_no_ignore a b : ~ ignores hx_rules a b.
Proof.
  intros (r0 & more & E & Ho). assert (r0 ∈ rules_for a hx_rules) as Hin by (rewrite E; left). apply elem_of_list_filter in Hin as [_ Hin].
  apply elem_of_cons in Hin as [->|Hin]; [discriminate|]. apply elem_of_list_singleton in Hin as ->. discriminate.
Qed.
Definition hx_run (o : outcome Empty_set (Parser KInstr)) : bool :=
  match o with
  | Ok ps => match parse (StackVm Checked) ps 300 (lit "120") (mkKState [7] 0 0 0 [])%Z, parse (StackVm Checked) ps 300 (lit "1x") (mkKState [7] 0 0 0 [])%Z with
             | (Ok _, v), (Err _, v2) => bool_decide (ks_stack v = [21; 7]%Z /\ ks_stack v2 = [1; 7]%Z)
             | _, _ => false
             end
  | _ => false
  end.
Lemma hx_run_ok o : hx_run o = true -> exists ps, o = Ok ps /\
  (exists tr v, parse (StackVm Checked) ps 300 (lit "120") (mkKState [7] 0 0 0 [])%Z = (Ok tr, v) /\ ks_stack v = [21; 7]%Z) /\
  (exists e v, parse (StackVm Checked) ps 300 (lit "1x") (mkKState [7] 0 0 0 [])%Z = (Err e, v) /\ ks_stack v = [1; 7]%Z).
Proof.
  unfold hx_run. destruct o as [ps| | |]; try discriminate. intros E. exists ps. split; [reflexivity|].
  destruct (parse (StackVm Checked) ps 300 (lit "120") _) as [[tr| | |] v]; try discriminate. destruct (parse (StackVm Checked) ps 300 (lit "1x") _) as [[|e| |] v2]; try discriminate.
  apply bool_decide_eq_true in E as [E1 E2]. eauto 10.
Qed.
Example C114_example : exists ps : Parser KInstr, read_from Checked (StackVm Checked) hx_rules hx_text ps /\ heights_fit stack_op (- 2 ^ 63) hx_rules hx_types (lit "start") /\
  (exists tr v, parse (StackVm Checked) ps 300 (lit "120") (mkKState [7] 0 0 0 [])%Z = (Ok tr, v) /\ ks_stack v = [21; 7]%Z) /\
  (exists e v, parse (StackVm Checked) ps 300 (lit "1x") (mkKState [7] 0 0 0 [])%Z = (Err e, v) /\ ks_stack v = [1; 7]%Z).
Proof.
  destruct (hx_run_ok (new_from_text Checked (StackVm Checked) (mkFuels 70 3600) hx_text)) as (ps & Hps & Hrun); [vm_compute; reflexivity|].
  exists ps. split; [|split; [|exact Hrun]].
  - exists stack_reads, (mkFuels 70 3600). split; [constructor|]. split; [apply ascii_tables|]. split; [apply hx_text_ok|]. split; [vm_compute; reflexivity|].
    split; [split; cbn [first_fuel follow_fuel]; apply Nat.leb_le || apply Nat.ltb_lt; vm_compute; reflexivity|exact Hps].
  - apply (checker_fits stack_op _ _ isize_number hx_rules hx_types); [apply hx_no_ignore|]. vm_compute. reflexivity.
Qed.
(** The numbers of examples/stack_based_math.txt: wherever one stands, it puts one value on
    the stack. *)
Definition digit_alts : list (list (str * ElementType)) := map (fun d => [([d], Terminal)]) (lit "0123456789").
Definition number_rules : list (arule KInstr) :=
  [mkARule (lit "number") OvAbsent [[(lit "digit", NonTerminal); (lit "number_s", NonTerminal)]] [KPopDiscard];
   mkARule (lit "number_s") OvAbsent [[(lit "number_s_", NonTerminal)]; []] [];
   mkARule (lit "number_s_") OvAbsent [[(lit "digit", NonTerminal); (lit "number_s", NonTerminal)]] [KPopToReg; KPopToReg2; KPopDiscard; KPow 10; KRegAddConst 1; KPushReg];
   mkARule (lit "digit") OvAbsent digit_alts [KPushFromTree; KPushConst 1]].
Definition number_types (x : str) : nat * nat :=
  if decide (x = lit "number") then (0, 1) else if decide (x = lit "digit") then (0, 2) else (2, 2).
Example C114_numbers_example : heights_fit stack_op (- 2 ^ 63) number_rules number_types (lit "number").
Proof.
  apply (checker_fits stack_op _ _ isize_number number_rules number_types); [|vm_compute; reflexivity].
  intros a b (r0 & more & E & Ho). assert (r0 ∈ rules_for a number_rules) as Hin by (rewrite E; left). apply elem_of_list_filter in Hin as [_ Hin].
  repeat (apply elem_of_cons in Hin as [->|Hin]; [discriminate|]). inversion Hin.
Qed.
(** A list of numbers leaves at least one. *)
Definition hl_rules : list (arule (vm_instr (StackVm Checked))) :=
  [mkARule (lit "start") OvAbsent [[(lit "n", NonTerminal); (lit "r", NonTerminal)]] [];
   mkARule (lit "r") OvAbsent [[(lit "start", NonTerminal)]; []] [];
   mkARule (lit "n") OvAbsent [[(lit "1", Terminal)]] [KPushFromTree]].
Definition hl_text : str := lit "start->n r;r->start|#;n->""1""{PushFromTree;};".
Definition hl_types (x : str) : nat * nat := if decide (x = lit "r") then (0, 0) else (0, 1).
Lemma hl_text_ok : grammar_text stack_reads hl_rules hl_text.
Proof.
  apply (gr_cons stack_reads _ (lit "start->n r;") [] _ (lit "r->start|#;n->""1""{PushFromTree;};")); [constructor| |].
  - apply (rule_intro stack_reads (mkARule (lit "start") OvAbsent [[(lit "n", NonTerminal); (lit "r", NonTerminal)]] []) [] [] [] [] []
      [] (lit "n r") []); try (constructor; fail); try name.
    apply alts_one, alt_elements, (els_cons _ (lit "n") (lit " ") _ (lit "r")); [apply el_name; name|repeat constructor|apply els_one, el_name; name|intros _ [E|E]; vm_compute in E; discriminate].
  - apply (gr_cons stack_reads _ (lit "r->start|#;") [] _ (lit "n->""1""{PushFromTree;};")); [constructor| |].
    + apply (rule_intro stack_reads (mkARule (lit "r") OvAbsent [[(lit "start", NonTerminal)]; []] []) [] [] [] [] []
        [] (lit "start|#") []); try (constructor; fail); try name.
      apply (alts_cons _ (lit "start") [] [] _ (lit "#")); [apply alt_elements, els_one, el_name; name|constructor..|apply alts_one, alt_empty].
    + apply (gr_cons stack_reads _ (lit "n->""1""{PushFromTree;};") [] _ []); [constructor| |apply gr_end; constructor].
      apply (rule_intro stack_reads (mkARule (lit "n") OvAbsent [[(lit "1", Terminal)]] [KPushFromTree]) [] [] [] [] []
        [] (lit """1""") (lit "{PushFromTree;}")); try (constructor; fail); try name.
      * apply alts_one, alt_elements, els_one, one_quoted; discriminate.
      * apply (sec_braces stack_reads _ [] (lit "PushFromTree;")); [constructor|intros E; discriminate E|]. exists [], (lit "PushFromTree;"). split; [constructor|]. split; [reflexivity|].
        apply (ins_cons [KPushFromTree] (lit "PushFromTree") [] [] []); [apply in_plain; apply elem_of_list_In; cbn; tauto|constructor|constructor].
Qed.
Lemma is_ok_some {A} (o : outcome Empty_set A) : is_ok o = true -> exists a, o = Ok a.
Proof. destruct o; try discriminate. eauto. Qed.
Example C114_list_example : exists ps : Parser KInstr, read_from Checked (StackVm Checked) hl_rules hl_text ps /\
  heights_reach stack_op (- 2 ^ 63) hl_rules hl_types (lit "start") /\ (forall types, ~ heights_fit stack_op (- 2 ^ 63) hl_rules types (lit "start")).
Proof.
  destruct (is_ok_some (new_from_text Checked (StackVm Checked) (mkFuels 60 2400) hl_text)) as [ps Hps]; [vm_compute; reflexivity|].
  assert (forall a b, ~ ignores hl_rules a b) as Hni.
  { intros a b (r0 & more & E & Ho). assert (r0 ∈ rules_for a hl_rules) as Hin by (rewrite E; left). apply elem_of_list_filter in Hin as [_ Hin].
    repeat (apply elem_of_cons in Hin as [->|Hin]; [discriminate|]). inversion Hin. }
  exists ps. split; [|split].
  - exists stack_reads, (mkFuels 60 2400). split; [constructor|]. split; [apply ascii_tables|]. split; [apply hl_text_ok|]. split; [vm_compute; reflexivity|].
    split; [split; cbn [first_fuel follow_fuel]; apply Nat.leb_le || apply Nat.ltb_lt; vm_compute; reflexivity|exact Hps].
  - apply (checker_reaches stack_op _ _ isize_number hl_rules hl_types); [exact Hni|vm_compute; reflexivity].
  - intros types [Hh _].
    assert (forall x i w, alternatives_for hl_rules x !! i = Some w -> says hl_rules x i w) as Hsay by (intros x i w Hw; apply says_plain; [assumption|]; intros y Hy; destruct (Hni _ _ Hy)).
    pose proof (Hsay (lit "start") 0 [(lit "n", NonTerminal); (lit "r", NonTerminal)] eq_refl) as S1.
    pose proof (Hsay (lit "r") 0 [(lit "start", NonTerminal)] eq_refl) as S2. pose proof (Hsay (lit "r") 1 [] eq_refl) as S3. pose proof (Hsay (lit "n") 0 [(lit "1", Terminal)] eq_refl) as S4.
    assert (part_of hl_rules (lit "start") (lit "r")) as P2 by (eapply rtc_r; [apply rtc_refl|]; exists 0; eexists; split; [exact S1|right; left]).
    assert (part_of hl_rules (lit "start") (lit "n")) as P3 by (eapply rtc_r; [apply rtc_refl|]; exists 0; eexists; split; [exact S1|left]).
    pose proof (Hh _ _ _ (rtc_refl _ _) S1) as H1. pose proof (Hh _ _ _ P2 S2) as H2. pose proof (Hh _ _ _ P2 S3) as H3. pose proof (Hh _ _ _ P3 S4) as H4.
    clear -H1 H2 H3 H4. change (instructions_for hl_rules (lit "start")) with (@nil KInstr) in H1. change (instructions_for hl_rules (lit "r")) with (@nil KInstr) in H2, H3.
    change (instructions_for hl_rules (lit "n")) with [KPushFromTree] in H4. cbn [map app element_usage usage stack_op height] in H1, H2, H3, H4.
    destruct (types (lit "start")) as [a b], (types (lit "r")) as [c d], (types (lit "n")) as [e f]. cbn [fst snd] in *.
    repeat match goal with H : context [decide ?P] |- _ => destruct (decide P); [|try discriminate H] end; try discriminate; simplify_eq; try lia.
Qed.
End example.
