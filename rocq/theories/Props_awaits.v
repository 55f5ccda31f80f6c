(** * Property theorems: where and why the analysis of a script stops (C59, continued) *)
From Verif Require Import Base Peekables Tree Errors Sets ParserData Vm SimpleStackVm StackVm RuleParsing FirstSets FollowSets SteuerMap ScriptParser
  SpecText SpecData SpecGrammar SpecParser SpecTree SpecScript SpecContract SpecWeave SpecRules SpecNames SpecLanguage SpecAwaits
  Grammar_proofs Construct_proofs Checks Tree_proofs Script_proofs Parse_proofs
  Weave_proofs Names_proofs RuleBuild_proofs RuleText_proofs Language_proofs Accept_proofs Expected_proofs Awaits_proofs
  Props_steuer Props_script Props_weave Props_rules Props_vm Props_names Props_language Props_errors Props_main Props_automaton Samples.

(** Every error of every grammar, also with empty texts: the position is where the analysis
    stops, and the listing names the lookaheads with which it could have gone on: those of
    the alternatives of the name to begin, or the next char of the quoted text. *)
Theorem C59_reason : forall (U : Unicode) (H : HashOrder) m (vm : VM) rs t ps, read_from m vm rs t ps ->
  forall fuel script v e v', parse vm ps fuel script v = (Err e, v') ->
  exists before rest g, stops rs script before rest g /\ error_for rs before rest g e.
Proof.
  intros U H m vm rs t ps Hr fuel script v e v' Hp. destruct (read_from_vm m vm rs t ps Hr) as [Hk Hret].
  destruct (read_from_built m vm rs t ps Hr) as (pd & pd' & start & fl & Hd & Hed & Hst & Hb & Hsz).
  unfold parse in Hp. destruct (parse_run vm ps fuel script v) as [o s1] eqn:E. injection Hp as -> <-.
  apply built_spec in Hb as (Hwf & Hcon & Htab).
  pose proof (parse_run_spec vm pd' start ps Hwf Hcon Htab Hk start fuel script v Hst (con_start _ _ Hcon)) as Hs.
  rewrite E in Hs. destruct Hs as (stk & rest & v' & Hf & _ & _ & Hrep).
  destruct (fails_sound pd' start start script stk rest Hf (wf_rules pd' Hwf start) (wf_rules pd' Hwf)) as (F1 & F2 & F3).
  assert (get_element_verbose pd' start = Some (lit "start", NonTerminal)) as Hstart by (apply Hst; reflexivity).
  destruct (fails_awaits pd pd' rs Hd Hed start Hstart Hwf Hcon start script stk rest Hf _ Hstart) as (g & Hg & Haw).
  exists (consumed pd' stk), rest, g. split; [split; [assumption|split; [assumption|]]|].
  - intros Hl. apply (expects_listed pd pd' rs Hd Hed start Hstart stk g _ F1 Hg) in Hl. exact (fails_unexpected pd' start start script stk rest Hf Hl).
  - eapply (reports_error pd pd' rs Hd Hed start Hstart); eauto.
Qed.
Print Assumptions C59_reason.

(** Every script either begins with a tree that may stand there, or the analysis stops
    somewhere, for one reason; never both.  So a script for which it stops is an error with
    the listing for that reason, unless an instruction panics before. *)
Theorem C59_one_reason : forall (U : Unicode) (H : HashOrder) m (vm : VM) rs t ps, read_from m vm rs t ps -> forall script,
  ((exists nt rest, accepts_prefix rs script nt rest) \/ exists before rest g, stops rs script before rest g) /\
  (forall before rest g, stops rs script before rest g ->
    (forall nt rest', ~ accepts_prefix rs script nt rest') /\
    (forall before' rest' g', stops rs script before' rest' g' -> before' = before /\ rest' = rest /\ g' = g) /\
    forall fuel v, (length script + 1) * length t <= fuel ->
    match fst (parse vm ps fuel script v) with
    | Err e => error_for rs before rest g e
    | Panic => True
    | _ => False
    end).
Proof.
  intros U H m vm rs t ps Hr script. destruct (read_from_vm m vm rs t ps Hr) as [Hk Hret].
  destruct (read_from_built m vm rs t ps Hr) as (pd & pd' & start & fl & Hd & Hed & Hst & Hb & Hsz).
  pose proof Hb as Hb0. apply built_spec in Hb as (Hwf & Hcon & Htab).
  assert (get_element_verbose pd' start = Some (lit "start", NonTerminal)) as Hstart by (apply Hst; reflexivity).
  pose proof (fun nt rest => accepts_pred script nt rest Hd Hed Hwf Hcon Hst) as Hacc.
  pose proof (fails_deterministic pd' start (con_disjoint pd' start Hcon) (wf_rules pd' Hwf)) as Hfd.
  assert (forall before rest g, stops rs script before rest g -> exists stk, fails pd' start start script stk rest /\ goal_named pd' stk g) as Hsf.
  { intros before rest g (-> & Ha & Hn). exact (awaits_fails pd pd' rs Hd Hed start Hstart Hcon _ before rest g Ha Hn start Hstart). }
  assert (forall before rest g, stops rs script before rest g -> forall nt rest', ~ accepts_prefix rs script nt rest') as Hex.
  { intros before rest g Hs nt rest' Ha. destruct (Hsf _ _ _ Hs) as (stk & Hf & _). apply Hacc in Ha as (pt & _ & _ & Hp). eapply fails_not_pred; eauto. }
  assert (forall before rest g before' rest' g', stops rs script before rest g -> stops rs script before' rest' g' -> before' = before /\ rest' = rest /\ g' = g) as Huni.
  { intros before rest g before' rest' g' Hs Hs'. destruct (Hsf _ _ _ Hs) as (stk & Hf & Hg). destruct (Hsf _ _ _ Hs') as (stk' & Hf' & Hg').
    destruct (Hfd _ _ _ _ Hf _ _ Hf') as [<- <-]. split; [|split; [reflexivity|eapply goal_det; eassumption]].
    destruct Hs as (E & _), Hs' as (E' & _). rewrite E in E'. apply app_inv_tail in E'. congruence. }
  split.
  - assert (built m (idle vm) fl pd' start ps) as Hb' by exact Hb0.
    assert (keeps_tree (idle vm)) as Hk' by (intros h n i s t1 s1 E; cbn in E; congruence).
    assert (always_returns (idle vm)) as Hret' by (intros h n i s _ _; discriminate).
    assert (never_panics (idle vm)) as Hnp by (intros h n i s _ _; discriminate).
    pose (fuel := (length script + 1) * size (pd_rules pd')). pose (v := vm_new_state vm).
    pose proof (parse_run_spec (idle vm) pd' start ps Hwf Hcon Htab Hk' start fuel script v Hst (con_start _ _ Hcon)) as Hs.
    destruct (parse_run (idle vm) ps fuel script v) as [o s1]. destruct o as [tr|e| |].
    + left. destruct Hs as (pt & rest & v' & Hpr & _). exists (named pd' pt), rest. apply Hacc. exists pt. split; [reflexivity|]. split; [eapply pred_sound; exact Hpr|assumption].
    + right. destruct Hs as (stk & rest & v' & Hf & _).
      destruct (fails_sound pd' start start script stk rest Hf (wf_rules pd' Hwf start) (wf_rules pd' Hwf)) as (F1 & F2 & F3).
      destruct (fails_awaits pd pd' rs Hd Hed start Hstart Hwf Hcon start script stk rest Hf _ Hstart) as (g & Hg & Haw).
      exists (consumed pd' stk), rest, g. split; [assumption|split; [assumption|]]. intros Hl.
      apply (expects_listed pd pd' rs Hd Hed start Hstart stk g _ F1 Hg) in Hl. exact (fails_unexpected pd' start start script stk rest Hf Hl).
    + exfalso. destruct Hs as ((t0 & id & i & s & Hp1 & Hp2 & Hp) & _). cbn in Hp. discriminate.
    + exfalso. destruct Hs as [(t0 & id & i & s & Hp1 & Hp2 & Hp)|Hs]; [cbn in Hp; discriminate|]. exact (Nat.lt_irrefl _ Hs).
  - intros before rest g Hs. split; [eapply Hex; exact Hs|]. split; [intros before' rest' g' Hs'; exact (Huni _ _ _ _ _ _ Hs Hs')|].
    intros fuel v Hfuel. destruct (C61_accepted_scripts U H m vm rs t ps Hr fuel script v Hfuel) as (A1 & _ & _ & A4 & _).
    destruct (parse vm ps fuel script v) as [o w] eqn:E. cbn [fst] in *. destruct o as [tr|e| |]; [|..|exact Logic.I|congruence].
    + destruct (proj1 (A1 w) (ex_intro _ tr eq_refl)) as (nt & rest' & Ha & _). exact (Hex _ _ _ Hs _ _ Ha).
    + destruct (C59_reason U H m vm rs t ps Hr fuel script v e w E) as (before' & rest' & g' & Hs' & He). destruct (Huni _ _ _ _ _ _ Hs Hs') as (-> & -> & ->). exact He.
Qed.
Print Assumptions C59_one_reason.

(** ** Non-vacuity: in [start->"x"num;num->"a"|"b"num;] the analysis of xbc stops behind xb. *)
Section example.
Local Existing Instance ascii_unicode.
Local Existing Instance plain_order.
Example C59_stops_example : exists g, stops nx_rules (lit "xbc") (lit "xb") (lit "c") g /\ error_for nx_rules (lit "xb") (lit "c") g (UnexpectedCharError 99 2 (lit "b;a")).
Proof.
  destruct C59_example as (ps & Hr & _ & _ & v' & Hp). destruct (C59_reason _ _ _ _ _ _ _ Hr _ _ _ _ _ Hp) as (before & rest & g & Hs & He).
  assert (length before = 2) as Hl. { unfold error_for in He. destruct g as [x|c], rest as [|d rest]; [destruct He as (keys & _ & _ & [= _ E _])..|discriminate He|injection He as _ E _]; congruence. }
  pose proof Hs as (E & _). destruct before as [|b1 [|b2 [|b3 before]]]; try discriminate Hl. cbn in E. injection E as <- <- <-. exists g. split; assumption.
Qed.
End example.
