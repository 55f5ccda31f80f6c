(** * Property theorems: what a parse that fails has done (C113) *)
From Verif Require Import Base Peekables Tree Errors Sets ParserData Vm SimpleStackVm StackVm RuleParsing FirstSets FollowSets SteuerMap ScriptParser
  SpecText SpecData SpecGrammar SpecParser SpecTree SpecScript SpecContract SpecWeave SpecRules SpecNames SpecLanguage SpecIgnore SpecSyntax SpecEffect SpecFailed Grammar_proofs Construct_proofs Checks Tree_proofs Script_proofs Parse_proofs
  Weave_proofs Names_proofs RuleBuild_proofs RuleText_proofs Language_proofs Ignore_proofs Accept_proofs Effect_proofs Failed_proofs Props_steuer Props_script Props_weave Props_rules Props_vm Props_names Props_language Props_errors Props_main Props_effect Samples.

Lemma reports_position {I} (pd : ParserData I) st s : forall rest pos e, reports pd st s rest pos e -> error_position e = Some pos.
Proof.
  induction s as [A|t k|A subs s IH after]; intros rest pos e Hr; cbn [reports] in Hr.
  - destruct Hr as (keys & r & _ & _ & _ & ->). reflexivity.
  - destruct rest as [|c rest]; [subst e; reflexivity|]. destruct Hr as (c' & _ & _ & ->). reflexivity.
  - eapply IH, Hr.
Qed.
(** A script without an accepted prefix has one unfinished start, the same for every VM state:
    its complete parts, from left to right, have their effects, nothing else is done, and the
    error is at the place behind them. *)
Theorem C113_failed_parse : forall (U : Unicode) (H : HashOrder) m (vm : VM) rs t ps, read_from m vm rs t ps -> looks_down vm ->
  forall script, (forall nt rest, ~ accepts_prefix rs script nt rest) ->
  exists parts read rest, unfinished rs (lit "start") parts read /\ script = concat (map nyield parts) ++ read ++ rest /\
  forall fuel v, (length script + 1) * length t <= fuel ->
  match effect_all rs parts v with
  | Ok v' => exists e, parse vm ps fuel script v = (Err e, v') /\ error_position e = Some (length (concat (map nyield parts) ++ read))
  | _ => fst (parse vm ps fuel script v) = Panic
  end.
Proof.
  intros U H m vm rs t ps Hr Hl script Hno. destruct (read_from_vm m vm rs t ps Hr) as [Hk Hret].
  destruct (read_from_built m vm rs t ps Hr) as (pd & pd' & st & fl & Hd & Hed & Hst & Hb & Hsz). pose proof Hb as Hb0. apply built_spec in Hb as (Hwf & Hcon & Htab).
  destruct (pred_or_fails pd' st H ps st script Hwf Hcon Htab Hst (con_start _ _ Hcon)) as [(pt & rest & Hpr)|(stk & rest & Hf)].
  { exfalso. apply (Hno (named pd' pt) rest). apply (accepts_pred script _ rest Hd Hed Hwf Hcon Hst). exists pt. split; [reflexivity|]. split; [|assumption]. apply pred_sound in Hpr. tauto. }
  destruct (fails_sound pd' st st script stk rest Hf (wf_rules pd' Hwf st) (wf_rules pd' Hwf)) as (F1 & F2 & F3).
  exists (map (named pd') (parts_of stk)), (piece_of pd' stk), rest. split.
  { apply (stuck_unfinished pd pd' rs Hd Hed stk F1). rewrite F2, <- (ed_verbose pd pd' Hed). apply Hst. reflexivity. }
  split; [rewrite F3, consumed_parts, <- app_assoc; reflexivity|]. rewrite <- consumed_parts.
  intros fuel v Hfuel. rewrite <- (stuck_effect pd pd' rs Hd Hed Hl stk v F1).
  pose proof (parse_run_spec vm pd' st ps Hwf Hcon Htab Hk st fuel script v Hst (con_start _ _ Hcon)) as Hs. unfold parse.
  destruct (parse_run vm ps fuel script v) as [[tr|e| |] s1]; cbn [fst].
  - destruct Hs as (pt & rest' & v' & Hpr & _). exfalso. eapply (fails_no_pred pd' st (con_disjoint pd' st Hcon) (wf_rules pd' Hwf)); eauto.
  - destruct Hs as (stk' & rest' & v' & Hf' & -> & Hrun & Hrep). destruct (fails_deterministic pd' st (con_disjoint pd' st Hcon) (wf_rules pd' Hwf) _ _ _ _ Hf _ _ Hf') as [<- <-].
    rewrite Hrun. exists e. split; [reflexivity|]. eapply reports_position, Hrep.
  - destruct Hs as (_ & _ & Hs). rewrite (Hs _ _ Hf). reflexivity.
  - destruct Hs as [Hs|Hs]; [|nia]. destruct Hs as (h & n & i & s & Hg & Hn & Hx). destruct (Hret h n i s Hg Hn Hx).
Qed.
Print Assumptions C113_failed_parse.

(** ** Non-vacuity: of [1x] the first digit has had its effect; the error is at position 1. *)
Section example.
Local Existing Instance ascii_unicode.
Local Existing Instance plain_order.
Definition stops_with (o : outcome Empty_set (Parser SInstr)) fuel script (l : list N) pos : bool :=
  match o with
  | Ok ps => match parse (SimpleStackVm Checked) ps fuel script (mkSState [] 0 0 0 []) with (Err e, v) => bool_decide (ss_stack v = l /\ error_position e = Some pos) | _ => false end
  | _ => false
  end.
Lemma stops_with_ok o fuel script l pos : stops_with o fuel script l pos = true -> exists ps, o = Ok ps /\
  exists e v, parse (SimpleStackVm Checked) ps fuel script (mkSState [] 0 0 0 []) = (Err e, v) /\ ss_stack v = l /\ error_position e = Some pos.
Proof.
  unfold stops_with. destruct o as [ps| | |]; try discriminate. intros E. exists ps. split; [reflexivity|].
  destruct (parse (SimpleStackVm Checked) ps fuel script (mkSState [] 0 0 0 [])) as [[tr|e| |] v]; try discriminate. apply bool_decide_eq_true in E as [E1 E2]. eauto.
Qed.
Example C113_example : exists ps : Parser SInstr, read_from Checked (SimpleStackVm Checked) dg_rules dg_text ps /\ looks_down (SimpleStackVm Checked) /\
  (forall nt rest, ~ accepts_prefix dg_rules (lit "1x") nt rest) /\ unfinished dg_rules (lit "start") [dg_digit (lit "1")] [] /\
  (exists e v, parse (SimpleStackVm Checked) ps 300 (lit "1x") (mkSState [] 0 0 0 []) = (Err e, v) /\ ss_stack v = [1; 1]%N /\ error_position e = Some 1).
Proof.
  destruct (stops_with_ok (new_from_text Checked (SimpleStackVm Checked) (mkFuels 60 2200) dg_text) 300 (lit "1x") [1; 1]%N 1) as (ps & Hps & Hrun); [vm_compute; reflexivity|].
  assert (read_from Checked (SimpleStackVm Checked) dg_rules dg_text ps) as Hr.
  { exists simple_reads, (mkFuels 60 2200). split; [constructor|]. split; [apply ascii_tables|]. split; [apply dg_text_ok|]. split; [vm_compute; reflexivity|].
    split; [split; cbn [first_fuel follow_fuel]; apply Nat.leb_le || apply Nat.ltb_lt; vm_compute; reflexivity|exact Hps]. }
  exists ps. split; [assumption|]. split; [apply child_looks_down, simple_looks|]. split; [|split; [|exact Hrun]].
  - destruct Hrun as (e & v & Hp & _). destruct (C61_accepted_scripts _ _ _ _ _ _ _ Hr 300 (lit "1x") (mkSState [] 0 0 0 []) ltac:(apply Nat.leb_le; vm_compute; reflexivity)) as (_ & _ & H3 & _).
    apply H3. exists e. rewrite Hp. reflexivity.
  - change [dg_digit (lit "1")] with ([dg_digit (lit "1")] ++ []). apply (un_inside _ _ 0 _ (lit "digit") []).
    + apply dg_says. vm_compute. reflexivity.
    + apply Forall_cons; split; [|constructor]. apply (nder_node _ _ 0); [apply dg_says; vm_compute; reflexivity|]. apply Forall_cons; split; [apply nder_leaf|constructor].
    + apply un_choice. discriminate.
Qed.
End example.
