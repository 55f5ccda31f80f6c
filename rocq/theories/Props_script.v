(** * C29-C39, C52, C53: parsing a script *)
From Verif Require Import Base Peekables Tree Errors Sets ParserData Vm SimpleStackVm StackVm FirstSets FollowSets SteuerMap ScriptParser
  SpecData SpecGrammar SpecParser SpecTree SpecScript SpecContract Grammar_proofs Construct_proofs Checks Tree_proofs Script_proofs Parse_proofs
  Props_steuer Samples.

(** The common hypotheses: a parser that was built for a grammar [pd]. *)
Definition built {H : HashOrder} m (vm : VM) fl (pd : ParserData (vm_instr vm)) start ps : Prop :=
  wf_grammar pd /\ fits_memory pd /\ new_from_parser_data m vm fl pd start = Ok ps.
Lemma built_spec {H : HashOrder} m vm fl pd start ps : built m vm fl pd start ps ->
  wf_grammar pd /\ constructible pd start /\ parser_table pd start ps.
Proof.
  intros (Hwf & Hfit & Hn). pose proof (construct_spec m vm fl pd start Hwf Hfit) as Hs. rewrite Hn in Hs. tauto.
Qed.

(** ** C29 (second half): no grammar error, no tree error, no panic of the parser *)
Theorem C29_parse_fails_only_on_text : forall (H : HashOrder) m (vm : VM) fl pd start ps fuel text v,
  built m vm fl pd start ps -> start_element pd start -> keeps_tree vm ->
  match fst (parse vm ps fuel text v) with
  | Ok _ => True
  | Err (UnexpectedCharError _ _ _) | Err (EndOfCharsError _) => True
  | Err _ => False
  | Panic => ~ never_panics vm
  | Diverge => True
  end.
Proof.
  intros H m vm fl pd start ps fuel text v Hb Hst Hvm. apply built_spec in Hb as (Hwf & Hcon & Htab).
  pose proof (parse_run_spec vm pd start ps Hwf Hcon Htab Hvm start fuel text v Hst (con_start _ _ Hcon)) as Hs.
  unfold parse. destruct (parse_run vm ps fuel text v) as [[t|e| |] s1]; simpl; auto.
  - destruct Hs as (stk & rest & v' & _ & _ & _ & Hrep). clear -Hrep. revert Hrep. generalize (length (consumed pd stk)).
    induction stk as [A|t k|A c s IH a]; intros n Hrep; simpl in Hrep; [| |exact (IH n Hrep)].
    + destruct Hrep as (? & ? & _ & _ & _ & ->). exact Logic.I.
    + destruct rest; [subst; exact Logic.I|]. destruct Hrep as (? & _ & _ & ->). exact Logic.I.
  - destruct Hs as [(t & id & i & s & Hp1 & Hp2 & Hp) _]. intros Hn. exact (Hn t id i s Hp1 Hp2 Hp).
Qed.
Print Assumptions C29_parse_fails_only_on_text.

(** ** C30: a successful parse returns a derivation tree of the consumed text *)
Theorem C30_derivation_tree : forall (H : HashOrder) m (vm : VM) fl pd start ps fuel text v t s,
  built m vm fl pd start ps -> start_element pd start -> keeps_tree vm ->
  parse_run vm ps fuel text v = (Ok t, s) ->
  exists pt rest, derivation pd pt /\ root pt = start /\ text = yield pd pt ++ rest /\
    pp_inner (ps_in s) = rest /\ cur_pos (ps_in s) = length (yield pd pt) /\
    shows pd t pt /\ do_adds (tree_history pd 0 None pt) tree_new = (Ok (map id_of (seq 0 (nodes_count pt))), t).
Proof.
  intros H m vm fl pd start ps fuel text v t s Hb Hst Hvm Hp. apply built_spec in Hb as (Hwf & Hcon & Htab).
  pose proof (parse_run_spec vm pd start ps Hwf Hcon Htab Hvm start fuel text v Hst (con_start _ _ Hcon)) as Hs.
  rewrite Hp in Hs. destruct Hs as (pt & rest & v' & Hpr & -> & -> & _). exists pt, rest.
  apply pred_sound in Hpr as (D1 & D2 & D3). split; [assumption|]. split; [assumption|]. split; [assumption|].
  split; [reflexivity|]. split; [reflexivity|]. split; [intros path; apply tree_paths|].
  assert (grown (tree_history pd 0 None pt)) as Hg.
  { intros i p d Hi. apply (tree_parents pd pt 0 None) in Hi; [lia|discriminate]. }
  destruct (do_adds_ok _ Hg) as [H1 _]. rewrite tree_history_length in H1. unfold tree_of. destruct (do_adds _ _) as [o t']. simpl in *. congruence.
Qed.
Print Assumptions C30_derivation_tree.

(** ** C31: every sentence is parsed; also every prefix that is a sentence, when the rest
    begins with something that can follow start.  The instructions decide between
    success and panic. *)
Theorem C31_sentences_are_parsed : forall (H : HashOrder) m (vm : VM) fl pd start ps fuel pt rest v,
  built m vm fl pd start ps -> start_element pd start -> keeps_tree vm -> always_returns vm ->
  derivation pd pt -> root pt = start -> (rest = [] \/ FOLLOW pd start start (look rest)) ->
  enough_depth pd (yield pd pt ++ rest) fuel ->
  match run_actions pd (tree_history pd 0 None pt) (post_order 0 pt) v with
  | Ok v' => exists t, parse vm ps fuel (yield pd pt ++ rest) v = (Ok t, v') /\ shows pd t pt /\
       t = snd (do_adds (tree_history pd 0 None pt) tree_new)
  | _ => fst (parse vm ps fuel (yield pd pt ++ rest) v) = Panic
  end.
Proof.
  intros H m vm fl pd start ps fuel pt rest v Hb Hst Hvm Hret Hd Hroot Hrest Hen. apply built_spec in Hb as (Hwf & Hcon & Htab).
  pose proof (complete pd start Hwf Hcon pt Hd rest) as Hc. rewrite Hroot in Hc.
  assert (fol pd start start (look rest)) as Hf by (destruct Hrest as [->|Hr]; [apply fol_start|apply FOLLOW_fol; assumption]).
  specialize (Hc (fun _ => Hf)).
  pose proof (parse_run_spec vm pd start ps Hwf Hcon Htab Hvm start fuel (yield pd pt ++ rest) v Hst (con_start _ _ Hcon)) as Hs.
  unfold parse. destruct (parse_run vm ps fuel (yield pd pt ++ rest) v) as [[t|e| |] s1].
  - destruct Hs as (pt' & rest' & v' & Hpr & -> & -> & Hrun).
    destruct (proj1 (pred_deterministic pd start (con_disjoint pd start Hcon) (wf_rules pd Hwf)) _ _ _ _ Hc _ _ Hpr) as [<- <-].
    rewrite Hrun. eexists. split; [reflexivity|]. split; [intros path; apply tree_paths|reflexivity].
  - destruct Hs as (stk & rest' & v' & Hf' & _). exfalso. eapply fails_not_pred; eauto.
  - destruct Hs as (_ & Hs & _). rewrite (Hs _ _ Hc). reflexivity.
  - exfalso. destruct Hs as [(t & id & i & s & Hp1 & Hp2 & Hp)|Hs]; [exact (Hret t id i s Hp1 Hp2 Hp)|]. unfold enough_depth in Hen. lia.
Qed.
Print Assumptions C31_sentences_are_parsed.

(** ** C32: accepted grammars are unambiguous *)
Theorem C32_unambiguous : forall (H : HashOrder) m (vm : VM) fl (pd : ParserData (vm_instr vm)) start ps pt pt',
  built m vm fl pd start ps -> derivation pd pt -> derivation pd pt' -> root pt = start -> root pt' = start ->
  yield pd pt = yield pd pt' -> pt = pt'.
Proof.
  intros H m vm fl pd start ps pt pt' Hb Hd Hd' Hr Hr' Hy. apply built_spec in Hb as (Hwf & Hcon & Htab).
  pose proof (complete pd start Hwf Hcon pt Hd []) as Hc. pose proof (complete pd start Hwf Hcon pt' Hd' []) as Hc'.
  rewrite Hr in Hc. rewrite Hr' in Hc'. rewrite app_nil_r in Hc, Hc'.
  specialize (Hc (fun _ => fol_start pd start)). specialize (Hc' (fun _ => fol_start pd start)). rewrite <- Hy in Hc'.
  apply (proj1 (pred_deterministic pd start (con_disjoint pd start Hcon) (wf_rules pd Hwf)) _ _ _ _ Hc _ _ Hc').
Qed.
Print Assumptions C32_unambiguous.

(** ** C33: parsing terminates; the depth bound is (length + 1) * number of rules, and a
    larger bound gives the same result. *)
Theorem C33_terminates : forall (H : HashOrder) m (vm : VM) fl pd start ps fuel text v,
  built m vm fl pd start ps -> start_element pd start -> keeps_tree vm -> always_returns vm ->
  enough_depth pd text fuel ->
  fst (parse vm ps fuel text v) <> Diverge /\
  forall fuel', fuel <= fuel' -> parse vm ps fuel' text v = parse vm ps fuel text v.
Proof.
  intros H m vm fl pd start ps fuel text v Hb Hst Hvm Hret Hen. apply built_spec in Hb as (Hwf & Hcon & Htab).
  pose proof (parse_run_spec vm pd start ps Hwf Hcon Htab Hvm start fuel text v Hst (con_start _ _ Hcon)) as Hs.
  assert (fst (parse_run vm ps fuel text v) <> Diverge) as Hne.
  { intros E. destruct (parse_run vm ps fuel text v) as [[t|e| |] s1]; try discriminate.
    destruct Hs as [(t & id & i & s & Hp1 & Hp2 & Hp)|Hs]; [exact (Hret t id i s Hp1 Hp2 Hp)|]. unfold enough_depth in Hen. lia. }
  split.
  - unfold parse. destruct (parse_run vm ps fuel text v) as [o s1]. exact Hne.
  - intros fuel' Hf. unfold parse. destruct (parse_run vm ps fuel text v) as [o s1] eqn:E.
    rewrite (parse_run_mono vm ps fuel fuel' text v o s1 Hf E Hne). reflexivity.
Qed.
Print Assumptions C33_terminates.

(** ** C34 does not hold: parse does not look at what is behind the sentence.  The exact
    statement is C30 (a prefix is a sentence) with C31. *)
Definition just_a_calls {I} : list (pd_call I) :=
  [GetOrAdd (lit "start") NonTerminal; GetOrAdd (lit "a") Terminal; GetOrAdd (lit "other") NonTerminal; GetOrAdd (lit "b") Terminal;
   AddProduction 0 [1]; AddProduction 2 [3]].
Definition just_a (I : Type) : ParserData I := pd_history just_a_calls.
Lemma just_a_wf I : wf_grammar (just_a I). Proof. apply wf_check_ok. vm_compute. reflexivity. Qed.
Lemma just_a_fits I : fits_memory (just_a I). Proof. apply fits_check_ok. vm_compute. reflexivity. Qed.
Lemma just_a_alternative I A w : alternative (just_a I) A w -> (A = 0 /\ w = [1]) \/ (A = 2 /\ w = [3]).
Proof.
  intros (r & p & Hr & Hp & ->). apply elem_of_map_to_list in Hr.
  assert (map_to_list (pd_rules (just_a I)) = [(0, mkNTR [NotEmpty [1]] None []); (2, mkNTR [NotEmpty [3]] None [])]) as E by (vm_compute; reflexivity).
  rewrite E in Hr. apply elem_of_cons in Hr as [Hr|Hr]; [|apply elem_of_list_singleton in Hr]; injection Hr as -> ->; simpl in Hp; apply elem_of_list_singleton in Hp as ->; auto.
Qed.
Lemma just_a_start I : start_element (just_a I) 0.
Proof.
  intros e. split; [|intros ->; vm_compute; reflexivity].
  destruct e as [|[|[|[|e]]]]; try reflexivity; intros He; vm_compute in He; discriminate.
Qed.
Lemma just_a_sentence I pt : derivation (just_a I) pt -> root pt = 0 -> yield (just_a I) pt = lit "a".
Proof.
  intros Hd Hr. destruct Hd as [t s Hs|A subs Ha Hf]; simpl in Hr; subst.
  - vm_compute in Hs. discriminate.
  - apply just_a_alternative in Ha as [[_ Ha]|[? _]]; [|discriminate]. destruct subs as [|s [|? ?]]; try discriminate. simpl in Ha. injection Ha as Ha.
    inversion Hf as [|? ? Hs _]; subst. destruct Hs as [t s Hs|A subs Ha' Hf']; simpl in Ha; subst.
    + vm_compute. reflexivity.
    + apply just_a_alternative in Ha' as [[? _]|[? _]]; discriminate.
Qed.
Lemma just_a_built (H : HashOrder) m vm idx : idx = 0 \/ idx = 2 -> exists ps, built m vm (mkFuels 4 11) (just_a (vm_instr vm)) idx ps.
Proof.
  intros Hidx. assert (enough (mkFuels 4 11) (just_a (vm_instr vm))) as Hen by (split; vm_compute; lia).
  destruct (@C26_construction H m vm (mkFuels 4 11) (just_a _) idx (just_a_wf _) (just_a_fits _) Hen) as ([_ Hc] & _).
  destruct Hc as [ps Hps]; [|exists ps; split; [apply just_a_wf|split; [apply just_a_fits|assumption]]].
  assert (constructible (just_a (vm_instr vm)) idx).
  { apply (@C26_construction plain_order Checked vm (mkFuels 4 11) (just_a _) idx (just_a_wf _) (just_a_fits _) Hen).
    assert (is_ok (@new_from_parser_data plain_order Checked vm (mkFuels 4 11) (just_a _) idx) = true) as Hok by (destruct Hidx as [-> | ->]; vm_compute; reflexivity).
    destruct (new_from_parser_data Checked vm (mkFuels 4 11) (just_a _) idx); try discriminate. eauto. }
  assumption.
Qed.
Theorem C34_whole_sentences_only_refuted : forall (H : HashOrder) m,
  exists ps, built m NullVm (mkFuels 4 11) (just_a _) 0 ps /\ start_element (just_a (vm_instr NullVm)) 0 /\
  (exists t, parse NullVm ps 10 (lit "ab") 0%N = (Ok t, 0%N)) /\
  forall pt, derivation (just_a (vm_instr NullVm)) pt -> root pt = 0 -> yield (just_a (vm_instr NullVm)) pt <> lit "ab".
Proof.
  intros H m. destruct (just_a_built H m NullVm 0 (or_introl eq_refl)) as [ps Hps]. exists ps. split; [assumption|]. split; [apply just_a_start|].
  split; [|intros pt Hd Hr; rewrite (just_a_sentence _ pt Hd Hr); discriminate].
  pose proof (built_spec m NullVm _ _ _ _ Hps) as (Hwf & Hcon & Htab).
  pose proof (parse_run_spec NullVm _ 0 ps Hwf Hcon Htab null_keeps_tree 0 10 (lit "ab") 0%N (just_a_start _) (con_start _ _ Hcon)) as Hs.
  assert (forall l t h v, run_list (vm := NullVm) t h l v = Ok v) as Hl by (induction l; intros; [reflexivity|apply IHl]).
  assert (forall l h v, run_actions (vm := NullVm) (just_a (vm_instr NullVm)) h l v = Ok v) as Hrun.
  { induction l as [|[[i A] k] l IH]; intros h v; [reflexivity|]. unfold run_actions in *. cbn [ofold]. rewrite Hl. apply IH. }
  assert (pred (just_a (vm_instr NullVm)) 0 0 (lit "ab") (PNode 0 [PLeaf 1]) (lit "b")) as Hp.
  { eapply (pr_node _ _ 0 (mkNTR [NotEmpty [1]] None []) (NotEmpty [1])); [vm_compute; reflexivity|left| |].
    - left. exists 97%N. split; [reflexivity|]. exists [], 1, [], []. split; [apply rtc_refl|]. split; [constructor|reflexivity].
    - econstructor; [|constructor]. apply (pr_leaf _ _ 1 (lit "a") (lit "b")). vm_compute. reflexivity. }
  unfold parse. destruct (parse_run NullVm ps 10 (lit "ab") 0%N) as [[t|e| |] s1].
  - destruct Hs as (pt & rest & v' & _ & _ & -> & Hr). rewrite Hrun in Hr. injection Hr as <-. eexists. reflexivity.
  - destruct Hs as (stk & rest & v' & Hf & _). exfalso. eapply (fails_not_pred _ _ Hwf Hcon); eauto.
  - destruct Hs as [(t & id & i & s & _ & _ & Hx) _]. discriminate.
  - destruct Hs as [(t & id & i & s & _ & _ & Hx)|Hs]; [discriminate|]. vm_compute in Hs. lia.
Qed.
Print Assumptions C34_whole_sentences_only_refuted.

(** A way to make parse check the end: give the grammar a chain of nonterminals [T],
    beginning with start, that stand only at the end of alternatives of [T], and whose
    alternatives are empty or end with one of [T] (as terms_s in the repository's examples:
    "terms_s -> whitespace term terms_s | #").  Then only whole sentences are accepted. *)
Definition ends_checked {I} (pd : ParserData I) (start : nat) (T : nat -> Prop) : Prop :=
  T start /\
  (forall A, T A -> is_nonterminal pd A) /\
  (forall A w, alternative pd A w -> T A -> w = [] \/ exists u B, w = u ++ [B] /\ T B) /\
  (forall A u B v, alternative pd A (u ++ B :: v) -> T B -> v = [] /\ T A).
Lemma ends_checked_follow {I} (pd : ParserData I) start T : ends_checked pd start T -> forall A x, fol pd start A x -> T A -> x = MTerminate.
Proof.
  intros (_ & _ & _ & Hpos) A x. induction 1 as [|B u A v c Ha Hf|B u A v x Ha Hn Hf IH]; intros Ht; [reflexivity|..];
    destruct (Hpos _ _ _ _ Ha Ht) as [-> HB]; [exfalso; exact (fsts_nil pd c Hf)|exact (IH HB)].
Qed.
Lemma ends_checked_whole {I} (pd : ParserData I) start T : ends_checked pd start T -> constructible pd start ->
  (forall A text pt rest, pred pd start A text pt rest -> T A -> rest = []) /\
  (forall es text pts rest, preds pd start es text pts rest -> forall u B, es = u ++ [B] -> T B -> rest = []).
Proof.
  intros Hec Hcon. pose proof Hec as (_ & Hnt & Hend & _). apply pred_both.
  - intros t s rest Ht HT. destruct (Hnt _ HT) as [y Hy]. unfold is_terminal in Ht. congruence.
  - intros A r p text subs rest Hr Hp Hc Hps IH HT.
    destruct (Hend A (right_side p)) as [E|(u & B & E & HB)]; [exists r, p; auto|assumption| |exact (IH u B E HB)].
    rewrite E in Hps. inversion Hps; subst.
    destruct p as [els|]; [destruct (proj1 (con_defined _ _ Hcon) _ _ _ Hr Hp); simpl in E; congruence|].
    apply FOLLOW_fol, (ends_checked_follow pd start T Hec) in Hc; [|assumption]. destruct rest; [reflexivity|discriminate].
  - intros text u B E. destruct u; discriminate.
  - intros e es text pt mid pts rest _ IH1 Hps IH2 u B E HB. destruct u as [|e' u]; injection E as -> E.
    + subst es. inversion Hps; subst. auto.
    + eauto.
Qed.
Theorem C34_whole_sentences_when_ends_checked : forall (H : HashOrder) m (vm : VM) fl pd start ps fuel text v t v' T,
  built m vm fl pd start ps -> start_element pd start -> keeps_tree vm -> ends_checked pd start T ->
  parse vm ps fuel text v = (Ok t, v') ->
  exists pt, derivation pd pt /\ root pt = start /\ yield pd pt = text /\ shows pd t pt.
Proof.
  intros H m vm fl pd start ps fuel text v t v' T Hb Hst Hvm Hec Hp. apply built_spec in Hb as (Hwf & Hcon & Htab).
  pose proof (parse_run_spec vm pd start ps Hwf Hcon Htab Hvm start fuel text v Hst (con_start _ _ Hcon)) as Hs.
  unfold parse in Hp. destruct (parse_run vm ps fuel text v) as [o s1]. injection Hp as -> <-.
  destruct Hs as (pt & rest & v1 & Hpr & -> & -> & _).
  pose proof (proj1 (ends_checked_whole pd start T Hec Hcon) _ _ _ _ Hpr (proj1 Hec)) as ->.
  apply pred_sound in Hpr as (D1 & D2 & D3). exists pt. rewrite app_nil_r in D3. split; [assumption|]. split; [assumption|]. split; [auto|].
  intros path. apply tree_paths.
Qed.
Print Assumptions C34_whole_sentences_when_ends_checked.

(** ** C35: a parse error points at the first char that cannot continue a sentence *)
Theorem C35_first_offending_char : forall (H : HashOrder) m (vm : VM) fl pd start ps fuel text v e s,
  built m vm fl pd start ps -> start_element pd start -> keeps_tree vm ->
  parse_run vm ps fuel text v = (Err e, s) ->
  exists before rest, text = before ++ rest /\
    (* the parser stands behind [before] *)
    pp_inner (ps_in s) = rest /\ cur_pos (ps_in s) = length before /\
    (* the error names that position and the char there *)
    match e with
    | UnexpectedCharError c pos _ => pos = length before /\ (head rest = Some c \/ (rest = [] /\ c = 35%N))
    | EndOfCharsError pos => pos = length before /\ rest = []
    | _ => False
    end /\
    (* no sentence goes on like the text does: with the same next char, or ends here *)
    (forall pt more, derivation pd pt -> root pt = start -> yield pd pt = before ++ more -> look more <> look rest) /\
    (* but some sentence begins with [before] *)
    ((forall A, has_rule pd A -> productive pd A) ->
     exists pt more, derivation pd pt /\ root pt = start /\ yield pd pt = before ++ more).
Proof.
  intros H m vm fl pd start ps fuel text v e s Hb Hst Hvm Hp. apply built_spec in Hb as (Hwf & Hcon & Htab).
  pose proof (parse_run_spec vm pd start ps Hwf Hcon Htab Hvm start fuel text v Hst (con_start _ _ Hcon)) as Hs.
  rewrite Hp in Hs. destruct Hs as (stk & rest & v' & Hf & -> & _ & Hrep).
  destruct (fails_sound pd start start text stk rest Hf (wf_rules pd Hwf start) (wf_rules pd Hwf)) as (F1 & F2 & F3).
  exists (consumed pd stk), rest. split; [assumption|]. split; [reflexivity|]. split; [reflexivity|]. split; [|split].
  - clear -Hrep. revert Hrep. generalize (length (consumed pd stk)).
    induction stk as [A|t k|A c s IH a]; intros n Hrep; simpl in Hrep; [| |exact (IH n Hrep)].
    + destruct Hrep as (? & ? & _ & _ & _ & ->). split; [reflexivity|]. destruct rest; simpl; auto.
    + destruct rest; [subst; auto|]. destruct Hrep as (? & _ & _ & ->). simpl. auto.
  - intros pt more Hd Hr Hy Hl. pose proof (complete pd start Hwf Hcon pt Hd []) as Hc. rewrite Hr, app_nil_r in Hc.
    specialize (Hc (fun _ => fol_start pd start)). rewrite Hy in Hc.
    eapply (fails_not_pred pd start Hwf Hcon); [|exact Hc]. eapply (fails_lookahead pd start Hwf); [exact Hf|]. symmetry. exact Hl.
  - intros Hprod. destruct (stuck_completion pd start Hwf Hcon stk F1 Hprod) as (pt & more & S1 & S2 & S3).
    exists pt, more. rewrite S2. auto.
Qed.
Print Assumptions C35_first_offending_char.

(** ** C36, C37: the instructions *)
(** On success the VM state is the result of running, for each inner node of the
    derivation tree in post-order, the instructions of its nonterminal on it. *)
Theorem C36_actions_in_post_order : forall (H : HashOrder) m (vm : VM) fl pd start ps fuel text v t v',
  built m vm fl pd start ps -> start_element pd start -> keeps_tree vm ->
  parse vm ps fuel text v = (Ok t, v') ->
  exists pt rest, derivation pd pt /\ root pt = start /\ text = yield pd pt ++ rest /\ shows pd t pt /\
    run_actions pd (tree_history pd 0 None pt) (post_order 0 pt) v = Ok v'.
Proof.
  intros H m vm fl pd start ps fuel text v t v' Hb Hst Hvm Hp. apply built_spec in Hb as (Hwf & Hcon & Htab).
  pose proof (parse_run_spec vm pd start ps Hwf Hcon Htab Hvm start fuel text v Hst (con_start _ _ Hcon)) as Hs.
  unfold parse in Hp. destruct (parse_run vm ps fuel text v) as [o s1]. injection Hp as -> <-.
  destruct Hs as (pt & rest & v' & Hpr & -> & -> & Hrun). exists pt, rest.
  apply pred_sound in Hpr as (D1 & D2 & D3). split; [assumption|]. split; [assumption|]. split; [assumption|].
  split; [intros path; apply tree_paths|assumption].
Qed.
Print Assumptions C36_actions_in_post_order.
(** On failure: the same for exactly the nodes completed before the failure. *)
Theorem C37_effects_of_completed_nodes : forall (H : HashOrder) m (vm : VM) fl pd start ps fuel text v e v',
  built m vm fl pd start ps -> start_element pd start -> keeps_tree vm ->
  parse vm ps fuel text v = (Err e, v') ->
  exists stk rest, failed_derivation pd stk /\ stuck_root stk = start /\ text = consumed pd stk ++ rest /\
    reports pd start stk rest (length (consumed pd stk)) e /\
    run_actions pd (stuck_history pd 0 None stk) (stuck_post_order 0 stk) v = Ok v'.
Proof.
  intros H m vm fl pd start ps fuel text v e v' Hb Hst Hvm Hp. apply built_spec in Hb as (Hwf & Hcon & Htab).
  pose proof (parse_run_spec vm pd start ps Hwf Hcon Htab Hvm start fuel text v Hst (con_start _ _ Hcon)) as Hs.
  unfold parse in Hp. destruct (parse_run vm ps fuel text v) as [o s1]. injection Hp as -> <-.
  destruct Hs as (stk & rest & v' & Hf & -> & Hrun & Hrep).
  destruct (fails_sound pd start start text stk rest Hf (wf_rules pd Hwf start) (wf_rules pd Hwf)) as (F1 & F2 & F3).
  exists stk, rest. auto 10.
Qed.
Print Assumptions C37_effects_of_completed_nodes.

(** A panic is one of the VM, at the first instruction of that order that panics: the text
    has a derivation, or a failed derivation, with such an instruction. *)
Theorem C37_panics_of_completed_nodes : forall (H : HashOrder) m (vm : VM) fl pd start ps fuel text v v',
  built m vm fl pd start ps -> start_element pd start -> keeps_tree vm ->
  parse vm ps fuel text v = (Panic, v') ->
  (exists pt rest, derivation pd pt /\ root pt = start /\ text = yield pd pt ++ rest /\
    run_actions pd (tree_history pd 0 None pt) (post_order 0 pt) v = Panic) \/
  (exists stk rest, failed_derivation pd stk /\ stuck_root stk = start /\ text = consumed pd stk ++ rest /\
    run_actions pd (stuck_history pd 0 None stk) (stuck_post_order 0 stk) v = Panic).
Proof.
  intros H m vm fl pd start ps fuel text v v' Hb Hst Hvm Hp. apply built_spec in Hb as (Hwf & Hcon & Htab).
  pose proof (parse_run_spec vm pd start ps Hwf Hcon Htab Hvm start fuel text v Hst (con_start _ _ Hcon)) as Hs.
  unfold parse in Hp. destruct (parse_run vm ps fuel text v) as [o s1]. injection Hp as -> <-. destruct Hs as (_ & Hs1 & Hs2).
  destruct (pred_or_fails pd start H ps start text Hwf Hcon Htab Hst (con_start _ _ Hcon)) as [(pt & rest & Hpr)|(stk & rest & Hf)].
  - left. exists pt, rest. pose proof (Hs1 _ _ Hpr) as Hr. apply pred_sound in Hpr as (D1 & D2 & D3). auto.
  - right. exists stk, rest. pose proof (Hs2 _ _ Hf) as Hr.
    destruct (fails_sound pd start start text stk rest Hf (wf_rules pd Hwf start) (wf_rules pd Hwf)) as (F1 & F2 & F3). auto.
Qed.
Print Assumptions C37_panics_of_completed_nodes.

(** ** C38 does not hold: start_idx does not choose where parse begins.  The grammar
    start -> "a";  other -> "b"; built for "other" rejects "b" and accepts "a". *)
Theorem C38_start_idx_honoured_refuted : forall (H : HashOrder) m,
  exists ps, built m NullVm (mkFuels 4 11) (just_a _) 2 ps /\
  (exists pt, derivation (just_a (vm_instr NullVm)) pt /\ root pt = 2 /\ yield (just_a (vm_instr NullVm)) pt = lit "b") /\
  (exists e, parse NullVm ps 10 (lit "b") 0%N = (Err e, 0%N)) /\
  (exists t, parse NullVm ps 10 (lit "a") 0%N = (Ok t, 0%N)).
Proof.
  intros H m. destruct (just_a_built H m NullVm 2 (or_intror eq_refl)) as [ps Hps]. exists ps. split; [assumption|]. split.
  { exists (PNode 2 [PLeaf 3]). split; [|split; [reflexivity|vm_compute; reflexivity]].
    apply der_node; [|repeat constructor; eapply (der_leaf _ 3 (lit "b")); vm_compute; reflexivity].
    eexists _, (NotEmpty [3]). split; [vm_compute; reflexivity|]. split; [left|reflexivity]. }
  pose proof (built_spec m NullVm _ _ _ _ Hps) as (Hwf & Hcon & Htab).
  assert (has_rule (just_a (vm_instr NullVm)) 0) as Hr0 by (eexists; vm_compute; reflexivity).
  assert (forall l t h v, run_list (vm := NullVm) t h l v = Ok v) as Hl by (induction l; intros; [reflexivity|apply IHl]).
  assert (forall l h v, run_actions (vm := NullVm) (just_a (vm_instr NullVm)) h l v = Ok v) as Hrun.
  { induction l as [|[[i A] k] l IH]; intros h v; [reflexivity|]. unfold run_actions in *. cbn [ofold]. rewrite Hl. apply IH. }
  assert (forall text : str, 0 = 0 -> (length text <= 1) -> ~ (10 < (length text + 1) * size (pd_rules (just_a (vm_instr NullVm))))) as Hfuel.
  { intros text _ Ht. assert (size (pd_rules (just_a (vm_instr NullVm))) = 2) as -> by (vm_compute; reflexivity). lia. }
  split.
  - pose proof (parse_run_spec NullVm _ 2 ps Hwf Hcon Htab null_keeps_tree 0 10 (lit "b") 0%N (just_a_start _) Hr0) as Hs.
    unfold parse. destruct (parse_run NullVm ps 10 (lit "b") 0%N) as [[t|e| |] s1].
    + destruct Hs as (pt & rest & v' & Hp & _). exfalso. apply pred_sound in Hp as (D1 & D2 & D3).
      rewrite (just_a_sentence _ pt D1 D2) in D3. discriminate.
    + destruct Hs as (stk & rest & v' & _ & -> & Hr & _). rewrite Hrun in Hr. injection Hr as <-. eexists. reflexivity.
    + destruct Hs as [(t & id & i & s & _ & _ & Hx) _]. discriminate.
    + destruct Hs as [(t & id & i & s & _ & _ & Hx)|Hs]; [discriminate|]. exfalso. eapply Hfuel; [reflexivity| |exact Hs]. simpl. lia.
  - pose proof (parse_run_spec NullVm _ 2 ps Hwf Hcon Htab null_keeps_tree 0 10 (lit "a") 0%N (just_a_start _) Hr0) as Hs.
    assert (pred (just_a (vm_instr NullVm)) 2 0 (lit "a") (PNode 0 [PLeaf 1]) []) as Hp.
    { eapply (pr_node _ _ 0 (mkNTR [NotEmpty [1]] None []) (NotEmpty [1])); [vm_compute; reflexivity|left| |].
      - left. exists 97%N. split; [reflexivity|]. exists [], 1, [], []. split; [apply rtc_refl|]. split; [constructor|reflexivity].
      - econstructor; [|constructor]. apply (pr_leaf _ _ 1 (lit "a") []). vm_compute. reflexivity. }
    unfold parse. destruct (parse_run NullVm ps 10 (lit "a") 0%N) as [[t|e| |] s1].
    + destruct Hs as (pt & rest & v' & _ & _ & -> & Hr). rewrite Hrun in Hr. injection Hr as <-. eexists. reflexivity.
    + destruct Hs as (stk & rest & v' & Hf & _). exfalso. eapply (fails_not_pred _ _ Hwf Hcon); eauto.
    + destruct Hs as [(t & id & i & s & _ & _ & Hx) _]. discriminate.
    + destruct Hs as [(t & id & i & s & _ & _ & Hx)|Hs]; [discriminate|]. exfalso. eapply Hfuel; [reflexivity| |exact Hs]. simpl. lia.
Qed.
Print Assumptions C38_start_idx_honoured_refuted.
(** What start_idx means: parse begins at the nonterminal named "start" whatever
    start_idx is; it panics when there is none. *)
Theorem C38_parse_begins_at_start : forall (H : HashOrder) m (vm : VM) fl pd start_idx ps fuel text v,
  built m vm fl pd start_idx ps -> keeps_tree vm ->
  (forall st t v', start_element pd st -> parse vm ps fuel text v = (Ok t, v') ->
     exists pt rest, derivation pd pt /\ root pt = st /\ text = yield pd pt ++ rest /\ shows pd t pt) /\
  ((forall e, get_element_verbose pd e <> Some (lit "start", NonTerminal)) -> fst (parse vm ps fuel text v) = Panic).
Proof.
  intros H m vm fl pd start_idx ps fuel text v Hb Hvm. apply built_spec in Hb as (Hwf & Hcon & Htab). split.
  - intros st t v' Hst Hp. destruct (decide (is_Some (pd_rules pd !! st))) as [Hr|Hr].
    + pose proof (parse_run_spec vm pd start_idx ps Hwf Hcon Htab Hvm st fuel text v Hst Hr) as Hs.
      unfold parse in Hp. destruct (parse_run vm ps fuel text v) as [o s1]. injection Hp as -> <-.
      destruct Hs as (pt & rest & v' & Hpr & -> & -> & Hrun). exists pt, rest.
      apply pred_sound in Hpr as (D1 & D2 & D3). split; [assumption|]. split; [assumption|]. split; [assumption|]. intros path; apply tree_paths.
    + exfalso. unfold parse, parse_run in Hp. rewrite (position_start vm pd start_idx ps Htab st Hst) in Hp. destruct fuel as [|f]; [discriminate|].
      rewrite parse_unfold in Hp. unfold sbind at 1 in Hp. change (mkPS (pp_new text None None) v tree_new) with (P vm text 0 v []) in Hp. rewrite peek_P in Hp.
      destruct (rules_with_steuermaps ps !! st) as [nt|] eqn:E; [|discriminate].
      apply Hr. apply (pt_rules pd start_idx ps Htab). rewrite E. eauto.
  - intros Hn. unfold parse, parse_run. destruct (position_of _ _) as [i|] eqn:E; [|reflexivity].
    apply position_some in E. rewrite (pt_elements pd start_idx ps Htab) in E. exfalso. eapply Hn; eauto.
Qed.
Print Assumptions C38_parse_begins_at_start.

(** ** C39: parsing does not depend on the hash order *)
Theorem C39_hash_order_irrelevant : forall (H H' : HashOrder) m (vm : VM) fl pd start ps ps' fuel text v,
  @built H m vm fl pd start ps -> @built H' m vm fl pd start ps' ->
  let '(r, v1) := @parse H vm ps fuel text v in
  let '(r', v1') := @parse H' vm ps' fuel text v in
  v1 = v1' /\ match r, r' with
  | Err e, Err e' => same_error e e'
  | Err _, _ | _, Err _ => False
  | _, _ => r = r'
  end.
Proof.
  intros H H' m vm fl pd start ps ps' fuel text v Hb Hb'.
  apply (@built_spec H) in Hb as (_ & _ & Htab). apply (@built_spec H') in Hb' as (_ & _ & Htab').
  pose proof (parser_table_unique pd start ps ps' Htab Htab') as <-.
  pose proof (parse_run_rel vm ps H H' fuel text v) as [H1 H2]. unfold parse.
  destruct (@parse_run H vm ps fuel text v) as [o s], (@parse_run H' vm ps fuel text v) as [o' s']. simpl in H1, H2. subst s'.
  split; [reflexivity|]. destruct o, o'; try discriminate; auto.
Qed.
Print Assumptions C39_hash_order_irrelevant.

(** ** C52: CountingVm counts *)
(** Total number of instructions of the completed inner nodes (a rule read from text has
    one instruction if it has braces and none otherwise). *)
Definition instruction_count {I} (pd : ParserData I) (nodes : list (nat * nat * nat)) : nat :=
  list_sum (map (fun '(_, A, _) => length (instructions_of pd A)) nodes).
Lemma counting_list m t id : forall l (s s' : N), run_list (vm := CountingVm m) t id l s = Ok s' ->
  (Z.of_N s + Z.of_nat (length l) < 2 ^ 64)%Z -> s' = (s + N.of_nat (length l))%N.
Proof.
  induction l as [|i l IH]; intros s s' Hr Hlt; unfold run_list in *; cbn [ofold] in Hr.
  - injection Hr as <-. simpl. lia.
  - cbn [vm_execute CountingVm] in Hr. unfold counting_execute in Hr. unfold usize_result in Hr.
    cbn [length] in Hlt. assert (((0 <=? Z.of_N s + 1) && (Z.of_N s + 1 <? 2 ^ 64))%Z = true) as E by (apply andb_true_intro; split; [apply Z.leb_le; lia|apply Z.ltb_lt; lia]).
    rewrite E in Hr. cbn [obind] in Hr. apply IH in Hr; [|lia]. rewrite Hr. cbn [length]. lia.
Qed.
Lemma counting_actions m pd h : forall l (s s' : N), run_actions (vm := CountingVm m) pd h l s = Ok s' ->
  (Z.of_N s + Z.of_nat (instruction_count pd l) < 2 ^ 64)%Z -> s' = (s + N.of_nat (instruction_count pd l))%N.
Proof.
  induction l as [|[[i A] k] l IH]; intros s s' Hr Hlt; unfold run_actions in *; cbn [ofold] in Hr.
  - injection Hr as <-. simpl. lia.
  - unfold instruction_count in *. cbn [map list_sum fold_right] in *. fold (list_sum (map (fun '(_, A0, _) => length (instructions_of pd A0)) l)) in *.
    destruct (run_list (vm := CountingVm m) _ _ _ s) as [s1| | |] eqn:E; try discriminate. cbn [obind] in Hr.
    apply counting_list in E; [|lia]. apply IH in Hr; [|lia]. lia.
Qed.
Theorem C52_counting : forall (H : HashOrder) m fl (pd : ParserData N) start ps fuel text (v : N) t v',
  built m (CountingVm m) fl pd start ps -> start_element pd start ->
  parse (CountingVm m) ps fuel text v = (Ok t, v') ->
  exists pt rest, derivation pd pt /\ root pt = start /\ text = yield pd pt ++ rest /\ shows pd t pt /\
    let n := instruction_count pd (post_order 0 pt) in
    (Z.of_N v + Z.of_nat n < 2 ^ 64)%Z -> v' = (v + N.of_nat n)%N.
Proof.
  intros H m fl pd start ps fuel text v t v' Hb Hst Hp.
  destruct (C36_actions_in_post_order H m (CountingVm m) fl pd start ps fuel text v t v' Hb Hst (counting_keeps_tree m) Hp) as (pt & rest & D1 & D2 & D3 & D4 & D5).
  exists pt, rest. do 4 (split; [assumption|]). intros n Hlt. eapply counting_actions; eauto.
Qed.
Print Assumptions C52_counting.

(** ** C53 (first half): NullVm never changes its state, whatever happens *)
Lemma null_actions pd h : forall l (v : N), run_actions (vm := NullVm) pd h l v = Ok v.
Proof.
  assert (forall l t id (v : N), run_list (vm := NullVm) t id l v = Ok v) as Hl by (induction l; intros; [reflexivity|apply IHl]).
  induction l as [|[[i A] k] l IH]; intros v; [reflexivity|]. unfold run_actions in *. cbn [ofold]. rewrite Hl. apply IH.
Qed.
Theorem C53_null_state : forall (H : HashOrder) m fl (pd : ParserData N) start ps fuel text (v : N),
  built m NullVm fl pd start ps -> start_element pd start -> enough_depth pd text fuel ->
  match parse NullVm ps fuel text v with
  | (Ok _, v') | (Err _, v') => v' = v
  | _ => False
  end.
Proof.
  intros H m fl pd start ps fuel text v Hb Hst Hen. apply built_spec in Hb as (Hwf & Hcon & Htab).
  pose proof (parse_run_spec NullVm pd start ps Hwf Hcon Htab null_keeps_tree start fuel text v Hst (con_start _ _ Hcon)) as Hs.
  unfold parse. destruct (parse_run NullVm ps fuel text v) as [[t|e| |] s1].
  - destruct Hs as (pt & rest & v' & _ & _ & -> & Hr). rewrite null_actions in Hr. injection Hr as <-. reflexivity.
  - destruct Hs as (stk & rest & v' & _ & -> & Hr & _). rewrite null_actions in Hr. injection Hr as <-. reflexivity.
  - destruct Hs as [(t & id & i & s & _ & _ & Hx) _]. discriminate.
  - destruct Hs as [(t & id & i & s & _ & _ & Hx)|Hs]; [discriminate|]. exact (Nat.lt_irrefl _ (Nat.lt_le_trans _ _ _ Hs Hen)).
Qed.
Print Assumptions C53_null_state.

(** ** Non-vacuity *)
Lemma paren_start I : start_element (paren_pd I) 0.
Proof.
  intros e. split; [|intros ->; vm_compute; reflexivity].
  destruct e as [|[|[|e]]]; try reflexivity; intros He; vm_compute in He; discriminate.
Qed.
Lemma paren_built (H : HashOrder) m : exists ps, built m NullVm (mkFuels 3 5) (paren_pd _) 0 ps.
Proof.
  destruct (@C26_construction H m NullVm (mkFuels 3 5) (paren_pd _) 0 (paren_wf _) (paren_fits _) (paren_enough _)) as ([_ Hc] & _).
  destruct (Hc paren_constructible) as [ps Hps]. exists ps. split; [apply paren_wf|]. split; [apply paren_fits|assumption].
Qed.
(** "(())" is accepted with this tree *)
Definition paren_tree : ptree := PNode 0 [PLeaf 1; PNode 0 [PLeaf 1; PNode 0 []; PLeaf 2; PNode 0 []]; PLeaf 2; PNode 0 []].
Lemma paren_derivation : derivation (paren_pd N) paren_tree /\ root paren_tree = 0 /\ yield (paren_pd N) paren_tree = lit "(())".
Proof.
  assert (alternative (paren_pd N) 0 [1; 0; 2; 0]) as A1 by (eexists _, (NotEmpty [1; 0; 2; 0]); split; [vm_compute; reflexivity|split; [left|reflexivity]]).
  assert (alternative (paren_pd N) 0 []) as A2 by (eexists _, Empty; split; [vm_compute; reflexivity|split; [right; left|reflexivity]]).
  assert (derivation (paren_pd N) (PLeaf 1)) as D1 by (eapply (der_leaf _ 1 (lit "(")); vm_compute; reflexivity).
  assert (derivation (paren_pd N) (PLeaf 2)) as D2 by (eapply (der_leaf _ 2 (lit ")")); vm_compute; reflexivity).
  assert (derivation (paren_pd N) (PNode 0 [])) as D3 by (apply der_node; [assumption|constructor]).
  assert (derivation (paren_pd N) (PNode 0 [PLeaf 1; PNode 0 []; PLeaf 2; PNode 0 []])) as D4 by (apply der_node; [assumption|]; repeat constructor; assumption).
  split; [|split; [reflexivity|vm_compute; reflexivity]]. apply der_node; [assumption|]. repeat constructor; assumption.
Qed.
Lemma null_returns : always_returns NullVm. Proof. intros h n i s _ _. discriminate. Qed.
(** All hypotheses of C29-C37, C53 hold for this parser, and parse succeeds on a sentence *)
Example C31_example : forall (H : HashOrder) m, exists ps t, built m NullVm (mkFuels 3 5) (paren_pd _) 0 ps /\
  parse NullVm ps 5 (lit "(())") 7%N = (Ok t, 7%N) /\ shows (paren_pd N) t paren_tree.
Proof.
  intros H m. destruct (paren_built H m) as [ps Hps]. destruct paren_derivation as (D1 & D2 & D3).
  pose proof (C31_sentences_are_parsed H m NullVm (mkFuels 3 5) (paren_pd _) 0 ps 5 paren_tree [] 7%N Hps (paren_start _) null_keeps_tree null_returns D1 D2 (or_introl eq_refl)) as Hs.
  rewrite app_nil_r in Hs. change (vm_instr NullVm) with N in Hs. rewrite D3 in Hs.
  assert (enough_depth (paren_pd N) (lit "(())") 5) as Hen by (vm_compute; lia). specialize (Hs Hen).
  pose proof (null_actions (paren_pd N) (tree_history (paren_pd N) 0 None paren_tree) (post_order 0 paren_tree) 7%N) as Hn.
  rewrite Hn in Hs. destruct Hs as (t & T1 & T2 & _). exists ps, t. auto.
Qed.
(** and it fails on "(()" at position 3 and on "(]" at position 1 *)
Example C35_example :
  match @new_from_parser_data plain_order Checked NullVm (mkFuels 3 5) (paren_pd _) 0 with
  | Ok ps => match parse (H := plain_order) NullVm ps 20 (lit "(()") 0%N, parse (H := plain_order) NullVm ps 20 (lit "(]") 0%N with
     | (Err (EndOfCharsError 3), _), (Err (UnexpectedCharError 93%N 1 _), _) => true
     | _, _ => false end
  | _ => false end = true.
Proof. vm_compute. reflexivity. Qed.
(** counting: five inner nodes with one instruction each *)
Definition count_calls : list (pd_call N) := paren_calls ++ [AddInstructions 0 [0%N]].
Example C52_example :
  match @new_from_parser_data plain_order Checked (CountingVm Checked) (mkFuels 3 5) (pd_history count_calls) 0 with
  | Ok ps => match parse (H := plain_order) (CountingVm Checked) ps 20 (lit "(())") 10%N with
     | (Ok _, v) => N.eqb v 15 && (Nat.eqb (instruction_count (pd_history count_calls) (post_order 0 paren_tree)) 5)
     | _ => false end
  | _ => false end = true.
Proof. vm_compute. reflexivity. Qed.
