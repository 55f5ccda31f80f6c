(** * C65: the calculator examples on texts that are not programs *)
From Verif Require Import Base Peekables Tree Errors Sets ParserData Vm SimpleStackVm StackVm RuleParsing FirstSets FollowSets SteuerMap ScriptParser
  SpecText SpecData SpecGrammar SpecParser SpecTree SpecScript SpecContract SpecWeave SpecRules SpecNames SpecMath SpecVm SpecRpn SpecCalc
  Grammar_proofs Script_proofs Parse_proofs Construct_proofs Checks Names_proofs RuleBuild_proofs RuleText_proofs Math_proofs Vm_proofs Rpn_proofs CalcFail_proofs Broken_proofs
  Props_data Props_steuer Props_script Props_weave Props_rules Props_names Props_math Props_vm Props_rpn Samples.

Lemma reports_place {I} (pd : ParserData I) start stk read rest e : reports pd start stk rest (length read) e -> names_place read rest e.
Proof.
  induction stk as [A|t k|A subs stk IH after]; simpl; [| |exact IH].
  - intros (keys & r & _ & _ & _ & ->). destruct rest as [|c rest]; simpl; [right; eauto|eauto].
  - destruct rest as [|x rest]; simpl; [auto|]. intros (c & _ & _ & ->). eauto.
Qed.
(** What a parse with a calculator does with a text that is not a program. *)
Definition refuses {vm : VM} (m : ovf_mode) (lo : Z) (view : vm_state vm -> mach)
    (run : nat -> str -> vm_state vm -> outcome ParserError (Tree str) * vm_state vm) : Prop :=
  forall fuel l ds read rest s, (length (read ++ rest) + 1) * 14 <= fuel -> (Z.of_nat (length (read ++ rest)) < 2 ^ 63)%Z ->
  broken l ds read rest -> match run fuel (read ++ rest) s with
   | (Err e, s') => names_place read rest e /\ exists s1, does_all m lo l (view s) (Some s1) /\ view s' = unfinished ds s1
   | (Panic, _) => does_all m lo l (view s) None
   | _ => False
   end.
Lemma refusal {H : HashOrder} m' (vm : VM) fl pd start ps m lo view opof ins :
  built m' vm fl pd start ps -> start_element pd start -> names_unique pd -> proper pd -> math_grammar pd ins ->
  (forall x, map opof (ins x) = math_ops x) -> keeps_tree vm -> always_returns vm -> (lo = 0 \/ lo = - 2 ^ 63)%Z ->
  (forall h n i s, SpecTree.grown h -> n < length h -> follows lo view m h n (opof i) s (vm_execute vm (snd (do_adds h tree_new)) (id_of n) i s)) ->
  refuses (vm := vm) m lo view (parse vm ps).
Proof.
  intros Hb Hst Hu Hpr Hm Hops Hkt Har Hlo Hfol fuel l ds read rest s Hfuel Hlen Hbr.
  pose proof (built_spec m' vm fl pd start ps Hb) as (Hwf & Hcon & Htab).
  pose proof (math_size pd ins Hm Hu Hpr Hwf) as Hsz. pose proof (proj2 (Hst start) eq_refl) as Hstart.
  set (text := read ++ rest) in *.
  assert (forall pt rest', ~ pred pd start start text pt rest') as Hnp.
  { intros pt rest' Hpred.
    pose proof (proj1 (whole_text pd ins Hm Hpr Hwf start Hstart) _ _ _ _ Hpred) as Hrest.
    apply pred_sound in Hpred as (D1 & D2 & D3). rewrite Hrest in D3 by (exists (nt (lit "start")); split; [exact Hstart|left]).
    rewrite app_nil_r in D3. assert (exists l', program l' text) as [l' Hl'].
    { rewrite D3. apply (start_yield pd ins Hm Hpr Hwf); [rewrite D2; exact Hstart|assumption]. }
    exact (broken_no_program _ _ _ _ _ Hbr Hl'). }
  assert (Forall good_item l) as Hg.
  { inversion Hbr; subst; [assumption..|]. apply Forall_app. split; [assumption|]. constructor; [assumption|constructor]. }
  destruct (does_all_exists m lo l Hg (view s)) as [r Hr].
  assert (forall stk rest', fails pd start start text stk rest' -> rest' = rest /\ consumed pd stk = read /\
    agrees vm view (fun x => x = option_map (unfinished ds) r) (run_actions pd (stuck_history pd 0 None stk) (stuck_post_order 0 stk) s)) as Hfails.
  { intros stk rest' Hf.
    destruct (fails_start pd ins opof Hm Hu Hops start Hwf Hcon Hstart m lo Hlo text stk rest' Hlen Hf) as (l' & ds' & read' & Hbr' & E & Hrun).
    destruct (broken_unique _ _ _ _ _ _ _ _ Hbr Hbr' E) as (<- & <- & <- & <-). split; [reflexivity|].
    destruct (fails_sound pd start start text stk rest Hf (wf_rules pd Hwf start) (wf_rules pd Hwf)) as (_ & _ & F3). split.
    { unfold text in F3. apply app_inv_tail in F3. auto. }
    pose proof (whole_stuck_actions vm pd m lo view opof Hfol stk s) as Hag. specialize (Hrun _ _ Hr).
    destruct (run_actions pd _ _ s); simpl in *; try contradiction; symmetry; eapply stuck_run_det; eauto. }
  pose proof (parse_run_spec vm pd start ps Hwf Hcon Htab Hkt start fuel text s Hst (con_start _ _ Hcon)) as Hs.
  unfold parse. destruct (parse_run vm ps fuel text s) as [[t|e| |] s1].
  - destruct Hs as (pt & rest' & _ & Hpred & _). exact (Hnp _ _ Hpred).
  - destruct Hs as (stk & rest' & v' & Hf & -> & Hrun & Hrep). destruct (Hfails _ _ Hf) as (-> & Hcons & Hag). rewrite Hcons in Hrep. split; [eapply reports_place; exact Hrep|].
    rewrite Hrun in Hag. simpl in Hag. destruct r as [s1|]; [|discriminate]. injection Hag as Hag. exists s1. split; [assumption|]. exact Hag.
  - destruct Hs as (_ & _ & Hs). destruct (pred_or_fails pd start H ps start text Hwf Hcon Htab Hst (con_start _ _ Hcon)) as [(pt & rest' & Hpred)|(stk & rest' & Hf)]; [contradiction (Hnp _ _ Hpred)|].
    destruct (Hfails _ _ Hf) as (-> & _ & Hag). rewrite (Hs _ _ Hf) in Hag. simpl in Hag. destruct r; [discriminate|]. exact Hr.
  - destruct Hs as [(t & id & i & v & Hp1 & Hp2 & Hp)|Hs]; [exact (Har t id i v Hp1 Hp2 Hp)|]. nia.
Qed.

(** ** C65.  A text is either a program or broken at exactly one place. *)
Theorem C65_program_or_broken : forall text,
  (exists l, program l text) \/ (exists l ds read rest, broken l ds read rest /\ text = read ++ rest).
Proof. exact program_or_broken. Qed.
Theorem C65_not_both : forall l l' ds read rest, broken l ds read rest -> ~ program l' (read ++ rest).
Proof. intros l l' ds read rest. apply broken_no_program. Qed.
Theorem C65_one_place : forall l ds read rest l' ds' read' rest', broken l ds read rest -> broken l' ds' read' rest' ->
  read ++ rest = read' ++ rest' -> l = l' /\ ds = ds' /\ read = read' /\ rest = rest'.
Proof. intros l ds read rest l' ds' read' rest'. apply broken_unique. Qed.
(** The place is the end of the longest prefix of a program: what stands before it can be
    continued to a program, but not with the char that is there. *)
Theorem C65_longest_prefix : forall l ds read rest, broken l ds read rest ->
  (exists l' t, program l' (read ++ t)) /\
  (forall c rest' t l', rest = c :: rest' -> ~ program l' (read ++ c :: t)).
Proof.
  intros l ds read rest Hb. split; [eapply broken_prefix; exact Hb|]. intros c rest' t l' ->. eapply broken_no_program, broken_head. exact Hb.
Qed.
(** A broken text: the complete items have been run (an overflow there is a panic), the
    digits of an unfinished number are on the stack, nothing is undone, and the error names
    the first char behind the longest prefix of a program and its position. *)
Theorem C65_simple_calculator_errors : forall (U : Unicode) (H : HashOrder) m m' fl, enough_for_text fl simple_math_rules ->
  exists ps, new_from_text m' (SimpleStackVm m) fl simple_math_rules = Ok ps /\
    refuses (vm := SimpleStackVm m) m 0 simple_view (parse (SimpleStackVm m) ps).
Proof.
  intros U H m m' fl Hfl. destruct (@simple_text_math U H m) as (s & rs & E & Ht & Hdes & Hm).
  assert (N.of_nat (length simple_math_rules) < 2 ^ 63)%N as Hlen by (vm_compute; reflexivity).
  destruct (@math_text_buildable U H m' (SimpleStackVm m) simple_reads fl simple_math_rules s rs simple_instrs simple_data 0 (sh_simple m) Hlen Hfl E Hdes Hm
    simple_wf simple_unique simple_math simple_start simple_constructible) as (ps & st & Hps & Hst & Hb).
  exists ps. split; [assumption|].
  eapply (refusal m' (SimpleStackVm m) fl (rp_pd s) st ps m 0 simple_view simple_op simple_instrs Hb Hst);
    eauto using described_unique, described_proper, simple_math_ops, simple_keeps_tree, simple_returns, C51_simple_machine.
Qed.
Theorem C65_stack_calculator_errors : forall (U : Unicode) (H : HashOrder) m m' fl, enough_for_text fl stack_math_rules ->
  exists ps, new_from_text m' (StackVm m) fl stack_math_rules = Ok ps /\
    refuses (vm := StackVm m) m (- 2 ^ 63) stack_view (parse (StackVm m) ps).
Proof.
  intros U H m m' fl Hfl. destruct (@stack_text_math U H m) as (s & rs & E & Ht & Hdes & Hm).
  assert (N.of_nat (length stack_math_rules) < 2 ^ 63)%N as Hlen by (vm_compute; reflexivity).
  destruct (@math_text_buildable U H m' (StackVm m) stack_reads fl stack_math_rules s rs stack_instrs api_data 0 (sh_stack m) Hlen Hfl E Hdes Hm
    api_wf api_unique api_math api_start api_constructible) as (ps & st & Hps & Hst & Hb).
  exists ps. split; [assumption|].
  eapply (refusal m' (StackVm m) fl (rp_pd s) st ps m (- 2 ^ 63) stack_view stack_op stack_instrs Hb Hst);
    eauto using described_unique, described_proper, stack_math_ops, stack_keeps_tree, stack_returns, C51_stack_machine.
Qed.
(** The grammar of examples/rust_defined_rules.rs: both halves. *)
Theorem C65_api_calculator : forall (U : Unicode) (H : HashOrder) m m' fl ps, built m' (StackVm m) fl api_data 0 ps ->
  calculates (vm := StackVm m) m (- 2 ^ 63) stack_view (parse (StackVm m) ps) /\
  refuses (vm := StackVm m) m (- 2 ^ 63) stack_view (parse (StackVm m) ps).
Proof.
  intros U H m m' fl ps Hb. split.
  - eapply (calculator m' (StackVm m) fl api_data 0 ps m (- 2 ^ 63) stack_view stack_op stack_instrs Hb api_start);
      eauto using api_unique, api_math, stack_math_ops, stack_keeps_tree, stack_returns, C51_stack_machine, all_defined_proper, con_defined, api_constructible.
  - eapply (refusal m' (StackVm m) fl api_data 0 ps m (- 2 ^ 63) stack_view stack_op stack_instrs Hb api_start);
      eauto using api_unique, api_math, stack_math_ops, stack_keeps_tree, stack_returns, C51_stack_machine, all_defined_proper, con_defined, api_constructible.
Qed.
Print Assumptions C65_program_or_broken.
Print Assumptions C65_not_both.
Print Assumptions C65_one_place.
Print Assumptions C65_longest_prefix.
Print Assumptions C65_simple_calculator_errors.
Print Assumptions C65_stack_calculator_errors.
Print Assumptions C65_api_calculator.

(** Instances: "1 2 +3", "7 12x", "1 pro", and "4 " (the end of the text). *)
Lemma digits_check ds : forallb (fun c => ((48 <=? c) && (c <=? 57))%N) ds = true -> Forall digit_char ds.
Proof.
  intros Hds. apply Forall_forall. intros c Hc. rewrite forallb_forall in Hds. apply elem_of_list_In, Hds, andb_prop in Hc as [H1 H2]. apply N.leb_le in H1, H2. split; assumption.
Qed.
Example C65_example_broken :
  broken [Num (lit "1"); Num (lit "2"); Plus] [] (lit "1 2 +") (lit "3") /\
  broken [Num (lit "7")] (lit "12") (lit "7 12") (lit "x") /\
  broken [Num (lit "1")] [] (lit "1 pr") (lit "o") /\ broken [Num (lit "4")] [] (lit "4 ") [].
Proof.
  assert (forall c, forallb (fun c => ((48 <=? c) && (c <=? 57))%N) [c] = true -> good_item (Num [c])) as Hg by (intros c Hc; split; [discriminate|apply digits_check; exact Hc]).
  split; [|split; [|split]].
  - refine (br_after [Num (lit "1"); Num (lit "2")] Plus 51%N [] _ Logic.I (fun x => x) _); [|discriminate].
    constructor; [apply Hg; reflexivity|constructor; [apply Hg; reflexivity|constructor]].
  - refine (br_number [Num (lit "7")] (lit "12") 120%N [] _ _ _ _ _); [constructor; [apply Hg; reflexivity|constructor]|discriminate|apply digits_check; reflexivity| |discriminate].
    intros [_ Hc]. vm_compute in Hc. apply Hc. reflexivity.
  - refine (br_item [Num (lit "1")] 2 (lit "o") _ _ _ _); [constructor; [apply Hg; reflexivity|constructor]|lia|discriminate|discriminate].
  - refine (br_item [Num (lit "4")] 0 [] _ _ _ _); [constructor; [apply Hg; reflexivity|constructor]|lia|discriminate|discriminate].
Qed.
(** The parser of the API example on them: error position, stack. *)
Definition err_check (m : ovf_mode) (text : str) (pos : nat) (st : list Z) : bool :=
  match @new_from_parser_data plain_order Checked (@StackVm ascii_unicode m) (mkFuels 16 407) api_data 0 with
  | Ok ps => match parse (H := plain_order) (@StackVm ascii_unicode m) ps (14 * (length text + 1)) text (vm_new_state (@StackVm ascii_unicode m)) with
             | (Err (UnexpectedCharError _ p _), s) | (Err (EndOfCharsError p), s) => bool_decide (p = pos /\ ks_stack s = st)
             | _ => false
             end
  | _ => false
  end.
Example C65_example_runs : err_check Checked (lit "1 2 +3") 5 [3%Z] = true /\ err_check Checked (lit "7 12x") 4 [1; 2; 1; 1; 7]%Z = true /\
  err_check Wrapping (lit "1 pro") 4 [1%Z] = true /\ err_check Checked (lit "4 ") 2 [4%Z] = true.
Proof. vm_compute. auto. Qed.

(** ** C66.  Sessions: several texts, one after the other, with the same state of the VM. *)
(** Calls of parse with the same state until one panics: the replies, and the last state. *)
Fixpoint calls {S} (run : nat -> str -> S -> outcome ParserError (Tree str) * S) (fuel : nat) (texts : list str) (s : S) : option (list reply * option S) :=
  match texts with
  | [] => Some ([], Some s)
  | text :: texts' =>
      match run fuel text s with
      | (Ok _, s1) => match calls run fuel texts' s1 with Some (rs, r) => Some (Accepted :: rs, r) | None => None end
      | (Err e, s1) => match calls run fuel texts' s1 with Some (rs, r) => Some (Refused e :: rs, r) | None => None end
      | (Panic, _) => Some ([], None)
      | (Diverge, _) => None
      end
  end.
Definition holds_sessions {S} (m : ovf_mode) (lo : Z) (view : S -> mach) (run : nat -> str -> S -> outcome ParserError (Tree str) * S) : Prop :=
  forall fuel texts s, (forall text, text ∈ texts -> (length text + 1) * 14 <= fuel /\ (Z.of_nat (length text) < 2 ^ 63)%Z) ->
  exists rs r, calls run fuel texts s = Some (rs, r) /\ session m lo texts (view s) rs (option_map view r).
Lemma sessions {vm : VM} m lo view run : calculates (vm := vm) m lo view run -> refuses (vm := vm) m lo view run -> holds_sessions m lo view run.
Proof.
  intros Hc Hr fuel texts. induction texts as [|text texts IH]; intros s Hall; [exists [], (Some s); split; [reflexivity|constructor]|].
  destruct (Hall text ltac:(left)) as [Hf Hlen]. specialize (fun s => IH s (fun t Ht => Hall t (elem_of_list_further t text texts Ht))). simpl.
  destruct (program_or_broken text) as [[l Hp]|(l & ds & read & rest & Hb & ->)].
  - pose proof (proj1 (Hc fuel text s Hf Hlen) l Hp) as Hs. destruct (run fuel text s) as [[t|e| |] s1]; try contradiction.
    + destruct (IH s1) as (rs & r & -> & Hses). exists (Accepted :: rs), r. split; [reflexivity|]. eapply ses_program; eauto.
    + exists [], None. split; [reflexivity|]. eapply ses_panic; eauto.
  - pose proof (Hr fuel l ds read rest s Hf Hlen Hb) as Hs. destruct (run fuel (read ++ rest) s) as [[t|e| |] s1]; try contradiction.
    + destruct Hs as (Hn & s2 & Hd & Hw). destruct (IH s1) as (rs & r & -> & Hses). exists (Refused e :: rs), r. split; [reflexivity|].
      eapply ses_broken; [exact Hb|exact Hd|exact Hn|]. rewrite <- Hw. exact Hses.
    + exists [], None. split; [reflexivity|]. eapply ses_broken_panic; eauto.
Qed.
Theorem C66_simple_sessions : forall (U : Unicode) (H : HashOrder) m m' fl, enough_for_text fl simple_math_rules ->
  exists ps, new_from_text m' (SimpleStackVm m) fl simple_math_rules = Ok ps /\ holds_sessions m 0 simple_view (parse (SimpleStackVm m) ps).
Proof.
  intros U H m m' fl Hfl. destruct (C48_simple_calculator U H m m' fl Hfl) as (ps & Hps & Hc). destruct (C65_simple_calculator_errors U H m m' fl Hfl) as (ps' & Hps' & Hr).
  assert (ps' = ps) as -> by congruence. exists ps. split; [assumption|]. exact (sessions (vm := SimpleStackVm m) m 0 simple_view _ Hc Hr).
Qed.
Theorem C66_stack_sessions : forall (U : Unicode) (H : HashOrder) m m' fl, enough_for_text fl stack_math_rules ->
  exists ps, new_from_text m' (StackVm m) fl stack_math_rules = Ok ps /\ holds_sessions m (- 2 ^ 63) stack_view (parse (StackVm m) ps).
Proof.
  intros U H m m' fl Hfl. destruct (C50_stack_calculator U H m m' fl Hfl) as (ps & Hps & Hc). destruct (C65_stack_calculator_errors U H m m' fl Hfl) as (ps' & Hps' & Hr).
  assert (ps' = ps) as -> by congruence. exists ps. split; [assumption|]. exact (sessions (vm := StackVm m) m (- 2 ^ 63) stack_view _ Hc Hr).
Qed.
(** A session of programs does what the one program does that is made of their items. *)
Theorem C66_session_of_programs : forall m lo ls texts s, Forall2 program ls texts -> forall r, does_all m lo (concat ls) s r -> exists rs, session m lo texts s rs r /\ Forall (fun x => x = Accepted) rs /\ (r <> None -> length rs = length texts).
Proof.
  intros m lo ls texts s Hf. revert s. induction Hf as [|l text ls texts Hp _ IH]; intros s r Hr; simpl in Hr.
  - inversion Hr; subst. exists []. split; [constructor|]. split; [constructor|reflexivity].
  - assert ((exists s1, does_all m lo l s (Some s1) /\ does_all m lo (concat ls) s1 r) \/ (does_all m lo l s None /\ r = None)) as [(s1 & H1 & H2)|[H1 ->]].
    { clear -Hr. revert s Hr. induction l as [|i l IH]; intros s Hr; simpl in Hr; [left; exists s; split; [constructor|assumption]|].
      inversion Hr as [|? ? ? s1 ? D1 D2|? ? ? D1]; subst; [|right; split; [apply da_panic; assumption|reflexivity]].
      destruct (IH s1 D2) as [(s2 & H1 & H2)|[H1 ->]]; [left; exists s2; split; [eapply da_cons; eassumption|assumption]|right; split; [eapply da_cons; eassumption|reflexivity]]. }
    + destruct (IH s1 r H2) as (rs & S1 & S2 & S3). exists (Accepted :: rs). split; [eapply ses_program; eassumption|]. split; [constructor; [reflexivity|assumption]|].
      intros Hn. simpl. rewrite (S3 Hn). reflexivity.
    + exists []. split; [eapply ses_panic; eassumption|]. split; [constructor|contradiction].
Qed.
Print Assumptions C66_simple_sessions.
Print Assumptions C66_stack_sessions.
Print Assumptions C66_session_of_programs.

Example C66_example : forall m, exists e s', session m 0 [lit "1 2"; lit "+ x"; lit "print"] (mkMach [] 0 0 0 []) [Accepted; Refused e; Accepted] (Some s') /\
  printed s' = [3%Z] /\ names_place (lit "+ ") (lit "x") e.
Proof.
  intros m. assert (forall c, forallb (fun c => ((48 <=? c) && (c <=? 57))%N) [c] = true -> good_item (Num [c])) as Hg by (intros c Hc; split; [discriminate|apply digits_check; exact Hc]).
  assert (names_place (lit "+ ") (lit "x") (UnexpectedCharError 120%N 2 [])) as Hn by (exists []; reflexivity).
  exists (UnexpectedCharError 120%N 2 []). eexists. split; [|split; [|exact Hn]].
  - eapply (ses_program m 0 (lit "1 2") [Num (lit "1"); Num (lit "2")]).
    + split; [discriminate|]. split; [|reflexivity]. constructor; [apply Hg; reflexivity|constructor; [apply Hg; reflexivity|constructor]].
    + eapply da_cons; [apply do_digit|]. eapply da_cons; [apply do_digit|]. apply da_nil.
    + eapply (ses_broken m 0 [Plus] [] (lit "+ ") (lit "x")).
      * refine (br_item [Plus] 0 (lit "x") _ _ _ _); [constructor; [exact Logic.I|constructor]|lia|discriminate|].
        intros c rest' _ E. injection E as <- <-. split; [intros [_ Hc]; vm_compute in Hc; apply Hc; reflexivity|]. split; discriminate.
      * eapply da_cons; [|apply da_nil]. refine (do_plus m 0 1 2 [] _ (Some 3%Z) _ _); [reflexivity|]. apply w_fits. split; vm_compute; [discriminate|reflexivity].
      * exact Hn.
      * eapply (ses_program m 0 (lit "print") [Print]).
        -- split; [discriminate|]. split; [constructor; [exact Logic.I|constructor]|reflexivity].
        -- eapply da_cons; [|apply da_nil]. apply (do_print m 0 3 []). reflexivity.
        -- apply ses_end.
  - reflexivity.
Qed.
