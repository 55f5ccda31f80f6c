(** * C54, C48, C50: the calculator examples *)
From Verif Require Import Base Peekables Tree Errors Sets ParserData Vm SimpleStackVm StackVm RuleParsing FirstSets FollowSets SteuerMap ScriptParser
  SpecText SpecData SpecGrammar SpecParser SpecTree SpecScript SpecContract SpecWeave SpecRules SpecNames SpecMath Grammar_proofs Construct_proofs Checks
  Names_proofs RuleBuild_proofs RuleText_proofs Math_proofs Props_data Props_steuer Props_script Props_weave Props_rules Props_names Samples.

Lemma history_unique {I} (l : list (pd_call I)) : names_unique (pd_history l).
Proof.
  intros A B [x []] HA HB; [apply C18_bijection in HA, HB|apply (proj2 (proj2 (proj2 (C18_bijection I l)))) in HA, HB]; congruence.
Qed.
Lemma api_unique : names_unique api_data.
Proof. apply history_unique. Qed.
Lemma api_wf : wf_grammar api_data.
Proof. apply wf_check_ok. vm_compute. reflexivity. Qed.
Lemma api_fits : fits_memory api_data.
Proof. apply fits_check_ok. vm_compute. reflexivity. Qed.
Lemma api_start : start_element api_data 0.
Proof.
  intros e. split; [|intros ->; vm_compute; reflexivity]. intros He. eapply api_unique; [exact He|]. vm_compute. reflexivity.
Qed.
Lemma api_constructible : constructible api_data 0.
Proof.
  assert (enough (mkFuels 16 407) api_data) as Hen by (split; vm_compute; lia).
  apply (C26_construction plain_order Checked (StackVm (U := ascii_unicode) Checked) (mkFuels 16 407) api_data 0 api_wf api_fits Hen).
  assert (forall r : outcome Empty_set (Parser KInstr), is_ok r = true -> exists ps, r = Ok ps) as Hok by (intros [ps| | |]; [eauto|discriminate..]).
  apply Hok. vm_compute. reflexivity.
Qed.
(** what is needed of loop bounds and text length to make a parser from a text *)
Lemma math_text_buildable {U : Unicode} {H : HashOrder} m (vm : VM) reads fl t s rs ins (pd : ParserData (vm_instr vm)) start : supported vm reads ->
  (N.of_nat (length t) < 2 ^ 63)%N -> enough_for_text fl t -> parse_rules_fn vm (rp_new vm t) = (Ok tt, s) -> described (rp_pd s) rs ->
  math_grammar (rp_pd s) ins -> wf_grammar pd -> names_unique pd -> math_grammar pd ins -> start_element pd start -> constructible pd start ->
  exists ps st, new_from_text m vm fl t = Ok ps /\ start_element (rp_pd s) st /\ built m vm fl (rp_pd s) st ps.
Proof.
  intros Hs Hlen Hfl E Hdes Hm' Hwf Hu Hm Hst Hcon. pose proof (math_same pd (rp_pd s) ins Hm Hm') as Hsg.
  destruct (text_data vm reads t s fl Hs Hlen Hfl E) as (Hwf' & Hfit' & Hen' & els & Hels).
  pose proof (all_defined_proper _ (con_defined _ _ Hcon)) as Hp.
  assert (exists st, get_element_verbose (rp_pd s) st = Some (lit "start", NonTerminal)) as [st Hst'].
  { destruct (con_start _ _ Hcon) as [r Hr]. pose proof (proj2 (Hst start) eq_refl) as Hv. destruct (alts_exist pd r start Hp Hr) as [alts Halts].
    destruct (proj1 Hsg (lit "start") alts (instruction r)) as (_ & _ & A' & _ & HA' & _); [exists start, r; auto|]. eauto. }
  assert (start_element (rp_pd s) st) as Hse.
  { intros e. split; [|intros ->; assumption]. intros He. exact (described_unique _ rs Hdes e st _ He Hst'). }
  assert (constructible (rp_pd s) st) as Hcon'.
  { eapply (constructible_fwd pd (rp_pd s) start st); eauto using described_proper, described_unique.
    exists (lit "start", NonTerminal). split; [apply Hst; reflexivity|assumption]. }
  apply (C26_construction H m vm fl (rp_pd s) st Hwf' Hfit' Hen') in Hcon' as [ps Hps].
  exists ps, st. split; [|split; [assumption|split; auto]]. apply new_from_text_ok. exists s, st, els. split; [assumption|]. split; [|auto].
  apply (de_numbers _ _ Hdes) in Hst'. exact Hst'.
Qed.

Lemma api_is_text : forall (U : Unicode) (H H' : HashOrder) m m' fl fl', enough fl api_data -> enough_for_text fl' stack_math_rules ->
  exists ps ps', @new_from_parser_data H m' (StackVm m) fl api_data 0 = Ok ps /\
    @new_from_text U H' m' (StackVm m) fl' stack_math_rules = Ok ps' /\
    forall fuel text v, same_result (@parse H (StackVm m) ps fuel text v) (@parse H' (StackVm m) ps' fuel text v).
Proof.
  intros U H H' m m' fl fl' Hen Hfl. destruct (@stack_text_math U H' m) as (s & rs & E & Ht & Hdes & Hm).
  assert (N.of_nat (length stack_math_rules) < 2 ^ 63)%N as Hlen by (vm_compute; reflexivity).
  destruct (@math_text_buildable U H' m' (StackVm m) stack_reads fl' stack_math_rules s rs stack_instrs api_data 0 (sh_stack m) Hlen Hfl E Hdes Hm
    api_wf api_unique api_math api_start api_constructible) as (ps' & st & Hps' & Hst & Hb).
  destruct (proj2 (proj1 (C26_construction H m' (StackVm m) fl api_data 0 api_wf api_fits Hen)) api_constructible) as [ps Hps].
  exists ps, ps'. split; [exact Hps|]. split; [assumption|]. intros fuel text v.
  eapply (C56_same_results H H' m' m' (StackVm m) fl fl' api_data (rp_pd s) 0 st); eauto using described_unique, api_start.
  - split; [apply api_wf|]. split; [apply api_fits|assumption].
  - exact api_unique.
  - exact (math_same _ _ _ api_math Hm).
Qed.
(** ** C54.  The parser built call by call in examples/rust_defined_rules.rs and the one
    read from examples/stack_based_math.txt can both be built, and agree on every script:
    same tree, same VM state (so the same printed numbers), same errors. *)
Theorem C54_api_is_text : forall (U : Unicode) (H H' : HashOrder) m m' fl fl', enough fl (pd_history rust_defined_calls) -> enough_for_text fl' stack_math_rules ->
  exists ps ps', @new_from_parser_data H m' (StackVm m) fl (pd_history rust_defined_calls) 0 = Ok ps /\
    @new_from_text U H' m' (StackVm m) fl' stack_math_rules = Ok ps' /\
    forall fuel text v, same_result (@parse H (StackVm m) ps fuel text v) (@parse H' (StackVm m) ps' fuel text v).
Proof. exact (@api_is_text). Qed.
Print Assumptions C54_api_is_text.
