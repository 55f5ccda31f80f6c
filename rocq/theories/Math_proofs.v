(** * The three calculator grammars have the same rules *)
From Verif Require Import Base Peekables Tree Errors Sets ParserData Vm SimpleStackVm StackVm RuleParsing FirstSets FollowSets SteuerMap ScriptParser
  SpecText SpecData SpecGrammar SpecParser SpecTree SpecScript SpecContract SpecWeave SpecRules SpecNames SpecMath Grammar_proofs Construct_proofs Checks
  Names_proofs RuleBuild_proofs RuleText_proofs Props_data Props_steuer Props_script Props_weave Props_rules Props_names Samples.

Global Instance SInstr_eq : EqDecision SInstr. Proof. solve_decision. Defined.
Global Instance KInstr_eq : EqDecision KInstr. Proof. solve_decision. Defined.

(** the rules of concrete data, by name *)
Section table.
Context {I : Type} (pd : ParserData I).
Definition row (e : nat * NonTerminalRules I) : option (str * list (list (str * ElementType)) * list I) :=
  match get_element_verbose pd e.1 with
  | Some (x, NonTerminal) =>
      match mapM (fun p => mapM (get_element_verbose pd) (right_side p)) (possible_productions e.2) with
      | Some alts => Some (x, alts, instruction e.2)
      | None => None
      end
  | _ => None
  end.
Definition rules_table : list (str * list (list (str * ElementType)) * list I) := omap row (map_to_list (pd_rules pd)).
Lemma called_mapM w ixs : called pd w ixs <-> mapM (get_element_verbose pd) ixs = Some w.
Proof.
  rewrite mapM_Some. unfold called. split; intros Hf; apply Forall2_flip; eapply Forall2_impl; eauto.
Qed.
Lemma rules_table_spec x alts is : rule_named pd x alts is <-> (x, alts, is) ∈ rules_table.
Proof.
  unfold rules_table. rewrite elem_of_list_omap. split.
  - intros (A & r & HA & Hr & Halts & Hi). exists (A, r). split; [apply elem_of_map_to_list; assumption|]. unfold row. cbn [fst snd]. rewrite HA.
    assert (mapM (fun p => mapM (get_element_verbose pd) (right_side p)) (possible_productions r) = Some alts) as ->; [|congruence].
    apply mapM_Some. apply Forall2_flip. eapply Forall2_impl; [exact Halts|]. intros a p Ha. apply called_mapM. assumption.
  - intros ([A r] & Hr & Hrow). apply elem_of_map_to_list in Hr. unfold row in Hrow. cbn [fst snd] in Hrow.
    destruct (get_element_verbose pd A) as [[y []]|] eqn:HA; try discriminate.
    destruct (mapM _ _) as [alts'|] eqn:Em; [|discriminate]. injection Hrow as <- <- <-. exists A, r. split; [assumption|]. split; [assumption|].
    split; [|reflexivity]. apply mapM_Some in Em. apply Forall2_flip. eapply Forall2_impl; [exact Em|]. intros p a Ha. apply called_mapM. assumption.
Qed.
Context `{EqDecision I} (ins : str -> list I).
Definition wanted : list (str * list (list (str * ElementType)) * list I) := map (fun e : str * list (list (str * ElementType)) => (e.1, e.2, ins e.1)) math_rules.
Definition math_check : bool :=
  forallb (fun e => bool_decide (e ∈ wanted)) rules_table && forallb (fun e => bool_decide (e ∈ rules_table)) wanted.
Lemma math_check_ok : math_check = true -> math_grammar pd ins.
Proof.
  intros Hc. apply andb_prop in Hc as [H1 H2]. rewrite forallb_forall in H1, H2. intros x alts is. rewrite rules_table_spec. split.
  - intros Hin. apply elem_of_list_In, H1, bool_decide_eq_true in Hin. unfold wanted in Hin. apply elem_of_list_In, in_map_iff in Hin as ([y a] & E & Hy).
    injection E as <- <- <-. apply elem_of_list_In in Hy. auto.
  - intros [Hin ->]. apply (bool_decide_eq_true_1 _). apply H2. apply in_map_iff. exists (x, alts). split; [reflexivity|]. apply elem_of_list_In. assumption.
Qed.
End table.
Lemma math_same {I} (pd pd' : ParserData I) ins : math_grammar pd ins -> math_grammar pd' ins -> same_grammar pd pd'.
Proof. intros H1 H2. split; intros x alts is Hx; exists alts; (split; [reflexivity|]); [apply H2, H1|apply H1, H2]; assumption. Qed.

(** no rule has an IGNORE override *)
Definition no_ignore_check {I} (pd : ParserData I) : bool :=
  forallb (fun e : nat * NonTerminalRules I => match ntr_ignore e.2 with None => true | Some _ => false end) (map_to_list (pd_rules pd)).
Lemma no_ignore_check_ok {I} (pd : ParserData I) : no_ignore_check pd = true -> forall A r, pd_rules pd !! A = Some r -> ntr_ignore r = None.
Proof.
  intros Hc A r Hr. unfold no_ignore_check in Hc. rewrite forallb_forall in Hc. specialize (Hc (A, r)). cbn [snd] in Hc.
  destruct (ntr_ignore r); [|reflexivity]. discriminate Hc. apply elem_of_list_In, elem_of_map_to_list. assumption.
Qed.
Lemma edited_nothing {I} (pd pd2 : ParserData I) : (forall A r, pd_rules pd !! A = Some r -> ntr_ignore r = None) -> edited_data pd pd2 -> pd2 = pd.
Proof.
  intros Hnone [H1 Hdom H2 H3 H4 H5]. destruct pd as [[rs0 g0] ty0 m0 d0], pd2 as [[rs1 g1] ty1 m1 d1].
  unfold pd_rules in *. cbn in *. subst. f_equal. f_equal. apply map_eq. intros A.
  apply option_eq. intros nr. rewrite H1. split.
  - intros (nr' & HA & Hed). inversion Hed; subst; [assumption|..]; specialize (Hnone A nr' HA); congruence.
  - intros HA. exists nr. split; [assumption|]. constructor. eapply Hnone; eassumption.
Qed.

(** A concrete text: reading its rules does not depend on the hash order. *)
Section concrete.
Context {U : Unicode} {H : HashOrder} (vm : VM) (reads : str -> str -> list (vm_instr vm) -> Prop) (t : str).
Hypothesis Hs : supported vm reads.
Definition loop_data : option (ParserData (vm_instr vm)) :=
  match rules_loop vm (S (length t)) (mkRP (mkPP t 0 None None false) pd_new) with
  | (Ok _, s) => Some (rp_pd s)
  | _ => None
  end.
Lemma concrete_text (Q : ParserData (vm_instr vm) -> bool) :
  match loop_data with Some pd => no_ignore_check pd && Q pd | None => false end = true ->
  exists s rs, parse_rules_fn vm (rp_new vm t) = (Ok tt, s) /\ grammar_text reads rs t /\ described (rp_pd s) rs /\ Q (rp_pd s) = true.
Proof.
  unfold loop_data. intros Hc. rewrite parse_rules_split.
  pose proof (supported_reads vm reads Hs) as Hvm.
  destruct (rules_loop_runs vm reads Hvm (S (length t)) 0 t pd_new ltac:(lia)) as (r & pre & w' & pd' & E & Hw & Hr).
  idtac.
  rewrite E in Hc |- *. destruct r as [[]|e| |]; try contradiction; try discriminate. destruct Hr as (-> & rs & Hrs & ->). rewrite app_nil_r in Hw. subst pre.
  cbn [rp_pd rp_pp] in *. apply andb_prop in Hc as [Hno HQ].
  pose proof (C15_edited_rules H vm _ (data_wf vm rs) (data_indices vm rs)) as Hed.
  pose proof (no_ignore_check_ok _ Hno) as Hnone.
  destruct (edit_rules vm (fold_left (build_rule vm) rs pd_new)) as [pd2|e| |] eqn:Ee.
  - pose proof (edited_nothing _ _ Hnone Hed) as ->. eexists _, rs. split; [reflexivity|]. split; [assumption|]. cbn [rp_pd]. split; [apply data_described|assumption].
  - exfalso. destruct Hed as (A & nr & ig & HA & Hig & _). unfold get_rule_by_key in HA. specialize (Hnone A nr HA). congruence.
  - contradiction.
  - contradiction.
Qed.
End concrete.

(** ** the two texts and the API calls *)
Lemma stack_text_math {U : Unicode} {H : HashOrder} m : exists s rs, parse_rules_fn (StackVm m) (rp_new (StackVm m) stack_math_rules) = (Ok tt, s) /\
  grammar_text (I := vm_instr (StackVm m)) stack_reads rs stack_math_rules /\ described (rp_pd s) rs /\ math_grammar (rp_pd s) stack_instrs.
Proof.
  destruct (concrete_text (StackVm m) stack_reads stack_math_rules (sh_stack m) (fun pd => math_check (I := KInstr) pd stack_instrs)) as (s & rs & H1 & H2 & H3 & H4).
  - vm_compute. reflexivity.
  - exists s, rs. split; [assumption|]. split; [assumption|]. split; [assumption|]. exact (math_check_ok (I := KInstr) (EqDecision0 := KInstr_eq) (rp_pd s) stack_instrs H4).
Qed.
Lemma simple_text_math {U : Unicode} {H : HashOrder} m : exists s rs, parse_rules_fn (SimpleStackVm m) (rp_new (SimpleStackVm m) simple_math_rules) = (Ok tt, s) /\
  grammar_text (I := vm_instr (SimpleStackVm m)) simple_reads rs simple_math_rules /\ described (rp_pd s) rs /\ math_grammar (rp_pd s) simple_instrs.
Proof.
  destruct (concrete_text (SimpleStackVm m) simple_reads simple_math_rules (sh_simple m) (fun pd => math_check (I := SInstr) pd simple_instrs)) as (s & rs & H1 & H2 & H3 & H4).
  - vm_compute. reflexivity.
  - exists s, rs. split; [assumption|]. split; [assumption|]. split; [assumption|]. exact (math_check_ok (I := SInstr) (EqDecision0 := SInstr_eq) (rp_pd s) simple_instrs H4).
Qed.
Notation api_data := (pd_history rust_defined_calls).
Lemma api_math : math_grammar api_data stack_instrs.
Proof. apply (math_check_ok (I := KInstr) (EqDecision0 := KInstr_eq) api_data stack_instrs). vm_compute. reflexivity. Qed.
