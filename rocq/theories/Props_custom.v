(** * Property theorems: VMs written by users (C63).
    The specification is the contract of SpecContract.v. *)
From Verif Require Import Base Peekables Tree Errors Sets ParserData Vm SimpleStackVm StackVm RuleParsing FirstSets FollowSets SteuerMap ScriptParser
  SpecText SpecData SpecGrammar SpecParser SpecTree SpecScript SpecWeave SpecRules SpecContract SpecNames SpecLanguage Checks Streams_proofs ParseFuncs_proofs Terminal_proofs VmText_proofs Parse_proofs
  Props_script Props_rules Props_vm Props_language Props_errors Props_main Samples.

(** ** C63.  The VMs of the crate meet the contract. *)
Definition meets_contract {U : Unicode} (vm : VM) (reads : str -> str -> list (vm_instr vm) -> Prop) : Prop :=
  vm_reads vm reads /\ keeps_tree vm /\ always_returns vm.
Theorem C63_crate_vms : forall (U : Unicode) m,
  meets_contract NullVm null_reads /\ meets_contract (CountingVm m) counting_reads /\
  meets_contract (SimpleStackVm m) simple_reads /\ meets_contract (StackVm m) stack_reads.
Proof.
  intros U m. assert (forall vm reads, supported vm reads -> meets_contract vm reads) as Hm.
  { intros vm reads Hs. split; [apply supported_reads|split; [eapply supported_keeps|eapply supported_returns]]; eassumption. }
  split; [|split; [|split]]; apply Hm; constructor.
Qed.
Print Assumptions C63_crate_vms.
(** The contract is all that is used: for a VM that meets it, a parser can be built from a
    text of the grammar exactly if the grammar is parsable, and it accepts exactly the
    scripts with an accepted prefix whose actions run through. *)
Theorem C63_contract_suffices : forall (U : Unicode) (H : HashOrder) m (vm : VM) reads rs t fl,
  meets_contract vm reads ->
  tables_disjoint -> grammar_text reads rs t -> (N.of_nat (length t) < 2 ^ 63)%N -> enough_for_text fl t ->
  ((exists ps, new_from_text m vm fl t = Ok ps) <-> parsable rs) /\
  forall ps, new_from_text m vm fl t = Ok ps -> forall fuel script v, (length script + 1) * length t <= fuel ->
    forall v', (exists tr, parse vm ps fuel script v = (Ok tr, v')) <-> exists nt rest, accepts_prefix rs script nt rest /\ run_tree rs nt v = Ok v'.
Proof.
  intros U H m vm reads rs t fl (H1 & H2 & H3) Hd Ht Hlen Hfl. assert (supported vm reads) as Hs by (apply sh_custom; assumption).
  split; [exact (C58_buildable_iff_parsable U H m vm reads rs t fl Hs Hd Ht Hlen Hfl)|].
  intros ps Hps fuel script v Hfuel. apply (C61_accepted_scripts U H m vm rs t ps); [|assumption]. exists reads, fl. auto 10.
Qed.
Print Assumptions C63_contract_suffices.

(** Two kinds of VM that meet it, with arbitrary instructions, states and effects.
    One collects the whole section and translates it: [while let Some(c) = to_parse.next()
    { s.push(c) }  Ok(compile(prod_name, s))]. *)
Fixpoint collect {S} (T : TPeek S) (fuel : nat) (p : PP S) : outcome ParserError str * PP S :=
  match fuel with
  | O => (Diverge, p)
  | Datatypes.S f =>
      let '(c, p1) := pp_next T p in
      match c with
      | None => (Ok [], p1)
      | Some c => let '(r, p2) := collect T f p1 in (let* s := r in Ok (c :: s), p2)
      end
  end.
Definition collecting_vm {St I : Type} (compile : str -> str -> list I)
    (execute : Tree str -> NodeId -> I -> St -> outcome Empty_set St) (init : St) : VM :=
  mkVM St I (fun S T name p => let '(r, p1) := collect T (Datatypes.S (pp_size T p)) p in (let* s := r in Ok (compile name s), p1))
    (fun t id i s => let* s' := execute t id i s in Ok (t, s')) init.
(** The other does not look at the section, like the skeleton in the documentation of the
    trait ([Ok(vec![])]). *)
Definition lazy_vm {St I : Type} (compile : str -> list I)
    (execute : Tree str -> NodeId -> I -> St -> outcome Empty_set St) (init : St) : VM :=
  mkVM St I (fun S T name p => (Ok (compile name), p)) (fun t id i s => let* s' := execute t id i s in Ok (t, s')) init.
Lemma collect_spec body : forall fuel n flag rest, length body < fuel -> esc_ok 125 92 flag body ->
  (rest = [] \/ head rest = Some 125%N /\ end_flag 92 flag body = false) ->
  collect (pp_tp base_tp) fuel (nst (body ++ rest) n flag)
  = (Ok body, nst rest (n + length body) (end_flag 92 flag body)).
Proof.
  induction body as [|c body IH]; intros fuel n flag rest Hf Hok Hr; (destruct fuel as [|f]; [simpl in Hf; lia|]).
  - cbn [app length collect]. rewrite Nat.add_0_r.
    pose proof (nested_stopped 125 92 flag rest n 1 ltac:(discriminate) Hr) as Hs. cbn [next_times] in Hs.
    destruct (pp_next (pp_tp base_tp) (nst rest n flag)) as [o p1]. cbn in Hs. injection Hs as -> ->. reflexivity.
  - destruct Hok as [Hc Hok].
    assert (end_flag 92 flag (c :: body) = end_flag 92 (N.eqb c 92) body) as He.
    { unfold end_flag. destruct body as [|d body]; [reflexivity|]. rewrite last_cons_cons.
      destruct (last (d :: body)) eqn:Hl; [reflexivity|]. apply last_None in Hl; discriminate. }
    rewrite He in *. cbn [collect app]. rewrite nested_next_step by (auto; discriminate).
    rewrite IH; [|simpl in Hf; lia|assumption|assumption]. cbn [length obind].
    replace (n + S (length body)) with (n + 1 + length body) by lia. reflexivity.
Qed.
Lemma collect_all_spec body rest n : stops_between 125 92 body rest ->
  exists flag, collect (pp_tp base_tp) (S (pp_size (pp_tp base_tp) (brace_process (body ++ rest) n))) (brace_process (body ++ rest) n) = (Ok body, nst rest (n + length body) flag).
Proof.
  intros Hst. destruct (stops_between_ok _ _ _ _ Hst) as [Hok Hr]. eexists. unfold brace_process, pp_new_nested.
  apply collect_spec; auto. unfold pp_size. cbn. unfold pp_size. cbn. rewrite app_length. lia.
Qed.
Theorem C63_collecting_vm : forall (U : Unicode) (St I : Type) (compile : str -> str -> list I) execute (init : St),
  (forall t id i s, execute t id i s <> Diverge) ->
  let vm := collecting_vm compile execute init in
  meets_contract vm (fun name body is => brace_free body /\ is = compile name body).
Proof.
  intros U St I compile execute init Hex vm. split; [split|split].
  - intros name w n. destruct (stops_split_exists 125 92 w) as (body & rest & -> & Hst).
    destruct (collect_all_spec body rest n Hst) as [flag Hd]. cbn [vm vm_parse_instructions collecting_vm]. rewrite Hd. cbn [obind].
    eexists _, _, body, rest. split; [reflexivity|]. cbn. split; [reflexivity|]. split; [reflexivity|].
    intros rest' ->. split; [|reflexivity]. apply (stops_between_brace body rest'). assumption.
  - intros _ name body is n rest [Hb ->]. apply (stops_between_brace body rest) in Hb.
    destruct (collect_all_spec _ _ n Hb) as [flag Hd]. cbn [vm vm_parse_instructions collecting_vm]. rewrite Hd. cbn. eauto.
  - intros t id i s t' s'. cbn. destruct (execute t id i s); cbn; congruence.
  - intros h n i s _ _. cbn. specialize (Hex (snd (do_adds h tree_new)) (id_of n) i s). destruct (execute _ _ _ _); cbn; congruence.
Qed.
Print Assumptions C63_collecting_vm.
Theorem C63_lazy_vm : forall (U : Unicode) (St I : Type) (compile : str -> list I) execute (init : St),
  (forall t id i s, execute t id i s <> Diverge) ->
  let vm := lazy_vm compile execute init in
  meets_contract vm (fun name body is => body = [] /\ is = compile name).
Proof.
  intros U St I compile execute init Hex vm. split; [split|split].
  - intros name w n. eexists _, _, [], w. split; [reflexivity|]. cbn. rewrite Nat.add_0_r. split; [reflexivity|]. split; [reflexivity|]. auto.
  - intros _ name body is n rest [-> ->]. cbn. rewrite Nat.add_0_r. eauto.
  - intros t id i s t' s'. cbn. destruct (execute t id i s); cbn; congruence.
  - intros h n i s _ _. cbn. specialize (Hex (snd (do_adds h tree_new)) (id_of n) i s). destruct (execute _ _ _ _); cbn; congruence.
Qed.
Print Assumptions C63_lazy_vm.

(** A VM must not edit the tree: the signature allows it, but parsing goes on with the edited
    tree.  Here the action of [x] removes the root, and the sentence "ab" is refused with a
    tree error when the next name is to be attached; if the next element is a quoted text,
    the error is dropped and parse returns a tree without any node. *)
Definition pruning_vm : VM :=
  mkVM N N null_parse (fun t id i s => match remove_branch (mkNodeId 0 0) t with (Ok _, t') => Ok (t', s) | _ => Ok (t, s) end) 0%N.
Section example.
Local Existing Instance ascii_unicode.
Local Existing Instance plain_order.
Notation T := Terminal.
Notation NT := NonTerminal.
Ltac name := split; [reflexivity|repeat constructor].
Definition px_rules : list (arule (vm_instr pruning_vm)) :=
  [mkARule (lit "start") OvAbsent [[(lit "x", NT); (lit "y", NT)]] []; mkARule (lit "x") OvAbsent [[(lit "a", T)]] [0%N]; mkARule (lit "y") OvAbsent [[(lit "b", T)]] []].
Definition px_text : str := lit "start->x y;x->""a""{};y->""b"";".
Definition qx_rules : list (arule (vm_instr pruning_vm)) :=
  [mkARule (lit "start") OvAbsent [[(lit "x", NT); (lit "b", T)]] []; mkARule (lit "x") OvAbsent [[(lit "a", T)]] [0%N]].
Definition qx_text : str := lit "start->x ""b"";x->""a""{};".
Ltac notname := intros _ [E|E]; vm_compute in E; discriminate.
Lemma braces nm : section_text null_reads nm [0%N] (lit "{}").
Proof.
  apply (sec_braces null_reads nm [] [] [0%N]); [constructor|exact Logic.I|]. split; [|reflexivity]. split; [intros i Hi; discriminate|]. right. split; [reflexivity|discriminate].
Qed.
Lemma px_text_ok : grammar_text null_reads px_rules px_text.
Proof.
  apply (gr_cons null_reads _ (lit "start->x y;") [] _ (lit "x->""a""{};y->""b"";")); [constructor| |].
  - apply (rule_intro null_reads (mkARule (lit "start") OvAbsent [[(lit "x", NT); (lit "y", NT)]] []) [] [] [] [] [] [] (lit "x y") []); try (constructor; fail); try name.
    apply alts_one, alt_elements, (els_cons _ (lit "x") (lit " ") _ (lit "y")); [apply el_name; name|repeat constructor|apply els_one, el_name; name|notname].
  - apply (gr_cons null_reads _ (lit "x->""a""{};") [] _ (lit "y->""b"";")); [constructor| |].
    + apply (rule_intro null_reads (mkARule (lit "x") OvAbsent [[(lit "a", T)]] [0%N]) [] [] [] [] [] [] (lit """a""") (lit "{}")); try (constructor; fail); try name.
      * apply alts_one, alt_elements, els_one, one_quoted; discriminate.
      * apply braces.
    + apply (gr_cons null_reads _ (lit "y->""b"";") [] _ []); [constructor| |apply gr_end; constructor].
      apply (rule_intro null_reads (mkARule (lit "y") OvAbsent [[(lit "b", T)]] []) [] [] [] [] [] [] (lit """b""") []); try (constructor; fail); try name.
      apply alts_one, alt_elements, els_one, one_quoted; discriminate.
Qed.
Lemma qx_text_ok : grammar_text null_reads qx_rules qx_text.
Proof.
  apply (gr_cons null_reads _ (lit "start->x ""b"";") [] _ (lit "x->""a""{};")); [constructor| |].
  - apply (rule_intro null_reads (mkARule (lit "start") OvAbsent [[(lit "x", NT); (lit "b", T)]] []) [] [] [] [] [] [] (lit "x ""b""") []); try (constructor; fail); try name.
    apply alts_one, alt_elements, (els_cons _ (lit "x") (lit " ") _ (lit """b""")); [apply el_name; name|repeat constructor|apply els_one, one_quoted; discriminate|notname].
  - apply (gr_cons null_reads _ (lit "x->""a""{};") [] _ []); [constructor| |apply gr_end; constructor].
    apply (rule_intro null_reads (mkARule (lit "x") OvAbsent [[(lit "a", T)]] [0%N]) [] [] [] [] [] [] (lit """a""") (lit "{}")); try (constructor; fail); try name.
    * apply alts_one, alt_elements, els_one, one_quoted; discriminate.
    * apply braces.
Qed.
(** Both scripts are parsed: one ends in a tree error, the other in an empty tree. *)
Definition pruned (fuel : nat) (r1 r2 : outcome Empty_set (Parser (vm_instr pruning_vm))) : bool :=
  match r1, r2 with
  | Ok p1, Ok p2 =>
      match fst (parse pruning_vm p1 fuel (lit "ab") 0%N), fst (parse pruning_vm p2 fuel (lit "ab") 0%N) with
      | Err (PTreeError _), Ok tr => negb (node_exists tr (mkNodeId 0 0))
      | _, _ => false
      end
  | _, _ => false
  end.
Lemma pruned_ok fuel r1 r2 : pruned fuel r1 r2 = true -> exists p1 p2, r1 = Ok p1 /\ r2 = Ok p2 /\
  (exists e v', parse pruning_vm p1 fuel (lit "ab") 0%N = (Err (PTreeError e), v')) /\
  (exists tr v', parse pruning_vm p2 fuel (lit "ab") 0%N = (Ok tr, v') /\ node_exists tr (mkNodeId 0 0) = false).
Proof.
  unfold pruned. destruct r1 as [p1| | |]; try discriminate. destruct r2 as [p2| | |]; try discriminate. intros E. exists p1, p2.
  split; [reflexivity|]. split; [reflexivity|].
  destruct (parse pruning_vm p1 fuel (lit "ab") 0%N) as [[tr|e| |] v1]; try discriminate. destruct e; try discriminate. split; [eauto|].
  destruct (parse pruning_vm p2 fuel (lit "ab") 0%N) as [[tr|e| |] v2]; try discriminate. exists tr, v2. split; [reflexivity|].
  cbn [fst] in E. apply negb_true_iff. exact E.
Qed.
Lemma ab_derives {I} (rs : list (arule I)) nt1 nt2 : (forall r, r ∈ rs -> ar_override r = OvAbsent) ->
  alternatives_for rs (lit "start") = [[nroot nt1; nroot nt2]] -> nderivation rs nt1 -> nderivation rs nt2 -> nyield nt1 = lit "a" -> nyield nt2 = lit "b" ->
  sentence rs (lit "ab").
Proof.
  intros Ho Ha H1 H2 Y1 Y2. exists (NNode (lit "start") [nt1; nt2]). split; [|split; [reflexivity|cbn; rewrite Y1, Y2; reflexivity]].
  apply (nder_node _ _ 0); [apply plain_says; [assumption|rewrite Ha; reflexivity]|]. apply Forall_cons; split; [assumption|]. apply Forall_cons; split; [assumption|constructor].
Qed.
Ltac plain := let r := fresh in let Hr := fresh in intros r Hr; repeat (apply elem_of_cons in Hr as [->|Hr]; [reflexivity|]); inversion Hr.
Theorem C63_tree_editing_refuted : vm_reads pruning_vm null_reads /\ always_returns pruning_vm /\ never_panics pruning_vm /\
  exists p1 p2, new_from_text Checked pruning_vm (mkFuels 60 2200) px_text = Ok p1 /\ new_from_text Checked pruning_vm (mkFuels 60 2200) qx_text = Ok p2 /\
    grammar_text null_reads px_rules px_text /\ grammar_text null_reads qx_rules qx_text /\ sentence px_rules (lit "ab") /\ sentence qx_rules (lit "ab") /\
    (exists e v', parse pruning_vm p1 100 (lit "ab") 0%N = (Err (PTreeError e), v')) /\
    (exists tr v', parse pruning_vm p2 100 (lit "ab") 0%N = (Ok tr, v') /\ node_exists tr (mkNodeId 0 0) = false).
Proof.
  split; [destruct null_vm_reads as [V1 V2]; split; [exact V1|exact V2]|].
  split; [intros h n i s _ _; cbn; destruct (remove_branch _ _) as [[]]; discriminate|].
  split; [intros h n i s _ _; cbn; destruct (remove_branch _ _) as [[]]; discriminate|].
  destruct (pruned_ok 100 (new_from_text Checked pruning_vm (mkFuels 60 2200) px_text) (new_from_text Checked pruning_vm (mkFuels 60 2200) qx_text)) as (p1 & p2 & E1 & E2 & R1 & R2); [vm_compute; reflexivity|].
  exists p1, p2. split; [exact E1|]. split; [exact E2|]. clear E1 E2. split; [exact px_text_ok|]. split; [exact qx_text_ok|]. split; [|split; [|split; assumption]]; clear.
  - apply (ab_derives _ (NNode (lit "x") [NLeaf (lit "a")]) (NNode (lit "y") [NLeaf (lit "b")])); [plain|reflexivity| | |reflexivity..].
    + apply (nder_node _ _ 0); [apply plain_says; [plain|reflexivity]|]. apply Forall_cons; split; [apply leaf_derives|constructor].
    + apply (nder_node _ _ 0); [apply plain_says; [plain|reflexivity]|]. apply Forall_cons; split; [apply leaf_derives|constructor].
  - apply (ab_derives _ (NNode (lit "x") [NLeaf (lit "a")]) (NLeaf (lit "b"))); [plain|reflexivity| |apply leaf_derives|reflexivity..].
    apply (nder_node _ _ 0); [apply plain_says; [plain|reflexivity]|]. apply Forall_cons; split; [apply leaf_derives|constructor].
Qed.
Print Assumptions C63_tree_editing_refuted.
End example.
