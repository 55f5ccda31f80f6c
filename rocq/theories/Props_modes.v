(** * Property theorems: debug and release builds (C79) *)
From Verif Require Import Base Peekables Tree Errors Sets ParserData SimpleGraph NamedGraph Vm SimpleStackVm StackVm RuleParsing FirstSets FollowSets SteuerMap ScriptParser Display DebugFmt Main Examples
  SpecText SpecData SpecGrammar SpecGraph SpecParser SpecScript SpecRules SpecSyntax SpecSim SpecMath Modes_proofs
  Props_rules Props_language Props_count Props_math Props_examples Samples.

(** [Checked] is a debug build, [Wrapping] a release build.  [as_debug o o']: unless [o] is
    a panic, [o'] is the same. *)

(** ** One instruction of a VM of the crate *)
Theorem C79_instructions : forall (U : Unicode) t id,
  (forall i s, as_debug (vm_execute (CountingVm Checked) t id i s) (vm_execute (CountingVm Wrapping) t id i s)) /\
  (forall i s, as_debug (vm_execute (SimpleStackVm Checked) t id i s) (vm_execute (SimpleStackVm Wrapping) t id i s)) /\
  (forall i s, as_debug (vm_execute (StackVm Checked) t id i s) (vm_execute (StackVm Wrapping) t id i s)).
Proof. intros U t id. split; [|split]; intros i s; [apply ad_counting|apply ad_simple|apply ad_stack]. Qed.
Print Assumptions C79_instructions.

(** ** Building a parser, for every VM *)
Theorem C79_construction : forall (U : Unicode) (H : HashOrder) (vm : VM) fl,
  (forall t, as_debug (new_from_text Checked vm fl t) (new_from_text Wrapping vm fl t)) /\
  (forall pd start, as_debug (new_from_parser_data Checked vm fl pd start) (new_from_parser_data Wrapping vm fl pd start)).
Proof. intros U H vm fl. split; intros; [apply ad_new_text|apply ad_new_data]. Qed.
Print Assumptions C79_construction.

(** ** Parsing: result and final state *)
Theorem C79_parsing : forall (U : Unicode) (H : HashOrder) fuel text,
  (forall ps v, fst (parse (CountingVm Checked) ps fuel text v) <> Panic ->
     parse (CountingVm Wrapping) ps fuel text v = parse (CountingVm Checked) ps fuel text v) /\
  (forall ps v, fst (parse (SimpleStackVm Checked) ps fuel text v) <> Panic ->
     parse (SimpleStackVm Wrapping) ps fuel text v = parse (SimpleStackVm Checked) ps fuel text v) /\
  (forall ps v, fst (parse (StackVm Checked) ps fuel text v) <> Panic ->
     parse (StackVm Wrapping) ps fuel text v = parse (StackVm Checked) ps fuel text v).
Proof. intros U H fuel text. split; [|split]; intros ps v; apply ad_parse; [apply ad_counting|apply ad_simple|apply ad_stack]. Qed.
Print Assumptions C79_parsing.
(** The same for VMs written by users that differ between debug and release builds in
    their overflows only. *)
Theorem C79_user_vms : forall (H : HashOrder) (S I : Type) prs prs' exec exec' (s0 s0' : S) (ps : Parser I) fuel text v,
  (forall t id i s, as_debug (exec t id i s) (exec' t id i s)) ->
  fst (parse (mkVM S I prs exec s0) ps fuel text v) <> Panic ->
  parse (mkVM S I prs' exec' s0') ps fuel text v = parse (mkVM S I prs exec s0) ps fuel text v.
Proof. intros H S I prs prs' exec exec' s0 s0' ps fuel text v Hx. apply ad_parse. exact Hx. Qed.
Print Assumptions C79_user_vms.

(** ** The graphs *)
Theorem C79_graphs : forall T : Type,
  (forall (g : Graph T) l, as_debug (gcalls_do Checked g l) (gcalls_do Wrapping g l)) /\
  (forall p : gplan T, as_debug (plan_do Checked p) (plan_do Wrapping p)) /\
  (forall (g : GraphNamedNodes T) i, as_debug (get_node_by_index Checked g i) (get_node_by_index Wrapping g i)) /\
  (forall (g : GraphNamedNodes T) l r, ncalls_do Checked g l = Some r -> ncalls_do Wrapping g l = Some r).
Proof. intros T. split; [|split; [|split]]; intros; [apply ad_gcalls|apply ad_plan|apply ad_by_index|apply ad_ncalls; assumption]. Qed.
Print Assumptions C79_graphs.

(** ** The programs: the command line tool and the three examples, whatever the rule file
    and the script.  The pair is the end of the program and its output. *)
Lemma ad_text_example {U : Unicode} {H : HashOrder} {S I : Type} prs (exec exec' : Tree str -> NodeId -> I -> S -> outcome Empty_set (Tree str * S)) s0 lines fl fuel file script :
  (forall t id i s, as_debug (exec t id i s) (exec' t id i s)) ->
  fst (text_example Checked (mkVM S I prs exec s0) lines fl fuel file script) <> Panic ->
  text_example Wrapping (mkVM S I prs exec' s0) lines fl fuel file script = text_example Checked (mkVM S I prs exec s0) lines fl fuel file script.
Proof.
  intros Hx. unfold text_example. destruct file as [rules|]; [|reflexivity].
  change (new_from_text Wrapping (mkVM S I prs exec' s0) fl rules) with (new_from_text Wrapping (mkVM S I prs exec s0) fl rules).
  pose proof (ad_new_text (mkVM S I prs exec s0) fl rules) as Hn. destruct (new_from_text Checked _ fl rules) as [ps|[]| |]; cbn [fst]; [|congruence|rewrite Hn by discriminate; reflexivity].
  rewrite Hn by discriminate. pose proof (ad_parse prs prs exec exec' s0 s0 Hx ps fuel script s0) as Hp. cbn [vm_new_state] in *.
  destruct (parse (mkVM S I prs exec s0) ps fuel script s0) as [r s]. cbn [fst] in Hp. intros Hr. rewrite Hp; [reflexivity|]. intros ->. apply Hr. reflexivity.
Qed.
Theorem C79_programs : forall (U : Unicode) (H : HashOrder) (P : Printable) fl fuel,
  (forall read_file args, as_debug (main Checked fl fuel read_file args) (main Wrapping fl fuel read_file args)) /\
  (forall file script, fst (simple_math_main Checked Checked fl fuel file script) <> Panic ->
     simple_math_main Wrapping Wrapping fl fuel file script = simple_math_main Checked Checked fl fuel file script) /\
  (forall file script, fst (stack_math_main Checked Checked fl fuel file script) <> Panic ->
     stack_math_main Wrapping Wrapping fl fuel file script = stack_math_main Checked Checked fl fuel file script) /\
  (forall script, fst (api_example Checked Checked fl fuel script) <> Panic ->
     api_example Wrapping Wrapping fl fuel script = api_example Checked Checked fl fuel script).
Proof.
  intros U H P fl fuel. split; [|split; [|split]].
  - intros read_file args. unfold main. destruct (args !! 1) as [rp|]; [|apply ad_refl]. destruct (args !! 2) as [sp|]; [|apply ad_refl].
    destruct (read_file rp) as [rules|]; [|apply ad_refl]. destruct (read_file sp) as [script|]; [|apply ad_refl]. apply ad_bind; [apply ad_new_text|intros; apply ad_refl].
  - intros file script. apply ad_text_example. intros. apply ad_simple.
  - intros file script. apply ad_text_example. intros. apply ad_stack.
  - intros script. unfold api_example.
    change (new_from_parser_data Wrapping (StackVm Wrapping) fl (pd_history rust_defined_calls) 0) with (new_from_parser_data Wrapping (StackVm Checked) fl (pd_history rust_defined_calls) 0).
    pose proof (ad_new_data (StackVm Checked) fl (pd_history rust_defined_calls) 0) as Hn.
    destruct (new_from_parser_data Checked (StackVm Checked) fl _ 0) as [ps|[]| |]; cbn [fst]; [|congruence|rewrite Hn by discriminate; reflexivity].
    rewrite Hn by discriminate. pose proof (ad_parse stack_parse stack_parse (stack_execute Checked) (stack_execute Wrapping) (mkKState [] 0 0 0 []) (mkKState [] 0 0 0 []) ltac:(intros; apply ad_stack) ps fuel script (mkKState [] 0 0 0 [])) as Hp.
    change (parse (StackVm Wrapping) ps fuel script (vm_new_state (StackVm Wrapping))) with (parse (mkVM _ _ stack_parse (stack_execute Wrapping) (mkKState [] 0 0 0 [])) ps fuel script (mkKState [] 0 0 0 [])).
    change (parse (StackVm Checked) ps fuel script (vm_new_state (StackVm Checked))) with (parse (mkVM _ _ stack_parse (stack_execute Checked) (mkKState [] 0 0 0 [])) ps fuel script (mkKState [] 0 0 0 [])).
    destruct (parse (mkVM _ _ stack_parse (stack_execute Checked) _) ps fuel script _) as [r s]. cbn [fst] in Hp. intros Hr. rewrite Hp; [reflexivity|]. intros ->. apply Hr. reflexivity.
Qed.
Print Assumptions C79_programs.

(** ** Without the hypothesis it is false: with a counter at usize::MAX the debug build
    panics and the release build goes on with 0. *)
Section overflow.
Local Existing Instance ascii_unicode.
Local Existing Instance plain_order.
Lemma overflow_check {A} (f : A -> outcome ParserError (Tree str) * N) (g : A -> outcome ParserError (Tree str) * N) (o : outcome Empty_set A) :
  match o with Ok ps => match fst (f ps), g ps with Panic, (Ok _, v) => (v =? 1)%N | _, _ => false end | _ => false end = true ->
  exists ps, o = Ok ps /\ fst (f ps) = Panic /\ exists tr, g ps = (Ok tr, 1%N).
Proof.
  intros E. destruct o as [ps| | |]; try discriminate. exists ps. split; [reflexivity|]. destruct (fst (f ps)); try discriminate. destruct (g ps) as [[tr| | |] v]; try discriminate.
  apply N.eqb_eq in E as ->. split; [reflexivity|]. eexists. reflexivity.
Qed.
Theorem C79_always_the_same_refuted : exists (ps : Parser N), new_from_text Checked (CountingVm Checked) (mkFuels 60 2200) ct_text = Ok ps /\
  fst (parse (CountingVm Checked) ps 20 (lit "aab") (2 ^ 64 - 1)%N) = Panic /\
  exists tr, parse (CountingVm Wrapping) ps 20 (lit "aab") (2 ^ 64 - 1)%N = (Ok tr, 1%N).
Proof. apply (overflow_check (fun ps => parse (CountingVm Checked) ps 20 (lit "aab") (2 ^ 64 - 1)%N)). vm_compute. reflexivity. Qed.
Print Assumptions C79_always_the_same_refuted.
(** ** Runs of debug builds that do not panic *)
Lemma counts_check {A} (f : A -> outcome ParserError (Tree str) * N) (o : outcome Empty_set A) :
  match o with Ok ps => match f ps with (Ok _, v) => (v =? 2)%N | _ => false end | _ => false end = true ->
  exists ps, o = Ok ps /\ exists tr, f ps = (Ok tr, 2%N).
Proof. intros E. destruct o as [ps| | |]; try discriminate. exists ps. split; [reflexivity|]. destruct (f ps) as [[tr| | |] v]; try discriminate. apply N.eqb_eq in E as ->. eauto. Qed.
Example C79_parsing_example : exists (ps : Parser N), new_from_text Checked (CountingVm Checked) (mkFuels 60 2200) ct_text = Ok ps /\
  exists tr, parse (CountingVm Checked) ps 20 (lit "aab") 0%N = (Ok tr, 2%N).
Proof. apply (counts_check (fun ps => parse (CountingVm Checked) ps 20 (lit "aab") 0%N)). vm_compute. reflexivity. Qed.
Example C79_programs_example : forall (P : Printable), exists fl fuel,
  simple_math_main Checked Checked fl fuel (Some simple_math_rules) example_script = (Ok tt, [lit "2"; lit "ok"]) /\
  stack_math_main Checked Checked fl fuel (Some stack_math_rules) example_script = (Ok tt, [lit "2"; lit "ok"]) /\
  api_example Checked Checked fl fuel example_script = (Ok tt, [lit "2"; lit "Parsing successful!"; lit "ok"]).
Proof. intros P. destruct C64_example_fuels as (fl & H1 & H2 & H3). exists fl, ((length example_script + 1) * 14). apply C64_the_examples; auto. Qed.
End overflow.
