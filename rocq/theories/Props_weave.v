(** * Property theorems, IGNORE: C15 (on the rules as read), C16.  The specification is
    SpecWeave.v ([can_derive], [edited]) over the derivations of SpecGrammar.v. *)
From Verif Require Import Base Peekables Errors ParserData Vm RuleParsing Samples SpecGrammar SpecWeave Weave_proofs Checks.

(** ** C16.  The derivation check. *)
Theorem C16_derivation_check : forall (vm : VM) (pd : ParserData (vm_instr vm)) left right,
  wf_grammar pd -> indices_ok pd -> is_Some (get_element_verbose pd left) ->
  match check_is_derivative vm (element_types pd) (pd_rules pd) left right with
  | Ok b => b = true <-> can_derive pd left right
  | Err e => exists x u v, e = InternalError x /\ derives pd [left] (u ++ x :: v) /\ is_nonterminal pd x /\ ~ has_rule pd x
  | Panic | Diverge => False
  end.
Proof. intros vm pd left right. apply check_spec. Qed.
Print Assumptions C16_derivation_check.
(** It answers whenever the nonterminals that can be derived are defined. *)
Theorem C16_decides : forall (vm : VM) (pd : ParserData (vm_instr vm)) left right,
  wf_grammar pd -> indices_ok pd -> is_Some (get_element_verbose pd left) -> ~ needs_undefined pd left ->
  exists b, check_is_derivative vm (element_types pd) (pd_rules pd) left right = Ok b /\ (b = true <-> can_derive pd left right).
Proof.
  intros vm pd left right Hwf Hi Hl Hn. pose proof (check_spec pd left right Hwf Hi Hl) as Hc.
  destruct (check_is_derivative vm (element_types pd) (pd_rules pd) left right) as [b|e| |]; [eauto| |contradiction..].
  exfalso. apply Hn. destruct Hc as (x & u & v & _ & Hd & Hx). exists x, u, v. auto.
Qed.
Print Assumptions C16_decides.

(** ** C15.  What edit_rules, the last step of parse_rules, does to the rules read. *)
Theorem C15_edited_rules : forall (H : HashOrder) (vm : VM) (pd : ParserData (vm_instr vm)), wf_grammar pd -> indices_ok pd ->
  match edit_rules vm pd with
  | Ok pd' => edited_data pd pd'
  | Err e => exists A r ig, pd_rules pd !! A = Some r /\ ntr_ignore r = Some ig /\ needs_undefined pd ig
  | Panic | Diverge => False
  end.
Proof.
  intros H vm pd Hwf Hi. pose proof (edit_rules_spec pd Hwf Hi) as He. destruct (edit_rules vm pd) as [pd'|e| |]; auto.
  - destruct He as [Ht ->]. split; [| |reflexivity..]; [|intros A; unfold has_rule, pd_rules; cbn [set_rules parse_rules rules]; rewrite map_lookup_imap; split; intros [r Hr]; [destruct (rules (parse_rules pd) !! A); [eauto|discriminate]|unfold pd_rules in Hr; rewrite Hr; eauto]]. intros A r'. unfold pd_rules at 1. cbn [set_rules parse_rules rules]. rewrite map_lookup_imap. split.
    + intros Hx. destruct (pd_rules pd !! A) as [r|] eqn:Hr; cbn in Hx; [|discriminate]. injection Hx as <-. exists r. split; [reflexivity|]. apply edit_edited; auto.
    + intros (r & Hr & Hed). rewrite Hr. cbn. f_equal.
      pose proof (edit_edited pd Hwf Hi A r Hr (Ht A r Hr)) as Hed2.
      inversion Hed; inversion Hed2; try congruence; subst; try contradiction; try (replace ig0 with ig in * by congruence); try contradiction; congruence.
  - destruct He as (A & r & ig & Hr & Hig & Hc). exists A, r, ig. split; [assumption|]. split; [assumption|].
    pose proof (check_spec pd ig A Hwf Hi (proj2 Hi A r ig Hr Hig)) as Hs. rewrite Hc in Hs. destruct Hs as (x & u & v & _ & Hd & Hx). exists x, u, v. auto.
Qed.
Print Assumptions C15_edited_rules.
(** The result does not depend on the order in which the two loops visit the rules. *)
Theorem C15_order_irrelevant : forall (H1 H2 : HashOrder) (vm : VM) (pd : ParserData (vm_instr vm)), wf_grammar pd -> indices_ok pd ->
  (exists pd', @edit_rules H1 vm pd = Ok pd' /\ @edit_rules H2 vm pd = Ok pd') \/
  (exists e1 e2, @edit_rules H1 vm pd = Err e1 /\ @edit_rules H2 vm pd = Err e2).
Proof.
  intros H1 H2 vm pd Hwf Hi. pose proof (@edit_rules_spec H1 vm pd Hwf Hi) as E1. pose proof (@edit_rules_spec H2 vm pd Hwf Hi) as E2.
  destruct (@edit_rules H1 vm pd) as [p1|e1| |], (@edit_rules H2 vm pd) as [p2|e2| |]; try contradiction.
  - left. destruct E1 as [_ ->], E2 as [_ ->]. eauto.
  - exfalso. destruct E1 as [E1 _], E2 as (A & r & ig & Hr & Hig & Hc). apply (E1 A r Hr). exists ig, e2. auto.
  - exfalso. destruct E2 as [E2 _], E1 as (A & r & ig & Hr & Hig & Hc). apply (E2 A r Hr). exists ig, e1. auto.
  - right. eauto.
Qed.
Print Assumptions C15_order_irrelevant.

(** ** A cyclic example: S and B ignore W, W ignores itself and T, on W's way, ignores W. *)
Definition weave_text : str :=
  lit "S -> $[IGNORE:W] ""a"" B ""c"" | #; B -> ""b"" S; W -> $[IGNORE:W] "" "" T | #; T -> $[IGNORE:W] ""t"" W ""u"" ;".
Definition weave_pd : ParserData (vm_instr NullVm) :=
  rp_pd (snd (@rules_loop ascii_unicode NullVm 100 (rp_new NullVm weave_text))).
Definition indices_check {I} (pd : ParserData I) : bool :=
  forallb (fun q : nat * NonTerminalRules I =>
    forallb (fun p => forallb (fun e => match get_element_verbose pd e with Some _ => true | None => false end) (right_side p)) (possible_productions q.2) &&
    match ntr_ignore q.2 with None => true | Some ig => match get_element_verbose pd ig with Some _ => true | None => false end end)
    (map_to_list (pd_rules pd)).
Lemma indices_check_ok {I} (pd : ParserData I) : indices_check pd = true -> indices_ok pd.
Proof.
  intros Hc. unfold indices_check in Hc. rewrite forallb_forall in Hc. split.
  - intros A w e (r & p & Hr & Hp & ->) He. specialize (Hc (A, r)). rewrite andb_true_iff in Hc. destruct Hc as [Hc _]; [apply elem_of_list_In, elem_of_map_to_list; assumption|].
    rewrite forallb_forall in Hc. specialize (Hc p ltac:(apply elem_of_list_In; assumption)). rewrite forallb_forall in Hc.
    specialize (Hc e ltac:(apply elem_of_list_In; assumption)). destruct (get_element_verbose pd e); [eauto|discriminate].
  - intros A r ig Hr Hig. specialize (Hc (A, r)). rewrite andb_true_iff in Hc. destruct Hc as [_ Hc]; [apply elem_of_list_In, elem_of_map_to_list; assumption|].
    cbn [snd] in Hc. rewrite Hig in Hc. destruct (get_element_verbose pd ig); [eauto|discriminate].
Qed.
Lemma weave_pd_wf : wf_grammar weave_pd.
Proof. apply wf_check_ok. vm_compute. reflexivity. Qed.
Lemma weave_pd_indices : indices_ok weave_pd.
Proof. apply indices_check_ok. vm_compute. reflexivity. Qed.
Definition show_rules (r : outcome ParserError (ParserData (vm_instr NullVm))) : list (str * list Production * option nat) :=
  match r with
  | Ok pd => map (fun q : nat * NonTerminalRules (vm_instr NullVm) =>
      (match get_element_verbose pd q.1 with Some (n, _) => n | None => [] end, possible_productions q.2, ntr_ignore q.2)) (map_to_list (pd_rules pd))
  | _ => []
  end.
(** S (0) is woven with W (1), B (3) untouched, W and T (5) lose the override. *)
Example C15_example : forall q, q ∈ show_rules (@edit_rules reverse_order NullVm weave_pd) <->
  q ∈ [(lit "S", [NotEmpty [2; 1; 3; 1; 4]; Empty], Some 1); (lit "B", [NotEmpty [5; 0]], None);
       (lit "W", [NotEmpty [6; 7]; Empty], None); (lit "T", [NotEmpty [8; 1; 9]], None)].
Proof.
  assert (show_rules (@edit_rules reverse_order NullVm weave_pd) ≡ₚ [(lit "S", [NotEmpty [2; 1; 3; 1; 4]; Empty], Some 1); (lit "B", [NotEmpty [5; 0]], None);
       (lit "W", [NotEmpty [6; 7]; Empty], None); (lit "T", [NotEmpty [8; 1; 9]], None)]) as Hp; [|intros q; rewrite Hp; reflexivity].
  vm_compute. repeat (first [reflexivity|apply perm_skip|apply perm_swap|eapply perm_trans; [apply perm_swap|]]).
Qed.
Example C16_example :
  wf_grammar weave_pd /\ indices_ok weave_pd /\
  check_is_derivative NullVm (element_types weave_pd) (pd_rules weave_pd) 1 7 = Ok true /\
  check_is_derivative NullVm (element_types weave_pd) (pd_rules weave_pd) 1 0 = Ok false /\
  check_is_derivative NullVm (element_types weave_pd) (pd_rules weave_pd) 3 3 = Ok true.
Proof. split; [apply weave_pd_wf|]. split; [apply weave_pd_indices|]. repeat split; vm_compute; reflexivity. Qed.
