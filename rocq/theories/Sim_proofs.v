(** * VMs that correspond step by step (C78): proofs *)
From Verif Require Import Base Peekables Tree Errors Sets ParserData Vm RuleParsing FirstSets FollowSets SteuerMap ScriptParser
  SpecText SpecData SpecGrammar SpecParser SpecTree SpecScript SpecContract SpecWeave SpecRules SpecNames SpecLanguage SpecSyntax SpecSim
  Grammar_proofs Construct_proofs Names_proofs RuleBuild_proofs Language_proofs Syntax_proofs Bare_proofs.

Section sim.
Context {H : HashOrder} (vm vm' : VM) (RI : vm_instr vm -> vm_instr vm' -> Prop) (R : vm_state vm -> vm_state vm' -> Prop).
Context (ps : Parser (vm_instr vm)) (ps' : Parser (vm_instr vm')) (Hps : same_parsers vm vm' RI ps ps').
Hypothesis (Hfol : vm_follows vm vm' RI R).
(** [okP], [okD]: panics, endless loops correspond as well *)
Context (okP okD : bool).
Hypothesis (HfailP : okP = true -> forall t id i i' s s', RI i i' -> R s s' -> vm_execute vm t id i s = Panic -> vm_execute vm' t id i' s' = Panic).
Hypothesis (HfailD : okD = true -> forall t id i i' s s', RI i i' -> R s s' -> vm_execute vm t id i s = Diverge -> vm_execute vm' t id i' s' = Diverge).
Definition fin {A} (o : outcome ParserError A) : Prop := match o with Panic => okP = true | Diverge => okD = true | _ => True end.
Definition abreast (s : PS vm) (s' : PS vm') : Prop := ps_in s' = ps_in s /\ ps_tree s' = ps_tree s /\ R (ps_vm s) (ps_vm s').
Definition steps {A} (f : st (PS vm) ParserError A) (f' : st (PS vm') ParserError A) : Prop :=
  forall s s', abreast s s' -> fin (fst (f s)) -> fst (f' s') = fst (f s) /\ abreast (snd (f s)) (snd (f' s')).
Lemma steps_bind {A B} f f' (g : A -> st (PS vm) ParserError B) g' : steps f f' -> (forall a, steps (g a) (g' a)) -> steps (sbind f g) (sbind f' g').
Proof.
  intros Hf Hg s s' Ha Hfin. unfold sbind in *. specialize (Hf s s' Ha). destruct (f s) as [o s1], (f' s') as [o' s1']. cbn [fst snd] in *.
  destruct Hf as [-> B1]; [destruct o; [exact Logic.I|exact Logic.I|exact Hfin..]|].
  destruct o as [a|e| |]; [|split; [reflexivity|exact B1]..]. apply Hg; assumption.
Qed.
Lemma steps_const {A} (o : outcome ParserError A) : steps (fun s => (o, s)) (fun s => (o, s)).
Proof. intros s s' Ha _. split; [reflexivity|assumption]. Qed.
Lemma steps_peek : steps (ps_peek vm) (ps_peek vm').
Proof. intros s s' (A1 & A2 & A3) _. unfold ps_peek. rewrite A1. destruct (pp_peek base_tp (ps_in s)) as [o i]. split; [reflexivity|]. repeat split; assumption. Qed.
Lemma steps_next : steps (ps_next vm) (ps_next vm').
Proof. intros s s' (A1 & A2 & A3) _. unfold ps_next. rewrite A1. destruct (pp_next base_tp (ps_in s)) as [o i]. split; [reflexivity|]. repeat split; assumption. Qed.
Lemma steps_pos : steps (ps_pos vm) (ps_pos vm').
Proof. intros s s' (A1 & A2 & A3) _. unfold ps_pos. rewrite A1. split; [reflexivity|]. repeat split; assumption. Qed.
Lemma steps_fitting el cur : steps (get_fitting_production vm ps el cur) (get_fitting_production vm' ps' el cur).
Proof.
  intros s s' Ha. unfold get_fitting_production. pose proof (proj2 Hps el) as Ht.
  destruct (rules_with_steuermaps ps !! el) as [nt|], (rules_with_steuermaps ps' !! el) as [nt'|]; try contradiction; [|apply steps_const; assumption].
  destruct Ht as [<- _]. destruct (steuermap nt !! cur); [apply steps_const; assumption|]. revert s s' Ha.
  apply steps_bind; [apply steps_peek|]. intros o. apply steps_bind; [apply steps_pos|intros n; apply steps_const].
Qed.
Lemma steps_chars l : steps (terminal_chars vm l) (terminal_chars vm' l).
Proof.
  induction l as [|c l IH]; [apply steps_const|]. cbn [terminal_chars]. apply steps_bind; [apply steps_pos|]. intros n. apply steps_bind; [apply steps_peek|]. intros [x|]; [|apply steps_const].
  destruct (negb (x =? c)%N); [apply steps_bind; [apply steps_pos|intros n2; apply steps_const]|]. apply steps_bind; [apply steps_next|intros _; exact IH].
Qed.
Lemma steps_run id l l' : Forall2 RI l l' -> steps (run_instructions vm id l) (run_instructions vm' id l').
Proof.
  induction 1 as [|i i' l l' Hi _ IH]; [apply steps_const|]. cbn [run_instructions]. apply steps_bind; [|intros _; exact IH].
  intros s s' (A1 & A2 & A3) Hfin. unfold run_one in *. rewrite A1, A2.
  destruct (vm_execute vm (ps_tree s) id i (ps_vm s)) as [[t1 s1]|[]| |] eqn:E.
  - destruct (Hfol _ _ _ _ _ _ _ _ Hi A3 E) as (s1' & -> & HR). split; [reflexivity|]. repeat split; assumption.
  - rewrite (HfailP Hfin _ _ _ _ _ _ Hi A3 E). split; [reflexivity|]. repeat split; assumption.
  - rewrite (HfailD Hfin _ _ _ _ _ _ Hi A3 E). split; [reflexivity|]. repeat split; assumption.
Qed.
Lemma steps_add d p : steps (ps_add_node vm d p) (ps_add_node vm' d p).
Proof. intros s s' (A1 & A2 & A3) _. unfold ps_add_node. rewrite A1, A2. destruct (add_node d p (ps_tree s)) as [r t]. split; [reflexivity|]. repeat split; assumption. Qed.
Lemma steps_add_ignored d p : steps (ps_add_node_ignored vm d p) (ps_add_node_ignored vm' d p).
Proof.
  intros s s' (A1 & A2 & A3) _. unfold ps_add_node_ignored, ps_add_node. rewrite A1, A2.
  destruct (add_node d p (ps_tree s)) as [[a|e| |] t]; (split; [reflexivity|]); repeat split; assumption.
Qed.
Lemma steps_nonterminal f : forall el node, steps (parse_nonterminal vm ps f el node) (parse_nonterminal vm' ps' f el node).
Proof.
  induction f as [|f IH]; intros el node; [apply steps_const|]. cbn [parse_nonterminal]. apply steps_bind; [apply steps_peek|]. intros o.
  pose proof (proj2 Hps el) as Ht.
  destruct (rules_with_steuermaps ps !! el) as [nt|], (rules_with_steuermaps ps' !! el) as [nt'|]; try contradiction; [|apply steps_const].
  apply steps_bind; [apply steps_fitting|]. intros prod. apply steps_bind; [apply steps_add|]. intros id. apply steps_bind; [|intros _; apply steps_run; apply Ht].
  destruct prod as [els|]; [|apply steps_const]. rewrite <- (proj1 Hps). induction els as [|e els IHe]; [apply steps_const|].
  destruct (p_elements ps !! e) as [[name []]|]; [| |apply steps_const].
  - apply steps_bind; [|intros txt; apply steps_bind; [apply steps_add_ignored|intros _; exact IHe]].
    apply steps_bind; [apply steps_chars|intros _; apply steps_const].
  - apply steps_bind; [apply IH|intros _; exact IHe].
Qed.
Lemma steps_parse fuel text v v' : R v v' -> fin (fst (parse vm ps fuel text v)) ->
  fst (parse vm' ps' fuel text v') = fst (parse vm ps fuel text v) /\ R (snd (parse vm ps fuel text v)) (snd (parse vm' ps' fuel text v')).
Proof.
  intros HR. unfold parse, parse_run. rewrite <- (proj1 Hps). destruct (position_of (lit "start", NonTerminal) (p_elements ps)) as [start|]; [|intros _; split; [reflexivity|exact HR]].
  pose proof (steps_nonterminal fuel start None (mkPS (pp_new text None None) v tree_new) (mkPS (vm := vm') (pp_new text None None) v' tree_new) ltac:(repeat split; assumption)) as Hn.
  destruct (parse_nonterminal vm ps fuel start None _) as [o s], (parse_nonterminal vm' ps' fuel start None _) as [o' s']. cbn [fst snd] in *. intros F.
  destruct Hn as [-> (A1 & A2 & A3)]; [destruct o; exact F || exact Logic.I|].
  split; [|exact A3]. destruct o; cbn; [rewrite A2; reflexivity|reflexivity..].
Qed.
End sim.

(** ** Parser data *)
Section data.
Context (vm vm' : VM) (RI : vm_instr vm -> vm_instr vm' -> Prop).
Section one.
Context {I J : Type} (pd : ParserData I) (pd' : ParserData J) (Hv : forall e, get_element_verbose pd e = get_element_verbose pd' e).
Context (Hr : forall A r, pd_rules pd !! A = Some r -> exists r', pd_rules pd' !! A = Some r' /\ possible_productions r' = possible_productions r).
Lemma sd_terminal e s : is_terminal pd e s -> is_terminal pd' e s.
Proof. unfold is_terminal. rewrite Hv. auto. Qed.
Lemma sd_nonterminal e : is_nonterminal pd e -> is_nonterminal pd' e.
Proof. unfold is_nonterminal. rewrite Hv. auto. Qed.
Lemma sd_alternative A w : alternative pd A w -> alternative pd' A w.
Proof. intros (r & p & HA & Hp & ->). destruct (Hr A r HA) as (r' & Hr' & E). exists r', p. rewrite E. auto. Qed.
Lemma sd_has_rule A : has_rule pd A -> has_rule pd' A.
Proof. intros [r HA]. destruct (Hr A r HA) as (r' & Hr' & _). eexists. exact Hr'. Qed.
Lemma sd_choose start A p x : CHOOSE pd start A p x -> CHOOSE pd' start A p x.
Proof. apply ow_choose; [apply sd_terminal|apply sd_alternative|apply sd_has_rule]. Qed.
Lemma sd_can_derive a b : can_derive pd a b -> can_derive pd' a b.
Proof. intros [H1 (u & v & H2)]. split; [apply sd_has_rule; assumption|]. exists u, v. eapply ow_derives; [apply sd_alternative|exact H2]. Qed.
End one.
Lemma same_rule pd pd' : same_data vm vm' RI pd pd' -> forall A r, pd_rules pd !! A = Some r ->
  exists r', pd_rules pd' !! A = Some r' /\ possible_productions r' = possible_productions r /\ Forall2 RI (instruction r) (instruction r').
Proof. intros [_ Hs] A r HA. specialize (Hs A). rewrite HA in Hs. destruct (pd_rules pd' !! A) as [r'|]; [|contradiction]. destruct Hs as [E F]. eauto. Qed.
Lemma same_rule' pd pd' : same_data vm vm' RI pd pd' -> forall A r', pd_rules pd' !! A = Some r' ->
  exists r, pd_rules pd !! A = Some r /\ possible_productions r = possible_productions r' /\ Forall2 RI (instruction r) (instruction r').
Proof. intros [_ Hs] A r' HA. specialize (Hs A). rewrite HA in Hs. destruct (pd_rules pd !! A) as [r|]; [|contradiction]. destruct Hs as [E F]. eauto. Qed.
Lemma data_parsers pd pd' start ps ps' : same_data vm vm' RI pd pd' -> parser_table pd start ps -> parser_table pd' start ps' -> same_parsers vm vm' RI ps ps'.
Proof.
  intros Hs T T'. pose proof (proj1 Hs) as Hv. pose proof (same_rule pd pd' Hs) as H1. pose proof (same_rule' pd pd' Hs) as H2. split.
  - apply list_eq. intros e. rewrite (pt_elements _ _ _ T), (pt_elements _ _ _ T'). apply Hv.
  - intros A. pose proof (pt_rules _ _ _ T A) as R1. pose proof (pt_rules _ _ _ T' A) as R2.
    destruct (pd_rules pd !! A) as [r|] eqn:Er.
    + destruct (H1 A r Er) as (r' & Er' & Ep & Hi).
      destruct (rules_with_steuermaps ps !! A) as [nt|] eqn:En; [|destruct (proj2 R1 ltac:(eexists; exact Er)); discriminate].
      destruct (rules_with_steuermaps ps' !! A) as [nt'|] eqn:En'; [|destruct (proj2 R2 ltac:(eexists; exact Er')); discriminate].
      destruct (pt_entry _ _ _ T A r nt Er En) as (_ & -> & S1). destruct (pt_entry _ _ _ T' A r' nt' Er' En') as (_ & -> & S2).
      split; [|exact Hi]. apply map_eq. intros x. apply option_eq. intros p. change (steuermap nt !! x = Some p <-> steuermap nt' !! x = Some p). rewrite S1, S2, Ep.
      split; (intros [E1 E2]; split; [exact E1|]); [apply (sd_choose pd pd')|apply (sd_choose pd' pd)]; try assumption.
      * intros B q HB. destruct (H1 B q HB) as (q' & ? & ? & _). eauto.
      * intros e. symmetry. apply Hv.
      * intros B q HB. destruct (H2 B q HB) as (q' & ? & ? & _). eauto.
    + assert (~ has_rule pd A) as N1 by (intros [? ?]; congruence).
      assert (~ has_rule pd' A) as N2 by (intros [r' Hr']; destruct (H2 A r' Hr') as (r & Hr & _); congruence).
      destruct (rules_with_steuermaps ps !! A) eqn:En; [destruct N1; apply R1; eexists; reflexivity|].
      destruct (rules_with_steuermaps ps' !! A) eqn:En'; [destruct N2; apply R2; eexists; reflexivity|]. exact Logic.I.
Qed.
End data.
