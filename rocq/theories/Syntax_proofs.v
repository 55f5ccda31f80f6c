(** * Instructions do not influence the syntax analysis (C73) *)
From Verif Require Import Base Peekables Tree Errors Sets ParserData Vm RuleParsing FirstSets FollowSets SteuerMap ScriptParser
  SpecText SpecGrammar SpecParser SpecTree SpecScript SpecRules SpecLanguage SpecSyntax Construct_proofs.

(** ** The grammar notions see elements and productions only *)
Section one_way.
Context {I J : Type} (pd : ParserData I) (pd' : ParserData J).
Hypothesis (ow_terminal : forall e s, is_terminal pd e s -> is_terminal pd' e s) (ow_nonterminal : forall e, is_nonterminal pd e -> is_nonterminal pd' e).
Hypothesis (Ha : forall A w, alternative pd A w -> alternative pd' A w) (Hr : forall A, has_rule pd A -> has_rule pd' A).
Lemma ow_derives u w : derives pd u w -> derives pd' u w.
Proof. induction 1 as [|x y z [u A v w Hw] _ IH]; [apply rtc_refl|]. eapply rtc_l; [constructor; apply Ha; exact Hw|exact IH]. Qed.
Lemma ow_erased w : erased pd w -> erased pd' w.
Proof. intros Hw. eapply Forall_impl; [exact Hw|]. intros e. apply ow_terminal. Qed.
Lemma ow_nullable w : NULLABLE pd w -> NULLABLE pd' w.
Proof. intros (x & Hd & He). exists x. split; [apply ow_derives; assumption|apply ow_erased; assumption]. Qed.
Lemma ow_first w c : FIRST pd w c -> FIRST pd' w c.
Proof. intros (x & t & v & s & Hd & He & Ht). exists x, t, v, s. split; [apply ow_derives; assumption|]. split; [apply ow_erased; assumption|apply ow_terminal; assumption]. Qed.
Lemma ow_follow start A x : FOLLOW pd start A x -> FOLLOW pd' start A x.
Proof.
  destruct x as [c|]; cbn.
  - intros (B & u & v & HB & Hd & Hf). exists B, u, v. split; [apply Hr; assumption|]. split; [apply ow_derives; assumption|apply ow_first; assumption].
  - intros (u & v & Hd & Hn). exists u, v. split; [apply ow_derives; assumption|apply ow_nullable; assumption].
Qed.
Lemma ow_choose start A p x : CHOOSE pd start A p x -> CHOOSE pd' start A p x.
Proof.
  destruct p as [[|e l]|]; cbn [CHOOSE]; [auto| |apply ow_follow].
  intros [(c & -> & Hf)|[Hn Hf]]; [left; exists c; split; [reflexivity|apply ow_first; assumption]|right; split; [apply ow_nullable|apply ow_follow]; assumption].
Qed.
Lemma ow_left_calls A B : left_calls pd A B -> left_calls pd' A B.
Proof. intros (u & v & H1 & H2 & H3). exists u, v. split; [apply Ha; assumption|]. split; [apply ow_nullable; assumption|apply ow_nonterminal; assumption]. Qed.
Lemma ow_left_recursive A : left_recursive pd A -> left_recursive pd' A.
Proof.
  unfold left_recursive. generalize A at 2 4. intros B. induction 1 as [x y Hc|x y z Hc _ IH]; [apply tc_once, ow_left_calls; assumption|].
  eapply tc_l; [apply ow_left_calls; exact Hc|exact IH].
Qed.
End one_way.

Section same.
Context {I J : Type} (pd : ParserData I) (pd' : ParserData J) (Hs : same_productions pd pd').
Lemma sp_sym : same_productions pd' pd.
Proof. destruct Hs as (H1 & H2 & H3). split; [congruence|]. split; [congruence|]. intros A. rewrite H3. reflexivity. Qed.
Lemma sp_verbose e : get_element_verbose pd' e = get_element_verbose pd e.
Proof. destruct Hs as (H1 & H2 & _). unfold get_element_verbose. rewrite H1, H2. reflexivity. Qed.
Lemma sp_rule A r : pd_rules pd !! A = Some r -> exists r', pd_rules pd' !! A = Some r' /\ possible_productions r' = possible_productions r.
Proof. intros Hr. destruct Hs as (_ & _ & H3). specialize (H3 A). rewrite Hr in H3. destruct (pd_rules pd' !! A) as [r'|]; [|discriminate]. injection H3 as H3. eauto. Qed.
Lemma sp_alternative A w : alternative pd A w -> alternative pd' A w.
Proof. intros (r & p & Hr & Hp & ->). destruct (sp_rule A r Hr) as (r' & Hr' & E). exists r', p. rewrite E. auto. Qed.
Lemma sp_has_rule A : has_rule pd A -> has_rule pd' A.
Proof. intros [r Hr]. destruct (sp_rule A r Hr) as (r' & Hr' & _). eexists. exact Hr'. Qed.
Lemma sp_wf : wf_grammar pd -> wf_grammar pd'.
Proof.
  intros [W1 W2]. destruct Hs as (H1 & H2 & H3). split; [rewrite <- H1, <- H2; exact W1|]. intros A [r HA]. specialize (H3 A). rewrite HA in H3.
  destruct (W2 A) as [s Es]; [destruct (pd_rules pd !! A) as [x|] eqn:Ex; [eexists; exact Ex|discriminate]|]. exists s. rewrite sp_verbose. exact Es.
Qed.
Lemma sp_terminal e s : is_terminal pd e s -> is_terminal pd' e s.
Proof. unfold is_terminal. rewrite sp_verbose. auto. Qed.
Lemma sp_nonterminal e : is_nonterminal pd e -> is_nonterminal pd' e.
Proof. unfold is_nonterminal. rewrite sp_verbose. auto. Qed.
Lemma sp_choose start A p x : CHOOSE pd start A p x -> CHOOSE pd' start A p x.
Proof. apply ow_choose; [apply sp_terminal|apply sp_alternative|apply sp_has_rule]. Qed.
End same.
Section both_ways.
Context {I J : Type} (pd : ParserData I) (pd' : ParserData J) (Hs : same_productions pd pd').
Lemma sp_size : size (pd_rules pd') = size (pd_rules pd).
Proof.
  rewrite <- (map_size_fmap possible_productions (pd_rules pd')), <- (map_size_fmap possible_productions (pd_rules pd)). f_equal.
  apply map_eq. intros A. rewrite !lookup_fmap. symmetry. apply (proj2 (proj2 Hs) A).
Qed.
Lemma sp_fits : fits_memory pd -> fits_memory pd'.
Proof.
  intros [F1 F2]. split; [rewrite sp_size; exact F1|]. intros A r' Hr'. destruct (sp_rule pd' pd (sp_sym _ _ Hs) A r' Hr') as (r & Hr & <-). exact (F2 A r Hr).
Qed.
Lemma sp_constructible start : constructible pd start -> constructible pd' start.
Proof.
  intros [[D1 D2] C2 C3 C4 C5]. pose proof (sp_sym _ _ Hs) as Hs'. split.
  - split.
    + intros A r p Hr Hp. destruct (sp_rule pd' pd Hs' A r Hr) as (r0 & Hr0 & E). rewrite <- E in Hp. exact (D1 A r0 p Hr0 Hp).
    + intros A w e Ha He. apply (sp_alternative pd' pd Hs') in Ha. destruct (D2 A w e Ha He) as [[s Hs0]|[Hn Hh]].
      * left. exists s. unfold is_terminal. rewrite (sp_verbose pd pd' Hs). exact Hs0.
      * right. split; [apply (sp_nonterminal pd pd' Hs); assumption|eapply (sp_has_rule pd pd' Hs); assumption].
  - intros A HA. apply (C2 A). eapply (ow_left_recursive pd' pd); [apply sp_terminal; assumption|apply sp_nonterminal; assumption|apply sp_alternative; assumption|exact HA].
  - apply (sp_has_rule pd pd' Hs). exact C3.
  - intros A r p Hr Hp (e & rest & -> & Ht). destruct (sp_rule pd' pd Hs' A r Hr) as (r0 & Hr0 & E). rewrite <- E in Hp. apply (C4 A r0 _ Hr0 Hp).
    exists e, rest. split; [reflexivity|]. unfold is_terminal in *. rewrite <- (sp_verbose pd pd' Hs). exact Ht.
  - intros A r i j p q x Hr Hi Hj Hne Hp Hq. destruct (sp_rule pd' pd Hs' A r Hr) as (r0 & Hr0 & E). rewrite <- E in Hi, Hj.
    apply (C5 A r0 i j p q x Hr0 Hi Hj Hne); apply (sp_choose pd' pd Hs'); assumption.
Qed.
End both_ways.

(** ** Two VMs over the same table *)
Definition same_tables {I J} (ps : Parser I) (ps' : Parser J) : Prop :=
  p_elements ps = p_elements ps' /\
  forall A, option_map steuermap (rules_with_steuermaps ps !! A) = option_map steuermap (rules_with_steuermaps ps' !! A).
Lemma tables_same {I J} (pd : ParserData I) (pd' : ParserData J) start ps ps' : same_productions pd pd' ->
  parser_table pd start ps -> parser_table pd' start ps' -> same_tables ps ps'.
Proof.
  intros Hs T T'. split.
  - apply list_eq. intros e. rewrite (pt_elements _ _ _ T), (pt_elements _ _ _ T'). symmetry. apply sp_verbose. assumption.
  - intros A. pose proof (pt_rules _ _ _ T A) as R1. pose proof (pt_rules _ _ _ T' A) as R2.
    destruct (pd_rules pd !! A) as [r|] eqn:Er.
    + destruct (sp_rule pd pd' Hs A r Er) as (r' & Er' & Ep).
      destruct (rules_with_steuermaps ps !! A) as [nt|] eqn:En; [|destruct (proj2 R1 ltac:(eexists; exact Er)); discriminate].
      destruct (rules_with_steuermaps ps' !! A) as [nt'|] eqn:En'; [|destruct (proj2 R2 ltac:(eexists; exact Er')); discriminate].
      destruct (pt_entry _ _ _ T A r nt Er En) as (_ & _ & S1). destruct (pt_entry _ _ _ T' A r' nt' Er' En') as (_ & _ & S2).
      cbn. f_equal. apply map_eq. intros x. change (steuermap nt !! x = steuermap nt' !! x).
      destruct (steuermap nt !! x) as [p|] eqn:Ex; [symmetry; apply S2|destruct (steuermap nt' !! x) as [p|] eqn:Ex'; [exfalso|reflexivity]].
      * apply S1 in Ex as [E1 E2]. rewrite Ep. split; [assumption|apply (sp_choose pd pd' Hs); assumption].
      * apply S2 in Ex' as [E1 E2]. rewrite Ep in E1.
        assert (steuermap nt !! x = Some p) as E; [|congruence]. apply S1. split; [assumption|apply (sp_choose pd' pd (sp_sym _ _ Hs)); assumption].
    + assert (~ has_rule pd A) as N1 by (intros [? ?]; congruence).
      assert (~ has_rule pd' A) as N2 by (intros N; apply N1; apply (sp_has_rule pd' pd (sp_sym _ _ Hs)); exact N).
      destruct (rules_with_steuermaps ps !! A) eqn:En; [destruct N1; apply R1; eexists; reflexivity|].
      destruct (rules_with_steuermaps ps' !! A) eqn:En'; [destruct N2; apply R2; eexists; reflexivity|]. reflexivity.
Qed.

Section two.
Context {H : HashOrder} (vm vm' : VM) (Hk : keeps_tree vm) (Hk' : keeps_tree vm').
Context (ps : Parser (vm_instr vm)) (ps' : Parser (vm_instr vm')) (Hst : same_tables ps ps').
Definition beside (s : PS vm) (s' : PS vm') : Prop := ps_in s' = ps_in s /\ ps_tree s' = ps_tree s.
(** instructions of [vm'] always succeed *)
Definition quiet : Prop := forall t id i v, exists r, vm_execute vm' t id i v = Ok r.
Definition agree {A} (f : st (PS vm) ParserError A) (f' : st (PS vm') ParserError A) : Prop :=
  forall s s', beside s s' -> finished (fst (f s)) -> quiet \/ finished (fst (f' s')) -> fst (f' s') = fst (f s) /\ beside (snd (f s)) (snd (f' s')).
Lemma agree_bind {A B} f f' (g : A -> st (PS vm) ParserError B) g' : agree f f' -> (forall a, agree (g a) (g' a)) -> agree (sbind f g) (sbind f' g').
Proof.
  intros Hf Hg s s' Ha. unfold sbind. specialize (Hf s s' Ha). destruct (f s) as [o s1], (f' s') as [o' s1']. cbn [fst snd] in Hf.
  intros Hfin Hfin'. assert (finished o) as F by (destruct o; [exact Logic.I|exact Logic.I|exact Hfin..]).
  assert (quiet \/ finished o') as F' by (destruct Hfin' as [Hq|Hfin']; [left; exact Hq|right; destruct o'; [exact Logic.I|exact Logic.I|exact Hfin'..]]).
  destruct (Hf F F') as [-> B1]. destruct o as [a|e| |]; try contradiction.
  - apply Hg; assumption.
  - split; [reflexivity|exact B1].
Qed.
Lemma agree_const {A} (o : outcome ParserError A) : agree (fun s => (o, s)) (fun s => (o, s)).
Proof. intros s s' Ha _ _. split; [reflexivity|assumption]. Qed.
Lemma agree_peek : agree (ps_peek vm) (ps_peek vm').
Proof. intros s s' (A1 & A2) _ _. unfold ps_peek. rewrite A1. destruct (pp_peek base_tp (ps_in s)) as [o i]. split; [reflexivity|]. split; [reflexivity|assumption]. Qed.
Lemma agree_next : agree (ps_next vm) (ps_next vm').
Proof. intros s s' (A1 & A2) _ _. unfold ps_next. rewrite A1. destruct (pp_next base_tp (ps_in s)) as [o i]. split; [reflexivity|]. split; [reflexivity|assumption]. Qed.
Lemma agree_pos : agree (ps_pos vm) (ps_pos vm').
Proof. intros s s' (A1 & A2) _ _. unfold ps_pos. rewrite A1. split; [reflexivity|]. split; assumption. Qed.
Lemma table_at A : match rules_with_steuermaps ps !! A, rules_with_steuermaps ps' !! A with
  | Some nt, Some nt' => steuermap nt' = steuermap nt | None, None => True | _, _ => False end.
Proof. destruct Hst as [_ E]. specialize (E A). destruct (_ !! A), (_ !! A); try discriminate; [injection E as E; congruence|exact Logic.I]. Qed.
Lemma agree_fitting el cur : agree (get_fitting_production vm ps el cur) (get_fitting_production vm' ps' el cur).
Proof.
  intros s s' Ha. unfold get_fitting_production. pose proof (table_at el) as Ht.
  destruct (rules_with_steuermaps ps !! el) as [nt|], (rules_with_steuermaps ps' !! el) as [nt'|]; try contradiction; [|apply agree_const; assumption].
  rewrite Ht. destruct (steuermap nt !! cur); [apply agree_const; assumption|]. revert s s' Ha.
  apply agree_bind; [apply agree_peek|]. intros o. apply agree_bind; [apply agree_pos|intros n; apply agree_const].
Qed.
Lemma agree_chars l : agree (terminal_chars vm l) (terminal_chars vm' l).
Proof.
  induction l as [|c l IH]; [apply agree_const|]. cbn [terminal_chars]. apply agree_bind; [apply agree_pos|]. intros n. apply agree_bind; [apply agree_peek|]. intros [x|]; [|apply agree_const].
  destruct (negb (x =? c)%N); [apply agree_bind; [apply agree_pos|intros n2; apply agree_const]|]. apply agree_bind; [apply agree_next|intros _; exact IH].
Qed.
(** running instructions leaves the reader and the tree alone *)
Lemma run_still (wm : VM) (Hw : keeps_tree wm) id l : forall s, match run_instructions wm id l s with
  | (Ok _, s1) => ps_in s1 = ps_in s /\ ps_tree s1 = ps_tree s | (Err _, _) => False | _ => True end.
Proof.
  induction l as [|i l IH]; intros s; [split; reflexivity|]. cbn [run_instructions]. unfold sbind, run_one.
  destruct (vm_execute wm (ps_tree s) id i (ps_vm s)) as [[t v]|[]| |] eqn:E; [|exact Logic.I..].
  apply Hw in E as ->. specialize (IH (mkPS (ps_in s) v (ps_tree s))). destruct (run_instructions wm id l _) as [[]]; auto.
Qed.
Lemma quiet_run : quiet -> forall id l s, exists s1, run_instructions vm' id l s = (Ok tt, s1).
Proof.
  intros Hq id. induction l as [|i l IH]; intros s; [eexists; reflexivity|]. cbn [run_instructions]. unfold sbind, run_one.
  destruct (Hq (ps_tree s) id i (ps_vm s)) as [[t v] ->]. apply IH.
Qed.
Lemma agree_run id l l' : agree (run_instructions vm id l) (run_instructions vm' id l').
Proof.
  intros s s' (A1 & A2) Hf Hf'. pose proof (run_still vm Hk id l s) as R1. pose proof (run_still vm' Hk' id l' s') as R2.
  assert (finished (fst (run_instructions vm' id l' s'))) as F' by (destruct Hf' as [Hq|Hf']; [destruct (quiet_run Hq id l' s') as [s1 ->]; exact Logic.I|exact Hf']).
  destruct (run_instructions vm id l s) as [[[]| | |] s1], (run_instructions vm' id l' s') as [[[]| | |] s1']; cbn in *; try contradiction.
  destruct R1 as [R1 R3], R2 as [R2 R4]. split; [reflexivity|]. split; congruence.
Qed.
Lemma agree_add d p : agree (ps_add_node vm d p) (ps_add_node vm' d p).
Proof. intros s s' (A1 & A2) _ _. unfold ps_add_node. rewrite A1, A2. destruct (add_node d p (ps_tree s)) as [r t]. split; [reflexivity|]. split; [reflexivity|reflexivity]. Qed.
Lemma agree_add_ignored d p : agree (ps_add_node_ignored vm d p) (ps_add_node_ignored vm' d p).
Proof.
  intros s s' (A1 & A2). unfold ps_add_node_ignored, ps_add_node. rewrite A1, A2. destruct (add_node d p (ps_tree s)) as [[a|e| |] t]; intros _ _; (split; [reflexivity|split; reflexivity]).
Qed.
Lemma agree_nonterminal f : forall el node, agree (parse_nonterminal vm ps f el node) (parse_nonterminal vm' ps' f el node).
Proof.
  induction f as [|f IH]; intros el node; [apply agree_const|]. cbn [parse_nonterminal]. apply agree_bind; [apply agree_peek|]. intros o.
  pose proof (table_at el) as Ht.
  destruct (rules_with_steuermaps ps !! el) as [nt|], (rules_with_steuermaps ps' !! el) as [nt'|]; try contradiction; [|apply agree_const].
  apply agree_bind; [apply agree_fitting|]. intros prod. apply agree_bind; [apply agree_add|]. intros id. apply agree_bind; [|intros _; apply agree_run].
  destruct prod as [els|]; [|apply agree_const]. rewrite <- (proj1 Hst). induction els as [|e els IHe]; [apply agree_const|].
  destruct (p_elements ps !! e) as [[name []]|]; [| |apply agree_const].
  - apply agree_bind; [|intros txt; apply agree_bind; [apply agree_add_ignored|intros _; exact IHe]].
    apply agree_bind; [apply agree_chars|intros _; apply agree_const].
  - apply agree_bind; [apply IH|intros _; exact IHe].
Qed.
Lemma agree_parse fuel text v v' : finished (fst (parse vm ps fuel text v)) -> quiet \/ finished (fst (parse vm' ps' fuel text v')) ->
  fst (parse vm' ps' fuel text v') = fst (parse vm ps fuel text v).
Proof.
  unfold parse, parse_run. rewrite <- (proj1 Hst). destruct (position_of (lit "start", NonTerminal) (p_elements ps)) as [start|]; [|reflexivity].
  pose proof (agree_nonterminal fuel start None (mkPS (pp_new text None None) v tree_new) (mkPS (vm := vm') (pp_new text None None) v' tree_new) ltac:(split; reflexivity)) as Hn.
  destruct (parse_nonterminal vm ps fuel start None _) as [o s], (parse_nonterminal vm' ps' fuel start None _) as [o' s']. cbn [fst snd] in *. intros F F'.
  destruct Hn as [-> (A1 & A2)]; [destruct o; exact F || exact Logic.I|destruct F' as [Hq|F']; [left; exact Hq|right; destruct o'; exact F' || exact Logic.I]|].
  destruct o; cbn; [rewrite A2; reflexivity|reflexivity..].
Qed.
End two.
