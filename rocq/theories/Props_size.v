(** * Property theorems: C71, a parse does work linear in the length of the text. *)
From Verif Require Import Base Peekables Tree Errors Sets ParserData Vm SimpleStackVm StackVm RuleParsing FirstSets FollowSets SteuerMap ScriptParser
  SpecGrammar SpecParser SpecTree SpecScript SpecContract SpecMath SpecSize First_proofs Steuer_proofs Tree_proofs Script_proofs Parse_proofs Math_proofs Size_proofs
  Props_steuer Props_script Props_math Props_rpn Samples.

(** The tree of a grammar with [r] rules of at most [b] elements per alternative has at most
    [factor r b] nodes per char of the text that was read, and as many for the end. *)
Theorem C71_tree_size : forall (H : HashOrder) m (vm : VM) fl pd start ps fuel text v t s b,
  built m vm fl pd start ps -> start_element pd start -> keeps_tree vm -> at_most_wide pd b ->
  parse_run vm ps fuel text v = (Ok t, s) ->
  length (t_nodes t) <= factor (size (pd_rules pd)) b * (cur_pos (ps_in s) + 1) /\ cur_pos (ps_in s) <= length text.
Proof.
  intros H m vm fl pd start ps fuel text v t s b Hb Hst Hk Hw Hp.
  destruct (C30_derivation_tree H m vm fl pd start ps fuel text v t s Hb Hst Hk Hp) as (pt & rest & D1 & D2 & -> & _ & -> & _ & D7).
  apply built_spec in Hb as (Hwf & Hcon & _). split; [|rewrite app_length; lia].
  assert (grown (tree_history pd 0 None pt)) as Hg.
  { intros i p d Hi. apply (tree_parents pd pt 0 None) in Hi; [lia|discriminate]. }
  pose proof (r_len _ _ (tree_of_repr _ Hg)) as Hl. unfold tree_of in Hl. rewrite D7 in Hl. cbn [snd] in Hl. rewrite Hl, tree_history_length.
  apply (tree_size pd Hwf); [apply Hcon|exact Hw|exact D1].
Qed.
Print Assumptions C71_tree_size.

(** And the number of instructions executed, also before a syntax error.  [metered vm] is [vm]
    with a counter. *)
Theorem C71_instructions : forall (H : HashOrder) m (vm : VM) fl pd start ps fuel text v b L,
  built m vm fl pd start ps -> start_element pd start -> keeps_tree vm -> at_most_wide pd b ->
  (forall A, length (instructions_of pd A) <= L) ->
  let '(o, v') := parse vm ps fuel text v in
  exists n, parse (metered vm) ps fuel text (v, 0) = (o, (v', n)) /\
    match o with
    | Ok _ | Err _ => n <= L * (factor (size (pd_rules pd)) b * (length text + 1))
    | Panic | Diverge => True
    end.
Proof.
  intros H m vm fl pd start ps fuel text v b L Hb Hst Hk Hw HL.
  destruct (sim_parse vm ps fuel text v 0) as [E1 E2]. destruct (parse vm ps fuel text v) as [o v']. cbn [fst snd] in E1, E2.
  destruct (parse (metered vm) ps fuel text (v, 0)) as [o' [v1 n]] eqn:Ep. cbn [fst snd] in E1, E2. subst o' v1. exists n. split; [reflexivity|].
  pose proof Hb as (Hwf & _). destruct (built_spec _ _ _ _ _ _ Hb) as (_ & Hcon & _).
  assert (built m (metered vm) fl pd start ps) as Hb' by exact Hb.
  destruct o as [t|e| |]; [| |exact Logic.I..].
  - destruct (C36_actions_in_post_order H m (metered vm) fl pd start ps fuel text (v, 0) t (v', n) Hb' Hst (metered_keeps vm Hk) Ep)
      as (pt & rest & D1 & D2 & -> & _ & Hr).
    apply (metered_actions vm pd _ L HL) in Hr. pose proof (post_length pt 0). pose proof (tree_size pd Hwf ltac:(apply Hcon) b Hw pt D1) as Hs.
    rewrite app_length. change (vm_instr (metered vm)) with (vm_instr vm) in *. nia.
  - destruct (C37_effects_of_completed_nodes H m (metered vm) fl pd start ps fuel text (v, 0) e (v', n) Hb' Hst (metered_keeps vm Hk) Ep)
      as (stk & rest & D1 & D2 & -> & _ & Hr).
    apply (metered_actions vm pd _ L HL) in Hr. pose proof (stuck_post_length stk 0). pose proof (stuck_nodes pd Hwf ltac:(apply Hcon) b Hw stk D1) as Hs.
    rewrite app_length. change (vm_instr (metered vm)) with (vm_instr vm) in *. nia.
Qed.
Print Assumptions C71_instructions.

(** ** The factor is that large: the rules 0 -> 1 1, 1 -> 2 2, .., n -> (empty) give a tree of
    2^(n+1) - 1 nodes for the empty text. *)
Section doubling.
Context (I : Type) (n : nat).
Definition dbl_productions (i : nat) : list Production := if decide (i < n) then [NotEmpty [S i; S i]] else [Empty].
Definition dbl_name (i : nat) : str := match i with 0 => lit "start" | S i => replicate (S i) 120%N end.
Definition dbl_rules : gmap nat (NonTerminalRules I) := map_seq 0 (map (fun i => mkNTR (dbl_productions i) None []) (seq 0 (S n))).
Definition doubling : ParserData I :=
  mkPD (mkParseRules dbl_rules None) (replicate (S n) NonTerminal)
    (list_to_map (map (fun i => ((dbl_name i, NonTerminal), i)) (seq 0 (S n)))) (map (fun i => mkElementData true (dbl_name i)) (seq 0 (S n))).
Lemma dbl_lookup {A} (f : nat -> A) i : map f (seq 0 (S n)) !! i = if decide (i <= n) then Some (f i) else None.
Proof.
  change (map f (seq 0 (S n))) with (f <$> seq 0 (S n)). rewrite list_lookup_fmap. destruct (decide (i <= n)).
  - rewrite lookup_seq_lt by lia. reflexivity.
  - rewrite lookup_seq_ge by lia. reflexivity.
Qed.
Lemma dbl_rule A r : pd_rules doubling !! A = Some r <-> A <= n /\ r = mkNTR (dbl_productions A) None [].
Proof.
  unfold pd_rules, doubling, dbl_rules. cbn [parse_rules rules]. rewrite lookup_map_seq_0, dbl_lookup. destruct (decide (A <= n)); split.
  - intros [= <-]. auto.
  - intros [_ ->]. reflexivity.
  - discriminate.
  - intros [? _]. lia.
Qed.
Lemma dbl_verbose i : get_element_verbose doubling i = if decide (i <= n) then Some (dbl_name i, NonTerminal) else None.
Proof.
  unfold get_element_verbose, doubling. cbn [element_data element_types]. rewrite dbl_lookup. destruct (decide (i <= n)); [|reflexivity].
  rewrite lookup_replicate_2 by lia. reflexivity.
Qed.
Lemma dbl_nonterminal i : i <= n -> is_nonterminal doubling i.
Proof. intros Hi. exists (dbl_name i). rewrite dbl_verbose, decide_True by assumption. reflexivity. Qed.
Lemma dbl_no_terminal i s : ~ is_terminal doubling i s.
Proof. unfold is_terminal. rewrite dbl_verbose. destruct (decide (i <= n)); discriminate. Qed.
Lemma dbl_alternative A w : alternative doubling A w <-> (A < n /\ w = [S A; S A]) \/ (A = n /\ w = []).
Proof.
  split.
  - intros (r & p & Hr & Hp & ->). apply dbl_rule in Hr as [Hle ->]. cbn [possible_productions] in Hp. unfold dbl_productions in Hp.
    destruct (decide (A < n)); apply elem_of_list_singleton in Hp as ->; [left; auto|right; split; [lia|reflexivity]].
  - intros [[Hlt ->]|[-> ->]].
    + eexists _, (NotEmpty [S A; S A]). split; [apply dbl_rule; split; [lia|reflexivity]|]. split; [|reflexivity]. cbn. unfold dbl_productions. rewrite decide_True by assumption. apply elem_of_list_singleton. reflexivity.
    + eexists _, Empty. split; [apply dbl_rule; split; [lia|reflexivity]|]. split; [|reflexivity]. cbn. unfold dbl_productions. rewrite decide_False by lia. apply elem_of_list_singleton. reflexivity.
Qed.
Lemma dbl_has_rule A : has_rule doubling A <-> A <= n.
Proof. split; [intros [r Hr]; apply dbl_rule in Hr; tauto|intros HA; eexists; apply dbl_rule; eauto]. Qed.
Lemma dbl_wf : wf_grammar doubling.
Proof.
  split.
  - unfold doubling. cbn [element_types element_data]. rewrite replicate_length, map_length, seq_length. reflexivity.
  - intros A HA. apply dbl_has_rule in HA. apply dbl_nonterminal; assumption.
Qed.
Lemma map_seq_size {A} (l : list A) : forall k, size (map_seq (M := gmap nat A) k l) = length l.
Proof.
  induction l as [|a l IH]; intros k; [apply map_size_empty|]. rewrite map_seq_cons, map_size_insert_None by apply map_seq_cons_disjoint.
  rewrite IH. reflexivity.
Qed.
Lemma dbl_size : size (pd_rules doubling) = S n.
Proof. unfold pd_rules, doubling, dbl_rules. cbn [parse_rules rules]. rewrite map_seq_size, map_length, seq_length. reflexivity. Qed.
Lemma dbl_fits : (N.of_nat n < 2 ^ 64)%N -> fits_memory doubling.
Proof.
  intros Hn. split; [rewrite dbl_size; lia|]. intros A r Hr. apply dbl_rule in Hr as [_ ->]. cbn [possible_productions]. unfold dbl_productions.
  destruct (decide (A < n)); reflexivity.
Qed.
Lemma dbl_calls A B : left_calls doubling A B -> B = S A.
Proof.
  intros (u & w & Ha & _). apply dbl_alternative in Ha as [[_ E]|[_ E]]; [|destruct u; discriminate].
  destruct u as [|x [|y [|z u]]]; cbn in E; congruence.
Qed.
Lemma dbl_start : start_element doubling 0.
Proof.
  intros e. rewrite dbl_verbose. split; [|intros ->; rewrite decide_True by lia; reflexivity].
  destruct (decide (e <= n)) as [He|]; [|discriminate]. destruct e as [|e]; [reflexivity|]. intros E. discriminate E.
Qed.
Lemma dbl_constructible : constructible doubling 0.
Proof.
  split.
  - split.
    + intros A r p Hr Hp. apply dbl_rule in Hr as [_ ->]. cbn in Hp. unfold dbl_productions in Hp.
      destruct (decide (A < n)); apply elem_of_list_singleton in Hp as ->; discriminate.
    + intros A w e Ha He. right. apply dbl_alternative in Ha as [[Hlt ->]|[_ ->]]; [|inversion He].
      assert (e = S A) as -> by (apply elem_of_cons in He as [->|He]; [reflexivity|apply elem_of_list_singleton in He; exact He]).
      split; [apply dbl_nonterminal; lia|apply dbl_has_rule; lia].
  - assert (forall A B, tc (left_calls doubling) A B -> A < B) as Hlt; [|intros A HA; apply Hlt in HA; lia].
    induction 1 as [A B Hc|A B C Hc _ IH]; apply dbl_calls in Hc; lia.
  - apply dbl_has_rule. lia.
  - intros A r p _ _ (e & rest & _ & Ht). exact (dbl_no_terminal e [] Ht).
  - intros A r i j p q x Hr Hi Hj Hne _ _. apply dbl_rule in Hr as [_ ->]. cbn in Hi, Hj. unfold dbl_productions in Hi, Hj. destruct (decide (A < n)), i, j; try discriminate; lia.
Qed.
Fixpoint dbl_tree (k : nat) (i : nat) : ptree := match k with 0 => PNode i [] | S k => PNode i [dbl_tree k (S i); dbl_tree k (S i)] end.
Lemma dbl_tree_root k i : root (dbl_tree k i) = i.
Proof. destruct k; reflexivity. Qed.
Lemma dbl_tree_count k : forall i, S (nodes_count (dbl_tree k i)) = 2 ^ S k.
Proof.
  induction k as [|k IH]; intros i; [reflexivity|]. rewrite Nat.pow_succ_r', <- (IH (S i)). cbn [dbl_tree]. rewrite nodes_count_node, !forest_count_cons. change (forest_count []) with 0. lia.
Qed.
Lemma dbl_tree_derivation k : forall i, i + k = n -> derivation doubling (dbl_tree k i) /\ yield doubling (dbl_tree k i) = [].
Proof.
  induction k as [|k IH]; intros i Hi; cbn [dbl_tree].
  - split; [|reflexivity]. constructor; [|constructor]. apply dbl_alternative. right. split; [lia|reflexivity].
  - destruct (IH (S i) ltac:(lia)) as [D Y]. split; [|cbn; rewrite Y; reflexivity]. constructor; [|repeat constructor; exact D].
    apply dbl_alternative. left. cbn. rewrite dbl_tree_root. split; [lia|reflexivity].
Qed.
End doubling.
Theorem C71_exponential_in_the_grammar : forall (H : HashOrder) m n v, (N.of_nat n < 2 ^ 64)%N ->
  exists fl pd ps fuel t, built m NullVm fl pd 0 ps /\ start_element pd 0 /\ at_most_wide pd 2 /\ size (pd_rules pd) = S n /\
    parse NullVm ps fuel [] v = (Ok t, v) /\ S (length (t_nodes t)) = 2 ^ S n.
Proof.
  intros H m n v Hn. pose (pd := doubling (vm_instr NullVm) n). pose (fl := mkFuels (size (pd_rules pd) + 2) (S (size (pd_rules pd) * (length (element_data pd) + 1)))).
  assert (enough fl pd) as Hen by (split; cbn; lia).
  destruct (C26_construction H m NullVm fl pd 0 (dbl_wf _ n) (dbl_fits _ n Hn) Hen) as ([_ Hc] & _).
  destruct (Hc (dbl_constructible _ n)) as [ps Hps]. assert (built m NullVm fl pd 0 ps) as Hb by (split; [apply dbl_wf|split; [apply dbl_fits; exact Hn|exact Hps]]).
  destruct (dbl_tree_derivation (vm_instr NullVm) n n 0 eq_refl) as [D Y]. fold pd in D, Y. pose proof (dbl_size (vm_instr NullVm) n : size (pd_rules pd) = S n) as Hz.
  pose proof (C31_sentences_are_parsed H m NullVm fl pd 0 ps (S (S n)) (dbl_tree n 0) [] v Hb (dbl_start _ n) null_keeps_tree null_returns D) as Hp.
  rewrite null_actions in Hp. destruct Hp as (t & Hp & _ & Et); [apply dbl_tree_root|left; reflexivity| |].
  { unfold enough_depth. rewrite Y, Hz. cbn. lia. }
  rewrite Y in Hp. exists fl, pd, ps, (S (S n)), t. split; [exact Hb|]. split; [apply dbl_start|]. split.
  { intros A w Ha. apply dbl_alternative in Ha as [[_ ->]|[_ ->]]; cbn; lia. }
  split; [apply dbl_size|]. split; [exact Hp|].
  assert (grown (tree_history pd 0 None (dbl_tree n 0))) as Hg.
  { intros i p d Hi. apply (tree_parents pd (dbl_tree n 0) 0 None) in Hi; [lia|discriminate]. }
  pose proof (r_len _ _ (tree_of_repr _ Hg)) as Hl. unfold tree_of in Hl. rewrite <- Et in Hl. rewrite Hl, tree_history_length. apply dbl_tree_count.
Qed.
Print Assumptions C71_exponential_in_the_grammar.

(** ** An instance: the calculator of examples/rust_defined_rules.rs *)
Lemma wide_check {I} (pd : ParserData I) b L :
  forallb (fun p : nat * NonTerminalRules I => forallb (fun q => Nat.leb (length (right_side q)) b) (possible_productions p.2) && Nat.leb (length (instruction p.2)) L) (map_to_list (pd_rules pd)) = true ->
  at_most_wide pd b /\ forall A, length (instructions_of pd A) <= L.
Proof.
  intros Hc. rewrite forallb_forall in Hc.
  assert (forall A r, pd_rules pd !! A = Some r -> forallb (fun q => Nat.leb (length (right_side q)) b) (possible_productions r) = true /\ length (instruction r) <= L) as Hr.
  { intros A r E. specialize (Hc (A, r)). cbn [snd] in Hc. rewrite andb_true_iff, Nat.leb_le in Hc. apply Hc, elem_of_list_In, elem_of_map_to_list, E. }
  split.
  - intros A w (r & p & E & Hp & ->). destruct (Hr A r E) as [Hf _]. rewrite forallb_forall in Hf. apply Nat.leb_le, Hf, elem_of_list_In, Hp.
  - intros A. unfold instructions_of. destruct (pd_rules pd !! A) as [r|] eqn:E; [apply (Hr A r E)|cbn; lia].
Qed.
Example C71_example : forall (U : Unicode) (H : HashOrder) m m' fl, enough fl api_data ->
  exists ps, new_from_parser_data m' (StackVm m) fl api_data 0 = Ok ps /\
    at_most_wide api_data 3 /\ (forall A, length (instructions_of api_data A) <= 6) /\ size (pd_rules api_data) = 14 /\
    forall fuel text v, match parse_run (StackVm m) ps fuel text v with
      | (Ok t, s) => length (t_nodes t) <= factor 14 3 * (cur_pos (ps_in s) + 1)
      | _ => True
      end.
Proof.
  intros U H m m' fl Hfl. destruct (proj2 (proj1 (C26_construction H m' (StackVm m) fl api_data 0 api_wf api_fits Hfl)) api_constructible) as [ps Hps].
  destruct (wide_check api_data 3 6 ltac:(vm_compute; reflexivity)) as [Hw HL]. exists ps. split; [exact Hps|]. split; [exact Hw|]. split; [exact HL|].
  assert (size (pd_rules api_data) = 14) as Hz by (vm_compute; reflexivity). split; [exact Hz|].
  intros fuel text v. destruct (parse_run (StackVm m) ps fuel text v) as [[t|e| |] s] eqn:E; try exact Logic.I.
  rewrite <- Hz. eapply (C71_tree_size H m' (StackVm m) fl api_data 0 ps); [split; [apply api_wf|]; split; [apply api_fits|assumption]|apply api_start|apply stack_keeps_tree|exact Hw|exact E].
Qed.
