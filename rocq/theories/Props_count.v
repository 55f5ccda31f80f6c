(** * Property theorems: C52 for grammars read from text.  CountingVm counts the nodes of the
    tree whose name is first defined with braces. *)
From Verif Require Import Base Peekables Tree Errors Sets ParserData Vm SimpleStackVm StackVm RuleParsing FirstSets FollowSets SteuerMap ScriptParser
  SpecText SpecData SpecGrammar SpecParser SpecTree SpecScript SpecContract SpecWeave SpecRules SpecNames SpecLanguage Checks Parse_proofs
  RuleText_proofs Language_proofs Props_script Props_rules Props_vm Props_names Props_language Props_errors Props_main Samples.

(** ** Specification *)
(** The rule [r] has an instruction section. *)
Definition has_braces {I} (r : arule I) : Prop := ar_instr r <> [].
(** The inner nodes of a tree whose name is first defined by a rule with braces. *)
Fixpoint counted {I} (rs : list (arule I)) (nt : ntree) : nat :=
  match nt with
  | NLeaf _ => 0
  | NNode x subs => match rules_for x rs with
                    | r0 :: _ => match ar_instr r0 with [] => 0 | _ :: _ => 1 end
                    | [] => 0
                    end + list_sum (map (counted rs) subs)
  end.
(** A usize that has grown by [n]. *)
Definition grows_by (m : ovf_mode) (v : N) (n : nat) : outcome Empty_set N :=
  if (v + N.of_nat n <? 2 ^ 64)%N then Ok (v + N.of_nat n)%N
  else match m with Checked => Panic | Wrapping => Ok ((v + N.of_nat n) mod 2 ^ 64)%N end.

(** In a text read with CountingVm a rule has one instruction if it has braces, and none
    otherwise. *)
Theorem C52_sections : forall (U : Unicode) name is ts, section_text counting_reads name is ts ->
  (ts = [] /\ is = []) \/ (head ts = Some 123%N /\ is = [0%N]).
Proof. intros U name is ts [|l body is' Hl Hb [-> ->]]; [left; auto|right; split; reflexivity]. Qed.
Print Assumptions C52_sections.
Lemma text_braces {U : Unicode} (rs : list (arule N)) t : grammar_text counting_reads rs t -> Forall (fun r => ar_instr r = [] \/ ar_instr r = [0%N]) rs.
Proof.
  induction 1 as [l Hl|r t l rs t' Hl Hr Ht IH]; [constructor|]. constructor; [|assumption].
  destruct Hr as [l1 l2 l3 l4 l5 to ta ts _ _ _ Hsec]. destruct (C52_sections U _ _ _ Hsec) as [[_ ->]|[_ ->]]; auto.
Qed.

Lemma grows_trans m v a b : (v < 2 ^ 64)%N -> obind (grows_by m v a) (fun v' => grows_by m v' b) = grows_by m v (a + b).
Proof.
  intros Hv. unfold grows_by. destruct (N.ltb_spec (v + N.of_nat a) (2 ^ 64)) as [Ha|Ha]; cbn [obind].
  - replace (v + N.of_nat a + N.of_nat b)%N with (v + N.of_nat (a + b))%N by lia. reflexivity.
  - destruct (N.ltb_spec (v + N.of_nat (a + b)) (2 ^ 64)) as [Hb|Hb]; [lia|]. destruct m; cbn [obind]; [reflexivity|].
    assert (((v + N.of_nat a) mod 2 ^ 64 + N.of_nat b) mod 2 ^ 64 = (v + N.of_nat (a + b)) mod 2 ^ 64)%N as E.
    { rewrite N.add_mod_idemp_l by discriminate. f_equal. lia. }
    destruct (N.ltb_spec ((v + N.of_nat a) mod 2 ^ 64 + N.of_nat b) (2 ^ 64)) as [Hc|Hc]; [|rewrite E; reflexivity].
    rewrite <- E. rewrite (N.mod_small (_ + N.of_nat b)) by assumption. reflexivity.
Qed.
Lemma grows_bound m v n v' : grows_by m v n = Ok v' -> (v' < 2 ^ 64)%N.
Proof.
  unfold grows_by. destruct (N.ltb_spec (v + N.of_nat n) (2 ^ 64)); [intros [= <-]; assumption|]. destruct m; [discriminate|]. intros [= <-]. apply N.mod_lt. discriminate.
Qed.
Lemma grows_one m v : (v < 2 ^ 64)%N -> usize_result m (Z.of_N v + 1) = grows_by m v 1.
Proof.
  intros Hv. unfold usize_result, grows_by. replace (0 <=? Z.of_N v + 1)%Z with true by (symmetry; apply Z.leb_le; lia). cbn [andb].
  destruct (Z.ltb_spec (Z.of_N v + 1) (2 ^ 64)), (N.ltb_spec (v + N.of_nat 1) (2 ^ 64)); try lia; [f_equal; lia|].
  destruct m; [reflexivity|]. f_equal. rewrite Z2N.inj_mod by lia. f_equal. lia.
Qed.
Section run.
Context (m : ovf_mode) (rs : list (arule (vm_instr (CountingVm m)))) (Hrs : Forall (fun r => ar_instr r = [] \/ ar_instr r = [0%N]) rs).
Let weight x := match rules_for x rs with r0 :: _ => match ar_instr r0 with [] => 0 | _ :: _ => 1 end | [] => 0 end.
Lemma instructions_weight x : instructions_for rs x = match weight x with 0 => [] | _ => [0%N] end.
Proof.
  unfold instructions_for, weight. destruct (rules_for x rs) as [|r0 more] eqn:E; [reflexivity|].
  assert (r0 ∈ rules_for x rs) as Hin by (rewrite E; left). apply elem_of_list_filter in Hin as [_ Hin].
  rewrite Forall_forall in Hrs. pose proof (Hrs r0 Hin) as Hr. change (vm_instr (CountingVm m)) with N in *. destruct Hr as [Hr|Hr]; rewrite Hr; reflexivity.
Qed.
Lemma run_weights (f : nat -> Tree str) l : forall v, (v < 2 ^ 64)%N ->
  ofold (fun s '((i, x, k) : nat * str * nat) =>
     ofold (fun s ins => let* '(_t, s') := vm_execute (CountingVm m) (f k) (id_of i) ins s in Ok s') s (instructions_for rs x)) v l
  = grows_by m v (list_sum (map (fun '((i, x, k) : nat * str * nat) => weight x) l)).
Proof.
  induction l as [|[[i x] k] l IH]; intros v Hv.
  - cbn. unfold grows_by. replace (v + N.of_nat 0)%N with v by lia. apply N.ltb_lt in Hv. rewrite Hv. reflexivity.
  - cbn [ofold map]. change (list_sum (weight x :: ?l)) with (weight x + list_sum l). rewrite <- (grows_trans m v) by assumption.
    rewrite instructions_weight. destruct (weight x) as [|w] eqn:Ew.
    + cbn [ofold obind]. unfold grows_by at 1. replace (v + N.of_nat 0)%N with v by lia. pose proof Hv as Hv'. apply N.ltb_lt in Hv'. rewrite Hv'. cbn [obind]. apply IH. assumption.
    + assert (w = 0) as -> by (unfold weight in Ew; destruct (rules_for x rs) as [|r0 ?]; [discriminate|]; destruct (ar_instr r0); [discriminate|lia]).
      cbn [ofold vm_execute CountingVm]. unfold counting_execute. rewrite (grows_one m v Hv). pose proof (grows_bound m v 1) as Hb.
      destruct (grows_by m v 1) as [v1|[]| |]; cbn [obind]; [|reflexivity..]. apply IH. apply Hb. reflexivity.
Qed.
Lemma post_weights nt : forall n, list_sum (map (fun '((i, x, k) : nat * str * nat) => weight x) (npost_order n nt)) = counted rs nt.
Proof.
  induction nt as [nt IH] using (induction_ltof1 _ ncount). unfold ltof in IH. intros n. destruct nt as [b|x subs]; [reflexivity|].
  cbn [npost_order counted]. rewrite map_app, list_sum_app. cbn [map]. change (list_sum [weight x]) with (weight x + 0).
  fold (weight x). rewrite Nat.add_0_r, Nat.add_comm. f_equal.
  assert (forall s, s ∈ subs -> ncount s < ncount (NNode x subs)) as Hlt.
  { intros s Hs. cbn [ncount]. apply elem_of_list_split in Hs as (l1 & l2 & ->). rewrite map_app, list_sum_app. cbn. lia. }
  generalize (S n). revert Hlt IH. generalize (ncount (NNode x subs)). intros big. induction subs as [|s subs IHs]; intros Hlt IH k; [reflexivity|].
  rewrite map_app, list_sum_app. cbn [map]. change (list_sum (counted rs s :: ?l)) with (counted rs s + list_sum l). f_equal.
  - apply IH. apply Hlt. left.
  - apply IHs; [intros s' Hs'; apply Hlt; right; assumption|exact IH].
Qed.
Lemma run_tree_counts nt v : (v < 2 ^ 64)%N -> run_tree rs nt v = grows_by m v (counted rs nt).
Proof. intros Hv. unfold run_tree. rewrite (run_weights (fun k => snd (do_adds (take k (nhistory 0 None nt)) tree_new))) by assumption. f_equal. apply post_weights. Qed.
End run.

(** ** C52, from text: on a script with an accepted prefix the counter grows by the number of
    nodes of its tree whose name is first defined with braces (modulo 2^64 in a release
    build; a debug build panics when it does not fit). *)
Theorem C52_texts : forall (U : Unicode) (H : HashOrder) m m' fl rs t ps, tables_disjoint ->
  grammar_text counting_reads rs t -> (N.of_nat (length t) < 2 ^ 63)%N -> enough_for_text fl t -> new_from_text m' (CountingVm m) fl t = Ok ps ->
  forall fuel script v nt rest, (length script + 1) * length t <= fuel -> (v < 2 ^ 64)%N -> accepts_prefix rs script nt rest ->
  match grows_by m v (counted rs nt) with
  | Ok v' => exists tr, parse (CountingVm m) ps fuel script v = (Ok tr, v')
  | _ => fst (parse (CountingVm m) ps fuel script v) = Panic
  end.
Proof.
  intros U H m m' fl rs t ps Hd Ht Hlen Hfl Hps fuel script v nt rest Hfuel Hv Hacc.
  assert (read_from m' (CountingVm m) rs t ps) as Hr by (exists counting_reads, fl; auto 10 using sh_counting).
  destruct (C61_accepted_scripts U H m' (CountingVm m) rs t ps Hr fuel script v Hfuel) as (H1 & H2 & _).
  pose proof (run_tree_counts m rs (text_braces rs t Ht) nt v Hv) as E. pose proof (H2 nt rest Hacc) as Hpan. rewrite E in Hpan.
  destruct (grows_by m v (counted rs nt)) as [v'|[]| |] eqn:Eg.
  - apply (H1 v'). exists nt, rest. split; [assumption|]. rewrite E. exact Eg.
  - apply Hpan. exact Eg.
  - exfalso. unfold grows_by in Eg. destruct (_ <? _)%N; [discriminate|]. destruct m; discriminate.
Qed.
Print Assumptions C52_texts.

(** A fresh counter ends with the number itself. *)
Theorem C52_fresh_counter : forall (U : Unicode) (H : HashOrder) m m' fl rs t ps, tables_disjoint ->
  grammar_text counting_reads rs t -> (N.of_nat (length t) < 2 ^ 63)%N -> enough_for_text fl t -> new_from_text m' (CountingVm m) fl t = Ok ps ->
  forall fuel script nt rest, (length script + 1) * length t <= fuel -> accepts_prefix rs script nt rest -> (N.of_nat (counted rs nt) < 2 ^ 64)%N ->
  exists tr, parse (CountingVm m) ps fuel script (vm_new_state (CountingVm m)) = (Ok tr, N.of_nat (counted rs nt)).
Proof.
  intros U H m m' fl rs t ps Hd Ht Hlen Hfl Hps fuel script nt rest Hfuel Hacc Hc.
  pose proof (C52_texts U H m m' fl rs t ps Hd Ht Hlen Hfl Hps fuel script 0%N nt rest Hfuel ltac:(reflexivity) Hacc) as Hx.
  unfold grows_by in Hx. rewrite N.add_0_l in Hx. destruct (N.ltb_spec (N.of_nat (counted rs nt)) (2 ^ 64)); [exact Hx|lia].
Qed.
Print Assumptions C52_fresh_counter.

(** ** Non-vacuity: a grammar with and without braces; "aab" has two counted nodes. *)
Section example.
Local Existing Instance ascii_unicode.
Definition ct_rules : list (arule N) :=
  [mkARule (lit "start") OvAbsent [[(lit "x", NonTerminal); (lit "start", NonTerminal)]; [(lit "b", Terminal)]] [];
   mkARule (lit "x") OvAbsent [[(lit "a", Terminal)]] [0%N]].
Definition ct_text : str := lit "start->x start|""b"";x->""a""{ };".
Definition ct_x : ntree := NNode (lit "x") [NLeaf (lit "a")].
Definition ct_tree : ntree := NNode (lit "start") [ct_x; NNode (lit "start") [ct_x; NNode (lit "start") [NLeaf (lit "b")]]].
Lemma ct_text_ok : grammar_text counting_reads ct_rules ct_text.
Proof.
  apply (gr_cons counting_reads _ (lit "start->x start|""b"";") [] _ (lit "x->""a""{ };")); [constructor| |].
  - apply (rule_intro counting_reads (mkARule (lit "start") OvAbsent [[(lit "x", NonTerminal); (lit "start", NonTerminal)]; [(lit "b", Terminal)]] []) [] [] [] [] []
      [] (lit "x start|""b""") []); try (constructor; fail); try (split; [reflexivity|repeat constructor]).
    apply (alts_cons _ (lit "x start") [] [] _ (lit """b""")); [|constructor..|apply alts_one, alt_elements, els_one, one_quoted; discriminate].
    apply alt_elements, (els_cons _ (lit "x") (lit " ") _ (lit "start")); [apply el_name; split; [reflexivity|repeat constructor]|repeat constructor|
      apply els_one, el_name; split; [reflexivity|repeat constructor]|intros _ [E|E]; vm_compute in E; discriminate].
  - apply (gr_cons counting_reads _ (lit "x->""a""{ };") [] _ []); [constructor| |apply gr_end; constructor].
    apply (rule_intro counting_reads (mkARule (lit "x") OvAbsent [[(lit "a", Terminal)]] [0%N]) [] [] [] [] []
      [] (lit """a""") (lit "{ }")); try (constructor; fail); try (split; [reflexivity|repeat constructor]).
    + apply alts_one, alt_elements, els_one, one_quoted; discriminate.
    + apply (sec_braces counting_reads _ (lit " ") []); [repeat constructor|constructor|split; reflexivity].
Qed.
Fixpoint full (t : ntree) : Prop :=
  match t with NLeaf _ => True | NNode _ subs => nyield t <> [] /\ fold_right (fun s P => full s /\ P) True subs end.
Lemma no_empty_nodes t y w : ends_in_empty t y w -> ~ full t.
Proof.
  induction 1 as [x subs E|x l s r y w _ _ IH]; cbn [full]; intros [Hne Hall]; [exact (Hne E)|].
  apply IH. clear -Hall. induction l as [|s' l IHl]; [apply Hall|]. apply IHl. apply Hall.
Qed.
Example C52_texts_example : grammar_text counting_reads ct_rules ct_text /\ enough_for_text (mkFuels 60 2200) ct_text /\
  (exists ps, @new_from_text _ plain_order Checked (CountingVm Checked) (mkFuels 60 2200) ct_text = Ok ps) /\
  accepts_prefix ct_rules (lit "aab") ct_tree [] /\ counted ct_rules ct_tree = 2.
Proof.
  assert (forall x i w, alternatives_for ct_rules x !! i = Some w -> says ct_rules x i w) as Hsays.
  { intros x i w Hw. apply says_plain; [assumption|]. intros y (r0 & more & E & Ho). exfalso.
    assert (r0 ∈ rules_for x ct_rules) as Hin by (rewrite E; left). apply elem_of_list_filter in Hin as [_ Hin].
    apply elem_of_cons in Hin as [->|Hin]; [discriminate|]. apply elem_of_list_singleton in Hin as ->. discriminate. }
  split; [apply ct_text_ok|]. split; [split; cbn [first_fuel follow_fuel]; apply Nat.leb_le || apply Nat.ltb_lt; vm_compute; reflexivity|]. split; [|split; [|reflexivity]].
  - assert (forall r : outcome Empty_set (Parser N), is_ok r = true -> exists ps, r = Ok ps) as Hok by (intros [ps| | |]; [eauto|discriminate..]).
    apply Hok. vm_compute. reflexivity.
  - assert (nderivation ct_rules ct_x) as Hx by (apply (nder_node _ _ 0); [apply Hsays; reflexivity|apply Forall_cons; split; [apply nder_leaf|constructor]]).
    split; [|split; [reflexivity|split; [reflexivity|]]].
    + apply (nder_node _ _ 0); [apply Hsays; reflexivity|]. apply Forall_cons; split; [assumption|]. apply Forall_cons; split; [|constructor].
      apply (nder_node _ _ 0); [apply Hsays; reflexivity|]. apply Forall_cons; split; [assumption|]. apply Forall_cons; split; [|constructor].
      apply (nder_node _ _ 1); [apply Hsays; reflexivity|]. apply Forall_cons; split; [apply nder_leaf|constructor].
    + intros y w He. exfalso. apply no_empty_nodes in He. apply He. cbn. repeat split; discriminate.
Qed.
End example.
