(** * Property theorems: values computed bottom up by a VM (C76).
    The specification is SpecAttr.v: [meaning] is an ordinary recursive evaluator of
    derivation trees, for any value type and any functions [alg]. *)
From Verif Require Import Base Peekables Tree Errors Sets ParserData Vm RuleParsing ScriptParser
  SpecText SpecTree SpecScript SpecRules SpecContract SpecNames SpecLanguage SpecAttr Checks Tree_proofs Script_proofs Parse_proofs
  Props_tree Props_rules Props_language Props_main Props_custom Props_count Props_extend Attr_proofs Samples.

(** ** C76.  What parse_instructions is given: the name of the rule and the text between the
    braces, without the blanks it starts with; nothing for a rule without braces. *)
Lemma noted_section {U : Unicode} name is ts : section_text noted name is ts ->
  (ts = [] /\ is = []) \/ exists l body, ts = lit "{" ++ l ++ body ++ lit "}" /\ blank l /\ not_starting white body /\ is = [(name, body)].
Proof. intros [|l body is' Hl Hb [_ ->]]; [left; auto|right; eauto 10]. Qed.
Lemma noted_rules {U : Unicode} rs t : grammar_text noted rs t -> Forall (fun r => ar_instr r = [] \/ exists body, ar_instr r = [(ar_name r, body)]) rs.
Proof.
  induction 1 as [l Hl|r t l rs t' Hl Hr Ht IH]; [constructor|]. constructor; [|assumption].
  destruct Hr as [l1 l2 l3 l4 l5 to ta ts _ _ _ Hsec]. destruct (noted_section _ _ _ Hsec) as [[_ ->]|(? & body & _ & _ & _ & ->)]; eauto.
Qed.
Lemma noted_one {U : Unicode} rs t : grammar_text noted rs t ->
  forall x, match instructions_for rs x with [] => True | [(name, _)] => name = x | _ => False end.
Proof.
  intros Ht x. apply noted_rules in Ht. unfold instructions_for. destruct (rules_for x rs) as [|r0 l] eqn:E; [exact I|].
  assert (r0 ∈ rules_for x rs) as Hin by (rewrite E; left). apply elem_of_list_filter in Hin as [Hx Hin].
  rewrite Forall_forall in Ht. destruct (Ht r0 Hin) as [->|[body ->]]; [exact I|exact Hx].
Qed.

(** A VM that keeps a table from nodes to values, and computes the value of a node with
    braces from those of its children, ends with exactly the values that the evaluator gives
    to the nodes of the accepted tree, and with no other: whatever the grammar, the functions
    and the script. *)
Theorem C76_values : forall (U : Unicode) (H : HashOrder) m (V : Type) (alg : str -> str -> list (str + V) -> V) rs t fl ps,
  tables_disjoint -> grammar_text noted rs t -> (N.of_nat (length t) < 2 ^ 63)%N -> enough_for_text fl t ->
  new_from_text m (value_vm alg) fl t = Ok ps ->
  forall fuel script nt rest, (length script + 1) * length t <= fuel -> accepts_prefix rs script nt rest ->
  exists values, parse (value_vm alg) ps fuel script no_values = (Ok (snd (do_adds (nhistory 0 None nt) tree_new)), values) /\
    (forall k u, nodes_of nt !! k = Some u -> values (id_of k) = value_of alg rs u) /\
    (forall k, length (nodes_of nt) <= k -> values (id_of k) = None).
Proof.
  intros U H m V alg rs t fl ps Hd Ht Hlen Hfl Hps fuel script nt rest Hfuel Hacc.
  pose proof (value_vm_meets alg (U := U)) as (H1 & H2 & H3).
  assert (supported (value_vm alg) noted) as Hs by (apply sh_custom; assumption).
  assert (read_from m (value_vm alg) rs t ps) as Hr by (exists noted, fl; auto 10).
  destruct (C61_accepted_scripts U H m (value_vm alg) rs t ps Hr fuel script no_values Hfuel) as (HA & _ & _ & _ & Huni).
  destruct (run_tree_values alg rs (noted_one rs t Ht) nt) as (values & Hrun & Hv & Hn).
  destruct (proj2 (HA values) (ex_intro _ nt (ex_intro _ rest (conj Hacc Hrun)))) as [tr Hp].
  destruct (parse_tree_literal m (value_vm alg) rs t ps fuel script no_values tr values Hr Hp) as (nt' & rest' & Ha' & _ & ->).
  destruct (Huni _ _ _ _ Hacc Ha') as [<- <-]. exists values. split; [exact Hp|]. split; [exact Hv|]. intros k Hk. apply Hn. rewrite nodes_length in Hk. exact Hk.
Qed.
Print Assumptions C76_values.
(** In particular the value of the root is the value of the whole tree. *)
Theorem C76_value_of_the_script : forall (U : Unicode) (H : HashOrder) m (V : Type) (alg : str -> str -> list (str + V) -> V) rs t fl ps,
  tables_disjoint -> grammar_text noted rs t -> (N.of_nat (length t) < 2 ^ 63)%N -> enough_for_text fl t ->
  new_from_text m (value_vm alg) fl t = Ok ps ->
  forall fuel script nt rest v, (length script + 1) * length t <= fuel -> accepts_prefix rs script nt rest -> meaning alg rs nt = inr v ->
  exists tr values, parse (value_vm alg) ps fuel script no_values = (Ok tr, values) /\ values (mkNodeId 0 0) = Some v.
Proof.
  intros U H m V alg rs t fl ps Hd Ht Hlen Hfl Hps fuel script nt rest v Hfuel Hacc Hm.
  destruct (C76_values U H m V alg rs t fl ps Hd Ht Hlen Hfl Hps fuel script nt rest Hfuel Hacc) as (values & Hp & Hv & _).
  eexists _, values. split; [exact Hp|]. change (mkNodeId 0 0) with (id_of 0). rewrite (Hv 0 nt).
  - unfold value_of. rewrite Hm. reflexivity.
  - destruct (nodes_first nt) as [l ->]. reflexivity.
Qed.
Print Assumptions C76_value_of_the_script.

(** ** Non-vacuity: the number of "a"s of "aab" by adding the values of the children. *)
Section example.
Local Existing Instance ascii_unicode.
Definition at_rules : list (arule (str * str)) :=
  [mkARule (lit "start") OvAbsent [[(lit "x", NonTerminal); (lit "start", NonTerminal)]; [(lit "b", Terminal)]] [(lit "start", lit "+ ")];
   mkARule (lit "x") OvAbsent [[(lit "a", Terminal)]] [(lit "x", lit "1")]].
Definition at_text : str := lit "start->x start|""b""{ + };x->""a""{1};".
Definition at_alg (name body : str) (subs : list (str + N)) : N :=
  if decide (body = lit "1") then 1%N else fold_right (fun c n => match c with inr k => k + n | inl _ => n end)%N 0%N subs.
Lemma at_text_ok : grammar_text noted at_rules at_text.
Proof.
  assert (forall name b, brace_free b -> noted name b [(name, b)]) as Hn by (intros name b Hb; split; [exact Hb|reflexivity]).
  apply (gr_cons noted _ (lit "start->x start|""b""{ + };") [] _ (lit "x->""a""{1};")); [constructor| |].
  - apply (rule_intro noted (mkARule (lit "start") OvAbsent [[(lit "x", NonTerminal); (lit "start", NonTerminal)]; [(lit "b", Terminal)]] [(lit "start", lit "+ ")]) [] [] [] [] []
      [] (lit "x start|""b""") (lit "{ + }")); try (constructor; fail); try (split; [reflexivity|repeat constructor]).
    + apply (alts_cons _ (lit "x start") [] [] _ (lit """b""")); [|constructor..|apply alts_one, alt_elements, els_one, one_quoted; discriminate].
      apply alt_elements, (els_cons _ (lit "x") (lit " ") _ (lit "start")); [apply el_name; split; [reflexivity|repeat constructor]|repeat constructor|
        apply els_one, el_name; split; [reflexivity|repeat constructor]|intros _ [E|E]; vm_compute in E; discriminate].
    + apply (sec_braces noted _ (lit " ") (lit "+ ")); [repeat constructor|intros E; vm_compute in E; discriminate|apply Hn].
      split; [|right; split; [reflexivity|discriminate]]. intros i Hi. exfalso. do 3 (destruct i as [|i]; [discriminate|]). discriminate.
  - apply (gr_cons noted _ (lit "x->""a""{1};") [] _ []); [constructor| |apply gr_end; constructor].
    apply (rule_intro noted (mkARule (lit "x") OvAbsent [[(lit "a", Terminal)]] [(lit "x", lit "1")]) [] [] [] [] []
      [] (lit """a""") (lit "{1}")); try (constructor; fail); try (split; [reflexivity|repeat constructor]).
    + apply alts_one, alt_elements, els_one, one_quoted; discriminate.
    + apply (sec_braces noted _ [] (lit "1")); [repeat constructor|intros E; vm_compute in E; discriminate|apply Hn].
      split; [|right; split; [reflexivity|discriminate]]. intros i Hi. exfalso. do 2 (destruct i as [|i]; [discriminate|]). discriminate.
Qed.
Example C76_example : grammar_text noted at_rules at_text /\ enough_for_text (mkFuels 60 2200) at_text /\
  (exists ps, @new_from_text _ plain_order Checked (value_vm at_alg) (mkFuels 60 2200) at_text = Ok ps) /\
  accepts_prefix at_rules (lit "aab") ct_tree [] /\ meaning at_alg at_rules ct_tree = inr 2%N.
Proof.
  assert (forall x i w, alternatives_for at_rules x !! i = Some w -> says at_rules x i w) as Hsays.
  { intros x i w Hw. apply says_plain; [assumption|]. intros y (r0 & more & E & Ho). exfalso.
    assert (r0 ∈ rules_for x at_rules) as Hin by (rewrite E; left). apply elem_of_list_filter in Hin as [_ Hin].
    apply elem_of_cons in Hin as [->|Hin]; [discriminate|]. apply elem_of_list_singleton in Hin as ->. discriminate. }
  split; [apply at_text_ok|]. split; [split; cbn [first_fuel follow_fuel]; apply Nat.leb_le || apply Nat.ltb_lt; vm_compute; reflexivity|]. split; [|split; [|vm_compute; reflexivity]].
  - assert (forall r : outcome Empty_set (Parser (str * str)), is_ok r = true -> exists ps, r = Ok ps) as Hok by (intros [ps| | |]; [eauto|discriminate..]).
    apply Hok. vm_compute. reflexivity.
  - assert (nderivation at_rules ct_x) as Hx by (apply (nder_node _ _ 0); [apply Hsays; reflexivity|apply Forall_cons; split; [apply nder_leaf|constructor]]).
    split; [|split; [reflexivity|split; [reflexivity|]]].
    + apply (nder_node _ _ 0); [apply Hsays; reflexivity|]. apply Forall_cons; split; [assumption|]. apply Forall_cons; split; [|constructor].
      apply (nder_node _ _ 0); [apply Hsays; reflexivity|]. apply Forall_cons; split; [assumption|]. apply Forall_cons; split; [|constructor].
      apply (nder_node _ _ 1); [apply Hsays; reflexivity|]. apply Forall_cons; split; [apply nder_leaf|constructor].
    + intros y w He. exfalso. apply no_empty_nodes in He. apply He. cbn. repeat split; discriminate.
Qed.

(** readme.md says that for [number -> digit { push_value($1) };] the VM is given
    " push_value($1) "; it is given the text without the blank in front. *)
Definition doc_text : str := lit "number->""5""{ push_value($1) };".
Theorem C76_blanks_in_front_are_passed_on_refuted :
  match fst (parse_rule (value_vm at_alg) (rp_new (value_vm at_alg) doc_text)) with
  | Ok (_, r) => instruction r = [(lit "number", lit "push_value($1) ")] /\ instruction r <> [(lit "number", lit " push_value($1) ")]
  | _ => False
  end.
Proof.
  assert (fst (parse_rule (value_vm at_alg) (rp_new (value_vm at_alg) doc_text)) = Ok (0, mkNTR [NotEmpty [1]] None [(lit "number", lit "push_value($1) ")])) as -> by (vm_compute; reflexivity).
  split; [reflexivity|]. cbn [instruction]. intros E. apply (f_equal (fun l => match l with [(_, c :: _)] => N.eqb c 32 | _ => false end)) in E. discriminate E.
Qed.
Print Assumptions C76_blanks_in_front_are_passed_on_refuted.
End example.
