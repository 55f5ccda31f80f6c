(** * Property theorems, from grammar text to language: C57.  The specification is
    SpecLanguage.v: derivation trees over the names and quoted texts written in the
    grammar, without element numbers or parser data. *)
From Verif Require Import Base Peekables Tree Errors Sets ParserData Vm SimpleStackVm StackVm RuleParsing FirstSets FollowSets SteuerMap ScriptParser
  SpecText SpecData SpecGrammar SpecParser SpecTree SpecScript SpecContract SpecWeave SpecRules SpecNames SpecLanguage Grammar_proofs Construct_proofs Checks Tree_proofs Script_proofs Parse_proofs
  Weave_proofs Names_proofs RuleBuild_proofs RuleText_proofs Language_proofs Props_steuer Props_script Props_weave Props_rules Props_vm Props_names Samples.

(** What the theorems assume: a VM of the crate, a text [t] of the grammar [rs] shorter than
    2^63, loop bounds that suffice for it, and that a parser could be built from it. *)
Definition read_from {U : Unicode} {H : HashOrder} m (vm : VM) (rs : list (arule (vm_instr vm))) (t : str) (ps : Parser (vm_instr vm)) : Prop :=
  exists reads fl, supported vm reads /\ tables_disjoint /\ grammar_text reads rs t /\ (N.of_nat (length t) < 2 ^ 63)%N /\
    enough_for_text fl t /\ new_from_text m vm fl t = Ok ps.
Lemma read_from_built {U : Unicode} {H : HashOrder} m vm rs t ps : read_from m vm rs t ps ->
  exists pd pd' start fl, described pd rs /\ edited_data pd pd' /\ start_element pd' start /\ built m vm fl pd' start ps /\ size (pd_rules pd') <= length t.
Proof.
  intros (reads & fl & Hs & Hd & Ht & Hlen & Hfl & Hps). apply new_from_text_ok in Hps as (s & start & els & E & Est & _ & Hnew).
  destruct (text_data vm reads t s fl Hs Hlen Hfl E) as (Hwf & Hfit & _).
  pose proof (parse_rendering vm reads (supported_reads vm reads Hs) rs t Hd Ht) as E'. rewrite E in E'.
  pose proof (C15_edited_rules H vm _ (data_wf vm rs) (data_indices vm rs)) as Hed.
  destruct (edit_rules vm (fold_left (build_rule vm) rs pd_new)) as [pd'|e| |]; try discriminate. injection E' as ->. cbn [rp_pd] in *.
  pose proof (data_described vm rs) as Hdes. exists (fold_left (build_rule vm) rs pd_new), pd', start, fl.
  split; [assumption|]. split; [assumption|]. split; [|split; [split; auto|eapply text_rules; eauto]].
  intros e. rewrite (ed_verbose _ _ Hed). rewrite <- (de_numbers _ _ Hdes). unfold get_element_nt_index in Est.
  assert (get_element_index (fold_left (build_rule vm) rs pd_new) (lit "start", NonTerminal) = Some start) as E2.
  { unfold get_element_index in *. rewrite <- (edd_index _ _ Hed). exact Est. }
  rewrite E2. split; [congruence|intros ->; reflexivity].
Qed.
Lemma supported_keeps {U : Unicode} vm reads : supported vm reads -> keeps_tree vm.
Proof. intros []; auto using null_keeps_tree, counting_keeps_tree, simple_keeps_tree, stack_keeps_tree. Qed.
Lemma counting_returns m : always_returns (CountingVm m).
Proof. intros h n i s _ _. cbn. unfold counting_execute, usize_result. destruct (_ && _); [|destruct m]; discriminate. Qed.
Lemma supported_returns {U : Unicode} vm reads : supported vm reads -> always_returns vm.
Proof. intros []; auto using null_returns, counting_returns, simple_returns, stack_returns. Qed.
Lemma read_from_vm {U : Unicode} {H : HashOrder} m vm rs t ps : read_from m vm rs t ps -> keeps_tree vm /\ always_returns vm.
Proof. intros (reads & fl & Hs & _). split; [eapply supported_keeps|eapply supported_returns]; eassumption. Qed.

(** ** C57.  Every derivation tree of the grammar as written is found again: parsing its
    text runs the actions of the tree and, unless an instruction panics, returns a tree that
    shows it.  [(length + 1) * length t] is the recursion depth. *)
Theorem C57_sentences_are_parsed : forall (U : Unicode) (H : HashOrder) m (vm : VM) rs t ps, read_from m vm rs t ps ->
  forall nt v fuel, nderivation rs nt -> nroot nt = (lit "start", NonTerminal) ->
  (length (nyield nt) + 1) * length t <= fuel ->
  match run_tree rs nt v with
  | Ok v' => exists tr, parse vm ps fuel (nyield nt) v = (Ok tr, v') /\ tree_shows tr nt
  | _ => fst (parse vm ps fuel (nyield nt) v) = Panic
  end.
Proof.
  intros U H m vm rs t ps Hr nt v fuel Hnt Hroot Hfuel. destruct (read_from_vm m vm rs t ps Hr) as [Hk Hret].
  destruct (read_from_built m vm rs t ps Hr) as (pd & pd' & start & fl & Hd & Hed & Hst & Hb & Hsz).
  destruct (derivation_named pd pd' rs Hd Hed nt Hnt start) as (pt & Hpt & Hrt & <-).
  { rewrite Hroot, <- (ed_verbose pd pd' Hed). apply Hst. reflexivity. }
  rewrite (run_named pd pd' rs Hd Hed pt v Hpt). rewrite named_yield in *.
  pose proof (C31_sentences_are_parsed H m vm fl pd' start ps fuel pt [] v Hb Hst Hk Hret Hpt Hrt (or_introl eq_refl)) as Hp.
  rewrite app_nil_r in Hp. destruct (run_actions pd' (tree_history pd' 0 None pt) (post_order 0 pt) v) as [v'|[]| |].
  2,3: apply Hp; unfold enough_depth; nia.
  destruct Hp as (tr & Hp & Hsh & _); [unfold enough_depth; nia|]. exists tr. split; [assumption|]. apply named_shows. assumption.
Qed.
Print Assumptions C57_sentences_are_parsed.
(** Conversely a parse that succeeds has found a derivation tree of a prefix of the script,
    returns it and has run its actions. *)
Theorem C57_only_sentences : forall (U : Unicode) (H : HashOrder) m (vm : VM) rs t ps, read_from m vm rs t ps ->
  forall fuel script v tr v', parse vm ps fuel script v = (Ok tr, v') ->
  exists nt rest, nderivation rs nt /\ nroot nt = (lit "start", NonTerminal) /\ script = nyield nt ++ rest /\
    tree_shows tr nt /\ run_tree rs nt v = Ok v'.
Proof.
  intros U H m vm rs t ps Hr fuel script v tr v' Hp. destruct (read_from_vm m vm rs t ps Hr) as [Hk Hret].
  destruct (read_from_built m vm rs t ps Hr) as (pd & pd' & start & fl & Hd & Hed & Hst & Hb & Hsz).
  destruct (C36_actions_in_post_order H m vm fl pd' start ps fuel script v tr v' Hb Hst Hk Hp) as (pt & rest & D1 & D2 & D3 & D4 & D5).
  destruct (named_derivation pd pd' rs Hd Hed pt D1) as [N1 N2]. exists (named pd' pt), rest. split; [assumption|].
  rewrite D2, <- (ed_verbose pd pd' Hed) in N2. rewrite (proj2 (Hst start) eq_refl) in N2. split; [congruence|].
  rewrite named_yield. split; [assumption|]. split; [apply named_shows; assumption|]. rewrite (run_named pd pd' rs Hd Hed pt v D1). assumption.
Qed.
Print Assumptions C57_only_sentences.
(** A text from which a parser can be built has no ambiguous sentence. *)
Theorem C57_unambiguous : forall (U : Unicode) (H : HashOrder) m (vm : VM) rs t ps, read_from m vm rs t ps ->
  forall nt nt', nderivation rs nt -> nderivation rs nt' -> nroot nt = (lit "start", NonTerminal) -> nroot nt' = (lit "start", NonTerminal) ->
  nyield nt = nyield nt' -> nt = nt'.
Proof.
  intros U H m vm rs t ps Hr nt nt' Hnt Hnt' Hroot Hroot' Hy.
  destruct (read_from_built m vm rs t ps Hr) as (pd & pd' & start & fl & Hd & Hed & Hst & Hb & Hsz).
  assert (get_element_verbose pd start = Some (lit "start", NonTerminal)) as Hs by (rewrite <- (ed_verbose pd pd' Hed); apply Hst; reflexivity).
  destruct (derivation_named pd pd' rs Hd Hed nt Hnt start) as (pt & Hpt & Hrt & <-); [congruence|].
  destruct (derivation_named pd pd' rs Hd Hed nt' Hnt' start) as (pt' & Hpt' & Hrt' & <-); [congruence|].
  rewrite !named_yield in Hy. f_equal. eapply (C32_unambiguous H m vm fl pd' start ps); eassumption.
Qed.
Print Assumptions C57_unambiguous.
(** When parse fails, the error position is the first one at which no sentence continues
    like the script (if every nonterminal of the grammar stands for some text). *)
Theorem C57_errors : forall (U : Unicode) (H : HashOrder) m (vm : VM) rs t ps, read_from m vm rs t ps ->
  forall fuel script v e v', parse vm ps fuel script v = (Err e, v') ->
  exists before rest, script = before ++ rest /\
    match e with
    | UnexpectedCharError c pos _ => pos = length before /\ (head rest = Some c \/ (rest = [] /\ c = 35%N))
    | EndOfCharsError pos => pos = length before /\ rest = []
    | _ => False
    end /\
    (forall more, sentence rs (before ++ more) -> look more <> look rest) /\
    ((forall x, defined rs x -> exists s, derives_text rs x s) -> exists more, sentence rs (before ++ more)).
Proof.
  intros U H m vm rs t ps Hr fuel script v e v' Hp. destruct (read_from_vm m vm rs t ps Hr) as [Hk Hret].
  destruct (read_from_built m vm rs t ps Hr) as (pd & pd' & start & fl & Hd & Hed & Hst & Hb & Hsz).
  unfold parse in Hp. destruct (parse_run vm ps fuel script v) as [o s1] eqn:E. injection Hp as -> <-.
  destruct (C35_first_offending_char H m vm fl pd' start ps fuel script v e s1 Hb Hst Hk E) as (before & rest & E1 & _ & _ & E2 & E3 & E4).
  assert (get_element_verbose pd start = Some (lit "start", NonTerminal)) as Hs by (rewrite <- (ed_verbose pd pd' Hed); apply Hst; reflexivity).
  exists before, rest. split; [assumption|]. split; [assumption|]. split.
  - intros more (nt & Hnt & Hroot & Hy). destruct (derivation_named pd pd' rs Hd Hed nt Hnt start) as (pt & Hpt & Hrt & <-); [congruence|].
    rewrite named_yield in Hy. eapply E3; eassumption.
  - intros Hprod. destruct E4 as (pt & more & D1 & D2 & D3).
    + intros A HA. destruct (rule_element pd pd' rs Hd Hed A HA) as [x Hx]. apply (edd_domain _ _ Hed) in HA.
      apply (has_rule_defined pd rs Hd A x Hx) in HA. destruct (Hprod x HA) as (s & nt & Hnt & Hroot & _).
      destruct (derivation_named pd pd' rs Hd Hed nt Hnt A) as (pt & Hpt & Hrt & _); [congruence|]. exists pt. auto.
    + exists more. destruct (named_derivation pd pd' rs Hd Hed pt D1) as [N1 N2]. exists (named pd' pt). split; [assumption|].
      rewrite D2, Hs in N2. split; [congruence|]. rewrite named_yield. assumption.
Qed.
Print Assumptions C57_errors.

(** ** C58.  From a text of the grammar [rs] a parser can be built exactly if [rs] is
    [parsable]: a condition on the names and quoted texts as written. *)
Lemma ignore_named {vm : VM} (pd : ParserData (vm_instr vm)) rs A r ig : described pd rs -> pd_rules pd !! A = Some r -> ntr_ignore r = Some ig ->
  exists x y, get_element_verbose pd A = Some (x, NonTerminal) /\ get_element_verbose pd ig = Some (y, NonTerminal) /\ ignores rs x y.
Proof.
  intros Hd Hr Hig. destruct (described_rule pd rs Hd A r Hr) as (r0 & more & HA & Hrf & _ & Hi & _). rewrite Hig in Hi.
  destruct (ar_override r0) as [| |y|] eqn:E; cbn in Hi; try discriminate. destruct Hi as (ix & [= <-] & Hy).
  exists (ar_name r0), y. split; [assumption|]. split; [assumption|]. exists r0, more. auto.
Qed.
Lemma edits_ignored {H : HashOrder} {vm : VM} (pd pd' : ParserData (vm_instr vm)) rs : wf_grammar pd -> indices_ok pd -> described pd rs ->
  edit_rules vm pd = Ok pd' -> forall x y, ignores rs x y -> defined rs y.
Proof.
  intros Hwf Hi Hd E x y Hxy. assert (defined rs x) as Hdx by (destruct Hxy as (r0 & more & Er & _); unfold defined; rewrite Er; discriminate).
  destruct (defined_element pd rs Hd x Hdx) as (A & HA & [r Hr]). destruct (rule_alternatives pd rs Hd A r x HA Hr) as (_ & Hign & _).
  apply Hign in Hxy as (ig & Hig & Hy). apply (has_rule_defined pd rs Hd ig y Hy).
  pose proof (edit_rules_spec pd Hwf Hi) as Hs. rewrite E in Hs. destruct Hs as [Ht _].
  destruct (pd_rules pd !! ig) as [nr|] eqn:En; [eexists; exact En|exfalso]. apply (Ht A r Hr). exists ig, (InternalError ig). split; [assumption|].
  assert (is_nonterminal pd ig) as Hnt by (eexists; exact Hy). apply nonterminal_types in Hnt; [|apply Hwf].
  unfold check_is_derivative. cbn [is_derivative_rec]. rewrite Hnt, En. reflexivity.
Qed.
Lemma parsable_edits {H : HashOrder} {vm : VM} (pd : ParserData (vm_instr vm)) rs : wf_grammar pd -> indices_ok pd -> described pd rs ->
  (forall x y, uses rs x y -> defined rs y) -> (forall x y, ignores rs x y -> defined rs y) -> exists pd', edit_rules vm pd = Ok pd'.
Proof.
  intros Hwf Hi Hd Hu Hg. pose proof (C15_edited_rules H vm pd Hwf Hi) as Hed. destruct (edit_rules vm pd) as [pd'|e| |]; [eauto| |contradiction..].
  exfalso. destruct Hed as (A & r & ig & Hr & Hig & x & u & v & Hder & [s Hs] & Hn).
  destruct (ignore_named pd rs A r ig Hd Hr Hig) as (a & y & HA & Hy & Hay).
  pose proof (Hg a y Hay) as Hdy. apply Hn. apply (has_rule_defined pd rs Hd x s Hs).
  assert (inside rs y s) as [_ Hins].
  { apply (inside_derives pd rs Hd ig x y s Hy Hs). split; [apply (has_rule_defined pd rs Hd ig y Hy); assumption|eauto]. }
  clear - Hu Hins Hdy. induction Hins as [y'|y1 y2 y3 H1 _ IH]; [assumption|]. apply IH. eapply Hu; eassumption.
Qed.
Theorem C58_buildable_iff_parsable : forall (U : Unicode) (H : HashOrder) m (vm : VM) reads rs t fl,
  supported vm reads -> tables_disjoint -> grammar_text reads rs t -> (N.of_nat (length t) < 2 ^ 63)%N -> enough_for_text fl t ->
  (exists ps, new_from_text m vm fl t = Ok ps) <-> parsable rs.
Proof.
  intros U H m vm reads rs t fl Hs Hd Ht Hlen Hfl. destruct (C26_texts U H m vm reads fl t Hs Hlen Hfl) as [Hc _]. rewrite Hc. clear Hc.
  rewrite (parse_rendering vm reads (supported_reads vm reads Hs) rs t Hd Ht).
  pose proof (data_wf vm rs) as Hwf. pose proof (data_indices vm rs) as Hix. pose proof (data_described vm rs) as Hdes.
  pose proof (C15_edited_rules H vm _ Hwf Hix) as Hed. pose proof (edits_ignored (fold_left (build_rule vm) rs pd_new)) as Hig. pose proof (parsable_edits _ _ Hwf Hix Hdes) as Hpe.
  destruct (edit_rules vm (fold_left (build_rule vm) rs pd_new)) as [pd'|e| |] eqn:E.
  2-4: split; [intros (s & start & Hx & _); discriminate|intros Hp; destruct (Hpe (pa_defined _ Hp) (pa_ignored _ Hp)); discriminate].
  specialize (Hig pd' rs Hwf Hix Hdes eq_refl).
  assert (forall start, get_element_nt_index pd' (lit "start") = Some start <-> get_element_verbose pd' start = Some (lit "start", NonTerminal)) as Hst.
  { intros start. rewrite (ed_verbose _ _ Hed), <- (de_numbers _ _ Hdes). unfold get_element_nt_index, get_element_index. rewrite (edd_index _ _ Hed). reflexivity. }
  split.
  - intros (s & start & [= <-] & Es & Hc). cbn [rp_pd] in *. apply Hst in Es. apply (constructible_parsable _ pd' rs Hdes Hed start Es Hig). assumption.
  - intros Hp. destruct (defined_element _ rs Hdes _ (pa_start rs Hp)) as (start & Hv & _). rewrite <- (ed_verbose _ _ Hed) in Hv.
    eexists _, start. split; [reflexivity|]. cbn [rp_pd]. split; [apply Hst; assumption|]. apply (constructible_parsable _ pd' rs Hdes Hed start Hv Hig). assumption.
Qed.
Print Assumptions C58_buildable_iff_parsable.

(** ** Non-vacuity: a text with an IGNORE override, and a sentence with the ignored blank. *)
Section example.
Local Existing Instance ascii_unicode.
Definition ig_rules : list (arule (vm_instr NullVm)) :=
  [mkARule (lit "start") (OvIgnore (lit "ws")) [[(lit "a", Terminal); (lit "b", Terminal)]] [];
   mkARule (lit "ws") OvAbsent [[(lit " ", Terminal)]; []] []].
Definition ig_text : str := lit "start->$[IGNORE:ws]""a"" ""b"";ws->"" ""|#;".
Definition ig_tree : ntree := NNode (lit "start") [NLeaf (lit "a"); NNode (lit "ws") [NLeaf (lit " ")]; NLeaf (lit "b")].
Lemma one_quoted c : c <> 34%N -> c <> 92%N -> element_text ([c], Terminal) [34%N; c; 34%N].
Proof. intros H1 H2. apply (el_quoted [c]). apply qb_plain; auto using qb_nil. Qed.
Lemma ig_text_ok : grammar_text null_reads ig_rules ig_text.
Proof.
  apply (gr_cons null_reads _ (lit "start->$[IGNORE:ws]""a"" ""b"";") [] _ (lit "ws->"" ""|#;")); [constructor| |].
  - apply (rule_intro null_reads (mkARule (lit "start") (OvIgnore (lit "ws")) [[(lit "a", Terminal); (lit "b", Terminal)]] []) [] [] [] [] []
      (lit "$[IGNORE:ws]") (lit """a"" ""b""") []); try (constructor; fail); try apply two_names; try (split; [reflexivity|repeat constructor]).
    + apply (ov_ignore [] (lit "ws")); [constructor|]. split; [reflexivity|repeat constructor].
    + apply alts_one, alt_elements. apply (els_cons _ (lit """a""") (lit " ") _ (lit """b""")); [apply one_quoted; discriminate|repeat constructor|apply els_one, one_quoted; discriminate|discriminate].
  - apply (gr_cons null_reads _ (lit "ws->"" ""|#;") [] _ []); [constructor| |apply gr_end; constructor].
    apply (rule_intro null_reads (mkARule (lit "ws") OvAbsent [[(lit " ", Terminal)]; []] []) [] [] [] [] []
      [] (lit """ ""|#") []); try (constructor; fail); try (split; [reflexivity|repeat constructor]).
    apply (alts_cons _ (lit """ """) [] [] _ (lit "#")); [apply alt_elements, els_one, one_quoted; discriminate|constructor..|apply alts_one, alt_empty].
Qed.
Example C57_example : exists ps, @read_from _ plain_order Checked NullVm ig_rules ig_text ps /\
  nderivation ig_rules ig_tree /\ nroot ig_tree = (lit "start", NonTerminal) /\ nyield ig_tree = lit "a b" /\ sentence ig_rules (lit "a b").
Proof.
  assert (nderivation ig_rules ig_tree) as Hder.
  { apply (nder_node _ _ 0); [|apply Forall_cons; split; [apply nder_leaf|apply Forall_cons; split; [apply (nder_node _ _ 0); [|apply Forall_cons; split; [apply nder_leaf|constructor]]|apply Forall_cons; split; [apply nder_leaf|constructor]]]].
    - apply (says_woven ig_rules (lit "start") 0 [(lit "a", Terminal); (lit "b", Terminal)] (lit "ws")); [reflexivity|eexists _, _; split; reflexivity|].
      intros [_ Hr]. assert (forall y, rtc (uses ig_rules) (lit "ws") y -> y = lit "ws") as Hws.
      { intros y Hy. inversion Hy as [|x z y' Hu _]; subst; [reflexivity|]. destruct Hu as (w & Hw & Hz).
        change (w ∈ [[(lit " ", Terminal)]; []]) in Hw. repeat (apply elem_of_cons in Hw as [->|Hw]; [repeat (apply elem_of_cons in Hz as [Hz|Hz]; [discriminate|]); inversion Hz|]). inversion Hw. }
      apply Hws in Hr. discriminate.
    - apply says_plain; [reflexivity|]. intros y (r0 & more & E & Ho). change (rules_for (lit "ws") ig_rules) with [mkARule (lit "ws") OvAbsent [[(lit " ", Terminal)]; []] ([] : list (vm_instr NullVm))] in E.
      injection E as <- <-. discriminate. }
  assert (exists ps, @new_from_text _ plain_order Checked NullVm (mkFuels 60 2200) ig_text = Ok ps) as [ps Hps].
  { assert (forall r : outcome Empty_set (Parser (vm_instr NullVm)), is_ok r = true -> exists ps, r = Ok ps) as Hok by (intros [ps| | |]; [eauto|discriminate..]).
    apply Hok. vm_compute. reflexivity. }
  exists ps. split; [|split; [assumption|split; [reflexivity|split; [reflexivity|exists ig_tree; auto]]]].
  exists null_reads, (mkFuels 60 2200). split; [constructor|]. split; [apply ascii_tables|]. split; [apply ig_text_ok|]. split; [vm_compute; reflexivity|].
  split; [|assumption]. split; cbn [first_fuel follow_fuel]; apply Nat.leb_le || apply Nat.ltb_lt; vm_compute; reflexivity.
Qed.
(** [ig_rules] is parsable; a left-recursive grammar is not, although it has sentences. *)
Definition lr_rules : list (arule (vm_instr NullVm)) :=
  [mkARule (lit "start") OvAbsent [[(lit "start", NonTerminal); (lit "a", Terminal)]; [(lit "b", Terminal)]] []].
Definition lr_text : str := lit "start->start""a""|""b"";".
Lemma lr_text_ok : grammar_text null_reads lr_rules lr_text.
Proof.
  apply (gr_cons null_reads _ (lit "start->start""a""|""b"";") [] _ []); [constructor| |apply gr_end; constructor].
  apply (rule_intro null_reads (mkARule (lit "start") OvAbsent [[(lit "start", NonTerminal); (lit "a", Terminal)]; [(lit "b", Terminal)]] []) [] [] [] [] []
      [] (lit "start""a""|""b""") []); try (constructor; fail); try (split; [reflexivity|repeat constructor]).
  apply (alts_cons _ (lit "start""a""") [] [] _ (lit """b""")); [|constructor..|apply alts_one, alt_elements, els_one, one_quoted; discriminate].
  apply alt_elements, (els_cons _ (lit "start") [] _ (lit """a""")); [|constructor|apply els_one, one_quoted; discriminate|].
  - apply el_name. split; [reflexivity|repeat constructor].
  - intros _ [E|E]; vm_compute in E; discriminate.
Qed.
Example C58_example : parsable ig_rules /\ sentence lr_rules (lit "ba") /\ ~ parsable lr_rules /\
  forall (H : HashOrder) m fl ps, enough_for_text fl lr_text -> new_from_text m NullVm fl lr_text <> Ok ps.
Proof.
  assert (forall x i w, alternatives_for lr_rules x !! i = Some w -> says lr_rules x i w) as Hsays.
  { intros x i w Hw. apply says_plain; [assumption|]. intros y (r0 & more & E & Ho). exfalso.
    assert (r0 ∈ rules_for x lr_rules) as Hin by (rewrite E; left). apply elem_of_list_filter in Hin as [_ Hin].
    apply elem_of_list_singleton in Hin as ->. discriminate. }
  assert (~ parsable lr_rules) as Hno.
  { intros Hp. apply (pa_no_left_recursion _ Hp (lit "start")). apply tc_once. exists 0, [], [(lit "a", Terminal)].
    split; [apply Hsays; reflexivity|]. exists []. split; [apply rtc_refl|constructor]. }
  split; [|split; [|split; [assumption|]]].
  - destruct C57_example as (ps & (reads & fl & Hs & Hd & Ht & Hlen & Hfl & Hps) & _).
    apply (C58_buildable_iff_parsable _ plain_order Checked NullVm reads ig_rules ig_text fl Hs Hd Ht Hlen Hfl). exists ps. exact Hps.
  - exists (NNode (lit "start") [NNode (lit "start") [NLeaf (lit "b")]; NLeaf (lit "a")]). split; [|split; reflexivity].
    apply (nder_node _ _ 0); [apply Hsays; reflexivity|]. apply Forall_cons; split; [|apply Forall_cons; split; [apply nder_leaf|constructor]].
    apply (nder_node _ _ 1); [apply Hsays; reflexivity|]. apply Forall_cons; split; [apply nder_leaf|constructor].
  - intros H m fl ps Hfl Hps. apply Hno.
    apply (C58_buildable_iff_parsable _ H m NullVm null_reads lr_rules lr_text fl); [constructor|apply ascii_tables|apply lr_text_ok|vm_compute; reflexivity|assumption|exists ps; exact Hps].
Qed.
End example.
