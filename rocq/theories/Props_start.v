(** * Property theorems: every name in use can be made the start (C80) *)
From Verif Require Import Base Peekables Tree Errors Sets ParserData Vm SimpleStackVm StackVm RuleParsing FirstSets FollowSets SteuerMap ScriptParser
  SpecText SpecData SpecGrammar SpecParser SpecTree SpecScript SpecContract SpecWeave SpecRules SpecNames SpecLanguage SpecSyntax SpecRename SpecStart Grammar_proofs Construct_proofs Checks Tree_proofs Script_proofs Parse_proofs
  Weave_proofs Names_proofs RuleBuild_proofs RuleText_proofs Language_proofs Syntax_proofs Rename_proofs Start_proofs
  Props_steuer Props_script Props_weave Props_rules Props_vm Props_names Props_language Props_same Props_syntax Props_rename Samples.

(** ** Built with the API: if a parser can be built with [start], then with every nonterminal
    that occurs in a form derived from [start]. *)
Theorem C80_any_start : forall (H H' : HashOrder) m m' (vm : VM) fl fl' (pd : ParserData (vm_instr vm)) start D ps,
  @built H m vm fl pd start ps -> no_empty_rule pd -> enough fl' pd -> is_nonterminal pd D -> reached pd start D ->
  exists ps', @new_from_parser_data H' m' vm fl' pd D = Ok ps'.
Proof.
  intros H H' m m' vm fl fl' pd start D ps Hb Hne Hen HD Hr. pose proof (built_spec _ _ _ _ _ _ Hb) as (Hwf & Hc & _).
  apply (proj1 (@C26_construction H' m' vm fl' pd D Hwf (proj1 (proj2 Hb)) Hen)). eapply constructible_from; eassumption.
Qed.
Print Assumptions C80_any_start.

(** ** Read from texts *)
Lemma text_alternatives {U : Unicode} {I} (reads : str -> str -> list I -> Prop) rs t : grammar_text reads rs t -> forall r, r ∈ rs -> ar_alts r <> [].
Proof.
  assert (forall alts s, alternatives_text alts s -> alts <> []) as Ha by (intros alts s []; discriminate).
  induction 1 as [|r tr l rs t' _ Hr _ IH]; intros q Hq; [inversion Hq|]. apply elem_of_cons in Hq as [->|Hq]; [|auto].
  destruct Hr. eapply Ha. eassumption.
Qed.
Lemma text_no_empty {vm : VM} (pd pe : ParserData (vm_instr vm)) rs : described pd rs -> edited_data pd pe -> (forall r, r ∈ rs -> ar_alts r <> []) -> no_empty_rule pe.
Proof.
  intros D E Hne A r Hr Hp. destruct (rule_element pd pe rs D E A) as [x Hx]; [eexists; exact Hr|].
  assert (defined rs x) as Hdx. { apply (has_rule_defined pd rs D A x Hx). apply (edd_domain _ _ E). eexists. exact Hr. }
  unfold defined in Hdx. destruct (rules_for x rs) as [|q qs] eqn:Eq; [congruence|]. assert (q ∈ rs) as Hq.
  { assert (q ∈ rules_for x rs) as Hin by (rewrite Eq; left). apply elem_of_list_filter in Hin. apply Hin. }
  specialize (Hne q Hq). destruct (ar_alts q) as [|w ws] eqn:Ew; [congruence|].
  assert (w ∈ alternatives_for rs x) as Hw. { unfold alternatives_for. rewrite Eq. cbn. rewrite Ew. left. }
  destruct (alternatives_says pd pe rs D E x w Hw) as (i & w' & Hs & _). destruct (proj1 (says_rule pd pe rs D E A r x i Hx Hr) w' Hs) as (p & Hpi & _).
  rewrite Hp in Hpi. discriminate.
Qed.
Section texts.
Context (f : str -> str) (Hf : injective f) (x : str) (Hx : f x = lit "start").
(** [f] renames [x] to start (and so start to something else).  The renamed text is accepted
    too, and its parser finds exactly the trees of [x]. *)
Theorem C80_renamed_text : forall (U : Unicode) (H H' : HashOrder) m m' (vm : VM) reads fl fl' rs t t' ps, supported vm reads -> tables_disjoint ->
  grammar_text reads rs t -> (N.of_nat (length t) < 2 ^ 63)%N -> enough_for_text fl t -> @new_from_text U H m vm fl t = Ok ps ->
  grammar_text reads (map (renamed f) rs) t' -> (N.of_nat (length t') < 2 ^ 63)%N -> enough_for_text fl' t' ->
  name_reached rs x ->
  exists ps', @new_from_text U H' m' vm fl' t' = Ok ps' /\
  (forall nt v fuel, nderivation rs nt -> nroot nt = (x, NonTerminal) -> (length (nyield nt) + 1) * length t' <= fuel ->
   match run_tree rs nt v with
   | Ok v' => exists tr, @parse H' vm ps' fuel (nyield nt) v = (Ok tr, v') /\ tree_shows tr nt
   | _ => fst (@parse H' vm ps' fuel (nyield nt) v) = Panic
   end) /\
  (forall fuel script v tr v', @parse H' vm ps' fuel script v = (Ok tr, v') ->
   exists nt rest, nderivation rs nt /\ nroot nt = (x, NonTerminal) /\ script = nyield nt ++ rest /\ tree_shows tr nt /\ run_tree rs nt v = Ok v').
Proof.
  intros U H H' m m' vm reads fl fl' rs t t' ps Hs Hd Ht Hlen Hfl Hps Ht' Hlen' Hfl' Hr.
  assert (parsable rs) as Hp by (apply (C58_buildable_iff_parsable U H m vm reads rs t fl Hs Hd Ht Hlen Hfl); eauto).
  assert (exists ps', @new_from_text U H' m' vm fl' t' = Ok ps') as [ps' Hps'].
  { apply (C58_buildable_iff_parsable U H' m' vm reads _ t' fl' Hs Hd Ht' Hlen' Hfl').
    destruct (text_edited vm reads Hs Hd H rs t fl Ht Hlen Hfl (pa_defined _ Hp) (pa_ignored _ Hp)) as (pd & pe & D & E & Hwf & Hbuilt).
    destruct (Hbuilt m ps Hps) as (start & Hst & Hb). apply built_spec in Hb as (_ & Hc & _).
    destruct Hr as (u & v & Hder). destruct (nderives_fwd pd pe rs D E _ _ Hder [start]) as (y & Hy & Hcy); [constructor; [apply Hst; reflexivity|constructor]|].
    apply Forall2_app_inv_l in Hcy as (u' & y' & _ & Hcy & ->). apply Forall2_cons_inv_l in Hcy as (A & v' & HA & _ & ->).
    assert (constructible pe A) as HcA.
    { apply (constructible_from pe start A Hwf); [|exact Hc|exists x; exact HA|exists u', v'; exact Hy].
      eapply text_no_empty; [exact D|exact E|eapply text_alternatives; exact Ht]. }
    apply (constructible_parsable (rename_data f pd) (rename_data f pe) (map (renamed f) rs) (ren_described f Hf pd rs D) (ren_edited_data f pd pe E) A).
    - rewrite ren_verbose, HA. cbn [option_map rename_el]. rewrite Hx. reflexivity.
    - intros a b Hab. apply (ren_ignores_inv f Hf) in Hab as (a0 & b0 & -> & -> & Hab). apply ren_defined; [assumption|]. eapply pa_ignored; eassumption.
    - eapply sb_constructible; [|exact HcA]. apply ren_same. symmetry. apply (wf_len _ Hwf). }
  exists ps'. split; [assumption|].
  assert (@read_from U H' m' vm (map (renamed f) rs) t' ps') as Hread by (exists reads, fl'; auto 10). split.
  - intros nt v fuel Hnt Hroot Hfuel.
    pose proof (C57_sentences_are_parsed U H' m' vm _ t' ps' Hread (rename_tree f nt) v fuel (ren_nderivation f Hf rs nt Hnt)) as Hgo.
    rewrite rename_nroot, Hroot, rename_nyield, (ren_run_tree f Hf) in Hgo. cbn [rename_el] in Hgo. rewrite Hx in Hgo. specialize (Hgo eq_refl Hfuel).
    destruct (run_tree rs nt v) as [v'| | |]; [|assumption..]. destruct Hgo as (tr & Hpa & Hsh). exists tr. split; [assumption|]. apply rename_shows in Hsh. assumption.
  - intros fuel script v tr v' Hpa. destruct (C57_only_sentences U H' m' vm _ t' ps' Hread fuel script v tr v' Hpa) as (nt & rest & N1 & N2 & N3 & N4 & N5).
    rewrite <- Hx in N2. destruct (ren_nderivation_inv f Hf rs nt N1 x N2) as (nt0 & -> & N0 & Nr). rewrite rename_nyield in N3. apply rename_shows in N4.
    rewrite (ren_run_tree f Hf) in N5. exists nt0, rest. auto.
Qed.
(** In particular every part of a sentence that stands for an [x] is parsed on its own, to
    the same tree. *)
Theorem C80_parts_of_sentences : forall (U : Unicode) (H H' : HashOrder) m m' (vm : VM) reads fl fl' rs t t' ps, supported vm reads -> tables_disjoint ->
  grammar_text reads rs t -> (N.of_nat (length t) < 2 ^ 63)%N -> enough_for_text fl t -> @new_from_text U H m vm fl t = Ok ps ->
  grammar_text reads (map (renamed f) rs) t' -> (N.of_nat (length t') < 2 ^ 63)%N -> enough_for_text fl' t' ->
  forall nt path subs, nderivation rs nt -> nroot nt = (lit "start", NonTerminal) -> nsubtree nt path = Some (NNode x subs) ->
  exists ps', @new_from_text U H' m' vm fl' t' = Ok ps' /\
  forall v v' fuel, run_tree rs (NNode x subs) v = Ok v' -> (length (nyield (NNode x subs)) + 1) * length t' <= fuel ->
  exists tr, @parse H' vm ps' fuel (nyield (NNode x subs)) v = (Ok tr, v') /\ tree_shows tr (NNode x subs).
Proof.
  intros U H H' m m' vm reads fl fl' rs t t' ps Hs Hd Ht Hlen Hfl Hps Ht' Hlen' Hfl' nt path subs Hnt Hroot Hsub.
  destruct (subtree_reached rs path nt _ Hnt Hsub) as (Hds & u & v & Hder). rewrite Hroot in Hder.
  destruct (C80_renamed_text U H H' m m' vm reads fl fl' rs t t' ps Hs Hd Ht Hlen Hfl Hps Ht' Hlen' Hfl') as (ps' & Hps' & Hgo & _); [exists u, v; exact Hder|].
  exists ps'. split; [assumption|]. intros w w' fuel Hw Hfuel. specialize (Hgo _ w fuel Hds eq_refl Hfuel). rewrite Hw in Hgo. exact Hgo.
Qed.
End texts.
Print Assumptions C80_renamed_text.
Print Assumptions C80_parts_of_sentences.

(** ** A name that start does not use may not do as start. *)
Section example.
Local Existing Instance ascii_unicode.
Local Existing Instance plain_order.
Definition swap_with (x y : str) : str := if decide (y = x) then lit "start" else if decide (y = lit "start") then x else y.
Lemma swap_with_inj x : injective (swap_with x).
Proof. intros a b. unfold swap_with. repeat destruct (decide _); congruence. Qed.
Definition loose_text : str := lit "start->""x"";b->#|c;c->#;".
Definition loose_swapped : str := lit "b->""x"";start->#|c;c->#;".
Theorem C80_unused_refuted :
  is_ok (new_from_text Checked NullVm (mkFuels 60 2400) loose_text) = true /\
  new_from_text Checked NullVm (mkFuels 60 2400) loose_swapped = Panic.
Proof. split; vm_compute; reflexivity. Qed.
(** ** Non-vacuity: the text of C57_example with ws as start; the blank in the sentence "a b"
    is a sentence of its own. *)
Definition ws_text : str := lit "ws->$[IGNORE:start]""a"" ""b"";start->"" ""|#;".
Lemma ws_text_ok : grammar_text null_reads (map (renamed (swap_with (lit "ws"))) ig_rules) ws_text.
Proof.
  apply (gr_cons null_reads _ (lit "ws->$[IGNORE:start]""a"" ""b"";") [] _ (lit "start->"" ""|#;")); [constructor| |].
  - apply (rule_intro null_reads (mkARule (lit "ws") (OvIgnore (lit "start")) [[(lit "a", Terminal); (lit "b", Terminal)]] []) [] [] [] [] []
      (lit "$[IGNORE:start]") (lit """a"" ""b""") []); try (constructor; fail); try apply two_names; try (split; [reflexivity|repeat constructor]).
    + apply (ov_ignore [] (lit "start")); [constructor|]. split; [reflexivity|repeat constructor].
    + apply alts_one, alt_elements. apply (els_cons _ (lit """a""") (lit " ") _ (lit """b""")); [apply one_quoted; discriminate|repeat constructor|apply els_one, one_quoted; discriminate|discriminate].
  - apply (gr_cons null_reads _ (lit "start->"" ""|#;") [] _ []); [constructor| |apply gr_end; constructor].
    apply (rule_intro null_reads (mkARule (lit "start") OvAbsent [[(lit " ", Terminal)]; []] []) [] [] [] [] []
      [] (lit """ ""|#") []); try (constructor; fail); try (split; [reflexivity|repeat constructor]).
    apply (alts_cons _ (lit """ """) [] [] _ (lit "#")); [apply alt_elements, els_one, one_quoted; discriminate|constructor..|apply alts_one, alt_empty].
Qed.
Lemma ig_tree_ok : nderivation ig_rules ig_tree.
Proof.
  assert (~ inside ig_rules (lit "ws") (lit "start")) as Hno.
  { intros [_ Hr]. inversion Hr as [|? y ? (w & Hw & Hy) _]. assert (w = [(lit " ", Terminal)] \/ w = []) as [->| ->].
    { assert (alternatives_for ig_rules (lit "ws") = [[(lit " ", Terminal)]; []]) as Ea by (vm_compute; reflexivity). rewrite Ea in Hw.
      apply elem_of_cons in Hw as [->|Hw]; [left; reflexivity|]. apply elem_of_list_singleton in Hw. right. assumption. }
    - apply elem_of_list_singleton in Hy. discriminate.
    - inversion Hy. }
  apply (nder_node ig_rules (lit "start") 0).
  - apply (says_woven ig_rules (lit "start") 0 [(lit "a", Terminal); (lit "b", Terminal)] (lit "ws")); [vm_compute; reflexivity| |exact Hno].
    eexists _, []. split; [vm_compute; reflexivity|]. reflexivity.
  - apply Forall_cons. split; [constructor|]. apply Forall_cons. split.
    + apply (nder_node ig_rules (lit "ws") 0); [|apply Forall_cons; split; [constructor|apply Forall_nil; exact Logic.I]].
      apply says_plain; [vm_compute; reflexivity|]. intros y (r0 & more & E & Ho). assert (rules_for (lit "ws") ig_rules = [mkARule (lit "ws") OvAbsent [[(lit " ", Terminal)]; []] []]) as Er by (vm_compute; reflexivity).
      rewrite Er in E. injection E as <- _. discriminate.
    + apply Forall_cons. split; [constructor|apply Forall_nil; exact Logic.I].
Qed.
Example C80_example : injective (swap_with (lit "ws")) /\ swap_with (lit "ws") (lit "ws") = lit "start" /\
  grammar_text null_reads ig_rules ig_text /\ grammar_text null_reads (map (renamed (swap_with (lit "ws"))) ig_rules) ws_text /\
  enough_for_text (mkFuels 60 2400) ig_text /\ enough_for_text (mkFuels 60 2400) ws_text /\
  (exists ps, @new_from_text _ plain_order Checked NullVm (mkFuels 60 2400) ig_text = Ok ps) /\
  nderivation ig_rules ig_tree /\ nroot ig_tree = (lit "start", NonTerminal) /\ nsubtree ig_tree [1] = Some (NNode (lit "ws") [NLeaf (lit " ")]) /\
  name_reached ig_rules (lit "ws").
Proof.
  split; [apply swap_with_inj|]. split; [vm_compute; reflexivity|]. split; [apply ig_text_ok|]. split; [apply ws_text_ok|].
  split; [split; cbn [first_fuel follow_fuel]; apply Nat.leb_le || apply Nat.ltb_lt; vm_compute; reflexivity|].
  split; [split; cbn [first_fuel follow_fuel]; apply Nat.leb_le || apply Nat.ltb_lt; vm_compute; reflexivity|].
  split; [|split; [apply ig_tree_ok|split; [reflexivity|split; [reflexivity|]]]].
  - assert (forall r : outcome Empty_set (Parser (vm_instr NullVm)), is_ok r = true -> exists ps, r = Ok ps) as Hok by (intros [ps| | |]; [eauto|discriminate..]).
    apply Hok. vm_compute. reflexivity.
  - destruct (subtree_reached ig_rules [1] ig_tree _ ig_tree_ok eq_refl) as (_ & u & v & Hder). exists u, v. exact Hder.
Qed.
End example.
Print Assumptions C80_unused_refuted.
