(** * Property theorems: replacing parts of a script, and ignored text (C81) *)
From Verif Require Import Base Peekables Tree Errors Sets ParserData Vm SimpleStackVm StackVm RuleParsing FirstSets FollowSets SteuerMap ScriptParser
  SpecText SpecData SpecGrammar SpecParser SpecTree SpecScript SpecContract SpecWeave SpecRules SpecNames SpecLanguage SpecSyntax SpecIgnore Grammar_proofs Construct_proofs Checks Tree_proofs Script_proofs Parse_proofs
  Weave_proofs Names_proofs RuleBuild_proofs RuleText_proofs Language_proofs Syntax_proofs Start_proofs Ignore_proofs
  Props_steuer Props_script Props_weave Props_rules Props_vm Props_names Props_language Props_start Samples.

(** In a sentence, the part that stands for some name may be replaced by any other text
    that name stands for: the result is parsed, to the tree with that subtree replaced. *)
Theorem C81_replace : forall (U : Unicode) (H : HashOrder) m (vm : VM) rs t ps, read_from m vm rs t ps ->
  forall nt path s s', nderivation rs nt -> nroot nt = (lit "start", NonTerminal) -> nsubtree nt path = Some s ->
  nderivation rs s' -> nroot s' = nroot s ->
  exists before after, nyield nt = before ++ nyield s ++ after /\
  forall v fuel, (length (before ++ nyield s' ++ after) + 1) * length t <= fuel ->
  match run_tree rs (replaced nt path s') v with
  | Ok v' => exists tr, parse vm ps fuel (before ++ nyield s' ++ after) v = (Ok tr, v') /\ tree_shows tr (replaced nt path s')
  | _ => fst (parse vm ps fuel (before ++ nyield s' ++ after) v) = Panic
  end.
Proof.
  intros U H m vm rs t ps Hr nt path s s' Hnt Hroot Hs Hs' Heq.
  destruct (replaced_ok rs path nt s s' Hnt Hs Hs' Heq) as (R1 & R2 & _ & before & after & R3 & R4). exists before, after. split; [assumption|].
  intros v fuel Hfuel. rewrite <- R4 in *. apply (C57_sentences_are_parsed U H m vm rs t ps Hr); [assumption|congruence|assumption].
Qed.
Print Assumptions C81_replace.
(** IGNORE: take a derivation tree of the grammar without the overrides and put texts of the
    ignored names between neighbours, as [padded] says.  The script is parsed, to that tree. *)
Theorem C81_ignored_text : forall (U : Unicode) (H : HashOrder) m (vm : VM) rs t ps, read_from m vm rs t ps ->
  forall nt0 nt, nderivation (unignored rs) nt0 -> nroot nt0 = (lit "start", NonTerminal) -> padded rs nt0 nt ->
  nyield nt0 `sublist_of` nyield nt /\
  forall v fuel, (length (nyield nt) + 1) * length t <= fuel ->
  match run_tree rs nt v with
  | Ok v' => exists tr, parse vm ps fuel (nyield nt) v = (Ok tr, v') /\ tree_shows tr nt
  | _ => fst (parse vm ps fuel (nyield nt) v) = Panic
  end.
Proof.
  intros U H m vm rs t ps Hr nt0 nt Hnt0 Hroot Hp. split; [eapply padded_text; eassumption|]. intros v fuel Hfuel.
  apply (C57_sentences_are_parsed U H m vm rs t ps Hr); [eapply padded_derivation; eassumption| |assumption]. rewrite (padded_root _ _ _ Hp). assumption.
Qed.
Print Assumptions C81_ignored_text.
(** And only such scripts are: what parse returns shows a tree that comes from exactly one
    derivation tree of the grammar without the overrides. *)
Theorem C81_only_ignored_text : forall (U : Unicode) (H : HashOrder) m (vm : VM) rs t ps, read_from m vm rs t ps ->
  forall fuel script v tr v', parse vm ps fuel script v = (Ok tr, v') ->
  exists nt nt0 rest, script = nyield nt ++ rest /\ tree_shows tr nt /\ run_tree rs nt v = Ok v' /\
    nderivation (unignored rs) nt0 /\ nroot nt0 = (lit "start", NonTerminal) /\ padded rs nt0 nt /\
    forall nt1, padded rs nt1 nt -> nt1 = nt0.
Proof.
  intros U H m vm rs t ps Hr fuel script v tr v' Hp.
  destruct (C57_only_sentences U H m vm rs t ps Hr fuel script v tr v' Hp) as (nt & rest & N1 & N2 & N3 & N4 & N5).
  destruct (derivation_padded rs nt N1) as (nt0 & D1 & D2). exists nt, nt0, rest. repeat (split; [assumption|]).
  split; [rewrite <- (padded_root _ _ _ D2); assumption|]. split; [assumption|]. intros nt1 H1. eapply padded_unique; eassumption.
Qed.
Print Assumptions C81_only_ignored_text.
(** With a parser for the grammar without the overrides: the scripts of the one are those of
    the other with ignored text put in, and the trees differ in the ignored parts only. *)
Theorem C81_two_parsers : forall (U : Unicode) (H H' : HashOrder) m m' (vm : VM) rs t t0 ps ps0,
  @read_from U H m vm rs t ps -> @read_from U H' m' vm (unignored rs) t0 ps0 ->
  forall fuel script v tr v', @parse H vm ps fuel script v = (Ok tr, v') ->
  exists nt nt0 rest, script = nyield nt ++ rest /\ tree_shows tr nt /\ padded rs nt0 nt /\ nyield nt0 `sublist_of` nyield nt /\
    forall v0 fuel0, (length (nyield nt0) + 1) * length t0 <= fuel0 ->
    match run_tree (unignored rs) nt0 v0 with
    | Ok v0' => exists tr0, @parse H' vm ps0 fuel0 (nyield nt0) v0 = (Ok tr0, v0') /\ tree_shows tr0 nt0
    | _ => fst (@parse H' vm ps0 fuel0 (nyield nt0) v0) = Panic
    end.
Proof.
  intros U H H' m m' vm rs t t0 ps ps0 Hr Hr0 fuel script v tr v' Hp.
  destruct (C81_only_ignored_text U H m vm rs t ps Hr fuel script v tr v' Hp) as (nt & nt0 & rest & N1 & N2 & _ & N4 & N5 & N6 & _).
  exists nt, nt0, rest. repeat (split; [assumption|]). split; [eapply padded_text; eassumption|]. intros v0 fuel0 Hfuel.
  apply (C57_sentences_are_parsed U H' m' vm _ t0 ps0 Hr0); assumption.
Qed.
Print Assumptions C81_two_parsers.

(** ** Non-vacuity: "a b" is "ab" with a blank put in; the blank may be replaced by nothing. *)
Section example.
Local Existing Instance ascii_unicode.
Definition ab_tree : ntree := NNode (lit "start") [NLeaf (lit "a"); NLeaf (lit "b")].
Lemma ws_not_inside : ~ inside ig_rules (lit "ws") (lit "start").
Proof.
  intros [_ Hr]. inversion Hr as [|? y ? (w & Hw & Hy) _]. assert (w = [(lit " ", Terminal)] \/ w = []) as [->| ->].
  { assert (alternatives_for ig_rules (lit "ws") = [[(lit " ", Terminal)]; []]) as Ea by (vm_compute; reflexivity). rewrite Ea in Hw.
    apply elem_of_cons in Hw as [->|Hw]; [left; reflexivity|]. apply elem_of_list_singleton in Hw. right. assumption. }
  - apply elem_of_list_singleton in Hy. discriminate.
  - inversion Hy.
Qed.
Lemma ws_derivation i w : alternatives_for ig_rules (lit "ws") !! i = Some w -> Forall (fun e => e.2 = Terminal) w ->
  nderivation ig_rules (NNode (lit "ws") (map (fun e => NLeaf e.1) w)).
Proof.
  intros Hw Hall. apply (nder_node ig_rules (lit "ws") i).
  - assert (map nroot (map (fun e : str * ElementType => NLeaf e.1) w) = w) as ->.
    { clear Hw. induction Hall as [|[b e] w He _ IH]; [reflexivity|]. cbn in *. rewrite IH, He. reflexivity. }
    apply says_plain; [assumption|]. intros y (r0 & more & E & Ho). assert (rules_for (lit "ws") ig_rules = [mkARule (lit "ws") OvAbsent [[(lit " ", Terminal)]; []] []]) as Er by (vm_compute; reflexivity).
    rewrite Er in E. injection E as <- _. discriminate.
  - apply Forall_fmap, Forall_forall. intros e _. constructor.
Qed.
Example C81_example : nderivation (unignored ig_rules) ab_tree /\ padded ig_rules ab_tree ig_tree /\
  nderivation ig_rules ig_tree /\ nsubtree ig_tree [1] = Some (NNode (lit "ws") [NLeaf (lit " ")]) /\ nderivation ig_rules (NNode (lit "ws") []) /\
  nyield ig_tree = lit "a b" /\ nyield (replaced ig_tree [1] (NNode (lit "ws") [])) = lit "ab" /\
  is_ok (@new_from_text _ plain_order Checked NullVm (mkFuels 60 2400) ig_text) = true.
Proof.
  split; [|split; [|split; [apply ig_tree_ok|split; [reflexivity|split; [apply (ws_derivation 1 []); [vm_compute; reflexivity|constructor]|]]]]].
  - apply (nder_node _ (lit "start") 0); [apply un_says; vm_compute; reflexivity|]. repeat constructor.
  - apply (pad_gaps _ (lit "start") (lit "ws") _ [NLeaf (lit "a"); NLeaf (lit "b")]); [|apply ws_not_inside|repeat constructor|].
    + eexists _, []. split; [vm_compute; reflexivity|]. reflexivity.
    + apply gap_more; [apply (ws_derivation 0 [(lit " ", Terminal)]); [vm_compute; reflexivity|repeat constructor]|reflexivity|constructor].
  - split; [reflexivity|]. split; [vm_compute; reflexivity|vm_compute; reflexivity].
Qed.
End example.
