(** * Property theorems: the effect of a parse is put together from its parts (C88) *)
From Verif Require Import Base Peekables Tree Errors Sets ParserData Vm SimpleStackVm StackVm RuleParsing FirstSets FollowSets SteuerMap ScriptParser
  SpecText SpecData SpecGrammar SpecParser SpecTree SpecScript SpecContract SpecWeave SpecRules SpecNames SpecLanguage SpecSyntax SpecRename SpecStart SpecNaming SpecIgnore SpecEffect Grammar_proofs Construct_proofs Checks Tree_proofs Script_proofs Parse_proofs
  Weave_proofs Names_proofs RuleBuild_proofs RuleText_proofs Language_proofs Syntax_proofs Rename_proofs Start_proofs Naming_proofs Ignore_proofs Effect_proofs
  Props_steuer Props_script Props_weave Props_rules Props_vm Props_names Props_language Props_start Props_errors Props_main Props_ignore Props_naming Samples.

(** The VMs of the crate look at most at the text of the first child, so only downwards. *)
Theorem C88_vms_look_down : forall (U : Unicode) m, looks_at_first_child NullVm /\ looks_at_first_child (CountingVm m) /\
  looks_at_first_child (SimpleStackVm m) /\ looks_at_first_child (StackVm m) /\ forall vm, looks_at_first_child vm -> looks_down vm.
Proof.
  intros U m. destruct C83_blind_vms as [B1 B2]. split; [apply blind_looks, B1|]. split; [apply blind_looks, B2|]. split; [apply simple_looks|].
  split; [apply stack_looks|]. apply child_looks_down.
Qed.
Print Assumptions C88_vms_look_down.

(** The state after a parse: subtrees from left to right, then the node, each on a tree of
    its own. *)
Theorem C88_state_after_a_parse : forall (U : Unicode) (H : HashOrder) m (vm : VM) rs t ps, read_from m vm rs t ps -> looks_down vm ->
  forall fuel script v, (length script + 1) * length t <= fuel ->
  (forall v', (exists tr, parse vm ps fuel script v = (Ok tr, v')) <-> exists nt rest, accepts_prefix rs script nt rest /\ effect rs nt v = Ok v') /\
  (forall nt rest, accepts_prefix rs script nt rest -> (forall v', effect rs nt v <> Ok v') -> fst (parse vm ps fuel script v) = Panic).
Proof.
  intros U H m vm rs t ps Hr Hl fuel script v Hfuel. destruct (C61_accepted_scripts U H m vm rs t ps Hr fuel script v Hfuel) as (H1 & H2 & H3 & H4 & _). split.
  - intros v'. rewrite H1. setoid_rewrite (run_tree_effect Hl). reflexivity.
  - intros nt rest Ha He. rewrite <- (run_tree_effect Hl) in He. destruct (parse vm ps fuel script v) as [o w] eqn:E. cbn [fst] in *. destruct o as [tr|e| |].
    + destruct (proj1 (H1 w) (ex_intro _ tr eq_refl)) as (nt' & rest' & Ha' & Hrun).
      destruct (C61_accepted_scripts U H m vm rs t ps Hr fuel script v Hfuel) as (_ & _ & _ & _ & Huni). destruct (Huni _ _ _ _ Ha Ha') as [<- <-]. destruct (He _ Hrun).
    + destruct (H3 (ex_intro _ e eq_refl) nt rest Ha).
    + reflexivity.
    + congruence.
Qed.
Print Assumptions C88_state_after_a_parse.
(** On a whole sentence. *)
Theorem C88_sentences : forall (U : Unicode) (H : HashOrder) m (vm : VM) rs t ps, read_from m vm rs t ps -> looks_down vm ->
  forall nt v fuel, nderivation rs nt -> nroot nt = (lit "start", NonTerminal) -> (length (nyield nt) + 1) * length t <= fuel ->
  match effect rs nt v with
  | Ok v' => exists tr, parse vm ps fuel (nyield nt) v = (Ok tr, v') /\ tree_shows tr nt
  | _ => fst (parse vm ps fuel (nyield nt) v) = Panic
  end.
Proof.
  intros U H m vm rs t ps Hr Hl nt v fuel Hd Hn Hfuel. rewrite <- (run_tree_effect Hl). exact (C57_sentences_are_parsed U H m vm rs t ps Hr nt v fuel Hd Hn Hfuel).
Qed.
Print Assumptions C88_sentences.

(** A part of a script has, inside it, the effect it has on its own: the parser of the text
    with the part's name in the place of start (C80). *)
Theorem C88_parts : forall (f : str -> str) x, injective f -> f x = lit "start" ->
  forall (U : Unicode) (H H' : HashOrder) m m' (vm : VM) reads fl fl' rs t t' ps, supported vm reads -> tables_disjoint -> looks_down vm ->
  grammar_text reads rs t -> (N.of_nat (length t) < 2 ^ 63)%N -> enough_for_text fl t -> @new_from_text U H m vm fl t = Ok ps ->
  grammar_text reads (map (renamed f) rs) t' -> (N.of_nat (length t') < 2 ^ 63)%N -> enough_for_text fl' t' -> name_reached rs x ->
  exists ps', @new_from_text U H' m' vm fl' t' = Ok ps' /\
  forall part v fuel, nderivation rs part -> nroot part = (x, NonTerminal) -> (length (nyield part) + 1) * length t' <= fuel ->
  match effect rs part v with
  | Ok v' => exists tr, @parse H' vm ps' fuel (nyield part) v = (Ok tr, v') /\ tree_shows tr part
  | _ => fst (@parse H' vm ps' fuel (nyield part) v) = Panic
  end.
Proof.
  intros f x Hf Hx U H H' m m' vm reads fl fl' rs t t' ps Hs Hd Hl Ht Hlen Hfl Hps Ht' Hlen' Hfl' Hr.
  destruct (C80_renamed_text f Hf x Hx U H H' m m' vm reads fl fl' rs t t' ps Hs Hd Ht Hlen Hfl Hps Ht' Hlen' Hfl' Hr) as (ps' & Hps' & Hp & _).
  exists ps'. split; [assumption|]. intros part v fuel P1 P2 Hfuel. rewrite <- (run_tree_effect Hl). exact (Hp part v fuel P1 P2 Hfuel).
Qed.
Print Assumptions C88_parts.

(** Parts with the same effect are interchangeable, everywhere. *)
Theorem C88_equal_parts : forall (U : Unicode) (H : HashOrder) m (vm : VM) rs t ps, read_from m vm rs t ps -> looks_at_first_child vm ->
  forall nt path s s', nderivation rs nt -> nroot nt = (lit "start", NonTerminal) -> nsubtree nt path = Some s ->
  nderivation rs s' -> nroot s' = nroot s -> (forall v, effect rs s' v = effect rs s v) ->
  exists before after, nyield nt = before ++ nyield s ++ after /\
  forall v fuel fuel', (length (before ++ nyield s ++ after) + 1) * length t <= fuel -> (length (before ++ nyield s' ++ after) + 1) * length t <= fuel' ->
  ((exists v' tr tr', parse vm ps fuel (before ++ nyield s ++ after) v = (Ok tr, v') /\ parse vm ps fuel' (before ++ nyield s' ++ after) v = (Ok tr', v') /\
    tree_shows tr nt /\ tree_shows tr' (replaced nt path s')) \/
   (fst (parse vm ps fuel (before ++ nyield s ++ after) v) = Panic /\ fst (parse vm ps fuel' (before ++ nyield s' ++ after) v) = Panic)).
Proof.
  intros U H m vm rs t ps Hr Hc nt path s s' Hnt Hroot Hs Hs' Heq He. pose proof (child_looks_down vm Hc) as Hl.
  destruct (replaced_ok rs path nt s s' Hnt Hs Hs' Heq) as (R1 & R2 & _ & before & after & R3 & R4). exists before, after. split; [assumption|].
  intros v fuel fuel' Hf Hf'. rewrite <- R4 in *. rewrite <- R3 in *. destruct (replaced_effect Hc rs path nt s s' Hs Heq He) as [_ Hv]. specialize (Hv v).
  pose proof (C88_sentences U H m vm rs t ps Hr Hl nt v fuel Hnt Hroot Hf) as S1.
  pose proof (C88_sentences U H m vm rs t ps Hr Hl (replaced nt path s') v fuel' R1 ltac:(congruence) Hf') as S2. rewrite Hv in S2.
  destruct (effect rs nt v) as [v'|[]| |]; [|right; auto..]. destruct S1 as (tr & P1 & T1), S2 as (tr' & P2 & T2). left. exists v', tr, tr'. auto.
Qed.
Print Assumptions C88_equal_parts.

(** Ignored text has no effect, if no instructions belong to it: the parser of the grammar
    without the IGNORE overrides leaves the same state on the script without the ignored
    text. *)
Theorem C88_ignored_text : forall (U : Unicode) (H H' : HashOrder) m m' (vm : VM) rs t t0 ps ps0,
  @read_from U H m vm rs t ps -> @read_from U H' m' vm (unignored rs) t0 ps0 -> looks_at_first_child vm -> ignored_silent rs ->
  forall nt0 nt, nderivation (unignored rs) nt0 -> nroot nt0 = (lit "start", NonTerminal) -> padded rs nt0 nt ->
  forall v fuel fuel0, (length (nyield nt) + 1) * length t <= fuel -> (length (nyield nt0) + 1) * length t0 <= fuel0 ->
  (exists v' tr tr0, @parse H vm ps fuel (nyield nt) v = (Ok tr, v') /\ @parse H' vm ps0 fuel0 (nyield nt0) v = (Ok tr0, v') /\ tree_shows tr nt /\ tree_shows tr0 nt0) \/
  (fst (@parse H vm ps fuel (nyield nt) v) = Panic /\ fst (@parse H' vm ps0 fuel0 (nyield nt0) v) = Panic).
Proof.
  intros U H H' m m' vm rs t t0 ps ps0 Hr Hr0 Hc Hq nt0 nt Hd0 Hn0 Hp v fuel fuel0 Hf Hf0. pose proof (child_looks_down vm Hc) as Hl.
  pose proof (padded_derivation rs nt0 Hd0 nt Hp) as Hd.
  pose proof (C88_sentences U H m vm rs t ps Hr Hl nt v fuel Hd ltac:(rewrite (padded_root _ _ _ Hp); assumption) Hf) as S1.
  pose proof (C88_sentences U H' m' vm _ t0 ps0 Hr0 Hl nt0 v fuel0 Hd0 Hn0 Hf0) as S2. rewrite (padded_effect Hc rs Hq nt0 nt Hp v) in S1.
  destruct (effect (unignored rs) nt0 v) as [v'|[]| |]; [|right; auto..]. destruct S1 as (tr & P1 & T1), S2 as (tr' & P2 & T2). left. exists v', tr, tr'. auto.
Qed.
Print Assumptions C88_ignored_text.

(** ** Non-vacuity: with SimpleStackVm the digits [1] and [01] do the same. *)
Section example.
Local Existing Instance ascii_unicode.
Local Existing Instance plain_order.
Ltac name := split; [reflexivity|repeat constructor].
Definition dg_rules : list (arule (vm_instr (SimpleStackVm Checked))) :=
  [mkARule (lit "start") OvAbsent [[(lit "digit", NonTerminal); (lit "digit", NonTerminal)]] [];
   mkARule (lit "digit") OvAbsent [[(lit "1", Terminal)]; [(lit "01", Terminal)]] [SPushFromTree; SPushConst 1]].
Definition dg_text : str := lit "start->digit digit;digit->""1""|""01""{};".
Definition dg_digit (s : str) : ntree := NNode (lit "digit") [NLeaf s].
Definition dg_tree : ntree := NNode (lit "start") [dg_digit (lit "1"); dg_digit (lit "1")].
Lemma dg_text_ok : grammar_text simple_reads dg_rules dg_text.
Proof.
  apply (gr_cons simple_reads _ (lit "start->digit digit;") [] _ (lit "digit->""1""|""01""{};")); [constructor| |].
  - apply (rule_intro simple_reads (mkARule (lit "start") OvAbsent [[(lit "digit", NonTerminal); (lit "digit", NonTerminal)]] []) [] [] [] [] []
      [] (lit "digit digit") []); try (constructor; fail); try name.
    apply alts_one, alt_elements, (els_cons _ (lit "digit") (lit " ") _ (lit "digit")); [apply el_name; name|repeat constructor|apply els_one, el_name; name|intros _ [E|E]; vm_compute in E; discriminate].
  - apply (gr_cons simple_reads _ (lit "digit->""1""|""01""{};") [] _ []); [constructor| |apply gr_end; constructor].
    apply (rule_intro simple_reads (mkARule (lit "digit") OvAbsent [[(lit "1", Terminal)]; [(lit "01", Terminal)]] [SPushFromTree; SPushConst 1]) [] [] [] [] []
      [] (lit """1""|""01""") (lit "{}")); try (constructor; fail); try name.
    + apply (alts_cons _ (lit """1""") [] [] _ (lit """01""")); [apply alt_elements, els_one, one_quoted; discriminate|constructor..|].
      apply alts_one, alt_elements, els_one, (el_quoted (lit "01")). apply qb_plain; [discriminate..|]. apply qb_plain; auto using qb_nil; discriminate.
    + apply (sec_braces simple_reads _ [] []); [constructor|constructor|]. split; [|reflexivity]. split; [intros i Hi; discriminate|]. right. split; [reflexivity|discriminate].
Qed.
Lemma dg_says x i w : alternatives_for dg_rules x !! i = Some w -> says dg_rules x i w.
Proof.
  intros Hw. apply says_plain; [assumption|]. intros y (r0 & more & E & Ho). exfalso.
  assert (r0 ∈ rules_for x dg_rules) as Hin by (rewrite E; left). apply elem_of_list_filter in Hin as [_ Hin].
  apply elem_of_cons in Hin as [->|Hin]; [discriminate|]. apply elem_of_list_singleton in Hin as ->. discriminate.
Qed.
Definition ends_with (o : outcome Empty_set (Parser SInstr)) fuel script (l : list N) : bool :=
  match o with
  | Ok ps => match parse (SimpleStackVm Checked) ps fuel script (mkSState [] 0 0 0 []) with (Ok _, v) => bool_decide (ss_stack v = l) | _ => false end
  | _ => false
  end.
Lemma ends_with_ok o fuel script l : ends_with o fuel script l = true -> exists ps, o = Ok ps /\
  exists tr v, parse (SimpleStackVm Checked) ps fuel script (mkSState [] 0 0 0 []) = (Ok tr, v) /\ ss_stack v = l.
Proof.
  unfold ends_with. destruct o as [ps| | |]; try discriminate. intros E. exists ps. split; [reflexivity|].
  destruct (parse (SimpleStackVm Checked) ps fuel script (mkSState [] 0 0 0 [])) as [[tr| | |] v]; try discriminate. apply bool_decide_eq_true in E. eauto.
Qed.
Example C88_example : exists ps : Parser SInstr, read_from Checked (SimpleStackVm Checked) dg_rules dg_text ps /\ looks_at_first_child (SimpleStackVm Checked) /\
  nderivation dg_rules dg_tree /\ nroot dg_tree = (lit "start", NonTerminal) /\ nsubtree dg_tree [1] = Some (dg_digit (lit "1")) /\ nderivation dg_rules (dg_digit (lit "01")) /\
  (forall v, effect dg_rules (dg_digit (lit "01")) v = effect dg_rules (dg_digit (lit "1")) v) /\ nyield (replaced dg_tree [1] (dg_digit (lit "01"))) = lit "101" /\
  (exists tr v, parse (SimpleStackVm Checked) ps 300 (lit "101") (mkSState [] 0 0 0 []) = (Ok tr, v) /\ ss_stack v = [1; 1; 1; 1]%N).
Proof.
  destruct (ends_with_ok (new_from_text Checked (SimpleStackVm Checked) (mkFuels 60 2200) dg_text) 300 (lit "101") [1; 1; 1; 1]%N) as (ps & Hps & Hrun); [vm_compute; reflexivity|].
  assert (forall s, s = lit "1" \/ s = lit "01" -> nderivation dg_rules (dg_digit s)) as Hdg.
  { intros s [-> | ->]; [apply (nder_node _ _ 0)|apply (nder_node _ _ 1)]; try (apply dg_says; vm_compute; reflexivity); (apply Forall_cons; split; [apply nder_leaf|constructor]). }
  exists ps. split; [|split; [apply simple_looks|split; [|split; [reflexivity|split; [reflexivity|split; [auto|split; [|split; [vm_compute; reflexivity|exact Hrun]]]]]]]].
  - exists simple_reads, (mkFuels 60 2200). split; [constructor|]. split; [apply ascii_tables|]. split; [apply dg_text_ok|]. split; [vm_compute; reflexivity|].
    split; [split; cbn [first_fuel follow_fuel]; apply Nat.leb_le || apply Nat.ltb_lt; vm_compute; reflexivity|exact Hps].
  - apply (nder_node _ _ 0); [apply dg_says; vm_compute; reflexivity|]. repeat (apply Forall_cons; split; [auto|]). constructor.
  - intros v. vm_compute. reflexivity.
Qed.
End example.
