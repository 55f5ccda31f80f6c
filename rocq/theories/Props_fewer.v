(** * Property theorems: adding and leaving out alternatives (C85) *)
From Verif Require Import Base Peekables Tree Errors Sets ParserData Vm SimpleStackVm StackVm RuleParsing FirstSets FollowSets SteuerMap ScriptParser
  SpecText SpecData SpecGrammar SpecParser SpecTree SpecScript SpecContract SpecWeave SpecRules SpecNames SpecLanguage SpecSyntax SpecExtend SpecNaming SpecFewer Grammar_proofs Construct_proofs Checks Tree_proofs Script_proofs Parse_proofs
  Weave_proofs Names_proofs RuleBuild_proofs RuleText_proofs Language_proofs Syntax_proofs Start_proofs Naming_proofs NamingAll_proofs Fewer_proofs
  Props_steuer Props_script Props_weave Props_rules Props_vm Props_names Props_language Props_start Props_errors Props_main Props_extend Samples.

(** Leaving out alternatives of an accepted text gives an accepted text (if all that is
    still used is still defined). *)
Theorem C85_fewer_accepted : forall (U : Unicode) (H H' : HashOrder) m m' (vm : VM) reads fl fl' rs rs' t t' ps', supported vm reads -> tables_disjoint ->
  grammar_text reads rs' t' -> (N.of_nat (length t') < 2 ^ 63)%N -> enough_for_text fl' t' -> @new_from_text U H' m' vm fl' t' = Ok ps' ->
  grammar_text reads rs t -> (N.of_nat (length t) < 2 ^ 63)%N -> enough_for_text fl t ->
  fewer_alternatives rs rs' -> defined rs (lit "start") -> (forall x y, uses rs x y -> defined rs y) -> (forall x y, ignores rs x y -> defined rs y) ->
  exists ps, @new_from_text U H m vm fl t = Ok ps.
Proof.
  intros U H H' m m' vm reads fl fl' rs rs' t t' ps' Hs Hd Ht' Hlen' Hfl' Hps' Ht Hlen Hfl Hf Hst Hu Hi.
  apply (C58_buildable_iff_parsable U H m vm reads rs t fl Hs Hd Ht Hlen Hfl). eapply fewer_parsable; [eassumption| |assumption..].
  apply (C58_buildable_iff_parsable U H' m' vm reads rs' t' fl' Hs Hd Ht' Hlen' Hfl'). eauto.
Qed.
Print Assumptions C85_fewer_accepted.
(** Adding alternatives: what the parser of the smaller grammar accepts, the parser of the
    larger one accepts, with the same tree and, if the instructions of the rules stay the
    same, the same state of the VM. *)
Theorem C85_accepted_scripts : forall (U : Unicode) (H H' : HashOrder) m m' (vm : VM) rs rs' t t' ps ps',
  @read_from U H m vm rs t ps -> @read_from U H' m' vm rs' t' ps' -> fewer_alternatives rs rs' ->
  (forall x, defined rs x -> instructions_for rs' x = instructions_for rs x) ->
  forall fuel fuel' script v tr v', (length script + 1) * length t' <= fuel' ->
  @parse H vm ps fuel script v = (Ok tr, v') -> @parse H' vm ps' fuel' script v = (Ok tr, v').
Proof.
  intros U H H' m m' vm rs rs' t t' ps ps' Hr Hr' Hf Hi fuel fuel' script v tr v' Hfuel Hp.
  destruct (parse_tree_literal _ _ _ _ _ _ _ _ _ _ Hr Hp) as (nt & rest & (A1 & A2 & A3 & A4) & Hrun & ->).
  assert (accepts_prefix rs' script nt rest) as Ha.
  { split; [apply (fewer_derivation rs rs' Hf), A1|]. split; [exact A2|]. split; [exact A3|]. apply (fewer_before rs rs' Hf), A4. }
  destruct (C61_accepted_scripts U H' m' vm rs' t' ps' Hr' fuel' script v Hfuel) as (H1 & _ & _ & _ & Huni).
  rewrite <- (fewer_run rs rs' nt v A1 Hi) in Hrun. destruct (proj2 (H1 v') (ex_intro _ nt (ex_intro _ rest (conj Ha Hrun)))) as [tr' Hp'].
  destruct (parse_tree_literal _ _ _ _ _ _ _ _ _ _ Hr' Hp') as (nt' & rest' & Ha' & _ & ->). destruct (Huni _ _ _ _ Ha Ha') as [<- <-]. exact Hp'.
Qed.
Print Assumptions C85_accepted_scripts.
(** On whole sentences of the smaller grammar the two parsers do the same, even if an
    instruction panics. *)
Theorem C85_sentences : forall (U : Unicode) (H H' : HashOrder) m m' (vm : VM) rs rs' t t' ps ps',
  @read_from U H m vm rs t ps -> @read_from U H' m' vm rs' t' ps' -> fewer_alternatives rs rs' ->
  (forall x, defined rs x -> instructions_for rs' x = instructions_for rs x) ->
  forall fuel fuel' script v, (length script + 1) * length t <= fuel -> (length script + 1) * length t' <= fuel' -> sentence rs script ->
  fst (@parse H vm ps fuel script v) = fst (@parse H' vm ps' fuel' script v) /\
  (forall tr v', @parse H vm ps fuel script v = (Ok tr, v') <-> @parse H' vm ps' fuel' script v = (Ok tr, v')).
Proof.
  intros U H H' m m' vm rs rs' t t' ps ps' Hr Hr' Hf Hi fuel fuel' script v Hfuel Hfuel' (nt & A1 & A2 & <-).
  pose proof (fewer_derivation rs rs' Hf nt A1) as A1'.
  pose proof (C57_sentences_are_parsed U H m vm rs t ps Hr nt v fuel A1 A2 Hfuel) as S1.
  pose proof (C57_sentences_are_parsed U H' m' vm rs' t' ps' Hr' nt v fuel' A1' A2 Hfuel') as S2. rewrite (fewer_run rs rs' nt v A1 Hi) in S2.
  destruct (run_tree rs nt v) as [v'|[]| |].
  - destruct S1 as (tr & P1 & _). pose proof (C85_accepted_scripts U H H' m m' vm rs rs' t t' ps ps' Hr Hr' Hf Hi fuel fuel' _ v tr v' Hfuel' P1) as P2.
    rewrite P1, P2. split; [reflexivity|]. intros. reflexivity.
  - split; [congruence|]. intros tr v'. split; intros P; rewrite P in *; discriminate.
  - split; [congruence|]. intros tr v'. split; intros P; rewrite P in *; discriminate.
Qed.
Print Assumptions C85_sentences.
(** A script the larger grammar rejects is rejected by the smaller one, if it says how to
    finish what it begins, no later in the script. *)
Theorem C85_errors_no_later : forall (U : Unicode) (H H' : HashOrder) m m' (vm : VM) rs rs' t t' ps ps',
  @read_from U H m vm rs t ps -> @read_from U H' m' vm rs' t' ps' -> fewer_alternatives rs rs' ->
  all_stand_for_text rs ->
  forall fuel fuel' script v v' e e', fst (@parse H vm ps fuel script v) = Err e -> fst (@parse H' vm ps' fuel' script v') = Err e' ->
  exists pos pos', error_position e = Some pos /\ error_position e' = Some pos' /\ pos <= pos'.
Proof.
  intros U H H' m m' vm rs rs' t t' ps ps' Hr Hr' Hf Hall fuel fuel' script v v' e e' Hp Hp'.
  destruct (@parse H vm ps fuel script v) as [o w] eqn:E. cbn in Hp. subst o. destruct (@parse H' vm ps' fuel' script v') as [o w'] eqn:E'. cbn in Hp'. subst o.
  destruct (C57_errors U H m vm rs t ps Hr _ _ _ _ _ E) as (before & rest & E1 & E2 & E3 & E4).
  destruct (C57_errors U H' m' vm rs' t' ps' Hr' _ _ _ _ _ E') as (before' & rest' & F1 & F2 & F3 & F4).
  specialize (E4 Hall). exists (length before), (length before'). split; [|split].
  - destruct e; try contradiction; cbn; destruct E2 as [-> _]; reflexivity.
  - destruct e'; try contradiction; cbn; destruct F2 as [-> _]; reflexivity.
  - apply (error_places script before' rest' before rest (sentence rs') F1 E1 F3). destruct E4 as [more (nt & D1 & D2 & D3)]. exists more, nt.
    split; [apply (fewer_derivation rs rs' Hf), D1|auto].
Qed.
Print Assumptions C85_errors_no_later.
(** What leaving out alternatives means: each rule has a part of the alternatives, in the
    same order, and ignores what it ignored.  (Whether a rule is a part of what it ignores
    decides if the ignored name is put between the elements, so this has to stay the same.) *)
Theorem C85_left_out : forall I (rs rs' : list (arule I)),
  (forall x y, ignores rs x y <-> ignores rs' x y) -> (forall x y, ignores rs x y -> inside rs y x <-> inside rs' y x) ->
  (forall x, alternatives_for rs x `sublist_of` alternatives_for rs' x) -> fewer_alternatives rs rs'.
Proof.
  intros I rs rs' Hn Hin Hs x. destruct (sublist_positions _ _ (Hs x)) as (f & Hinj & Hl). exists f. split; [assumption|].
  intros i w [w0 Hw Hy|w0 y Hw Hy Hni].
  - apply says_plain; [apply Hl; assumption|]. intros y Hy'. apply Hn in Hy'. apply Hin; auto.
  - apply says_woven; [apply Hl; assumption|apply Hn; assumption|]. intros Hi. apply Hni, Hin; assumption.
Qed.
Print Assumptions C85_left_out.
(** Writing further rules behind a text, without ignore instructions on either side. *)
Theorem C85_appended : forall I (rs more : list (arule I)), (forall x y, ~ ignores rs x y) -> (forall x y, ~ ignores (rs ++ more) x y) -> fewer_alternatives rs (rs ++ more).
Proof.
  intros I rs more Hn Hn'. apply C85_left_out; [intros x y; split; intros Hy; [destruct (Hn _ _ Hy)|destruct (Hn' _ _ Hy)]|intros x y Hy; destruct (Hn _ _ Hy)|].
  intros x. rewrite alternatives_app. apply sublist_inserts_r, sublist_nil_l || apply sublist_inserts_r. reflexivity.
Qed.
Print Assumptions C85_appended.

(** ** Non-vacuity: a second rule for tail is written behind the text.  Both parsers accept
    ["abb"], only the second accepts ["abc"]. *)
Section example.
Local Existing Instance ascii_unicode.
Local Existing Instance plain_order.
Ltac name := split; [reflexivity|repeat constructor].
Definition tc_rule : arule (vm_instr NullVm) := mkARule (lit "tail") OvAbsent [[(lit "c", Terminal)]] [].
Definition tc_text : str := tx_text ++ lit "tail->""c"";".
Lemma tc_text_ok : grammar_text null_reads (tx_rules ++ [tc_rule]) tc_text.
Proof.
  apply grammar_app; [apply tx_text_ok|]. apply (gr_cons null_reads _ (lit "tail->""c"";") [] _ []); [constructor| |apply gr_end; constructor].
  apply (rule_intro null_reads tc_rule [] [] [] [] [] [] (lit """c""") []); try (constructor; fail); try name.
  apply alts_one, alt_elements, els_one, one_quoted; discriminate.
Qed.
Lemma tx_no_ignore l : Forall (fun r => ar_override r = OvAbsent) l -> forall x y, ~ ignores (tx_rules ++ l) x y.
Proof.
  intros Hl. apply no_override_ignores. intros r x Hr E. assert (Forall (fun r => ar_override r = OvAbsent) (tx_rules ++ l)) as Hf by (apply Forall_app; split; [repeat constructor|assumption]).
  apply (proj1 (Forall_forall _ _) Hf) in Hr. congruence.
Qed.
Lemma tc_instr x : defined tx_rules x -> instructions_for (tx_rules ++ [tc_rule]) x = instructions_for tx_rules x.
Proof.
  generalize tx_rules [tc_rule]. intros l l'. unfold defined, instructions_for, rules_for. rewrite filter_app.
  destruct (filter _ l); [intros Hd; destruct (Hd eq_refl)|reflexivity].
Qed.
Notation tc_parser := (@new_from_text _ plain_order Checked NullVm (mkFuels 60 2200) tc_text).
Lemma tc_read ps : tc_parser = Ok ps -> read_from Checked NullVm (tx_rules ++ [tc_rule]) tc_text ps.
Proof.
  intros Hps. eapply (read_null (tx_rules ++ [tc_rule]) tc_text _ tc_text_ok); [reflexivity| |reflexivity|exact Hps].
  split; cbn [first_fuel follow_fuel]; apply Nat.leb_le || apply Nat.ltb_lt; vm_compute; reflexivity.
Qed.
Example C85_example : exists ps ps', read_from Checked NullVm tx_rules tx_text ps /\ read_from Checked NullVm (tx_rules ++ [tc_rule]) tc_text ps' /\
  fewer_alternatives tx_rules (tx_rules ++ [tc_rule]) /\ (forall x, defined tx_rules x -> instructions_for (tx_rules ++ [tc_rule]) x = instructions_for tx_rules x) /\
  (exists tr v', parse NullVm ps 2000 (lit "abb") 0%N = (Ok tr, v')) /\ (exists e, fst (parse NullVm ps 2000 (lit "abc") 0%N) = Err e) /\
  (exists tr v', parse NullVm ps' 2000 (lit "abc") 0%N = (Ok tr, v')).
Proof.
  destruct (verdicts_ok 2000 (@new_from_text _ plain_order Checked NullVm (mkFuels 60 2200) tx_text) (lit "abb") (lit "abc")) as (ps & Eps & E1 & E2); [vm_compute; reflexivity|].
  destruct (verdicts_ok 2000 tc_parser (lit "abc") (lit "ad")) as (ps' & Eps' & E3 & _); [vm_compute; reflexivity|].
  exists ps, ps'. split; [apply tx_read, Eps|]. split.
  { apply tc_read, Eps'. }
  split; [apply C85_appended; [rewrite <- (app_nil_r tx_rules); apply tx_no_ignore; constructor|apply tx_no_ignore; repeat constructor]|].
  split; [clear; apply tc_instr|]. split; [exact E1|]. split; [exact E2|exact E3].
Qed.
End example.
