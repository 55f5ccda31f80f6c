(** * Property theorems: grammars that accept whole scripts only (C89) *)
From Verif Require Import Base Peekables Tree Errors Sets ParserData Vm SimpleStackVm StackVm RuleParsing FirstSets FollowSets SteuerMap ScriptParser
  SpecText SpecData SpecGrammar SpecParser SpecTree SpecScript SpecContract SpecWeave SpecRules SpecNames SpecLanguage SpecSyntax SpecExtend SpecNaming SpecFewer SpecEffect SpecCompose SpecWhole
  Grammar_proofs Construct_proofs Checks Tree_proofs Script_proofs Parse_proofs
  Weave_proofs Names_proofs RuleBuild_proofs RuleText_proofs Language_proofs Syntax_proofs Start_proofs Naming_proofs NamingAll_proofs Fewer_proofs Effect_proofs Compose_proofs Whole_proofs
  Props_steuer Props_script Props_weave Props_rules Props_vm Props_names Props_language Props_same Props_start Props_errors Props_main Props_extend Props_fewer Props_effect Props_compose Samples.

(** The end costs nothing: the text with it is accepted iff the one without it is. *)
Theorem C89_accepted : forall (U : Unicode) (H : HashOrder) m (vm : VM) reads P a e is is1 t t1 fl fl1, supported vm reads -> tables_disjoint ->
  part P a -> ~ defined P e -> e <> lit "start" -> text_for reads (whole a e is P) t fl -> text_for reads (alone a is1 P) t1 fl1 ->
  (exists ps, new_from_text m vm fl t = Ok ps) <-> (exists ps, new_from_text m vm fl1 t1 = Ok ps).
Proof.
  intros U H m vm reads P a e is is1 t t1 fl fl1 Hs Hd HP He Hes (T1 & T2 & T3) (T4 & T5 & T6).
  rewrite (C58_buildable_iff_parsable U H m vm reads _ t fl Hs Hd T1 T2 T3), (C58_buildable_iff_parsable U H m vm reads _ t1 fl1 Hs Hd T4 T5 T6).
  apply whole_parsable; assumption.
Qed.
Print Assumptions C89_accepted.

(** The same scripts are sentences. *)
Theorem C89_same_language : forall I (P : list (arule I)) a e is is1, part P a -> ~ defined P e -> e <> lit "start" ->
  forall s, sentence (whole a e is P) s <-> sentence (alone a is1 P) s.
Proof.
  intros I P a e is is1 HP He Hes s. rewrite (alone_sentence P a HP). unfold sentence, derives_text. split.
  - intros (t & Hd & Hr & <-). destruct (proj1 (whole_tree P a e HP He Hes is is1 t) (conj Hd Hr)) as (n & -> & D & R). exists n. cbn. rewrite app_nil_r. auto.
  - intros (n & <- & D & R). exists (NNode (lit "start") [n; NNode e []]). destruct (proj2 (whole_tree P a e HP He Hes is is1 (NNode (lit "start") [n; NNode e []]))) as [D' R']; [eauto|].
    split; [assumption|]. split; [assumption|]. cbn. rewrite app_nil_r. reflexivity.
Qed.
Print Assumptions C89_same_language.

Lemma whole_effect {vm : VM} (Hc : looks_at_first_child vm) (P : list (arule (vm_instr vm))) a e is n : part P a -> ~ defined P e -> e <> lit "start" ->
  nderivation (alone a is P) n -> nroot n = (a, NonTerminal) -> forall v, effect (whole a e is P) (NNode (lit "start") [n; NNode e []]) v = effect (alone a is P) (NNode (lit "start") [n]) v.
Proof.
  intros HP He Hes D R v. rewrite !effect_node. pose proof (end_part e Hes (I := vm_instr vm)) as HQ. pose proof (end_apart P e He) as Hap.
  pose proof (two_no_start P [end_rule e] a e HP HQ) as Hns. change ([n; NNode e []]) with ([n] ++ [NNode e []]). rewrite effects_app, !one_effect.
  rewrite (effect_same P a HP _ (whole a e is P) (al_extends P a HP is) (it_left P _ a e HP HQ Hap is) n D) by (rewrite R; intros _; apply (pt_entry _ _ HP)).
  destruct (effect (alone a is P) n v) as [v1|[]| |]; cbn [obind]; try reflexivity. rewrite one_effect, effect_node. cbn [effects ofold obind]. cbn [own_instructions].
  rewrite (pa_instr _ (whole a e is P) (it_right P [end_rule e] a e HP HQ Hap is) e) by (apply end_defined; reflexivity).
  assert (instructions_for [end_rule e] e = @nil (vm_instr vm)) as -> by (unfold instructions_for; rewrite end_rules, decide_True by reflexivity; reflexivity).
  cbn [ofold obind]. apply own_first; [assumption| |reflexivity]. unfold whole, alone. rewrite !st_instr; [reflexivity|apply (pt_no_start _ _ HP)|exact Hns].
Qed.

(** The parser of the text with the end accepts exactly the sentences, as whole scripts, and
    leaves the state the parser without it leaves; every other script is an error, unless an
    instruction panics first. *)
Theorem C89_whole_scripts : forall (U : Unicode) (H H1 : HashOrder) m m1 (vm : VM) P a e is t t1 ps ps1, part P a -> ~ defined P e -> e <> lit "start" -> looks_at_first_child vm ->
  @read_from U H m vm (whole a e is P) t ps -> @read_from U H1 m1 vm (alone a is P) t1 ps1 ->
  forall fuel fuel1 script v, (length script + 1) * length t <= fuel -> (length script + 1) * length t1 <= fuel1 ->
  match fst (@parse H vm ps fuel script v) with
  | Ok _ => sentence (alone a is P) script
  | Err _ => ~ sentence (alone a is P) script
  | Panic => True
  | Diverge => False
  end /\
  (forall v', (exists tr, @parse H vm ps fuel script v = (Ok tr, v')) <-> sentence (alone a is P) script /\ exists tr, @parse H1 vm ps1 fuel1 script v = (Ok tr, v')) /\
  (sentence (alone a is P) script -> fst (@parse H vm ps fuel script v) = Panic <-> fst (@parse H1 vm ps1 fuel1 script v) = Panic) /\
  (forall tr v', @parse H vm ps fuel script v = (Ok tr, v') -> exists n, tree_shows tr (NNode (lit "start") [n; NNode e []]) /\
     forall tr1 v1, @parse H1 vm ps1 fuel1 script v = (Ok tr1, v1) -> tree_shows tr1 (NNode (lit "start") [n])).
Proof.
  intros U H H1 m m1 vm P a e is t t1 ps ps1 HP He Hes Hc Hr Hr1 fuel fuel1 script v Hf Hf1. pose proof (child_looks_down vm Hc) as Hl.
  assert (forall nt rest, accepts_prefix (whole a e is P) script nt rest -> exists n, nt = NNode (lit "start") [n; NNode e []] /\ nderivation (alone a is P) n /\ nroot n = (a, NonTerminal) /\ script = nyield n) as Hacc.
  { intros nt rest (D & R & Es & Hb). destruct (proj1 (whole_tree P a e HP He Hes is is nt) (conj D R)) as (n & -> & Dn & Rn). exists n. split; [reflexivity|]. split; [assumption|]. split; [assumption|].
    assert (look rest = MTerminate) as El.
    { apply (end_follow P a e HP He Hes is). apply (Hb e []). apply (ee_inside (lit "start") [n] (NNode e []) [] e []); [reflexivity|]. apply (ee_here e []). reflexivity. }
    destruct rest as [|c rest]; [|discriminate]. rewrite Es. cbn. rewrite !app_nil_r. reflexivity. }
  assert (forall n, nderivation (alone a is P) n -> nroot n = (a, NonTerminal) -> script = nyield n ->
    match effect (alone a is P) (NNode (lit "start") [n]) v with
    | Ok v' => (exists tr, @parse H vm ps fuel script v = (Ok tr, v') /\ tree_shows tr (NNode (lit "start") [n; NNode e []])) /\
               (exists tr, @parse H1 vm ps1 fuel1 script v = (Ok tr, v') /\ tree_shows tr (NNode (lit "start") [n]))
    | _ => fst (@parse H vm ps fuel script v) = Panic /\ fst (@parse H1 vm ps1 fuel1 script v) = Panic
    end) as Hboth.
  { intros n Dn Rn Es. destruct (proj2 (whole_tree P a e HP He Hes is is (NNode (lit "start") [n; NNode e []]))) as [D R]; [eauto|].
    destruct (proj2 (al_tree P a HP is (NNode (lit "start") [n]))) as [D1 R1]; [eauto|].
    assert (nyield (NNode (lit "start") [n; NNode e []]) = script) as Y by (rewrite Es; cbn; rewrite app_nil_r; reflexivity).
    assert (nyield (NNode (lit "start") [n]) = script) as Y1 by (rewrite Es; cbn; rewrite app_nil_r; reflexivity).
    pose proof (C88_sentences U H m vm _ t ps Hr Hl _ v fuel D R) as S. rewrite Y, (whole_effect Hc P a e is n HP He Hes Dn Rn) in S. specialize (S Hf).
    pose proof (C88_sentences U H1 m1 vm _ t1 ps1 Hr1 Hl _ v fuel1 D1 R1) as S1. rewrite Y1 in S1. specialize (S1 Hf1).
    destruct (effect (alone a is P) (NNode (lit "start") [n]) v) as [v'|[]| |]; auto. }
  assert (forall s, sentence (alone a is P) s <-> exists n, nderivation (alone a is P) n /\ nroot n = (a, NonTerminal) /\ s = nyield n) as Hsen.
  { intros s. rewrite (alone_sentence P a HP). split; intros (n & X & Y & Z); exists n; auto. }
  destruct (C61_accepted_scripts U H m vm _ t ps Hr fuel script v Hf) as (A1 & A2 & A3 & A4 & _).
  assert (forall tr v', @parse H vm ps fuel script v = (Ok tr, v') -> exists n, nderivation (alone a is P) n /\ nroot n = (a, NonTerminal) /\ script = nyield n) as Hok.
  { intros tr v' Hp. destruct (proj1 (A1 v') (ex_intro _ tr Hp)) as (nt & rest & Ha & _). destruct (Hacc nt rest Ha) as (n & _ & X). eauto. }
  split; [|split; [|split]].
  - destruct (@parse H vm ps fuel script v) as [[tr|er| |] w] eqn:E; cbn [fst].
    + apply Hsen. eapply Hok. reflexivity.
    + intros Hs. apply Hsen in Hs as (n & D & R & Es). specialize (Hboth n D R Es). cbn [fst] in Hboth. destruct (effect _ _ v) as [v'|[]| |].
      * destruct Hboth as [(tr & Hp & _) _]. discriminate.
      * destruct Hboth. discriminate.
      * destruct Hboth. discriminate.
    + exact Logic.I.
    + apply A4. reflexivity.
  - intros v'. split.
    + intros [tr Hp]. destruct (Hok tr v' Hp) as (n & D & R & Es). split; [apply Hsen; eauto|]. specialize (Hboth n D R Es). rewrite Hp in Hboth. destruct (effect _ _ v) as [v2|[]| |]; [|destruct Hboth; discriminate..].
      destruct Hboth as [(tr2 & E2 & _) (tr1 & E1 & _)]. injection E2 as <- <-. eauto.
    + intros [Hs [tr Hp]]. apply Hsen in Hs as (n & D & R & Es). specialize (Hboth n D R Es). rewrite Hp in Hboth. destruct (effect _ _ v) as [v2|[]| |]; [|destruct Hboth; discriminate..].
      destruct Hboth as [(tr2 & E2 & _) (tr1 & E1 & _)]. injection E1 as <- <-. eauto.
  - intros Hs. apply Hsen in Hs as (n & D & R & Es). specialize (Hboth n D R Es). destruct (effect _ _ v) as [v2|[]| |]; [|tauto..].
    destruct Hboth as [(tr2 & E2 & _) (tr1 & E1 & _)]. rewrite E1, E2. split; discriminate.
  - intros tr v' Hp. destruct (Hok tr v' Hp) as (n & D & R & Es). exists n. specialize (Hboth n D R Es). rewrite Hp in Hboth. destruct (effect _ _ v) as [v2|[]| |]; [|destruct Hboth; discriminate..].
    destruct Hboth as [(tr2 & E2 & T2) (tr1 & E1 & T1)]. injection E2 as <- <-. split; [assumption|]. intros tr1' v1 E. rewrite E1 in E. injection E as <- <-. assumption.
Qed.
Print Assumptions C89_whole_scripts.

(** ** Non-vacuity: with the end "11" is refused, without it it is accepted. *)
Section example.
Local Existing Instance ascii_unicode.
Local Existing Instance plain_order.
Notation SV := (SimpleStackVm Checked).
Ltac fits := split; cbn [first_fuel follow_fuel]; apply Nat.leb_le || apply Nat.ltb_lt; vm_compute; reflexivity.
Definition whole_text : str := lit "start->digit end;" ++ digit_text ++ lit "end->#;".
Lemma whole_ok : grammar_text simple_reads (whole (I := vm_instr SV) (lit "digit") (lit "end") [] [digit_rule]) whole_text.
Proof.
  apply with_rule.
  - apply (start_text _ (lit "digit end")).
    apply alts_one, alt_elements, (els_cons _ (lit "digit") (lit " ") _ (lit "end")); [apply el_name; split; [reflexivity|repeat constructor]|repeat constructor|
      apply els_one, el_name; split; [reflexivity|repeat constructor]|intros _ [E|E]; vm_compute in E; discriminate].
  - apply with_rule; [apply digit_rule_ok|]. rewrite <- (app_nil_r (lit "end->#;")). apply with_rule; [|apply no_rules].
    apply (rule_intro simple_reads (end_rule (lit "end")) [] [] [] [] [] [] (lit "#") []); try (constructor; fail); try (split; [reflexivity|repeat constructor]).
    apply alts_one, alt_empty.
Qed.
Example C89_example : part [digit_rule] (lit "digit") /\ ~ defined [digit_rule] (lit "end") /\ looks_at_first_child SV /\
  text_for simple_reads (whole (lit "digit") (lit "end") [] [digit_rule]) whole_text (mkFuels 60 2200) /\
  text_for simple_reads (alone (lit "digit") [] [digit_rule]) alone_digit_text (mkFuels 60 2200) /\
  (exists ps, new_from_text Checked SV (mkFuels 60 2200) whole_text = Ok ps /\ exists tr v, parse SV ps 200 (lit "1") (mkSState [] 0 0 0 []) = (Ok tr, v) /\ ss_stack v = [1; 1]%N) /\
  (exists ps, new_from_text Checked SV (mkFuels 60 2200) alone_digit_text = Ok ps /\ exists tr v, parse SV ps 200 (lit "11") (mkSState [] 0 0 0 []) = (Ok tr, v) /\ ss_stack v = [1; 1]%N) /\
  (forall ps, new_from_text Checked SV (mkFuels 60 2200) whole_text = Ok ps -> exists e, fst (parse SV ps 200 (lit "11") (mkSState [] 0 0 0 [])) = Err e).
Proof.
  destruct C87_example as (HP & _ & _ & _ & T & _). split; [exact HP|]. split. { intros Hd. apply Hd. reflexivity. } split; [apply simple_looks|].
  split; [apply text_fits; [apply whole_ok|reflexivity|fits]|]. split; [exact T|].
  split; [apply ends_with_ok; vm_compute; reflexivity|]. split; [apply ends_with_ok; vm_compute; reflexivity|].
  intros ps Hps. assert (match new_from_text Checked SV (mkFuels 60 2200) whole_text with Ok ps => match fst (parse SV ps 200 (lit "11") (mkSState [] 0 0 0 [])) with Err _ => true | _ => false end | _ => false end = true) as Hb by (vm_compute; reflexivity).
  rewrite Hps in Hb. destruct (fst (parse SV ps 200 (lit "11") (mkSState [] 0 0 0 []))) as [|e| |]; [discriminate|eauto|discriminate..].
Qed.
End example.
