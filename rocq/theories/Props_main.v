(** * Property theorems: which scripts are accepted (C61), and the command line tool (C62). *)
From Verif Require Import Base Peekables Tree Errors Sets ParserData Vm SimpleStackVm StackVm RuleParsing FirstSets FollowSets SteuerMap ScriptParser Main
  SpecText SpecData SpecGrammar SpecParser SpecTree SpecScript SpecContract SpecWeave SpecRules SpecNames SpecLanguage Grammar_proofs Construct_proofs Checks Tree_proofs Script_proofs Parse_proofs
  Weave_proofs Names_proofs RuleBuild_proofs RuleText_proofs Language_proofs Accept_proofs Props_steuer Props_script Props_weave Props_first Props_follow Steuer_proofs Props_rules Props_vm Props_names Props_language Props_errors Samples.

(** [nt] is a derivation tree of a prefix of the script, and what is left of the script may
    stand behind it. *)
Definition accepts_prefix {I} (rs : list (arule I)) (script : str) (nt : ntree) (rest : str) : Prop :=
  nderivation rs nt /\ nroot nt = (lit "start", NonTerminal) /\ script = nyield nt ++ rest /\ stands_before rs nt (look rest).

Section read.
Context {vm : VM} {rs : list (arule (vm_instr vm))}.
Lemma accepts_pred {pd pd' : ParserData (vm_instr vm)} {start} script nt rest : described pd rs -> edited_data pd pd' -> wf_grammar pd' -> constructible pd' start -> start_element pd' start ->
  accepts_prefix rs script nt rest <-> exists pt, nt = named pd' pt /\ derivation pd' pt /\ pred pd' start start script pt rest.
Proof.
  intros Hd Hed Hwf Hcon Hst.
  assert (get_element_verbose pd' start = Some (lit "start", NonTerminal)) as Hs' by (apply Hst; reflexivity).
  assert (get_element_verbose pd start = Some (lit "start", NonTerminal)) as Hs by (rewrite <- (ed_verbose pd pd' Hed); assumption).
  split.
  - intros (Hnt & Hroot & -> & Hb). destruct (derivation_named pd pd' rs Hd Hed nt Hnt start) as (pt & Hpt & Hrt & <-); [congruence|].
    exists pt. split; [reflexivity|]. split; [assumption|]. rewrite named_yield. rewrite <- Hrt at 2.
    apply pred_iff; [assumption..|]. apply (stands_before_iff pd pd' rs Hd Hed start Hs' Hcon pt _ Hpt). assumption.
  - intros (pt & -> & Hpt & Hp). pose proof (proj1 (pred_ends pd' start) _ _ _ _ Hp) as He. apply pred_sound in Hp as (_ & D2 & D3).
    destruct (named_derivation pd pd' rs Hd Hed pt Hpt) as [N1 N2]. split; [assumption|]. rewrite D2, Hs in N2. split; [congruence|].
    rewrite named_yield. split; [auto|]. apply (stands_before_iff pd pd' rs Hd Hed start Hs' Hcon pt _ Hpt). assumption.
Qed.
End read.

(** ** C61.  parse succeeds on exactly the scripts a prefix of which has a derivation tree in
    front of the rest, and whose actions succeed; there is at most one such tree.  Without
    enough stack the model diverges; with it it never does. *)
Theorem C61_accepted_scripts : forall (U : Unicode) (H : HashOrder) m (vm : VM) rs t ps, read_from m vm rs t ps ->
  forall fuel script v, (length script + 1) * length t <= fuel ->
  (forall v', (exists tr, parse vm ps fuel script v = (Ok tr, v')) <-> exists nt rest, accepts_prefix rs script nt rest /\ run_tree rs nt v = Ok v') /\
  (forall nt rest, accepts_prefix rs script nt rest -> run_tree rs nt v = Panic -> fst (parse vm ps fuel script v) = Panic) /\
  ((exists e, fst (parse vm ps fuel script v) = Err e) -> forall nt rest, ~ accepts_prefix rs script nt rest) /\
  fst (parse vm ps fuel script v) <> Diverge /\
  (forall nt rest nt' rest', accepts_prefix rs script nt rest -> accepts_prefix rs script nt' rest' -> nt = nt' /\ rest = rest').
Proof.
  intros U H m vm rs t ps Hr fuel script v Hfuel. destruct (read_from_vm m vm rs t ps Hr) as [Hk Hret].
  destruct (read_from_built m vm rs t ps Hr) as (pd & pd' & start & fl & Hd & Hed & Hst & Hb & Hsz).
  apply built_spec in Hb as (Hwf & Hcon & Htab).
  pose proof (fun nt rest => accepts_pred script nt rest Hd Hed Hwf Hcon Hst) as Hacc.
  pose proof (proj1 (pred_deterministic pd' start (con_disjoint pd' start Hcon) (wf_rules pd' Hwf))) as Hdet.
  pose proof (parse_run_spec vm pd' start ps Hwf Hcon Htab Hk start fuel script v Hst (con_start _ _ Hcon)) as Hs.
  assert (forall nt rest nt' rest', accepts_prefix rs script nt rest -> accepts_prefix rs script nt' rest' -> nt = nt' /\ rest = rest') as Huni.
  { intros nt rest nt' rest' H1 H2. apply Hacc in H1 as (pt & -> & _ & H1). apply Hacc in H2 as (pt' & -> & _ & H2).
    destruct (Hdet _ _ _ _ H1 _ _ H2) as [<- <-]. auto. }
  unfold parse. destruct (parse_run vm ps fuel script v) as [o s1]. cbn [fst].
  destruct o as [tr|e| |].
  - destruct Hs as (pt & rest & v' & Hpr & -> & -> & Hrun).
    assert (derivation pd' pt) as Hpt by (eapply pred_sound; exact Hpr).
    assert (accepts_prefix rs script (named pd' pt) rest) as Ha by (apply Hacc; eauto).
    assert (run_tree rs (named pd' pt) v = Ok v') as Hrt by (rewrite (run_named pd pd' rs Hd Hed pt v Hpt); exact Hrun).
    split; [|split; [|split; [|split; [discriminate|assumption]]]].
    + intros v''. split; [intros (tr & [= <- <-]); eauto|]. intros (nt & rest' & Ha' & Hr'). destruct (Huni _ _ _ _ Ha Ha') as [<- <-].
      rewrite Hrt in Hr'. injection Hr' as <-. eexists. reflexivity.
    + intros nt rest' Ha' Hr'. destruct (Huni _ _ _ _ Ha Ha') as [<- <-]. congruence.
    + intros [e He]. discriminate.
  - destruct Hs as (stk & rest' & v' & Hf' & _).
    assert (forall nt rest, ~ accepts_prefix rs script nt rest) as Hno by (intros nt rest Ha; apply Hacc in Ha as (pt & _ & _ & Hp); eapply fails_not_pred; eauto).
    split; [|split; [|split; [auto|split; [discriminate|assumption]]]].
    + intros v''. split; [intros (tr & E); discriminate|]. intros (nt & rest & Ha & _). exfalso. eapply Hno; eassumption.
    + intros nt rest Ha _. exfalso. eapply Hno; eassumption.
  - destruct Hs as (_ & Hs & _). split; [|split; [|split; [|split; [discriminate|assumption]]]].
    + intros v''. split; [intros (tr & E); discriminate|]. intros (nt & rest & Ha & Hrt). apply Hacc in Ha as (pt & -> & Hpt & Hp).
      rewrite (run_named pd pd' rs Hd Hed pt v Hpt) in Hrt. pose proof (Hs _ _ Hp) as Hx. unfold run_tree in Hrt. rewrite Hx in Hrt. discriminate.
    + reflexivity.
    + intros [e He]. discriminate.
  - exfalso. destruct Hs as [(t0 & id & i & s & Hp1 & Hp2 & Hp)|Hs]; [exact (Hret t0 id i s Hp1 Hp2 Hp)|]. nia.
Qed.
Print Assumptions C61_accepted_scripts.

(** If no name stands for the empty text: parse succeeds exactly if a prefix of the script is
    a sentence (and its actions succeed), and no sentence is a proper prefix of another. *)
Lemma no_empty_ends {I} (rs : list (arule I)) nt : no_empty_texts rs -> nderivation rs nt -> forall y w, ~ ends_in_empty nt y w.
Proof.
  intros Hne Hnt y w He. revert Hnt. induction He as [x subs Hy|x l s r y w Hy He IH]; intros Hnt; inversion Hnt as [|x0 i subs0 Hw Hf]; subst.
  - apply (Hne x); [|exists (NNode x subs); auto].
    assert (exists w, alternatives_for rs x !! i = Some w) as [w Hi] by (inversion Hw; eauto).
    unfold alternatives_for in Hi. intros E. rewrite E in Hi. discriminate.
  - apply IH. apply Forall_app in Hf as [_ Hf]. apply Forall_cons in Hf. tauto.
Qed.
Theorem C61_sentence_prefixes : forall (U : Unicode) (H : HashOrder) m (vm : VM) rs t ps, read_from m vm rs t ps -> no_empty_texts rs ->
  (forall fuel script v v', (length script + 1) * length t <= fuel ->
    (exists tr, parse vm ps fuel script v = (Ok tr, v')) <->
    exists nt rest, nderivation rs nt /\ nroot nt = (lit "start", NonTerminal) /\ script = nyield nt ++ rest /\ run_tree rs nt v = Ok v') /\
  (forall s more, sentence rs s -> sentence rs (s ++ more) -> more = []).
Proof.
  intros U H m vm rs t ps Hr Hne.
  assert (forall nt a, nderivation rs nt -> stands_before rs nt a) as Hsb by (intros nt a Hnt y w He; exfalso; eapply no_empty_ends; eassumption).
  split.
  - intros fuel script v v' Hfuel. destruct (C61_accepted_scripts U H m vm rs t ps Hr fuel script v Hfuel) as (H1 & _). rewrite H1. clear H1.
    split; [intros (nt & rest & (A1 & A2 & A3 & _) & A4); eauto 10|].
    intros (nt & rest & A1 & A2 & A3 & A4). exists nt, rest. split; [|assumption]. repeat split; auto.
  - intros s more (nt & A1 & A2 & <-) (nt' & B1 & B2 & B3).
    destruct (read_from_built m vm rs t ps Hr) as (pd & pd' & start & fl & Hd & Hed & Hst & Hb & Hsz). apply built_spec in Hb as (Hwf & Hcon & Htab).
    assert (accepts_prefix rs (nyield nt ++ more) nt more) as Ha by (repeat split; auto).
    assert (accepts_prefix rs (nyield nt ++ more) nt' []) as Hb by (repeat split; auto; rewrite B3, app_nil_r; reflexivity).
    apply (accepts_pred _ nt more Hd Hed Hwf Hcon Hst) in Ha as (pt & _ & _ & P1). apply (accepts_pred _ nt' [] Hd Hed Hwf Hcon Hst) in Hb as (pt' & _ & _ & P2).
    destruct (proj1 (pred_deterministic pd' start (con_disjoint pd' start Hcon) (wf_rules pd' Hwf)) _ _ _ _ P1 _ _ P2) as [_ E]. exact E.
Qed.
Print Assumptions C61_sentence_prefixes.

(** ** C58, continued: what happens when no parser can be built.  A text that is not a
    grammar text makes the call panic; a left-recursive grammar, if nothing else is
    missing, overflows the stack ([Diverge] for every recursion depth); without left
    recursion the call returns or panics. *)
Theorem C58_failures : forall (U : Unicode) (H : HashOrder) m (vm : VM) reads t fl,
  supported vm reads -> tables_disjoint -> (N.of_nat (length t) < 2 ^ 63)%N ->
  ((forall rs, ~ grammar_text reads rs t) -> new_from_text m vm fl t = Panic) /\
  forall rs, grammar_text reads rs t ->
    (enough_for_text fl t -> new_from_text m vm fl t = Diverge -> exists x, left_recursive_name rs x) /\
    ((exists x, left_recursive_name rs x) -> (forall x y, uses rs x y -> defined rs y) -> (forall x y, ignores rs x y -> defined rs y) ->
     new_from_text m vm fl t = Diverge).
Proof.
  intros U H m vm reads t fl Hs Hd Hlen. split.
  - intros Hno. unfold new_from_text. pose proof (C12_total_and_complete U H vm reads t Hs) as Htot. pose proof (C11_only_texts_are_accepted U H vm reads t) as Hon.
    destruct (parse_rules_fn vm (rp_new vm t)) as [[[]|e| |] s]; try contradiction; [|reflexivity].
    destruct (Hon s Hs eq_refl) as (rs & pd & Ht & _). destruct (Hno rs Ht).
  - intros rs Ht.
    pose proof (data_wf vm rs) as Hwf. pose proof (data_indices vm rs) as Hix. pose proof (data_described vm rs) as Hdes.
    pose proof (C15_edited_rules H vm _ Hwf Hix) as Hed. pose proof (parsable_edits _ _ Hwf Hix Hdes) as Hpe.
    pose proof (parse_rendering vm reads (supported_reads vm reads Hs) rs t Hd Ht) as E.
    assert (forall s, parse_rules_fn vm (rp_new vm t) = (Ok tt, s) -> enough_for_text fl t -> wf_grammar (rp_pd s) /\ fits_memory (rp_pd s) /\ enough fl (rp_pd s)) as Htd.
    { intros s Es Hfl. destruct (text_data vm reads t s fl Hs Hlen Hfl Es) as (H1 & H2 & H3 & _). auto. }
    unfold new_from_text. rewrite E in *. destruct (edit_rules vm (fold_left (build_rule vm) rs pd_new)) as [pd'|e| |] eqn:Eed; try contradiction.
    2: { split; [discriminate|]. intros _ Hu Hg. destruct (Hpe Hu Hg). discriminate. }
    cbn [rp_pd unwrap obind] in *. pose proof (text_wf vm rs pd' Hed) as Hwf'. destruct (@elements_verbose_ok _ Empty_set pd' Hwf') as (els & -> & _). cbn [obind].
    split.
    + intros Hfl. destruct (Htd _ eq_refl Hfl) as (_ & Hfit & Hen1 & Hen2). cbn [rp_pd] in *.
      pose proof (C21_divergence_is_left_recursion H _ pd' (first_fuel fl) Hwf' Hen1) as Hfd.
      destruct (get_first_sets pd' (first_fuel fl)) as [fs|e| |] eqn:Efs; try discriminate; [|intros _; apply (proj2 (nleft_recursive _ pd' rs Hdes Hed)), Hfd; reflexivity]. cbn [unwrap obind].
      destruct (get_element_nt_index pd' (lit "start")) as [start|]; [|discriminate].
      pose proof (C23_terminates_elements H _ m pd' _ (follow_fuel fl) start fs Hwf' Hfit Efs Hen2) as Hwd.
      destruct (get_follow_sets m pd' (follow_fuel fl) start fs) as [fw|e| |] eqn:Efw; try discriminate; [|congruence]. cbn [unwrap obind].
      destruct (get_steuer_sets fs fw) as [ss|e| |] eqn:Ess.
      * pose proof (get_steuermaps_spec fs fw ss pd' Ess) as Hm. destruct (get_steuermaps fs fw pd'); [discriminate..|contradiction].
      * unfold get_steuermaps. rewrite Ess. discriminate.
      * unfold get_steuermaps. rewrite Ess. discriminate.
      * pose proof (get_steuer_sets_spec fs fw) as Hg. rewrite Ess in Hg. contradiction.
    + intros Hx Hu Hg. destruct (proj1 (nleft_recursive _ pd' rs Hdes Hed) Hx) as [A HA].
      rewrite (C21_left_recursion_diverges H _ pd' A (first_fuel fl) Hwf' (uses_all_defined _ pd' rs Hdes Hed Hu Hg) HA). reflexivity.
Qed.
Print Assumptions C58_failures.

(** ** C62: the command line tool.  [main fl fuel read_file args = Ok tt] is exit status 0. *)
Lemma run_null (rs : list (arule (vm_instr NullVm))) nt v : run_tree rs nt v = Ok v.
Proof.
  unfold run_tree. generalize (npost_order 0 nt) as l. induction l as [|[[i x] k] l IH]; [reflexivity|]. cbn [ofold].
  assert (forall ins, ofold (fun s i0 => let* '(_t, s') := vm_execute NullVm (snd (do_adds (take k (nhistory 0 None nt)) tree_new)) (id_of i) i0 s in Ok s') v ins = Ok v) as ->; [|exact IH].
  induction ins as [|i0 ins IHi]; [reflexivity|exact IHi].
Qed.
(** It ends normally exactly if it gets two readable files, of which the first is a text of
    a parsable grammar and the second has a prefix accepted by it: nothing else is an
    input, and no other failure is silent. *)
Theorem C62_exit_status : forall (U : Unicode) (H : HashOrder) m fl fuel read_file args, tables_disjoint ->
  (forall rules script, args !! 1 ≫= read_file = Some rules -> args !! 2 ≫= read_file = Some script ->
     (N.of_nat (length rules) < 2 ^ 63)%N /\ enough_for_text fl rules /\ (length script + 1) * length rules <= fuel) ->
  (main m fl fuel read_file args = Ok tt <->
   exists rules script rs, args !! 1 ≫= read_file = Some rules /\ args !! 2 ≫= read_file = Some script /\
     grammar_text null_reads rs rules /\ parsable rs /\ exists nt rest, accepts_prefix rs script nt rest).
Proof.
  intros U H m fl fuel read_file args Hd Hen. unfold main.
  destruct (args !! 1) as [rp|]; [|split; [discriminate|intros (? & ? & ? & ? & _); discriminate]].
  destruct (args !! 2) as [sp|]; [|split; [discriminate|intros (? & ? & ? & ? & ? & _); discriminate]]. cbn [mbind option_bind] in *.
  destruct (read_file rp) as [rules|]; [|split; [discriminate|intros (? & ? & ? & ? & _); discriminate]].
  destruct (read_file sp) as [script|]; [|split; [discriminate|intros (? & ? & ? & ? & ? & _); discriminate]].
  destruct (Hen rules script eq_refl eq_refl) as (Hlen & Hfl & Hfuel). assert (supported NullVm null_reads) as Hs by constructor.
  split.
  - intros E. destruct (new_from_text m NullVm fl rules) as [ps|e| |] eqn:Eps; try discriminate. cbn [obind] in E.
    assert (exists rs, grammar_text null_reads rs rules) as [rs Ht].
    { pose proof Eps as Ep. apply new_from_text_ok in Ep as (s & start & els & Es & _). destruct (C11_only_texts_are_accepted U H NullVm null_reads rules s Hs Es) as (rs & _ & Ht & _). eauto. }
    exists rules, script, rs. split; [reflexivity|]. split; [reflexivity|]. split; [assumption|].
    split; [apply (C58_buildable_iff_parsable U H m NullVm null_reads rs rules fl Hs Hd Ht Hlen Hfl); eauto|].
    assert (read_from m NullVm rs rules ps) as Hr by (exists null_reads, fl; auto 10).
    destruct (C61_accepted_scripts U H m NullVm rs rules ps Hr fuel script (vm_new_state NullVm) Hfuel) as (H1 & _).
    destruct (parse NullVm ps fuel script (vm_new_state NullVm)) as [[tr|e| |] v']; try discriminate.
    destruct (proj1 (H1 v')) as (nt & rest & Ha & _); eauto.
  - intros (rules' & script' & rs & [= <-] & [= <-] & Ht & Hp & nt & rest & Ha).
    apply (C58_buildable_iff_parsable U H m NullVm null_reads rs rules fl Hs Hd Ht Hlen Hfl) in Hp as [ps Eps]. rewrite Eps. cbn [obind].
    assert (read_from m NullVm rs rules ps) as Hr by (exists null_reads, fl; auto 10).
    destruct (C61_accepted_scripts U H m NullVm rs rules ps Hr fuel script (vm_new_state NullVm) Hfuel) as (H1 & _).
    destruct (proj2 (H1 (vm_new_state NullVm))) as [tr ->]; [|reflexivity]. exists nt, rest. split; [assumption|]. apply run_null.
Qed.
Print Assumptions C62_exit_status.
(** In particular: exit status 0 for every sentence; for grammars without empty texts exactly
    for the scripts that begin with a sentence; and the only other outcomes are a panic and,
    for a left-recursive grammar, a stack overflow. *)
Theorem C62_sentences : forall (U : Unicode) (H : HashOrder) m fl fuel read_file prog rp sp more rules script rs, tables_disjoint ->
  read_file rp = Some rules -> read_file sp = Some script -> grammar_text null_reads rs rules ->
  (N.of_nat (length rules) < 2 ^ 63)%N -> enough_for_text fl rules -> (length script + 1) * length rules <= fuel ->
  let result := main m fl fuel read_file (prog :: rp :: sp :: more) in
  (parsable rs -> sentence rs script -> result = Ok tt) /\
  (parsable rs -> no_empty_texts rs -> result = Ok tt <-> exists s rest, script = s ++ rest /\ sentence rs s) /\
  (result = Ok tt -> exists s rest, script = s ++ rest /\ sentence rs s) /\
  (result = Ok tt \/ result = Panic \/ (result = Diverge /\ exists x, left_recursive_name rs x)) /\
  ((exists x, left_recursive_name rs x) -> result <> Ok tt).
Proof.
  intros U H m fl fuel read_file prog rp sp more rules script rs Hd Er Es Ht Hlen Hfl Hfuel result.
  assert (supported NullVm null_reads) as Hs by constructor.
  pose proof (C58_buildable_iff_parsable U H m NullVm null_reads rs rules fl Hs Hd Ht Hlen Hfl) as Hbuild.
  assert (result = let* parser := new_from_text m NullVm fl rules in let* _graph := unwrap (fst (parse NullVm parser fuel script (vm_new_state NullVm))) in Ok tt) as Eres.
  { unfold result, main. cbn. rewrite Er, Es. reflexivity. }
  assert (forall ps, new_from_text m NullVm fl rules = Ok ps -> read_from m NullVm rs rules ps) as Hread by (intros ps Eps; exists null_reads, fl; auto 10).
  assert (forall nt rest, parsable rs -> accepts_prefix rs script nt rest -> result = Ok tt) as Hacc.
  { intros nt rest Hp Ha. apply Hbuild in Hp as [ps Eps]. rewrite Eres, Eps. cbn [obind].
    destruct (C61_accepted_scripts U H m NullVm rs rules ps (Hread ps Eps) fuel script (vm_new_state NullVm) Hfuel) as (H1 & _).
    destruct (proj2 (H1 (vm_new_state NullVm))) as [tr ->]; [|reflexivity]. exists nt, rest. split; [assumption|]. apply run_null. }
  assert (result = Ok tt -> exists s rest, script = s ++ rest /\ sentence rs s) as Hok.
  { rewrite Eres. intros E. destruct (new_from_text m NullVm fl rules) as [ps|e| |] eqn:Eps; try discriminate. cbn [obind] in E.
    destruct (parse NullVm ps fuel script (vm_new_state NullVm)) as [[tr|e| |] v'] eqn:Ep; try discriminate.
    destruct (C57_only_sentences U H m NullVm rs rules ps (Hread ps eq_refl) fuel script _ tr v' Ep) as (nt & rest & N1 & N2 & N3 & _).
    exists (nyield nt), rest. split; [assumption|]. exists nt. auto. }
  split; [|split; [|split; [assumption|split]]].
  - intros Hp (nt & N1 & N2 & N3). apply Hbuild in Hp as [ps Eps]. rewrite Eres, Eps. cbn [obind].
    pose proof (C57_sentences_are_parsed U H m NullVm rs rules ps (Hread ps Eps) nt (vm_new_state NullVm) fuel N1 N2) as Hp. rewrite run_null, N3 in Hp.
    destruct (Hp Hfuel) as (tr & -> & _). reflexivity.
  - intros Hp Hne. split; [assumption|]. intros (s & rest & E & nt & N1 & N2 & <-). apply (Hacc nt rest Hp).
    repeat split; auto. intros y w He. exfalso. eapply no_empty_ends; eassumption.
  - destruct (C58_failures U H m NullVm null_reads rules fl Hs Hd Hlen) as [_ Hf]. destruct (Hf rs Ht) as [Hnd _]. specialize (Hnd Hfl). rewrite Eres.
    destruct (new_from_text m NullVm fl rules) as [ps|e| |]; [|destruct e|auto|right; right; auto]. cbn [obind].
    destruct (C61_accepted_scripts U H m NullVm rs rules ps (Hread ps eq_refl) fuel script (vm_new_state NullVm) Hfuel) as (_ & _ & _ & H4 & _).
    destruct (fst (parse NullVm ps fuel script (vm_new_state NullVm))); cbn; auto. congruence.
  - intros [x Hx] E. assert (exists ps, new_from_text m NullVm fl rules = Ok ps) as Hex.
    { rewrite Eres in E. destruct (new_from_text m NullVm fl rules); try discriminate. eauto. }
    apply Hbuild in Hex. exact (pa_no_left_recursion rs Hex x Hx).
Qed.
Print Assumptions C62_sentences.

(** ** Non-vacuity: the grammar without empty texts of C59, and a grammar where what follows
    decides: the sentence "a" is accepted, but not in front of "c". *)
Section example.
Local Existing Instance ascii_unicode.
Local Existing Instance plain_order.
Notation T := Terminal.
Notation NT := NonTerminal.
Ltac name := split; [reflexivity|repeat constructor].
Ltac plain := let r := fresh in let Hr := fresh in intros r Hr; repeat (apply elem_of_cons in Hr as [->|Hr]; [reflexivity|]); inversion Hr.
Lemma nx_read : exists ps, read_from Checked NullVm nx_rules nx_text ps.
Proof. destruct C59_example as (ps & Hr & _). exists ps. exact Hr. Qed.
Lemma nx_parsable : parsable nx_rules.
Proof.
  destruct nx_read as (ps & reads & fl & Hs & Hd & Ht & Hlen & Hfl & Hps).
  apply (C58_buildable_iff_parsable _ plain_order Checked NullVm reads nx_rules nx_text fl Hs Hd Ht Hlen Hfl). exists ps. exact Hps.
Qed.
Definition files (f : str) : option str :=
  if bool_decide (f = lit "rules.txt") then Some nx_text else if bool_decide (f = lit "script.txt") then Some (lit "xbbac") else None.
Notation run := (main Checked (mkFuels 60 2200) 2000 files).
Example C62_example : run [lit "prog"; lit "rules.txt"; lit "script.txt"] = Ok tt /\
  run [lit "prog"; lit "rules.txt"; lit "rules.txt"] = Panic /\ run [lit "prog"; lit "rules.txt"] = Panic /\
  parsable nx_rules /\ no_empty_texts nx_rules /\ sentence nx_rules (lit "xbba").
Proof.
  split; [vm_compute; reflexivity|]. split; [vm_compute; reflexivity|]. split; [vm_compute; reflexivity|]. split; [apply nx_parsable|].
  split; [apply no_empty_by_heads; [plain|repeat constructor]|].
  assert (forall s nt, nderivation nx_rules nt -> nroot nt = (lit "num", NonTerminal) -> nyield nt = s -> derives_text nx_rules (lit "num") (98%N :: s)) as Hb.
  { intros s nt Hn Hr Hy. exists (NNode (lit "num") [NLeaf (lit "b"); nt]). split; [|split; [reflexivity|cbn; rewrite app_nil_r, Hy; reflexivity]].
    apply (nder_node _ _ 1); [apply plain_says; [plain|cbn [map]; rewrite Hr; reflexivity]|]. apply Forall_cons; split; [apply leaf_derives|apply Forall_cons; split; [assumption|constructor]]. }
  destruct (Hb (lit "a") _ nx_num eq_refl eq_refl) as (n1 & N1 & R1 & Y1). destruct (Hb _ _ N1 R1 Y1) as (n2 & N2 & R2 & Y2).
  exists (NNode (lit "start") [NLeaf (lit "x"); n2]). split; [|split; [reflexivity|cbn; rewrite app_nil_r, Y2; reflexivity]].
  apply (nder_node _ _ 0); [apply plain_says; [plain|cbn [map]; rewrite R2; reflexivity]|]. apply Forall_cons; split; [apply leaf_derives|apply Forall_cons; split; [assumption|constructor]].
Qed.
Definition tx_rules : list (arule (vm_instr NullVm)) :=
  [mkARule (lit "start") OvAbsent [[(lit "a", T); (lit "tail", NT)]] []; mkARule (lit "tail") OvAbsent [[(lit "b", T); (lit "tail", NT)]; []] []].
Definition tx_text : str := lit "start->""a""tail;tail->""b""tail|#;".
Lemma tx_text_ok : grammar_text null_reads tx_rules tx_text.
Proof.
  apply (gr_cons null_reads _ (lit "start->""a""tail;") [] _ (lit "tail->""b""tail|#;")); [constructor| |].
  - apply (rule_intro null_reads (mkARule (lit "start") OvAbsent [[(lit "a", T); (lit "tail", NT)]] []) [] [] [] [] [] [] (lit """a""tail") []); try (constructor; fail); try name.
    apply alts_one, alt_elements, (els_cons _ (lit """a""") [] _ (lit "tail")); [apply one_quoted; discriminate|constructor|apply els_one, el_name; name|discriminate].
  - apply (gr_cons null_reads _ (lit "tail->""b""tail|#;") [] _ []); [constructor| |apply gr_end; constructor].
    apply (rule_intro null_reads (mkARule (lit "tail") OvAbsent [[(lit "b", T); (lit "tail", NT)]; []] []) [] [] [] [] [] [] (lit """b""tail|#") []); try (constructor; fail); try name.
    apply (alts_cons _ (lit """b""tail") [] [] _ (lit "#")); [|constructor..|apply alts_one, alt_empty].
    apply alt_elements, (els_cons _ (lit """b""") [] _ (lit "tail")); [apply one_quoted; discriminate|constructor|apply els_one, el_name; name|discriminate].
Qed.
Notation tx_parser := (@new_from_text _ plain_order Checked NullVm (mkFuels 60 2200) tx_text).
Definition verdicts (fuel : nat) (r : outcome Empty_set (Parser (vm_instr NullVm))) (yes no : str) : bool :=
  match r with
  | Ok ps => match fst (parse NullVm ps fuel yes 0%N), fst (parse NullVm ps fuel no 0%N) with Ok _, Err _ => true | _, _ => false end
  | _ => false
  end.
Lemma verdicts_ok fuel r yes no : verdicts fuel r yes no = true -> exists ps, r = Ok ps /\
  (exists tr v', parse NullVm ps fuel yes 0%N = (Ok tr, v')) /\ exists e, fst (parse NullVm ps fuel no 0%N) = Err e.
Proof.
  unfold verdicts. destruct r as [ps| | |]; try discriminate. intros E. exists ps. split; [reflexivity|].
  destruct (parse NullVm ps fuel yes 0%N) as [[tr|e| |] v']; try discriminate. split; [eauto|].
  destruct (fst (parse NullVm ps fuel no 0%N)) as [tr'|e| |]; try discriminate. eauto.
Qed.
Example C61_example : exists ps, read_from Checked NullVm tx_rules tx_text ps /\
  (exists nt rest, accepts_prefix tx_rules (lit "abb") nt rest) /\ (forall nt rest, ~ accepts_prefix tx_rules (lit "abbc") nt rest).
Proof.
  destruct (verdicts_ok 2000 tx_parser (lit "abb") (lit "abbc")) as (ps & Eps & (tr & v' & E1) & E2); [vm_compute; reflexivity|].
  assert (read_from Checked NullVm tx_rules tx_text ps) as Hr.
  { eapply (read_null tx_rules tx_text _ tx_text_ok); [vm_compute; reflexivity| |reflexivity|exact Eps].
    split; cbn [first_fuel follow_fuel]; apply Nat.leb_le || apply Nat.ltb_lt; vm_compute; reflexivity. }
  exists ps. split; [exact Hr|]. clear Eps. split.
  - destruct (C61_accepted_scripts _ plain_order Checked NullVm tx_rules tx_text ps Hr 2000 (lit "abb") 0%N) as (H1 & _);
      [apply Nat.leb_le; vm_compute; reflexivity|]. clear Hr E2. destruct (proj1 (H1 v')) as (nt & rest & Ha & _); [exists tr; exact E1|]. exists nt, rest. exact Ha.
  - destruct (C61_accepted_scripts _ plain_order Checked NullVm tx_rules tx_text ps Hr 2000 (lit "abbc") 0%N) as (_ & _ & H3 & _);
      [apply Nat.leb_le; vm_compute; reflexivity|]. exact (H3 E2).
Qed.
End example.
