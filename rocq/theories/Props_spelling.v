(** * Property theorems: quoted texts cut into pieces (C95) *)
From Verif Require Import Base Peekables Tree Errors Sets ParserData Vm SimpleStackVm StackVm RuleParsing FirstSets FollowSets SteuerMap ScriptParser
  SpecText SpecData SpecGrammar SpecParser SpecTree SpecScript SpecContract SpecWeave SpecRules SpecNames SpecLanguage SpecSyntax SpecExtend SpecNaming SpecCompose SpecAwaits SpecSpelling
  Grammar_proofs Construct_proofs Checks Tree_proofs Script_proofs Parse_proofs
  Weave_proofs Names_proofs RuleBuild_proofs RuleText_proofs Language_proofs Syntax_proofs Start_proofs Naming_proofs Compose_proofs Spelling_proofs
  Props_steuer Props_script Props_weave Props_rules Props_vm Props_names Props_language Props_same Props_start Props_errors Props_main Props_extend Props_compose Props_awaits Samples.

(** ** Acceptance and the texts *)
Theorem C95_accepted : forall (U : Unicode) (H : HashOrder) m (vm : VM) reads rs rs' t t' fl fl', supported vm reads -> tables_disjoint -> same_spelling rs rs' ->
  text_for reads rs t fl -> text_for reads rs' t' fl' -> accepted m vm fl t <-> accepted m vm fl' t'.
Proof.
  intros U H m vm reads rs rs' t t' fl fl' Hs Hd HR T T'. rewrite (text_accepted U H m vm reads Hs Hd _ t fl T), (text_accepted U H m vm reads Hs Hd _ t' fl' T').
  split; apply spelling_parsable; [exact HR|apply sr_symm, HR].
Qed.
Print Assumptions C95_accepted.
Theorem C95_same_texts : forall I (rs rs' : list (arule I)), same_spelling rs rs' -> forall x s, derives_text rs x s <-> derives_text rs' x s.
Proof.
  assert (forall I (rs rs' : list (arule I)), same_spelling rs rs' -> forall x s, derives_text rs x s -> derives_text rs' x s) as A.
  { intros I rs rs' HR x s (t & D & R & <-). destruct (tree_there rs rs' (sr_forth _ _ HR) t D) as (t' & D' & R' & C'). exists t'. split; [assumption|]. split; [congruence|].
    rewrite <- (cut_yield t'), C'. apply cut_yield. }
  intros I rs rs' HR x s. split; apply A; [assumption|apply sr_symm, HR].
Qed.
Print Assumptions C95_same_texts.

(** ** The scripts *)
Lemma prefix_there {I} (rs rs' : list (arule I)) : same_spelling rs rs' -> forall script nt rest, accepts_prefix rs script nt rest -> exists nt', accepts_prefix rs' script nt' rest /\ cut nt' = cut nt.
Proof.
  intros HR script nt rest (D & R & -> & B). pose proof (sr_forth _ _ HR) as F. destruct (tree_there rs rs' F nt D) as (nt' & D' & R' & C'). exists nt'. split; [|assumption].
  split; [assumption|]. split; [congruence|]. split; [f_equal; rewrite <- (cut_yield nt'), C'; symmetry; apply cut_yield|].
  eapply stands_there; [exact F|exact (fun x => proj1 (sr_defined _ _ HR x))|exact C'|exact B].
Qed.
Lemma parse_shows {U : Unicode} {H : HashOrder} m vm rs t ps fuel script v tr v' : read_from m vm rs t ps -> parse vm ps fuel script v = (Ok tr, v') ->
  exists nt rest, accepts_prefix rs script nt rest /\ run_tree rs nt v = Ok v' /\ tree_shows tr nt.
Proof.
  intros Hr Hp. destruct (read_from_vm m vm rs t ps Hr) as [Hk Hret].
  destruct (read_from_built m vm rs t ps Hr) as (pd & pd' & start & fl & Hd & Hed & Hst & Hb & Hsz).
  apply built_spec in Hb as (Hwf & Hcon & Htab). unfold parse in Hp. destruct (parse_run vm ps fuel script v) as [o s1] eqn:E. injection Hp as -> <-.
  pose proof (parse_run_spec vm pd' start ps Hwf Hcon Htab Hk start fuel script v Hst (con_start _ _ Hcon)) as Hs. rewrite E in Hs.
  destruct Hs as (pt & rest & v' & Hpr & -> & -> & Hrun). assert (derivation pd' pt) as Hpt by (eapply pred_sound; exact Hpr).
  exists (named pd' pt), rest. split; [apply (accepts_pred script _ rest Hd Hed Hwf Hcon Hst); eauto|]. rewrite (run_named pd pd' rs Hd Hed pt v Hpt). split; [exact Hrun|].
  apply named_shows. intros path. apply tree_paths.
Qed.
(** The trees differ in how the leaves are cut, the errors in nothing but the order of what
    they list. *)
Definition same_verdict (o o' : outcome ParserError (Tree str)) : Prop :=
  match o, o' with
  | Ok tr, Ok tr' => exists nt nt', tree_shows tr nt /\ tree_shows tr' nt' /\ nyield nt = nyield nt' /\ cut nt = cut nt'
  | Err e, Err e' => same_error e e'
  | Panic, (Ok _ | Err _ | Panic) | (Ok _ | Err _), Panic => True
  | _, _ => False
  end.
Theorem C95_scripts : forall (U : Unicode) (H H' : HashOrder) m m' (vm : VM) rs rs' t t' ps ps', same_spelling rs rs' ->
  @read_from U H m vm rs t ps -> @read_from U H' m' vm rs' t' ps' ->
  forall fuel fuel' script v v', (length script + 1) * length t <= fuel -> (length script + 1) * length t' <= fuel' ->
  same_verdict (fst (@parse H vm ps fuel script v)) (fst (@parse H' vm ps' fuel' script v')).
Proof.
  intros U H H' m m' vm rs rs' t t' ps ps' HR Hr Hr' fuel fuel' script v v' Hf Hf'.
  destruct (C59_one_reason U H m vm rs t ps Hr script) as [[(nt & rest & Ha)|(before & rest & g & Hst)] Hone].
  - destruct (prefix_there _ _ HR _ _ _ Ha) as (nt' & Ha' & C).
    destruct (C61_accepted_scripts U H m vm rs t ps Hr fuel script v Hf) as (_ & _ & E1 & N1 & U1). destruct (C61_accepted_scripts U H' m' vm rs' t' ps' Hr' fuel' script v' Hf') as (_ & _ & E2 & N2 & U2).
    destruct (@parse H vm ps fuel script v) as [o w] eqn:P1, (@parse H' vm ps' fuel' script v') as [o' w'] eqn:P2. cbn [fst] in *.
    assert (forall e, o <> Err e) as X1 by (intros e ->; eapply E1; [eauto|exact Ha]). assert (forall e, o' <> Err e) as X2 by (intros e ->; eapply E2; [eauto|exact Ha']).
    destruct o as [tr|e| |]; [|destruct (X1 e eq_refl)| |destruct (N1 eq_refl)]; (destruct o' as [tr'|e'| |]; [|destruct (X2 e' eq_refl)| |destruct (N2 eq_refl)]); try exact Logic.I.
    destruct (parse_shows _ _ _ _ _ _ _ _ _ _ Hr P1) as (n1 & r1 & A1 & _ & S1). destruct (parse_shows _ _ _ _ _ _ _ _ _ _ Hr' P2) as (n2 & r2 & A2 & _ & S2).
    destruct (U1 _ _ _ _ A1 Ha) as [-> ->]. destruct (U2 _ _ _ _ A2 Ha') as [-> ->]. exists nt, nt'. split; [assumption|]. split; [assumption|]. split; [|congruence].
    rewrite <- (cut_yield nt), <- (cut_yield nt'), C. reflexivity.
  - pose proof (stops_there _ _ HR _ _ _ _ Hst) as Hst'. destruct (Hone _ _ _ Hst) as (_ & _ & Q1). destruct (C59_one_reason U H' m' vm rs' t' ps' Hr' script) as [_ Hone'].
    destruct (Hone' _ _ _ Hst') as (_ & _ & Q2). specialize (Q1 fuel v Hf). specialize (Q2 fuel' v' Hf').
    destruct (fst (@parse H vm ps fuel script v)) as [tr|e| |], (fst (@parse H' vm ps' fuel' script v')) as [tr'|e'| |]; try contradiction; try exact Logic.I. exact (sp_same_error _ _ HR _ _ _ _ _ Q1 Q2).
Qed.
Print Assumptions C95_scripts.
(** A VM that does not look at the tree is left in the same state. *)
Theorem C95_same_effects : forall (U : Unicode) (H H' : HashOrder) m m' (vm : VM) rs rs' t t' ps ps', same_spelling rs rs' -> tree_blind vm ->
  @read_from U H m vm rs t ps -> @read_from U H' m' vm rs' t' ps' ->
  forall fuel fuel' script v, (length script + 1) * length t <= fuel -> (length script + 1) * length t' <= fuel' ->
  forall v', (exists tr, @parse H vm ps fuel script v = (Ok tr, v')) <-> exists tr, @parse H' vm ps' fuel' script v = (Ok tr, v').
Proof.
  assert (forall vm (rs rs' : list (arule (vm_instr vm))) script v v', tree_blind vm -> same_spelling rs rs' -> (exists nt rest, accepts_prefix rs script nt rest /\ run_tree rs nt v = Ok v') ->
    exists nt rest, accepts_prefix rs' script nt rest /\ run_tree rs' nt v = Ok v') as A.
  { intros vm rs rs' script v v' Hb HR (nt & rest & Ha & Hrun). destruct (prefix_there _ _ HR _ _ _ Ha) as (nt' & Ha' & C). exists nt', rest. split; [assumption|].
    rewrite blind_run in * by assumption. rewrite <- (cut_names nt'), C, cut_names. rewrite <- Hrun. unfold run_names. clear -HR. generalize (names_post nt). intros l. revert v.
    induction l as [|x l IH]; intros v; [reflexivity|]. cbn [ofold]. rewrite <- (sr_instr _ _ HR x). destruct (ofold _ v (instructions_for rs x)); cbn; [apply IH|reflexivity..]. }
  intros U H H' m m' vm rs rs' t t' ps ps' HR Hb Hr Hr' fuel fuel' script v Hf Hf' v'.
  destruct (C61_accepted_scripts U H m vm rs t ps Hr fuel script v Hf) as (E1 & _). destruct (C61_accepted_scripts U H' m' vm rs' t' ps' Hr' fuel' script v Hf') as (E2 & _).
  rewrite E1, E2. split; apply A; auto using sr_symm.
Qed.
Print Assumptions C95_same_effects.

(** ** With an IGNORE override it matters how a text is cut: the ignored texts may stand
    between two quoted texts, not inside one.  [start->$[IGNORE:ws]"a" "b";] accepts [a b],
    [start->$[IGNORE:ws]"ab";] does not. *)
Section example.
Local Existing Instance ascii_unicode.
Local Existing Instance plain_order.
Definition ws_rule : arule (vm_instr NullVm) := mkARule (lit "ws") OvAbsent [[(lit " ", Terminal)]; []] [].
Definition ab_rules : list (arule (vm_instr NullVm)) := [mkARule (lit "start") (OvIgnore (lit "ws")) [[(lit "ab", Terminal)]] []; ws_rule].
Definition ab_text : str := lit "start->$[IGNORE:ws]""ab"";ws->"" ""|#;".
Lemma ab_quoted : element_text (lit "ab", Terminal) (lit """ab""").
Proof. apply (el_quoted (lit "ab")). apply qb_plain; [discriminate|discriminate|]. apply qb_plain; auto using qb_nil; discriminate. Qed.
Lemma ab_text_ok : grammar_text null_reads ab_rules ab_text.
Proof.
  apply (gr_cons null_reads _ (lit "start->$[IGNORE:ws]""ab"";") [] _ (lit "ws->"" ""|#;")); [constructor| |].
  - apply (rule_intro null_reads (mkARule (lit "start") (OvIgnore (lit "ws")) [[(lit "ab", Terminal)]] []) [] [] [] [] []
      (lit "$[IGNORE:ws]") (lit """ab""") []); try (constructor; fail); try (split; [reflexivity|repeat constructor]).
    + apply (ov_ignore [] (lit "ws")); [constructor|]. split; [reflexivity|repeat constructor].
    + apply alts_one, alt_elements, els_one, ab_quoted.
  - apply (gr_cons null_reads _ (lit "ws->"" ""|#;") [] _ []); [constructor| |apply gr_end; constructor].
    apply (rule_intro null_reads ws_rule [] [] [] [] []
      [] (lit """ ""|#") []); try (constructor; fail); try (split; [reflexivity|repeat constructor]).
    apply (alts_cons _ (lit """ """) [] [] _ (lit "#")); [apply alt_elements, els_one, one_quoted; discriminate|constructor..|apply alts_one, alt_empty].
Qed.
Notation made t := (new_from_text Checked NullVm (mkFuels 60 2200) t).
Theorem C95_ignored_refuted :
  Forall2 (fun r r' => ar_name r = ar_name r' /\ ar_override r = ar_override r' /\ map spelled (ar_alts r) = map spelled (ar_alts r') /\ ar_instr r = ar_instr r') ig_rules ab_rules /\
  grammar_text null_reads ig_rules ig_text /\ grammar_text null_reads ab_rules ab_text /\
  (exists ps, made ig_text = Ok ps /\ (exists tr v', parse NullVm ps 400 (lit "a b") 0%N = (Ok tr, v')) /\ exists e, fst (parse NullVm ps 400 (lit "b") 0%N) = Err e) /\
  (exists ps, made ab_text = Ok ps /\ (exists tr v', parse NullVm ps 400 (lit "ab") 0%N = (Ok tr, v')) /\ exists e, fst (parse NullVm ps 400 (lit "a b") 0%N) = Err e).
Proof.
  split; [repeat (constructor; [repeat split|]); constructor|]. split; [apply ig_text_ok|]. split; [apply ab_text_ok|]. split; apply verdicts_ok; vm_compute; reflexivity.
Qed.
(** ** Non-vacuity: [start->"ab""c"|"d";] and [start->"a""bc"|"d";]. *)
Definition cut_rules (s s' : str) : list (arule (vm_instr NullVm)) := [mkARule (lit "start") OvAbsent [[(s, Terminal); (s', Terminal)]; [(lit "d", Terminal)]] []].
Definition ab_c : str := lit "start->""ab""""c""|""d"";".
Definition a_bc : str := lit "start->""a""""bc""|""d"";".
Lemma cut_text_ok s s' q q' : element_text (s, Terminal) q -> element_text (s', Terminal) q' -> grammar_text null_reads (cut_rules s s') (lit "start->" ++ q ++ q' ++ lit "|""d"";").
Proof.
  intros Hq Hq'. pose proof (gr_cons null_reads (mkARule (lit "start") OvAbsent [[(s, Terminal); (s', Terminal)]; [(lit "d", Terminal)]] []) (lit "start->" ++ q ++ q' ++ lit "|""d"";") [] [] []) as G. cbn [app] in G. rewrite app_nil_r in G. apply G; [constructor| |apply gr_end; constructor]. clear G.
  pose proof (rule_intro null_reads (mkARule (lit "start") OvAbsent [[(s, Terminal); (s', Terminal)]; [(lit "d", Terminal)]] []) [] [] [] [] [] [] (q ++ q' ++ lit "|""d""") []) as R.
  cbn [ar_name app] in R. rewrite <- !app_assoc in R. apply R; try (constructor; fail); [split; [reflexivity|repeat constructor]|]. clear R.
  rewrite (app_assoc q q'). apply (alts_cons _ (q ++ q') [] [] _ (lit """d""")); [|constructor..|apply alts_one, alt_elements, els_one, one_quoted; discriminate].
  apply alt_elements. apply (els_cons _ q [] _ q'); [exact Hq|constructor|apply els_one, Hq'|intros E; discriminate E].
Qed.
Ltac fits := split; cbn [first_fuel follow_fuel]; apply Nat.leb_le || apply Nat.ltb_lt; vm_compute; reflexivity.
Example C95_example : same_spelling (cut_rules (lit "ab") (lit "c")) (cut_rules (lit "a") (lit "bc")) /\ tree_blind NullVm /\
  text_for null_reads (cut_rules (lit "ab") (lit "c")) ab_c (mkFuels 60 2200) /\ text_for null_reads (cut_rules (lit "a") (lit "bc")) a_bc (mkFuels 60 2200) /\
  (exists ps, made ab_c = Ok ps /\ (exists tr v', parse NullVm ps 400 (lit "abc") 0%N = (Ok tr, v')) /\ exists e, fst (parse NullVm ps 400 (lit "abd") 0%N) = Err e) /\
  (exists ps, made a_bc = Ok ps /\ (exists tr v', parse NullVm ps 400 (lit "abc") 0%N = (Ok tr, v')) /\ exists e, fst (parse NullVm ps 400 (lit "abd") 0%N) = Err e).
Proof.
  split; [split; [repeat (constructor; [repeat split|]); constructor|intros r Hr y; apply elem_of_list_singleton in Hr as ->; discriminate]|].
  split; [intros t t' id id' i s; exact eq_refl|].
  split; [split; [apply (cut_text_ok _ _ (lit """ab""") (lit """c""")); [apply ab_quoted|apply one_quoted; discriminate]|split; [reflexivity|fits]]|].
  split; [split; [apply (cut_text_ok _ _ (lit """a""") (lit """bc""")); [apply one_quoted; discriminate|]|split; [reflexivity|fits]]|].
  - apply (el_quoted (lit "bc")). apply qb_plain; [discriminate|discriminate|]. apply qb_plain; auto using qb_nil; discriminate.
  - split; apply verdicts_ok; vm_compute; reflexivity.
Qed.
End example.
Print Assumptions C95_ignored_refuted.
