(** * Property theorems: naming parts of alternatives (C83), and every LL(1) grammar has a
    text that is accepted (C84) *)
From Verif Require Import Base Peekables Tree Errors Sets ParserData Vm SimpleStackVm StackVm RuleParsing FirstSets FollowSets SteuerMap ScriptParser
  SpecText SpecData SpecGrammar SpecParser SpecTree SpecScript SpecContract SpecWeave SpecRules SpecNames SpecLanguage SpecSyntax SpecNaming Grammar_proofs Construct_proofs Checks Tree_proofs Script_proofs Parse_proofs
  Weave_proofs Names_proofs RuleBuild_proofs RuleText_proofs Language_proofs Syntax_proofs Start_proofs Naming_proofs NamingAll_proofs
  Props_steuer Props_script Props_weave Props_rules Props_vm Props_names Props_language Props_start Samples.

(** ** C83.  The names of the original grammar stand for the same texts. *)
Theorem C83_same_texts : forall (I : Type) part (rs rs' : list (arule I)), parts_named part rs rs' ->
  (forall x s, part x = None -> derives_text rs' x s <-> derives_text rs x s) /\ (forall s, sentence rs' s <-> sentence rs s).
Proof.
  intros I part rs rs' Hp. split; [intros x s Hx; eapply named_derives_text; eassumption|]. intros s. eapply named_derives_text; [eassumption|apply (pn_start _ _ _ Hp)].
Qed.
Print Assumptions C83_same_texts.
(** If each new name is used in one place, the text with the parts named is accepted when
    the original is. *)
Theorem C83_accepted : forall (U : Unicode) (H H' : HashOrder) m m' (vm : VM) reads fl fl' part rs rs' t t' ps, supported vm reads -> tables_disjoint ->
  grammar_text reads rs t -> (N.of_nat (length t) < 2 ^ 63)%N -> enough_for_text fl t -> @new_from_text U H m vm fl t = Ok ps ->
  grammar_text reads rs' t' -> (N.of_nat (length t') < 2 ^ 63)%N -> enough_for_text fl' t' ->
  parts_named part rs rs' -> used_once part rs' -> parts_begin part -> (forall x y, ignores rs' x y -> defined rs' y) ->
  exists ps', @new_from_text U H' m' vm fl' t' = Ok ps'.
Proof.
  intros U H H' m m' vm reads fl fl' part rs rs' t t' ps Hs Hd Ht Hlen Hfl Hps Ht' Hlen' Hfl' Hp Hu Hb Hi.
  apply (C58_buildable_iff_parsable U H' m' vm reads _ t' fl' Hs Hd Ht' Hlen' Hfl'). eapply named_parsable; [eassumption..| |assumption|assumption].
  apply (C58_buildable_iff_parsable U H m vm reads rs t fl Hs Hd Ht Hlen Hfl); eauto.
Qed.
Print Assumptions C83_accepted.
(** Two parsers, one for each text: a sentence is parsed by both, and the trees differ only
    in the nodes of the new names. *)
Theorem C83_trees : forall (U : Unicode) (H H' : HashOrder) m m' (vm : VM) part rs rs' t t' ps ps',
  @read_from U H m vm rs t ps -> @read_from U H' m' vm rs' t' ps' -> parts_named part rs rs' ->
  forall s v fuel fuel', sentence rs s -> (length s + 1) * length t <= fuel -> (length s + 1) * length t' <= fuel' ->
  exists nt nt', nderivation rs nt /\ nroot nt = (lit "start", NonTerminal) /\ nyield nt = s /\ nyield nt' = s /\ without_new part nt' = [nt] /\
    match run_tree rs nt v with
    | Ok v' => exists tr, @parse H vm ps fuel s v = (Ok tr, v') /\ tree_shows tr nt
    | _ => fst (@parse H vm ps fuel s v) = Panic
    end /\
    match run_tree rs' nt' v with
    | Ok v' => exists tr, @parse H' vm ps' fuel' s v = (Ok tr, v') /\ tree_shows tr nt'
    | _ => fst (@parse H' vm ps' fuel' s v) = Panic
    end.
Proof.
  intros U H H' m m' vm part rs rs' t t' ps ps' Hr Hr' Hp s v fuel fuel' (nt & Hnt & Hroot & Hy) Hfuel Hfuel'.
  destruct (tree_named part rs rs' Hp nt Hnt) as (nt' & Hnt' & Hroot' & _ & Hw).
  assert (nyield nt' = s) as Hy'. { rewrite <- (wn_yield part nt'), Hw. cbn. rewrite app_nil_r. exact Hy. }
  exists nt, nt'. repeat (split; [assumption|]). split.
  - pose proof (C57_sentences_are_parsed U H m vm rs t ps Hr nt v fuel Hnt Hroot) as Hc. rewrite Hy in Hc. apply Hc. assumption.
  - pose proof (C57_sentences_are_parsed U H' m' vm rs' t' ps' Hr' nt' v fuel' Hnt') as Hc. rewrite Hy' in Hc. apply Hc; [congruence|assumption].
Qed.
Print Assumptions C83_trees.
(** And whatever the parser with the named parts accepts is a sentence of the original. *)
Theorem C83_only_sentences : forall (U : Unicode) (H : HashOrder) m (vm : VM) part rs rs' t' ps', read_from m vm rs' t' ps' -> parts_named part rs rs' ->
  forall fuel script v tr v', parse vm ps' fuel script v = (Ok tr, v') ->
  exists nt nt' rest, script = nyield nt ++ rest /\ nderivation rs nt /\ nroot nt = (lit "start", NonTerminal) /\
    tree_shows tr nt' /\ without_new part nt' = [nt] /\ run_tree rs' nt' v = Ok v'.
Proof.
  intros U H m vm part rs rs' t' ps' Hr Hp fuel script v tr v' E.
  destruct (C57_only_sentences U H m vm rs' t' ps' Hr fuel script v tr v' E) as (nt' & rest & N1 & N2 & N3 & N4 & N5).
  destruct (old_tree part rs rs' Hp nt' N1) as (nt & T1 & T2 & T3 & T4).
  { rewrite N2. apply (start_old part rs rs' Hp). }
  exists nt, nt', rest. rewrite T4. repeat (split; [assumption|]). split; [congruence|]. auto.
Qed.
Print Assumptions C83_only_sentences.
(** VMs whose instructions do not look at the tree (NullVm and CountingVm) end in the same
    state, if the old names keep their instructions and the new ones have none. *)
Theorem C83_same_effects : forall (U : Unicode) (H H' : HashOrder) m m' (vm : VM) part rs rs' t t' ps ps',
  @read_from U H m vm rs t ps -> @read_from U H' m' vm rs' t' ps' -> parts_named part rs rs' -> tree_blind vm ->
  (forall x, part x = None -> instructions_for rs' x = instructions_for rs x) -> (forall n u, part n = Some u -> instructions_for rs' n = []) ->
  forall s v fuel fuel', sentence rs s -> (length s + 1) * length t <= fuel -> (length s + 1) * length t' <= fuel' ->
  forall v', (exists tr, @parse H vm ps fuel s v = (Ok tr, v')) <-> (exists tr, @parse H' vm ps' fuel' s v = (Ok tr, v')).
Proof.
  intros U H H' m m' vm part rs rs' t t' ps ps' Hr Hr' Hp Hb Ho Hn s v fuel fuel' Hsen Hfuel Hfuel' v'.
  destruct (C83_trees U H H' m m' vm part rs rs' t t' ps ps' Hr Hr' Hp s v fuel fuel' Hsen Hfuel Hfuel') as (nt & nt' & _ & _ & _ & _ & Hw & H1 & H2).
  rewrite (same_actions Hb part rs rs' nt nt' v Ho Hn Hw) in H2.
  destruct (run_tree rs nt v) as [v1| | |].
  - destruct H1 as (tr & -> & _), H2 as (tr' & -> & _). split; intros (? & [= _ ->]); eauto.
  - split; intros (? & E); [rewrite E in H1|rewrite E in H2]; discriminate.
  - split; intros (? & E); [rewrite E in H1|rewrite E in H2]; discriminate.
  - split; intros (? & E); [rewrite E in H1|rewrite E in H2]; discriminate.
Qed.
Print Assumptions C83_same_effects.
Theorem C83_blind_vms : tree_blind NullVm /\ forall m, tree_blind (CountingVm m).
Proof.
  split; [intros t t' id id' i s; reflexivity|]. intros m t t' id id' i s. cbn [vm_execute CountingVm]. unfold counting_execute.
  destruct (usize_result _ _) as [x|[]| |]; cbn; auto.
Qed.
Print Assumptions C83_blind_vms.

(** Writing a name out is not harmless: with the part [A "b"] under the name n the grammar is
    accepted, with the part in its place it is not (see C28). *)
Section refuted.
Local Existing Instance ascii_unicode.
Local Existing Instance plain_order.
Definition named_text : str := lit "start->n|""c""D;n->A""b"";D->A""c"";A->""a""|#;".
Definition written_text : str := lit "start->A""b""|""c""D;D->A""c"";A->""a""|#;".
Theorem C83_writing_out_refuted :
  is_ok (new_from_text Checked NullVm (mkFuels 60 2400) named_text) = true /\
  new_from_text Checked NullVm (mkFuels 60 2400) written_text = Panic.
Proof. split; vm_compute; reflexivity. Qed.
End refuted.
Print Assumptions C83_writing_out_refuted.

(** ** C84.  An LL(1) grammar (in the textbook sense; defined, not left recursive) in which
    the alternatives that begin with something possibly empty have got names is accepted. *)
Theorem C84_named_ll1_accepted : forall (U : Unicode) (H : HashOrder) m (vm : VM) reads fl part rs rs' t', supported vm reads -> tables_disjoint ->
  grammar_text reads rs' t' -> (N.of_nat (length t') < 2 ^ 63)%N -> enough_for_text fl t' ->
  ll1 rs -> defined rs (lit "start") -> (forall x y, uses rs x y -> defined rs y) -> (forall x y, ignores rs x y -> defined rs y) ->
  (forall x, ~ left_recursive_name rs x) -> (forall x i w, says rs x i w -> head w <> Some ([], Terminal)) ->
  parts_named part rs rs' -> used_once part rs' -> parts_begin part -> nullable_starts_named part rs rs' -> (forall x y, ignores rs' x y -> defined rs' y) ->
  exists ps, new_from_text m vm fl t' = Ok ps.
Proof.
  intros U H m vm reads fl part rs rs' t' Hs Hd Ht' Hlen' Hfl' Hll Hst Hu Hi Hlr He Hp Hon Hb Hns Hi'.
  apply (C58_buildable_iff_parsable U H m vm reads rs' t' fl Hs Hd Ht' Hlen' Hfl'). eapply ll1_named_parsable; eassumption.
Qed.
Print Assumptions C84_named_ll1_accepted.

(** Conversely only LL(1) grammars are accepted (C27, by names). *)
Theorem C84_accepted_is_ll1 : forall (U : Unicode) (H : HashOrder) m (vm : VM) rs t ps, read_from m vm rs t ps -> ll1 rs.
Proof.
  intros U H m vm rs t ps (reads & fl & Hs & Hd & Ht & Hlen & Hfl & Hps). assert (parsable rs) as Hp by (apply (C58_buildable_iff_parsable U H m vm reads rs t fl Hs Hd Ht Hlen Hfl); eauto).
  intros x i j w w' a H1 H2 Hij S1 S2. apply (pa_distinct _ Hp x i j w w' a H1 H2 Hij); eapply nselect_nchoose; eassumption.
Qed.
Print Assumptions C84_accepted_is_ll1.

(** In particular every such grammar (here: without IGNORE) has an accepted text with the
    same sentences: give each alternative a name of its own. *)
Section fresh.
Context {I : Type}.
Definition name_bound (rs : list (arule I)) : nat :=
  list_max (map (fun r => Nat.max (length (ar_name r)) (list_max (map (fun w => list_max (map (fun e => length e.1) w)) (ar_alts r)))) rs).
Lemma list_max_in {A} (f : A -> nat) l a : a ∈ l -> f a <= list_max (map f l).
Proof.
  induction 1 as [a l|a b l _ IH].
  - change (f a <= Nat.max (f a) (list_max (map f l))). lia.
  - change (f a <= Nat.max (f b) (list_max (map f l))). lia.
Qed.
Lemma bound_name rs r : r ∈ rs -> length (ar_name r) <= name_bound rs.
Proof. intros Hr. unfold name_bound. etransitivity; [|apply (list_max_in (fun r => Nat.max (length (ar_name r)) _) rs r Hr)]. lia. Qed.
Lemma bound_element rs r w e : r ∈ rs -> w ∈ ar_alts r -> e ∈ w -> length e.1 <= name_bound rs.
Proof.
  intros Hr Hw He. unfold name_bound. etransitivity; [|apply (list_max_in _ rs r Hr)]. cbn beta.
  pose proof (list_max_in (fun w : list (str * ElementType) => list_max (map (fun e => length e.1) w)) _ w Hw) as H1.
  pose proof (list_max_in (fun e : str * ElementType => length e.1) _ e He) as H2. cbn beta in *. lia.
Qed.
(** s, st, stt, ... from some length on. *)
Definition st_name (rs : list (arule I)) (k : nat) : str := 115%N :: replicate (name_bound rs + 5 + k) 116%N.
Lemma st_fresh rs : fresh_names (st_name rs) rs.
Proof.
  split.
  - intros i j E. apply (f_equal length) in E. cbn in E. rewrite !replicate_length in E. lia.
  - intros i. assert (length (st_name rs i) = S (name_bound rs + 5 + i)) as Hl by (cbn; rewrite replicate_length; reflexivity).
    split; [intros E; rewrite E in Hl; cbn in Hl; lia|]. intros r Hr. split.
    + intros E. rewrite E in Hl. pose proof (bound_name rs r Hr). lia.
    + intros w Hw He. pose proof (bound_element rs r w _ Hr Hw He) as Hb. cbn [fst] in Hb. lia.
Qed.
End fresh.
Section named_texts.
Context {U : Unicode} {I : Type} (reads : str -> str -> list I -> Prop) (new : nat -> str) (Hnew : forall k, valid_name (new k)).
Lemma names_text (l : list (str * list (str * ElementType))) : l <> [] -> (forall p, p ∈ l -> valid_name p.1) ->
  exists t, alternatives_text (map (fun p => [(p.1, NonTerminal)]) l) t.
Proof.
  induction l as [|p l IH]; [congruence|]. intros _ Hv. assert (alternative_text [(p.1, NonTerminal)] p.1) as Ha by (apply alt_elements, els_one, el_name, Hv; left).
  destruct l as [|q l]; [exists p.1; apply alts_one; assumption|]. destruct IH as [t Ht]; [discriminate|intros r Hr; apply Hv; right; assumption|].
  eexists. apply (alts_cons _ p.1 [] [] _ t Ha); [constructor..|exact Ht].
Qed.
Lemma each_alternative alts t : alternatives_text alts t -> forall a, a ∈ alts -> exists ta, alternative_text a ta.
Proof.
  induction 1 as [a t Ha|a t l l' rest t' Ha _ _ _ IH]; intros b Hb; apply elem_of_cons in Hb as [->|Hb]; eauto. apply elem_of_nil in Hb. contradiction.
Qed.
Lemma singles_text (l : list (str * list (str * ElementType))) rs t : (forall p, p ∈ l -> valid_name p.1 /\ exists ta, alternative_text p.2 ta) -> grammar_text reads rs t ->
  exists t', grammar_text reads (map (fun p => mkARule p.1 OvAbsent [p.2] []) l ++ rs) t'.
Proof.
  intros Hl Ht. induction l as [|p l IH]; [exists t; assumption|]. destruct IH as [t1 Ht1]; [intros q Hq; apply Hl; right; assumption|].
  destruct (Hl p) as (Hv & ta & Hta); [left|]. eexists. cbn [map app]. eapply (gr_cons reads _ _ []); [constructor| |exact Ht1].
  apply (rule_intro reads (mkARule p.1 OvAbsent [p.2] []) [] [] [] [] [] [] ta []); try constructor; assumption.
Qed.
Lemma numbered_elem c alts p : p ∈ numbered new c alts -> valid_name p.1 /\ p.2 ∈ alts.
Proof.
  unfold numbered. intros Hp. apply elem_of_lookup_imap in Hp as (j & w & -> & Hw). split; [apply Hnew|]. cbn. eapply elem_of_list_lookup_2; eassumption.
Qed.
Lemma all_named_text rs t : grammar_text reads rs t -> forall c, exists t', grammar_text reads (all_named new c rs) t'.
Proof.
  induction 1 as [l Hl|r t l rs t' Hl Hr _ IH]; intros c; [exists l; constructor; assumption|]. destruct (IH (c + length (ar_alts r))) as [t1 Ht1]. cbn [all_named].
  destruct Hr as [l1 l2 l3 l4 l5 to ta ts Hv Hov Halt Hsec B1 B2 B3 B4 B5].
  destruct (singles_text (numbered new c (ar_alts r)) (all_named new (c + length (ar_alts r)) rs) t1) as [t2 Ht2]; [|exact Ht1|].
  { intros p Hp. apply numbered_elem in Hp as [H1 H2]. split; [assumption|]. eapply each_alternative; eassumption. }
  destruct (names_text (numbered new c (ar_alts r))) as [ta' Hta'].
  { destruct Halt; discriminate. }
  { intros p Hp. eapply numbered_elem; eassumption. }
  eexists. eapply (gr_cons reads _ _ []); [constructor| |exact Ht2].
  apply (rule_intro reads (mkARule (ar_name r) (ar_override r) (map (fun p => [(p.1, NonTerminal)]) (numbered new c (ar_alts r))) (ar_instr r)) [] [] [] [] [] to ta' ts); try (constructor; fail); assumption.
Qed.
End named_texts.
Lemma start_name_valid {U : Unicode} {I} (reads : str -> str -> list I -> Prop) rs t : grammar_text reads rs t -> defined rs (lit "start") -> valid_name (lit "start").
Proof.
  intros Ht Hd. unfold defined in Hd. destruct (rules_for (lit "start") rs) as [|r more] eqn:Er; [congruence|].
  assert (r ∈ rules_for (lit "start") rs) as Hin by (rewrite Er; left). unfold rules_for in Hin. apply elem_of_list_filter in Hin as [E Hin]. rewrite <- E. clear Er Hd E.
  induction Ht as [|r0 t0 l rs t' _ Hr _ IH]; [apply elem_of_nil in Hin; contradiction|]. apply elem_of_cons in Hin as [->|Hin]; [destruct Hr; assumption|apply IH; assumption].
Qed.
Theorem C84_every_ll1_grammar : forall (U : Unicode) (H : HashOrder) m (vm : VM) reads rs t, supported vm reads -> tables_disjoint ->
  grammar_text reads rs t -> no_ignore rs -> ll1 rs -> defined rs (lit "start") -> (forall x y, uses rs x y -> defined rs y) ->
  (forall x, ~ left_recursive_name rs x) -> (forall x i w, says rs x i w -> head w <> Some ([], Terminal)) ->
  exists rs' t', grammar_text reads rs' t' /\ (forall s, sentence rs' s <-> sentence rs s) /\
    (exists part, parts_named part rs rs' /\ (forall x, part x = None -> instructions_for rs' x = instructions_for rs x) /\ (forall n u, part n = Some u -> instructions_for rs' n = [])) /\
    forall fl, (N.of_nat (length t') < 2 ^ 63)%N -> enough_for_text fl t' -> exists ps, new_from_text m vm fl t' = Ok ps.
Proof.
  intros U H m vm reads rs t Hs Hd Ht Hno Hll Hst Hu Hlr He. pose proof (start_name_valid reads rs t Ht Hst) as Hv. pose proof (st_fresh rs) as Hf.
  destruct (all_named_text reads (st_name rs)) with (rs := rs) (t := t) (c := 0) as [t' Ht']; [|exact Ht|].
  { intros k. destruct Hv as [Hv1 Hv2]. split; [exact Hv1|]. apply Forall_replicate. apply Forall_cons in Hv2. apply Hv2. }
  pose proof (all_parts_named (st_name rs) rs Hf Hno) as Hp. exists (all_named (st_name rs) 0 rs), t'. split; [assumption|]. split; [apply (C83_same_texts _ _ _ _ Hp)|]. split.
  { exists (alternative_named (st_name rs) rs). split; [exact Hp|]. split; [apply all_instr_old; assumption|apply all_instr_new; assumption]. }
  intros fl Hlen Hfl. eapply (C84_named_ll1_accepted U H m vm reads fl (alternative_named (st_name rs) rs) rs); try eassumption.
  - intros x y Hi. destruct (no_override_ignores rs Hno x y Hi).
  - apply all_used_once; assumption.
  - apply all_parts_begin; assumption.
  - apply all_starts_named; assumption.
  - intros x y Hi. exfalso. eapply no_override_ignores; [|exact Hi]. intros r z. apply named_overrides, Hno.
Qed.
Print Assumptions C84_every_ll1_grammar.

(** The condition is exact: with a new name for every alternative a text is accepted just
    when the grammar is LL(1), with everything defined, no left recursion, and no alternative
    that begins with the empty quoted text. *)
Theorem C84_exact : forall (U : Unicode) (H : HashOrder) m (vm : VM) reads fl new rs t', supported vm reads -> tables_disjoint ->
  no_ignore rs -> fresh_names new rs -> grammar_text reads (all_named new 0 rs) t' -> (N.of_nat (length t') < 2 ^ 63)%N -> enough_for_text fl t' ->
  ((exists ps, new_from_text m vm fl t' = Ok ps) <->
   ll1 rs /\ defined rs (lit "start") /\ (forall x y, uses rs x y -> defined rs y) /\ (forall x, ~ left_recursive_name rs x) /\
   (forall x i w, says rs x i w -> head w <> Some ([], Terminal))).
Proof.
  intros U H m vm reads fl new rs t' Hs Hd Hno Hf Ht' Hlen Hfl. pose proof (all_parts_named new rs Hf Hno) as Hp. pose proof (all_used_once new rs Hf Hno) as Hu.
  rewrite (C58_buildable_iff_parsable U H m vm reads _ t' fl Hs Hd Ht' Hlen Hfl). split.
  - intros Hpa. split; [eapply parsable_ll1; eassumption|]. split; [apply (pn_defined _ _ _ Hp); [apply (pn_start _ _ _ Hp)|apply (pa_start _ Hpa)]|].
    assert (forall x i w, says rs x i w -> exists n, says (all_named new 0 rs) n 0 w /\ uses (all_named new 0 rs) x n) as Hpart.
    { intros x i w Hw. pose proof (says_old_name _ _ _ Hp x i w Hw) as Ex. apply (pn_old _ _ _ Hp x i w Ex) in Hw as (w' & Hw' & ->).
      pose proof Hw' as Hw2. apply (says_alt' new rs Hno) in Hw2. rewrite named_old in Hw2 by (apply part_none; assumption).
      change (((fun p => [(p.1, NonTerminal)]) <$> table_of new 0 x rs) !! i = Some w') in Hw2. rewrite list_lookup_fmap in Hw2.
      destruct (table_of new 0 x rs !! i) as [p|] eqn:Ep; [|discriminate]. cbn in Hw2. injection Hw2 as <-.
      pose proof (table_of_part new rs Hf x p (elem_of_list_lookup_2 _ _ _ Ep)) as En. exists p.1. rewrite (wo_new _ p.1 p.2 [] En), app_nil_r. split.
      - apply (pn_new _ _ _ Hp _ _ En). auto.
      - apply (says_alt' new rs Hno) in Hw'. exists [(p.1, NonTerminal)]. split; [eapply elem_of_list_lookup_2; eassumption|left]. }
    assert (forall x y, ~ ignores rs x y) as Hni by (apply no_override_ignores; assumption).
    split; [|split; [apply (left_recursion_back _ _ _ Hp), (pa_no_left_recursion _ Hpa)|]].
    + intros x y (w & Hw & Hin). apply elem_of_list_lookup in Hw as (i & Hi). apply (says_alt rs Hno) in Hi. pose proof (says_olds _ _ _ Hp x i w Hi) as Ho.
      destruct (Hpart x i w Hi) as (n & Hn & _). apply (pn_defined _ _ _ Hp y); [apply (proj1 (Forall_forall _ _) Ho _ Hin); reflexivity|].
      apply (pa_defined _ Hpa n). exists w. split; [|assumption]. apply (says_alt' new rs Hno) in Hn. eapply elem_of_list_lookup_2; eassumption.
    + intros x i w Hw. destruct (Hpart x i w Hw) as (n & Hn & _). exact (pa_no_empty_terminal _ Hpa n 0 w Hn).
  - intros (Hll & Hst & Hus & Hlr & He). eapply (ll1_named_parsable (alternative_named new rs) rs); try eassumption.
    + intros x y Hi. destruct (no_override_ignores rs Hno x y Hi).
    + apply all_parts_begin; assumption.
    + apply all_starts_named; assumption.
    + intros x y Hi. exfalso. eapply no_override_ignores; [|exact Hi]. intros r z. apply named_overrides, Hno.
Qed.
Print Assumptions C84_exact.

(** ** Non-vacuity: the grammar of [written_text] is LL(1); with a name for each alternative
    it is accepted, without it is not. *)
Section example.
Local Existing Instance ascii_unicode.
Local Existing Instance plain_order.
Definition w_rules : list (arule N) :=
  [mkARule (lit "start") OvAbsent [[(lit "A", NonTerminal); (lit "b", Terminal)]; [(lit "c", Terminal); (lit "D", NonTerminal)]] [];
   mkARule (lit "D") OvAbsent [[(lit "A", NonTerminal); (lit "c", Terminal)]] [];
   mkARule (lit "A") OvAbsent [[(lit "a", Terminal)]; []] []].
Definition n_name (k : nat) : str := 110%N :: replicate k 110%N.
Definition all_text : str := lit "start->n|nn;n->A""b"";nn->""c""D;D->nnn;nnn->A""c"";A->nnnn|nnnnn;nnnn->""a"";nnnnn->#;".
Lemma n_fresh : fresh_names n_name w_rules.
Proof.
  split.
  - intros i j E. apply (f_equal length) in E. cbn in E. rewrite !replicate_length in E. lia.
  - intros i. assert (forall c s, c <> 110%N -> n_name i <> c :: s) as Hne by (intros c s Hc E; unfold n_name in E; congruence). split; [apply Hne; discriminate|].
    intros r Hr. unfold w_rules in Hr. repeat (apply elem_of_cons in Hr as [->|Hr]); [..|apply elem_of_nil in Hr; contradiction]; cbn [ar_name ar_alts]; (split; [apply Hne; discriminate|]).
    all: intros w Hw Hin; repeat (apply elem_of_cons in Hw as [->|Hw]); try (apply elem_of_nil in Hw; contradiction);
      repeat (apply elem_of_cons in Hin as [E|Hin]; [apply (f_equal fst) in E; cbn [fst] in E; eapply Hne in E; [contradiction|discriminate]|]); apply elem_of_nil in Hin; contradiction.
Qed.
Lemma w_no_ignore : no_ignore w_rules.
Proof. intros r x Hr. unfold w_rules in Hr. repeat (apply elem_of_cons in Hr as [->|Hr]); [discriminate..|apply elem_of_nil in Hr; contradiction]. Qed.
Ltac rule_of name alts ta := apply (rule_intro null_reads (mkARule name OvAbsent alts []) [] [] [] [] [] [] ta []); try (constructor; fail); try (split; [reflexivity|repeat constructor; left; reflexivity]).
Ltac a_name := apply alt_elements, els_one, el_name; (split; [reflexivity|repeat constructor; left; reflexivity]).
Lemma all_text_ok : grammar_text null_reads (all_named n_name 0 w_rules) all_text.
Proof.
  apply (gr_cons null_reads _ (lit "start->n|nn;") [] _ (lit "n->A""b"";nn->""c""D;D->nnn;nnn->A""c"";A->nnnn|nnnnn;nnnn->""a"";nnnnn->#;")); [constructor| |].
  { rule_of (lit "start") [[(lit "n", NonTerminal)]; [(lit "nn", NonTerminal)]] (lit "n|nn").
    apply (alts_cons _ (lit "n") [] [] _ (lit "nn")); [a_name|constructor..|apply alts_one; a_name]. }
  apply (gr_cons null_reads _ (lit "n->A""b"";") [] _ (lit "nn->""c""D;D->nnn;nnn->A""c"";A->nnnn|nnnnn;nnnn->""a"";nnnnn->#;")); [constructor| |].
  { rule_of (lit "n") [[(lit "A", NonTerminal); (lit "b", Terminal)]] (lit "A""b""").
    apply alts_one, alt_elements. apply (els_cons _ (lit "A") [] _ (lit """b""")); [apply el_name; split; [reflexivity|constructor]|constructor|apply els_one, one_quoted; discriminate|].
    intros _. intros [Hc|Hc]; discriminate. }
  apply (gr_cons null_reads _ (lit "nn->""c""D;") [] _ (lit "D->nnn;nnn->A""c"";A->nnnn|nnnnn;nnnn->""a"";nnnnn->#;")); [constructor| |].
  { rule_of (lit "nn") [[(lit "c", Terminal); (lit "D", NonTerminal)]] (lit """c""D").
    apply alts_one, alt_elements. apply (els_cons _ (lit """c""") [] _ (lit "D")); [apply one_quoted; discriminate|constructor|apply els_one, el_name; split; [reflexivity|constructor]|discriminate]. }
  apply (gr_cons null_reads _ (lit "D->nnn;") [] _ (lit "nnn->A""c"";A->nnnn|nnnnn;nnnn->""a"";nnnnn->#;")); [constructor| |].
  { rule_of (lit "D") [[(lit "nnn", NonTerminal)]] (lit "nnn"). apply alts_one; a_name. }
  apply (gr_cons null_reads _ (lit "nnn->A""c"";") [] _ (lit "A->nnnn|nnnnn;nnnn->""a"";nnnnn->#;")); [constructor| |].
  { rule_of (lit "nnn") [[(lit "A", NonTerminal); (lit "c", Terminal)]] (lit "A""c""").
    apply alts_one, alt_elements. apply (els_cons _ (lit "A") [] _ (lit """c""")); [apply el_name; split; [reflexivity|constructor]|constructor|apply els_one, one_quoted; discriminate|].
    intros _. intros [Hc|Hc]; discriminate. }
  apply (gr_cons null_reads _ (lit "A->nnnn|nnnnn;") [] _ (lit "nnnn->""a"";nnnnn->#;")); [constructor| |].
  { rule_of (lit "A") [[(lit "nnnn", NonTerminal)]; [(lit "nnnnn", NonTerminal)]] (lit "nnnn|nnnnn").
    apply (alts_cons _ (lit "nnnn") [] [] _ (lit "nnnnn")); [a_name|constructor..|apply alts_one; a_name]. }
  apply (gr_cons null_reads _ (lit "nnnn->""a"";") [] _ (lit "nnnnn->#;")); [constructor| |].
  { rule_of (lit "nnnn") [[(lit "a", Terminal)]] (lit """a"""). apply alts_one, alt_elements, els_one, one_quoted; discriminate. }
  apply (gr_cons null_reads _ (lit "nnnnn->#;") [] _ []); [constructor| |apply gr_end; constructor].
  rule_of (lit "nnnnn") [[] : list (str * ElementType)] (lit "#"). apply alts_one, alt_empty.
Qed.
Example C84_example : ll1 w_rules /\ defined w_rules (lit "start") /\ (forall x y, uses w_rules x y -> defined w_rules y) /\ (forall x, ~ left_recursive_name w_rules x) /\
  (forall x i w, says w_rules x i w -> head w <> Some ([], Terminal)).
Proof.
  assert (is_ok (new_from_text Checked NullVm (mkFuels 90 (80 * 80)) all_text) = true) as Hok by (vm_compute; reflexivity).
  apply (C84_exact _ _ Checked NullVm null_reads (mkFuels 90 (80 * 80)) n_name w_rules all_text); [constructor|apply ascii_tables|apply w_no_ignore|apply n_fresh|apply all_text_ok|reflexivity|split; replace (length all_text) with 79 by reflexivity; cbn [first_fuel follow_fuel]; lia|].
  destruct (new_from_text Checked NullVm (mkFuels 90 (80 * 80)) all_text) as [ps| | |]; try discriminate. eauto.
Qed.
(** The parts: the grammar above has its first alternative named in [named_text]. *)
Example C83_example : parts_named (alternative_named n_name w_rules) w_rules (all_named n_name 0 w_rules) /\ used_once (alternative_named n_name w_rules) (all_named n_name 0 w_rules) /\
  alternative_named n_name w_rules (lit "n") = Some [(lit "A", NonTerminal); (lit "b", Terminal)] /\ sentence w_rules (lit "ab").
Proof.
  split; [apply all_parts_named; [apply n_fresh|apply w_no_ignore]|]. split; [apply all_used_once; [apply n_fresh|apply w_no_ignore]|]. split.
  - apply (part_iff n_name w_rules n_fresh). left.
  - exists (NNode (lit "start") [NNode (lit "A") [NLeaf (lit "a")]; NLeaf (lit "b")]). split; [|split; reflexivity].
    apply (nder_node _ _ 0); [apply (says_alt w_rules w_no_ignore); reflexivity|]. repeat constructor.
    apply (nder_node _ _ 0); [apply (says_alt w_rules w_no_ignore); reflexivity|]. repeat constructor.
Qed.
End example.
