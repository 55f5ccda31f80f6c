(** * Property theorems: grammars without instructions (C73, continued) and finite automata
    written as grammars (C90) *)
From Verif Require Import Base Peekables Tree Errors Sets ParserData Vm SimpleStackVm StackVm RuleParsing FirstSets FollowSets SteuerMap ScriptParser
  SpecText SpecData SpecGrammar SpecParser SpecTree SpecScript SpecContract SpecWeave SpecRules SpecNames SpecLanguage SpecSyntax SpecSim SpecNaming SpecAutomaton
  Grammar_proofs Construct_proofs Checks Tree_proofs Script_proofs Parse_proofs
  Weave_proofs Names_proofs RuleBuild_proofs RuleText_proofs Language_proofs Syntax_proofs Sim_proofs Start_proofs Naming_proofs NamingAll_proofs Automaton_proofs
  Props_steuer Props_script Props_weave Props_rules Props_vm Props_names Props_language Props_same Props_syntax Props_sim Props_errors Props_main Samples.

(** ** Without instructions no VM does anything: whatever the VM, parse returns a tree or an
    error, never panics, and leaves the state as it was. *)
Definition idle (vm : VM) : VM := mkVM (vm_state vm) (vm_instr vm) (@vm_parse_instructions vm) (fun t _ _ s => Ok (t, s)) (vm_new_state vm).
Theorem C73_without_instructions : forall (U : Unicode) (H : HashOrder) m (vm : VM) rs t ps, read_from m vm rs t ps -> Forall (fun r => ar_instr r = []) rs ->
  forall fuel script v, (length script + 1) * length t <= fuel ->
  match parse vm ps fuel script v with
  | (Ok _, v') | (Err _, v') => v' = v
  | _ => False
  end.
Proof.
  intros U H m vm rs t ps Hr Hno fuel script v Hfuel. destruct (read_from_built m vm rs t ps Hr) as (pd & pd' & start & fl & Hd & Hed & Hst & Hb & Hsz).
  assert (built m (idle vm) fl pd' start ps) as Hb' by exact Hb.
  assert (keeps_tree (idle vm)) as Hk by (intros h n i s t1 s1 E; cbn in E; congruence).
  assert (always_returns (idle vm)) as Hret by (intros h n i s _ _; discriminate).
  assert (never_panics (idle vm)) as Hnp by (intros h n i s _ _; discriminate).
  assert (enough_depth pd' script fuel) as Hen by (unfold enough_depth; nia).
  destruct (C78_parser_data H m m (idle vm) vm (fun _ _ => False) (fun _ s' => s' = v) fl fl pd' pd' start ps ps fuel script v v) as [E1 E2].
  - intros t0 id i i' s s' t1 s1 [].
  - split; [reflexivity|]. intros A. change (vm_instr (idle vm)) with (vm_instr vm). destruct (pd_rules pd' !! A) as [r|] eqn:Hr0; [|exact Logic.I]. split; [reflexivity|].
    destruct (rule_element pd pd' rs Hd Hed A ltac:(eexists; exact Hr0)) as [x Hx]. destruct (says_rule pd pd' rs Hd Hed A r x 0 Hx Hr0) as (_ & _ & Hi).
    assert (instruction r = []) as ->; [|constructor]. rewrite Hi. unfold instructions_for. destruct (rules_for x rs) as [|r0 more] eqn:E; [reflexivity|].
    assert (r0 ∈ rules_for x rs) as Hin by (rewrite E; left). unfold rules_for in Hin. apply elem_of_list_filter in Hin as [_ Hin]. rewrite Forall_forall in Hno. apply Hno, Hin.
  - exact Hb'.
  - exact Hb.
  - reflexivity.
  - right. intros t0 id i i' s s' [].
  - pose proof (C29_parse_fails_only_on_text H m (idle vm) fl pd' start ps fuel script v Hb' Hst Hk) as C.
    destruct (C33_terminates H m (idle vm) fl pd' start ps fuel script v Hb' Hst Hk Hret) as [D _]; [exact Hen|].
    destruct (parse vm ps fuel script v) as [o v']. cbn [fst snd] in *. rewrite <- E1 in C, D. destruct o as [tr|e| |]; [exact E2|exact E2|exact (C Hnp)|congruence].
Qed.
Print Assumptions C73_without_instructions.

(** ** C90 *)
Lemma state_name_valid {U : Unicode} q : valid_name (state_name q).
Proof.
  assert (forall n, Forall namechar (replicate n 113%N)) as Hq. { intros n. apply Forall_replicate. reflexivity || (left; reflexivity) || (unfold namechar; auto). }
  destruct q as [|q]; [split; [reflexivity|repeat constructor]|]. split; [reflexivity|apply Hq].
Qed.
Lemma automaton_reads {U : Unicode} {I} (reads : str -> str -> list I -> Prop) A : usable A -> grammar_text reads (state_rules A) (automaton_text A).
Proof.
  intros Hu. assert (forall st, (forall c q', (c, q') ∈ edges st -> c <> 34%N /\ c <> 92%N) -> (edges st = [] -> accepting st = true) -> alternatives_text (state_alternatives st) (alternatives_str (state_alternatives st))) as Halts.
  { intros st Hc Hn. assert (forall w, w ∈ state_alternatives st -> alternative_text w (alternative_str w)) as Hw.
    { intros w Hw. apply elem_of_list_lookup in Hw as [i Hi]. apply alts_cases in Hi as [(c & q' & He & ->)|(_ & -> & _)]; [|apply alt_empty].
      apply elem_of_list_lookup_2 in He. destruct (Hc c q' He) as [H1 H2]. apply alt_elements.
      apply (els_cons ([c], Terminal) [34%N; c; 34%N] [] [(state_name q', NonTerminal)] (state_name q')); [apply (el_quoted [c]), qb_plain; auto using qb_nil|constructor|apply els_one, el_name, state_name_valid|discriminate]. }
    assert (state_alternatives st <> []) as Hne. { unfold state_alternatives. destruct (edges st) as [|[c q'] es]; [rewrite Hn by reflexivity|]; discriminate. }
    revert Hw Hne. generalize (state_alternatives st) as ws. induction ws as [|w ws IH]; intros Hw Hne; [congruence|]. destruct ws as [|w' ws].
    - apply alts_one, Hw. left.
    - apply (alts_cons w (alternative_str w) [] [] (w' :: ws)); [apply Hw; left|constructor..|]. apply IH; [intros w0 H0; apply Hw; right; assumption|discriminate]. }
  assert (Forall (fun st => alternatives_text (state_alternatives st) (alternatives_str (state_alternatives st))) A) as Hall.
  { apply Forall_lookup. intros q st Hq. apply Halts; [intros c q' He; exact (us_chars _ Hu q st c q' Hq He)|exact (us_alive _ Hu q st Hq)]. }
  unfold state_rules, automaton_text. clear -Hall. assert (forall f : nat -> nat, grammar_text reads (imap (fun q st => mkARule (state_name (f q)) OvAbsent (state_alternatives st) []) A)
    (concat (imap (fun q st => state_name (f q) ++ lit "->" ++ alternatives_str (state_alternatives st) ++ lit ";") A))) as Hgen; [|exact (Hgen (fun q => q))].
  induction Hall as [|st A Hst _ IH]; intros f; [apply gr_end; constructor|]. rewrite !imap_cons. cbn [concat].
  apply (gr_cons reads _ _ []); [constructor| |exact (IH (fun q => f (S q)))].
  apply (rule_intro reads (mkARule (state_name (f 0)) OvAbsent (state_alternatives st) []) [] [] [] [] [] [] (alternatives_str (state_alternatives st)) []); try (constructor; fail); [apply state_name_valid|exact Hst].
Qed.

(** A parser can be built from the text of every usable automaton, with every VM; it accepts
    exactly the texts the automaton recognises, as a whole, and returns the run as the tree;
    every other text is an error. *)
Theorem C90_automata : forall (U : Unicode) (H : HashOrder) m (vm : VM) reads A fl, supported vm reads -> tables_disjoint -> usable A ->
  (N.of_nat (length (automaton_text A)) < 2 ^ 63)%N -> enough_for_text fl (automaton_text A) ->
  exists ps, new_from_text m vm fl (automaton_text A) = Ok ps /\
  forall fuel script v, (length script + 1) * length (automaton_text A) <= fuel ->
  (recognised A script -> exists tr, parse vm ps fuel script v = (Ok tr, v) /\ tree_shows tr (run_nodes A 0 script)) /\
  (~ recognised A script -> exists e, parse vm ps fuel script v = (Err e, v)).
Proof.
  intros U H m vm reads A fl Hs Hd Hu Hlen Hfl. pose proof (automaton_reads (I := vm_instr vm) reads A Hu) as Ht.
  destruct (proj2 (C58_buildable_iff_parsable U H m vm reads _ _ fl Hs Hd Ht Hlen Hfl) (automaton_parsable A Hu)) as [ps Hps]. exists ps. split; [assumption|].
  intros fuel script v Hfuel. assert (read_from m vm (state_rules A) (automaton_text A) ps) as Hr by (exists reads, fl; auto 10).
  assert (Forall (fun r : arule (vm_instr vm) => ar_instr r = []) (state_rules A)) as Hno.
  { apply Forall_forall. intros r Hin. unfold state_rules in Hin. apply elem_of_lookup_imap in Hin as (q & st & -> & _). reflexivity. }
  pose proof (C73_without_instructions U H m vm _ _ ps Hr Hno fuel script v Hfuel) as Hw. destruct (C61_accepted_scripts U H m vm _ _ ps Hr fuel script v Hfuel) as (A1 & _ & A3 & _).
  split.
  - intros Hrec. apply (automaton_sentence (I := vm_instr vm) A Hu) in Hrec as (nt & D & R & <-). pose proof (C57_sentences_are_parsed U H m vm _ _ ps Hr nt v fuel D R Hfuel) as Hp.
    destruct (tree_run A Hu nt D 0 R) as [E _]. rewrite <- E. destruct (run_tree (state_rules A) nt v) as [v'|[]| |].
    + destruct Hp as (tr & Hp & Hsh). rewrite Hp in Hw. subst v'. eauto.
    + destruct (parse vm ps fuel (nyield nt) v) as [o w]. cbn [fst] in Hp. subst o. destruct Hw.
    + destruct (parse vm ps fuel (nyield nt) v) as [o w]. cbn [fst] in Hp. subst o. destruct Hw.
  - intros Hrec. destruct (parse vm ps fuel script v) as [o w] eqn:E. destruct o as [tr|e| |]; [|subst w; eauto|destruct Hw..]. exfalso. apply Hrec.
    destruct (proj1 (A1 w) (ex_intro _ tr eq_refl)) as (nt & rest & (D & R & Es & Hb) & _). destruct (tree_ends A nt D 0 R) as [q Hq].
    apply Hb in Hq. cbn in Hq. apply st_follow in Hq. destruct rest as [|c rest]; [|discriminate]. rewrite app_nil_r in Es. subst script.
    apply (automaton_sentence (I := vm_instr vm) A Hu). exists nt. auto.
Qed.
Print Assumptions C90_automata.

(** The error is where the automaton gets stuck, if from every state an accepting one can be
    reached: in front of a char without an edge, or at the end in a state that is not accepting. *)
Theorem C90_errors : forall (U : Unicode) (H : HashOrder) m (vm : VM) reads A fl ps, supported vm reads -> tables_disjoint -> usable A -> trim A ->
  (N.of_nat (length (automaton_text A)) < 2 ^ 63)%N -> enough_for_text fl (automaton_text A) -> new_from_text m vm fl (automaton_text A) = Ok ps ->
  forall fuel script v e v', parse vm ps fuel script v = (Err e, v') ->
  exists before rest q st, script = before ++ rest /\ error_position e = Some (length before) /\ runs A 0 before q /\ A !! q = Some st /\
    match rest with [] => accepting st = false | c :: _ => forall q', (c, q') ∉ edges st end.
Proof.
  intros U H m vm reads A fl ps Hs Hd Hu Htr Hlen Hfl Hps fuel script v e v' Hp. pose proof (automaton_reads (I := vm_instr vm) reads A Hu) as Ht.
  assert (read_from m vm (state_rules A) (automaton_text A) ps) as Hr by (exists reads, fl; auto 10).
  destruct (C57_errors U H m vm _ _ ps Hr fuel script v e v' Hp) as (before & rest & -> & Hpos & Hmax & Hvia).
  assert (runs_app : forall s q q1, runs A q s q1 -> forall s' q2, runs A q1 s' q2 -> runs A q (s ++ s') q2).
  { induction 1 as [|q st c q' s q1 Hq He _ IH]; intros s' q2 H2; [assumption|]. cbn. econstructor; eauto. }
  assert (runs_split : forall s s' q q2, runs A q (s ++ s') q2 -> exists q1, runs A q s q1 /\ runs A q1 s' q2).
  { induction s as [|c s IH]; intros s' q q2 H2; [exists q; split; [constructor|assumption]|]. inversion H2 as [|? st ? q' ? ? Hq He H3]; subst.
    destruct (IH _ _ _ H3) as (q1 & R1 & R2). exists q1. split; [econstructor; eauto|assumption]. }
  assert (forall x, defined (state_rules (I := vm_instr vm) A) x -> exists s, derives_text (state_rules (I := vm_instr vm) A) x s) as Hprod.
  { intros x Hx. apply st_named in Hx as (q & st & -> & Hq). destruct (Htr q ltac:(eexists; exact Hq)) as (s & q' & st' & Hrun & Hq' & Ha).
    destruct (run_is_tree (I := vm_instr vm) A q s q' Hrun st' Hq' Ha) as (t & D & R & Y). exists s, t. auto. }
  destruct (Hvia Hprod) as [more Hm]. apply (automaton_sentence A Hu) in Hm as (q2 & st2 & Hrun & Hq2 & Ha2). destruct (runs_split _ _ _ _ Hrun) as (q & R1 & R2).
  assert (exists st, A !! q = Some st) as [st Hst] by (inversion R2; subst; eauto). exists before, rest, q, st. split; [reflexivity|]. split; [destruct e; try destruct Hpos; cbn; congruence|].
  split; [assumption|]. split; [assumption|]. destruct rest as [|c rest].
  - destruct (accepting st) eqn:Ea; [|reflexivity]. exfalso. apply (Hmax []); [|reflexivity]. apply (automaton_sentence A Hu). rewrite app_nil_r. exists q, st. auto.
  - intros q' He. destruct (us_targets _ Hu q st c q' Hst He) as [st' Hst']. destruct (Htr q' ltac:(eexists; exact Hst')) as (s & q3 & st3 & R3 & Hq3 & Ha3).
    apply (Hmax (c :: s)); [|reflexivity]. apply (automaton_sentence A Hu). exists q3, st3. split; [|auto]. eapply runs_app; [exact R1|]. econstructor; eauto.
Qed.
Print Assumptions C90_errors.

(** ** Non-vacuity: an even number of a's. *)
Section example.
Local Existing Instance ascii_unicode.
Local Existing Instance plain_order.
Definition even_as : automaton := [mkState [(97%N, 1); (98%N, 0)] true; mkState [(97%N, 0); (98%N, 1)] false].
Lemma even_usable : usable even_as.
Proof.
  assert (forall q st, even_as !! q = Some st -> (st = mkState [(97%N, 1); (98%N, 0)] true) \/ (st = mkState [(97%N, 0); (98%N, 1)] false)) as Hst.
  { intros [|[|q]] st Hq; [injection Hq as <-; auto..|discriminate]. }
  assert (forall q st c q', even_as !! q = Some st -> (c, q') ∈ edges st -> (c = 97%N \/ c = 98%N) /\ (q' = 0 \/ q' = 1)) as He.
  { intros q st c q' Hq Hin. destruct (Hst q st Hq) as [->| ->]; cbn in Hin; apply elem_of_cons in Hin as [[= -> ->]|Hin]; auto; apply elem_of_list_singleton in Hin as [= -> ->]; auto. }
  split.
  - eexists. reflexivity.
  - intros q st c q' Hq Hin. destruct (He _ _ _ _ Hq Hin) as [_ [->| ->]]; eexists; reflexivity.
  - intros q st Hq. destruct (Hst q st Hq) as [->| ->]; (constructor; [|constructor; [|constructor]]); intros Hin; [apply elem_of_list_singleton in Hin; discriminate|inversion Hin| apply elem_of_list_singleton in Hin; discriminate|inversion Hin].
  - intros q st Hq E. destruct (Hst q st Hq) as [->| ->]; discriminate.
  - intros q st c q' Hq Hin. destruct (He _ _ _ _ Hq Hin) as [[->| ->] _]; split; discriminate.
Qed.
Example C90_example : usable even_as /\ trim even_as /\ automaton_text even_as = lit "start->""a""q|""b""start|#;q->""a""start|""b""q;" /\
  enough_for_text (mkFuels 60 2200) (automaton_text even_as) /\ recognised even_as (lit "aba") /\ ~ recognised even_as (lit "ab").
Proof.
  split; [apply even_usable|]. split; [|split; [reflexivity|split; [split; cbn [first_fuel follow_fuel]; apply Nat.leb_le || apply Nat.ltb_lt; vm_compute; reflexivity|split]]].
  - intros [|[|q]] [st Hq]; [| |discriminate].
    + exists [], 0, (mkState [(97%N, 1); (98%N, 0)] true). repeat split. constructor.
    + exists (lit "a"), 0, (mkState [(97%N, 1); (98%N, 0)] true). repeat split. apply (runs_cons even_as 1 (mkState [(97%N, 0); (98%N, 1)] false) 97%N 0); [reflexivity|left|constructor].
  - exists 0, (mkState [(97%N, 1); (98%N, 0)] true). split; [|split; reflexivity].
    apply (runs_cons even_as 0 (mkState [(97%N, 1); (98%N, 0)] true) 97%N 1); [reflexivity|left|].
    apply (runs_cons even_as 1 (mkState [(97%N, 0); (98%N, 1)] false) 98%N 1); [reflexivity|right; left|].
    apply (runs_cons even_as 1 (mkState [(97%N, 0); (98%N, 1)] false) 97%N 0); [reflexivity|left|constructor].
  - intros (q & st & Hr & Hq & Ha). inversion Hr as [|? st1 ? q1 ? ? H1 E1 R1]; subst. injection H1 as <-. cbn in E1. apply elem_of_cons in E1 as [[= ->]|E1]; [|apply elem_of_list_singleton in E1; discriminate].
    inversion R1 as [|? st2 ? q2 ? ? H2 E2 R2]; subst. injection H2 as <-. cbn in E2. apply elem_of_cons in E2 as [E2|E2]; [discriminate|]. apply elem_of_list_singleton in E2 as [= ->].
    inversion R2; subst. injection Hq as <-. discriminate.
Qed.
End example.
