(** * Property theorems: a grammar as a part of another (C99) *)
From Verif Require Import Base Peekables Tree Errors Sets ParserData Vm SimpleStackVm StackVm RuleParsing FirstSets FollowSets SteuerMap ScriptParser
  SpecText SpecData SpecGrammar SpecParser SpecTree SpecScript SpecContract SpecWeave SpecRules SpecNames SpecLanguage SpecSyntax SpecRename SpecExtend SpecNaming SpecFewer SpecEffect SpecCompose SpecNested SpecEmbed
  Grammar_proofs Construct_proofs Checks Tree_proofs Script_proofs Parse_proofs
  Weave_proofs Names_proofs RuleBuild_proofs RuleText_proofs Language_proofs Syntax_proofs Rename_proofs Start_proofs Naming_proofs NamingAll_proofs Fewer_proofs Effect_proofs Compose_proofs Embed_proofs
  Props_steuer Props_script Props_weave Props_rules Props_vm Props_names Props_language Props_same Props_start Props_errors Props_main Props_extend Props_fewer Props_effect Props_compose Props_nested Samples.
Notation start := (lit "start").

(** The rules of an accepted text, with an unused name [x] in the place of start, are a part
    to enter at [x]; and [start -> x] in front of them is accepted if and only if they are. *)
Theorem C99_accepted : forall (U : Unicode) (H H' : HashOrder) m m' (vm : VM) reads x G is t t' fl fl', supported vm reads -> tables_disjoint -> unused x G ->
  text_for reads G t fl -> text_for reads (alone x is (embedded x G)) t' fl' ->
  (exists ps, @new_from_text U H' m' vm fl' t' = Ok ps) <-> exists ps, @new_from_text U H m vm fl t = Ok ps.
Proof.
  intros U H H' m m' vm reads x G is t t' fl fl' Hs Hd Hu T T'. rewrite (text_accepted U H' m' vm reads Hs Hd _ t' fl' T'), (text_accepted U H m vm reads Hs Hd _ t fl T). split; intros Hp.
  - apply (w_parsable x G Hu is); [|assumption]. apply (whole_part x G Hu is); apply Hp.
  - apply (w_parsable x G Hu is); [|assumption]. apply (emb_part x G Hu); apply Hp.
Qed.
Print Assumptions C99_accepted.
Theorem C99_part : forall (U : Unicode) (H : HashOrder) m (vm : VM) reads x G t fl ps, supported vm reads -> tables_disjoint -> unused x G ->
  text_for reads G t fl -> new_from_text m vm fl t = Ok ps -> part (embedded x G) x.
Proof.
  intros U H m vm reads x G t fl ps Hs Hd Hu T Hps. assert (parsable G) as Hp by (apply (text_accepted U H m vm reads Hs Hd _ t fl T); eauto).
  apply (emb_part x G Hu); apply Hp.
Qed.
Print Assumptions C99_part.

(** The scripts are the same, and so is all that C87, C94 and C96 ask of a part: what [x]
    begins with, whether it can be empty, what announces it and what it may go on with. *)
Theorem C99_language : forall I x (G : list (arule I)) is, unused x G -> part (embedded x G) x ->
  (forall s, sentence (alone x is (embedded x G)) s <-> sentence G s) /\
  (forall c, nfirst (alone x is (embedded x G)) [(x, NonTerminal)] c <-> nfirst G [(start, NonTerminal)] c) /\
  (nnullable (alone x is (embedded x G)) [(x, NonTerminal)] <-> nnullable G [(start, NonTerminal)]) /\
  (forall l, announces (alone x is (embedded x G)) x l <-> announces G start l) /\
  (parsable G -> forall c, goes_on (alone x is (embedded x G)) c <-> goes_on G c).
Proof.
  intros I x G is Hu HQ. destruct (g_closed x G Hu HQ) as (Hst & _ & _).
  assert (Forall (ing G) [(start, NonTerminal)]) as Hin by (constructor; [intros _; exact Hst|constructor]).
  assert (map (rename_el (exch x)) [(start, NonTerminal)] = [(x, NonTerminal)]) as Em by (cbn [map rename_el]; rewrite exch_start; reflexivity).
  assert (forall c, nfirst (alone x is (embedded x G)) [(x, NonTerminal)] c <-> nfirst G [(start, NonTerminal)] c) as F1 by (intros c; rewrite <- Em; apply (w_first x G Hu is HQ); assumption).
  assert (nnullable (alone x is (embedded x G)) [(x, NonTerminal)] <-> nnullable G [(start, NonTerminal)]) as N1 by (rewrite <- Em; apply (w_nullable x G Hu is HQ); assumption).
  split; [|split; [exact F1|split; [exact N1|split]]].
  - intros s. unfold sentence, derives_text. split.
    + intros (n & Hn & Hr & <-). destruct (proj1 (w_tree x G Hu is HQ n) (conj Hn Hr)) as (m & -> & Hm & Hrm). exists m. split; [assumption|]. split; [assumption|]. cbn. rewrite rename_nyield, app_nil_r. reflexivity.
    + intros (m & Hm & Hrm & <-). destruct (proj2 (w_tree x G Hu is HQ (NNode start [rename_tree (exch x) m]))) as [Hn Hr]; [eauto|]. eexists. split; [exact Hn|]. split; [exact Hr|].
      cbn. rewrite rename_nyield, app_nil_r. reflexivity.
  - intros l. unfold announces. rewrite N1, <- !nfol_follow. pose proof (w_fol x G Hu is HQ start l Hst) as E. rewrite exch_start in E. rewrite E.
    assert ((exists c, l = MChar c /\ nfirst (alone x is (embedded x G)) [(x, NonTerminal)] c) <-> (exists c, l = MChar c /\ nfirst G [(start, NonTerminal)] c)) as ->; [|reflexivity].
    split; intros (c & -> & Hc); exists c; (split; [reflexivity|]); apply F1; assumption.
  - intros Hp c. split.
    + intros (y & i & j & w & w' & H1 & H2 & Hij & C1 & C2). apply (w_inv x G Hu is HQ) in H1 as [(-> & -> & ->)|(y0 & w0 & -> & -> & H1)].
      * apply (al_start _ x HQ) in H2 as [-> _]. destruct (Hij eq_refl).
      * pose proof (says_defined _ _ _ _ H1) as Hy. assert (exists w1, w' = map (rename_el (exch x)) w1 /\ says G y0 j w1) as (w1 & -> & H2').
        { exists (map (rename_el (exch x)) w'). rewrite rs_inv. split; [reflexivity|]. apply (w_says x G Hu is HQ); [assumption|]. rewrite rs_inv. assumption. }
        exists y0, i, j, w0, w1. split; [assumption|]. split; [assumption|]. split; [assumption|].
        split; [apply (w_choose x G Hu is HQ y0 i) in C1|apply (w_choose x G Hu is HQ y0 j) in C2]; try assumption; eapply pa_no_empty_terminal; eassumption.
    + intros (y & i & j & w & w' & H1 & H2 & Hij & C1 & C2). pose proof (says_defined _ _ _ _ H1) as Hy.
      exists (exch x y), i, j, (map (rename_el (exch x)) w), (map (rename_el (exch x)) w'). split; [apply (w_says x G Hu is HQ); assumption|]. split; [apply (w_says x G Hu is HQ); assumption|]. split; [assumption|].
      split; [apply (w_choose x G Hu is HQ y i)|apply (w_choose x G Hu is HQ y j)]; try assumption; eapply pa_no_empty_terminal; eassumption.
Qed.
Print Assumptions C99_language.

(** The parser does the same: the same states, the same panics, and the tree of the grammar
    stands below the node of start.  (The new rule has no instructions.) *)
Theorem C99_parsed : forall (U : Unicode) (H H' : HashOrder) m m' (vm : VM) x G t t' ps ps', unused x G -> part (embedded x G) x -> looks_down vm ->
  @read_from U H m vm G t ps -> @read_from U H' m' vm (alone x [] (embedded x G)) t' ps' ->
  forall s fuel fuel', sentence G s -> (length s + 1) * length t <= fuel -> (length s + 1) * length t' <= fuel' ->
  (forall v v', (exists tr, @parse H' vm ps' fuel' s v = (Ok tr, v')) <-> exists tr, @parse H vm ps fuel s v = (Ok tr, v')) /\
  (forall v, fst (@parse H' vm ps' fuel' s v) = Panic <-> fst (@parse H vm ps fuel s v) = Panic) /\
  exists n, nyield n = s /\ (forall v tr v', @parse H vm ps fuel s v = (Ok tr, v') -> tree_shows tr n) /\
    forall v tr v', @parse H' vm ps' fuel' s v = (Ok tr, v') -> tree_shows tr (NNode start [n]).
Proof.
  intros U H H' m m' vm x G t t' ps ps' Hu HQ Hl Hr Hr' s fuel fuel' (n & Hn & Hroot & <-) Hf Hf'.
  destruct (proj2 (w_tree x G Hu [] HQ (NNode start [rename_tree (exch x) n]))) as [Dw Rw]; [eauto|].
  assert (nyield (NNode start [rename_tree (exch x) n]) = nyield n) as Ey by (cbn; rewrite rename_nyield, app_nil_r; reflexivity).
  assert (forall v, effect (alone x [] (embedded x G)) (NNode start [rename_tree (exch x) n]) v = effect G n v) as Ee.
  { intros v. unfold alone at 1. rewrite start_effect, one_effect by apply (pt_no_start _ _ HQ). rewrite <- (exch_effect x G n v), <- (embedded_eq x G Hu).
    assert (nroot (rename_tree (exch x) n) = (x, NonTerminal)) as R0 by (rewrite rename_nroot, Hroot; cbn; rewrite exch_start; reflexivity).
    apply (effect_same (embedded x G) x HQ (embedded x G) _ (fun _ _ => eq_refl) (al_extends _ x HQ [])); [|rewrite R0; intros _; apply (pt_entry _ _ HQ)].
    rewrite (embedded_eq x G Hu). apply (ren_nderivation _ (exch_inj x)). assumption. }
  assert (forall tr, tree_shows tr (NNode start [rename_tree (exch x) n]) -> tree_shows tr (NNode start [n])) as Et.
  { intros tr Hsh. apply (rename_shows (exch x)). cbn [rename_tree map]. intros path. specialize (Hsh path). destruct path as [|k path]; exact Hsh. }
  assert (forall v, match effect G n v with
    | Ok v' => (exists tr, @parse H vm ps fuel (nyield n) v = (Ok tr, v') /\ tree_shows tr n) /\ exists tr, @parse H' vm ps' fuel' (nyield n) v = (Ok tr, v') /\ tree_shows tr (NNode start [n])
    | _ => fst (@parse H vm ps fuel (nyield n) v) = Panic /\ fst (@parse H' vm ps' fuel' (nyield n) v) = Panic end) as A.
  { intros v. pose proof (C88_sentences U H m vm _ t ps Hr Hl _ v fuel Hn Hroot Hf) as A. pose proof (C88_sentences U H' m' vm _ t' ps' Hr' Hl _ v fuel' Dw Rw) as A'.
    rewrite Ey, Ee in A'. specialize (A' Hf'). destruct (effect G n v) as [w|[]| |]; auto. destruct A' as (tr' & P' & T'). split; [assumption|]. exists tr'. auto. }
  split; [|split].
  - intros v v'. specialize (A v). destruct (effect G n v) as [w|[]| |].
    + destruct A as [(tr & P0 & _) (tr1 & P1 & _)]. rewrite P0, P1. split; intros [z [= _ ->]]; eauto.
    + destruct A as [A A1]. split; intros [z Hz]; rewrite Hz in *; discriminate.
    + destruct A as [A A1]. split; intros [z Hz]; rewrite Hz in *; discriminate.
  - intros v. specialize (A v). destruct (effect G n v) as [w|[]| |]; [|tauto..]. destruct A as [(tr & P0 & _) (tr1 & P1 & _)]. rewrite P0, P1. cbn. split; discriminate.
  - exists n. split; [reflexivity|]. split; intros v tr v' Hp; specialize (A v); (destruct (effect G n v) as [w|[]| |]; [|rewrite Hp in A; cbn in A; destruct A; discriminate..]);
      destruct A as [(tr0 & P0 & S0) (tr1 & P1 & S1)]; rewrite Hp in *; [injection P0 as -> ->; exact S0|injection P1 as -> ->; exact S1].
Qed.
Print Assumptions C99_parsed.

(** ** Non-vacuity: digits repeated (C87), put in parentheses (C96), for SimpleStackVm. *)
Section example.
Local Existing Instance ascii_unicode.
Local Existing Instance plain_order.
Ltac name := split; [reflexivity|repeat constructor].
Notation SV := (SimpleStackVm Checked).
Notation digits := (repeated (lit "digit") [] [digit_rule]).
Definition digits_rule : arule (vm_instr SV) := mkARule (lit "e") OvAbsent [[(lit "digit", NonTerminal); (lit "e", NonTerminal)]; []] [].
Definition digits_text : str := lit "e->digit e|#;" ++ digit_text.
Definition nested_digits_text : str := lit "start->""(""start"")""|e;" ++ digits_text.
Lemma digits_embedded : embedded (lit "e") digits = [digits_rule; digit_rule].
Proof. vm_compute. reflexivity. Qed.
Lemma digits_unused : unused (lit "e") digits.
Proof. split; [discriminate|]. intros Hin. vm_compute in Hin. repeat (apply elem_of_cons in Hin as [Hin|Hin]; [discriminate Hin|]). inversion Hin. Qed.
Lemma digits_ok : grammar_text simple_reads (embedded (lit "e") digits) digits_text.
Proof.
  rewrite digits_embedded. apply with_rule; [|rewrite <- (app_nil_r digit_text); apply with_rule; [apply digit_rule_ok|apply no_rules]].
  apply (rule_intro simple_reads digits_rule [] [] [] [] [] [] (lit "digit e|#") []); try (constructor; fail); try name.
  apply (alts_cons _ (lit "digit e") [] [] _ (lit "#")); [|constructor..|apply alts_one, alt_empty].
  apply alt_elements, (els_cons _ (lit "digit") (lit " ") _ (lit "e")); [apply el_name; name|repeat constructor|apply els_one, el_name; name|intros _ [E|E]; vm_compute in E; discriminate].
Qed.
Lemma alone_digits_ok : grammar_text simple_reads (alone (lit "e") [] (embedded (lit "e") digits)) (lit "start->e;" ++ digits_text).
Proof. apply with_rule; [apply (start_text _ (lit "e")), alts_one, name_text; name|apply digits_ok]. Qed.
Lemma nested_digits_ok : grammar_text simple_reads (nested (lit "e") (lit "(") (lit ")") [] (embedded (lit "e") digits)) nested_digits_text.
Proof.
  apply with_rule; [|apply digits_ok]. apply (start_text _ (lit """(""start"")""|e")).
  apply (alts_cons _ (lit """(""start"")""") [] [] _ (lit "e")); [|constructor..|apply alts_one, name_text; name].
  apply alt_elements, (els_cons _ (lit """(""") [] _ (lit "start"")""")); [apply one_quoted; discriminate|constructor| |intros E; discriminate E].
  apply (els_cons _ (lit "start") [] _ (lit """)""")); [apply el_name; name|constructor|apply els_one, one_quoted; discriminate|].
  intros _ [E|E]; vm_compute in E; discriminate.
Qed.
Ltac fits := split; cbn [first_fuel follow_fuel]; apply Nat.leb_le || apply Nat.ltb_lt; vm_compute; reflexivity.
Ltac this H := split; [apply H|split; [apply N.ltb_lt; vm_compute; reflexivity|fits]].
Notation built_from t := (new_from_text Checked SV (mkFuels 60 3400) t).
Example C99_example : unused (lit "e") digits /\ part (embedded (lit "e") digits) (lit "e") /\ looks_down SV /\
  text_for simple_reads digits repeated_text (mkFuels 60 3400) /\ text_for simple_reads (alone (lit "e") [] (embedded (lit "e") digits)) (lit "start->e;" ++ digits_text) (mkFuels 60 3400) /\
  text_for simple_reads (nested (lit "e") (lit "(") (lit ")") [] (embedded (lit "e") digits)) nested_digits_text (mkFuels 60 3400) /\
  (exists ps, built_from repeated_text = Ok ps /\ exists tr v, parse SV ps 200 (lit "111") (mkSState [] 0 0 0 []) = (Ok tr, v) /\ ss_stack v = [1; 1; 1; 1; 1; 1]%N) /\
  (exists ps, built_from (lit "start->e;" ++ digits_text) = Ok ps /\ exists tr v, parse SV ps 200 (lit "111") (mkSState [] 0 0 0 []) = (Ok tr, v) /\ ss_stack v = [1; 1; 1; 1; 1; 1]%N) /\
  exists ps, built_from nested_digits_text = Ok ps /\ exists tr v, parse SV ps 600 (lit "((11))") (mkSState [] 0 0 0 []) = (Ok tr, v) /\ ss_stack v = [1; 1; 1; 1]%N.
Proof.
  assert (text_for simple_reads digits repeated_text (mkFuels 60 3400)) as T by this repeated_ok.
  assert (exists ps, built_from repeated_text = Ok ps /\ exists tr v, parse SV ps 200 (lit "111") (mkSState [] 0 0 0 []) = (Ok tr, v) /\ ss_stack v = [1; 1; 1; 1; 1; 1]%N) as B by (apply ends_with_ok; vm_compute; reflexivity).
  split; [apply digits_unused|].
  split. { destruct B as (ps & Hps & _). exact (C99_part ascii_unicode plain_order Checked SV simple_reads (lit "e") digits repeated_text (mkFuels 60 3400) ps ltac:(constructor) ascii_tables digits_unused T Hps). }
  split; [apply child_looks_down, simple_looks|]. split; [exact T|]. split; [this alone_digits_ok|]. split; [this nested_digits_ok|]. split; [exact B|].
  split; apply ends_with_ok; vm_compute; reflexivity.
Qed.
End example.
