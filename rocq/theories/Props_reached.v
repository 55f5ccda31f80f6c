(** * Property theorems: how far a parse gets depends on the sentences only (C107) *)
From Verif Require Import Base Peekables Tree Errors Sets ParserData Vm SimpleStackVm StackVm RuleParsing FirstSets FollowSets SteuerMap ScriptParser
  SpecText SpecData SpecGrammar SpecParser SpecTree SpecScript SpecContract SpecWeave SpecRules SpecNames SpecLanguage SpecIgnore SpecTyping SpecSyntax SpecWalk SpecReached Grammar_proofs Construct_proofs Checks Tree_proofs Script_proofs Parse_proofs
  Weave_proofs Names_proofs RuleBuild_proofs RuleText_proofs Language_proofs Ignore_proofs Accept_proofs Props_steuer Props_script Props_weave Props_rules Props_vm Props_names Props_language Props_errors Props_main SpecRecipes Recipes_proofs Props_recipes Props_depth Props_typing Walk_proofs Props_walk Samples.
Notation start := (lit "start").

(** Behind an accepted part the script does not go on like any sentence. *)
Lemma accepted_part_ends {U : Unicode} {H : HashOrder} m (vm : VM) rs t ps script nt rest c more : read_from m vm rs t ps ->
  accepts_prefix rs script nt rest -> look rest = MChar c -> ~ sentence rs (nyield nt ++ c :: more).
Proof.
  intros Hr (A1 & A2 & A3 & A4) Hl (nt' & T1 & T2 & T3). rewrite Hl in A4. pose proof (sentence_accepts m vm rs t ps nt' Hr T1 T2) as Ha. rewrite T3 in Ha.
  assert (accepts_prefix rs (nyield nt ++ c :: more) nt (c :: more)) as Hb by (split; [assumption|]; split; [assumption|]; split; [reflexivity|exact A4]).
  destruct (C61_accepted_scripts U H m vm rs t ps Hr _ (nyield nt ++ c :: more) (vm_new_state vm) (le_n _)) as (_ & _ & _ & _ & Hu).
  destruct (Hu _ _ _ _ Ha Hb). discriminate.
Qed.

(** ** C107.  If every name stands for some text: the place that a parse gets to, accepted or
    not, is the length of the longest beginning of the script that can go on to a sentence. *)
Theorem C107_reached : forall (U : Unicode) (H : HashOrder) m (vm : VM) rs t ps, read_from m vm rs t ps -> all_stand_for_text rs ->
  forall fuel script v, finished (fst (parse vm ps fuel script v)) ->
  forall p, gets_to (fst (parse vm ps fuel script v)) p <-> p <= length script /\ forall k, k <= length script -> (can_go_on rs (take k script) <-> k <= p).
Proof.
  intros U H m vm rs t ps Hr Hall fuel script v Hfin. destruct (parse vm ps fuel script v) as [o v'] eqn:Ep. cbn [fst] in *. destruct o as [tr|e| |]; [| |contradiction..].
  2:{ intros p. exact (C104_longest_beginning U H m vm rs t ps Hr Hall fuel script v e v' Ep p). }
  destruct (C105_returned U H m vm rs t ps Hr fuel script v tr v' Ep) as (nt & rest & Ha & _ & Es & Ht). pose proof Ha as (A1 & A2 & _).
  assert (forall k, k <= length script -> (can_go_on rs (take k script) <-> k <= length (nyield nt))) as Hk.
  { intros k Hk. split.
    - intros [more Hm]. destruct (decide (k <= length (nyield nt))) as [|Hn]; [assumption|]. exfalso. rewrite Es, app_length in Hk. destruct rest as [|c rest]; [cbn in Hk; lia|].
      rewrite Es, take_app_ge in Hm by lia. destruct (k - length (nyield nt)) as [|j] eqn:Ej; [lia|]. cbn [take] in Hm. rewrite <- app_assoc in Hm.
      exact (accepted_part_ends m vm rs t ps script nt (c :: rest) c (take j rest ++ more) Hr Ha eq_refl Hm).
    - intros Hle. rewrite Es, take_app_le by lia. exists (drop k (nyield nt)). rewrite take_drop. exists nt. auto. }
  intros p. cbn [gets_to]. split.
  - intros (s & Hs & ->). apply Ht in Hs as ->. split; [rewrite Es, app_length; lia|exact Hk].
  - intros [Hle Hp]. exists (nyield nt). split; [apply Ht; reflexivity|]. assert (length (nyield nt) <= length script) as Hl by (rewrite Es, app_length; lia).
    apply Nat.le_antisymm; [apply Hk, Hp; lia|apply Hp, Hk; lia].
Qed.
Print Assumptions C107_reached.

(** So parsers whose grammars have the same sentences get equally far in every script;
    sentences they both accept; and they differ only in whether they accept if some name of
    one of the grammars stands for the empty text. *)
Theorem C107_same_sentences : forall (U : Unicode) (H H' : HashOrder) m m' (vm vm' : VM) rs t ps rs' t' ps',
  @read_from U H m vm rs t ps -> @read_from U H' m' vm' rs' t' ps' -> same_sentences rs rs' -> all_stand_for_text rs -> all_stand_for_text rs' ->
  forall fuel fuel' script v v', let o := fst (@parse H vm ps fuel script v) in let o' := fst (@parse H' vm' ps' fuel' script v') in
  finished o -> finished o' ->
  (forall p, gets_to o p <-> gets_to o' p) /\
  (sentence rs script -> (exists tr, o = Ok tr) /\ exists tr, o' = Ok tr) /\
  (no_empty_texts rs -> no_empty_texts rs' -> (exists tr, o = Ok tr) <-> exists tr, o' = Ok tr).
Proof.
  intros U H H' m m' vm vm' rs t ps rs' t' ps' Hr Hr' Hsame Hall Hall' fuel fuel' script v v' o o' Hf Hf'. unfold o, o' in *. clear o o'.
  assert (forall s, can_go_on rs s <-> can_go_on rs' s) as Hc by (intros s; split; intros [more Hm]; exists more; apply Hsame; assumption).
  split; [|split].
  - intros p. rewrite (C107_reached U H m vm rs t ps Hr Hall fuel script v Hf p), (C107_reached U H' m' vm' rs' t' ps' Hr' Hall' fuel' script v' Hf' p).
    split; intros [Hle Hk]; (split; [assumption|]); intros k Hk'; rewrite <- (Hk k Hk'); [symmetry|]; apply Hc.
  - assert (forall (H : HashOrder) m (vm : VM) rs t ps fuel v, @read_from U H m vm rs t ps -> sentence rs script -> finished (fst (@parse H vm ps fuel script v)) -> exists tr, fst (@parse H vm ps fuel script v) = Ok tr) as Hok.
    { clear. intros H m vm rs t ps fuel v Hr (nt & T1 & T2 & T3) Hf. destruct (@parse H vm ps fuel script v) as [o v'] eqn:Ep. cbn [fst] in *. destruct o as [tr|e| |]; [eauto| |contradiction..]. exfalso.
      destruct (where_it_stops m vm rs t ps fuel script v e v' Hr Ep) as (before & rest & Es & _ & Hno & _). apply (Hno rest); [|reflexivity]. rewrite <- Es. exists nt. auto. }
    intros Hs. split; [eapply Hok; eassumption|]. eapply Hok; [eassumption| |eassumption]. apply Hsame. assumption.
  - assert (forall (H H' : HashOrder) m m' (vm vm' : VM) rs t ps rs' t' ps' fuel fuel' v v', @read_from U H m vm rs t ps -> @read_from U H' m' vm' rs' t' ps' -> same_sentences rs rs' -> no_empty_texts rs' ->
      finished (fst (@parse H' vm' ps' fuel' script v')) -> (exists tr, fst (@parse H vm ps fuel script v) = Ok tr) -> exists tr, fst (@parse H' vm' ps' fuel' script v') = Ok tr) as Hone.
    { clear. intros H H' m m' vm vm' rs t ps rs' t' ps' fuel fuel' v v' Hr Hr' Hsame Hne Hf [tr Htr]. destruct (@parse H vm ps fuel script v) as [o w] eqn:Ep. cbn [fst] in Htr. subst o.
      destruct (@C57_only_sentences U H m vm rs t ps Hr fuel script v tr w Ep) as (nt & rest & T1 & T2 & T3 & _).
      destruct (proj1 (Hsame (nyield nt)) (ex_intro _ nt (conj T1 (conj T2 eq_refl)))) as (nt' & T1' & T2' & T3').
      destruct (@parse H' vm' ps' fuel' script v') as [o' w'] eqn:Ep'. cbn [fst] in *. destruct o' as [tr'|e| |]; [eauto| |contradiction..]. exfalso.
      assert (accepts_prefix rs' script nt' rest) as Ha.
      { split; [assumption|]. split; [assumption|]. split; [rewrite T3'; assumption|]. intros y w0 He. exfalso. exact (no_empty_ends rs' nt' Hne T1' y w0 He). }
      destruct (read_from_vm m' vm' rs' t' ps' Hr') as [Hk _].
      destruct (read_from_built m' vm' rs' t' ps' Hr') as (pd & pd' & st & fl & Hd & Hed & Hst & Hb & _). apply built_spec in Hb as (Hwf & Hcon & Htab).
      apply (accepts_pred script nt' rest Hd Hed Hwf Hcon Hst) in Ha as (pt & _ & _ & Hp).
      unfold parse in Ep'. pose proof (parse_run_spec vm' pd' st ps' Hwf Hcon Htab Hk st fuel' script v' Hst (con_start _ _ Hcon)) as Hs.
      destruct (parse_run vm' ps' fuel' script v') as [o s1]. injection Ep' as -> _. destruct Hs as (stk & rest' & v1 & Hfl & _). exact (fails_not_pred pd' st Hwf Hcon _ _ _ _ Hfl _ _ Hp). }
    assert (same_sentences rs' rs) as Hsame' by (intros s; symmetry; apply Hsame). intros Hn Hn'. split; intros Hx.
    + exact (Hone H H' m m' vm vm' rs t ps rs' t' ps' fuel fuel' v v' Hr Hr' Hsame Hn' Hf' Hx).
    + exact (Hone H' H m' m vm' vm rs' t' ps' rs t ps fuel' fuel v' v Hr' Hr Hsame' Hn Hf Hx).
Qed.
Print Assumptions C107_same_sentences.

(** ** Non-vacuity, and what may differ: the texts [start->"a";] and [start->"a"e;e->#;] have
    the same sentences, but of the script [ab] the first parser accepts the [a], the second
    refuses the script (at the same place). *)
Section example.
Local Existing Instance ascii_unicode.
Local Existing Instance plain_order.
Ltac name := split; [reflexivity|repeat constructor].
Ltac quoted := apply one_quoted; discriminate.
Ltac fits := split; cbn [first_fuel follow_fuel]; apply Nat.leb_le || apply Nat.ltb_lt; vm_compute; reflexivity.
Definition a_rules : list (arule (vm_instr NullVm)) := [mkARule start OvAbsent [[(lit "a", Terminal)]] []].
Definition a_text : str := lit "start->""a"";".
Definition ae_rules : list (arule (vm_instr NullVm)) := [mkARule start OvAbsent [[(lit "a", Terminal); (lit "e", NonTerminal)]] []; mkARule (lit "e") OvAbsent [[]] []].
Definition ae_text : str := lit "start->""a""e;e->#;".
Lemma a_text_ok : grammar_text null_reads a_rules a_text.
Proof. rewrite <- (app_nil_r a_text). apply null_then; [|apply null_end]. apply (null_rule start _ (lit """a""")); [name|]. apply alts_one, alt_elements, els_one. quoted. Qed.
Lemma ae_text_ok : grammar_text null_reads ae_rules ae_text.
Proof.
  apply (null_then _ (lit "start->""a""e;") _ (lit "e->#;")).
  - apply (null_rule start _ (lit """a""e")); [name|]. apply alts_one, alt_elements, (els_cons _ (lit """a""") [] _ (lit "e")); [quoted|constructor|apply els_one, el_name; name|intros E; discriminate E].
  - rewrite <- (app_nil_r (lit "e->#;")). apply null_then; [|apply null_end]. apply (null_rule (lit "e") _ (lit "#")); [name|]. apply alts_one, alt_empty.
Qed.
Lemma ae_plain : nothing_ignored ae_rules.
Proof. intros r Hr. repeat (apply elem_of_cons in Hr as [->|Hr]; [discriminate|]). inversion Hr. Qed.
Lemma ae_alts x w : w ∈ alternatives_for ae_rules x <-> (x = start /\ w = [(lit "a", Terminal); (lit "e", NonTerminal)]) \/ (x = lit "e" /\ w = []).
Proof.
  unfold ae_rules. rewrite !Recipes_proofs.alts_cons. cbn [ar_name ar_alts]. rewrite !elem_of_app. split.
  - intros [Hw|[Hw|Hw]]; [| |inversion Hw].
    + destruct (decide (start = x)) as [<-|]; [|inversion Hw]. apply elem_of_list_singleton in Hw. auto.
    + destruct (decide (lit "e" = x)) as [<-|]; [|inversion Hw]. apply elem_of_list_singleton in Hw. auto.
  - intros [[-> ->]|[-> ->]]; [left|right; left]; rewrite decide_True by reflexivity; left.
Qed.
Lemma a_alts x w : w ∈ alternatives_for a_rules x <-> x = start /\ w = [(lit "a", Terminal)].
Proof.
  unfold a_rules. rewrite !Recipes_proofs.alts_cons. cbn [ar_name ar_alts]. rewrite !elem_of_app. split.
  - intros [Hw|Hw]; [|inversion Hw]. destruct (decide (start = x)) as [<-|]; [|inversion Hw]. apply elem_of_list_singleton in Hw. auto.
  - intros [-> ->]. left. rewrite decide_True by reflexivity. left.
Qed.
Lemma e_tree nt : nderivation ae_rules nt -> nroot nt = (lit "e", NonTerminal) -> nt = NNode (lit "e") [].
Proof.
  intros Hd Hr. destruct nt as [b|x subs]; [discriminate|]. injection Hr as ->. apply Recipes_proofs.plain_node in Hd as [Hw _]; [|apply ae_plain].
  apply ae_alts in Hw as [[E _]|[_ Hw]]; [discriminate|]. destruct subs; [reflexivity|discriminate].
Qed.
Lemma a_sentences s : sentence a_rules s <-> s = lit "a".
Proof.
  split.
  - intros (nt & Hd & Hr & <-). destruct nt as [b|x subs]; [discriminate|]. injection Hr as ->. apply Recipes_proofs.plain_node in Hd as [Hw _]; [|apply one_rule_plain].
    apply a_alts in Hw as [_ Hw]. destruct subs as [|s1 [|]]; try discriminate. cbn [map] in Hw. injection Hw as H1. destruct s1; [|discriminate]. injection H1 as ->. reflexivity.
  - intros ->. exists (NNode start [NLeaf (lit "a")]). split; [|split; reflexivity]. apply Recipes_proofs.plain_node; [apply one_rule_plain|]. split; [apply a_alts; auto|].
    apply Forall_cons_2; [constructor|apply Forall_nil_2].
Qed.
Lemma e_ok : nderivation ae_rules (NNode (lit "e") []).
Proof. apply Recipes_proofs.plain_node; [apply ae_plain|]. split; [apply ae_alts; auto|apply Forall_nil_2]. Qed.
Lemma ae_sentences s : sentence ae_rules s <-> s = lit "a".
Proof.
  split.
  - intros (nt & Hd & Hr & <-). destruct nt as [b|x subs]; [discriminate|]. injection Hr as ->. apply Recipes_proofs.plain_node in Hd as [Hw Hf]; [|apply ae_plain].
    apply ae_alts in Hw as [[_ Hw]|[E _]]; [|discriminate]. destruct subs as [|s1 [|s2 [|]]]; try discriminate. cbn [map] in Hw. injection Hw as H1 H2. destruct s1; [|discriminate]. injection H1 as ->.
    apply Forall_cons in Hf as [_ Hf]. apply Forall_cons in Hf as [Hf _]. rewrite (e_tree s2 Hf H2). reflexivity.
  - intros ->. exists (NNode start [NLeaf (lit "a"); NNode (lit "e") []]). split; [|split; reflexivity]. apply Recipes_proofs.plain_node; [apply ae_plain|]. split; [apply ae_alts; auto|].
    apply Forall_cons_2; [constructor|]. apply Forall_cons_2; [apply e_ok|apply Forall_nil_2].
Qed.
Lemma a_e_same : same_sentences a_rules ae_rules /\ all_stand_for_text a_rules /\ all_stand_for_text ae_rules.
Proof.
  assert (forall x, defined a_rules x -> x = start) as Ha.
  { intros x Hx. destruct (decide (start = x)) as [|Hn]; [congruence|]. exfalso. apply Hx. unfold rules_for, a_rules. rewrite filter_cons_False by exact Hn. reflexivity. }
  assert (forall x, defined ae_rules x -> x = start \/ x = lit "e") as Hae.
  { intros x Hx. destruct (decide (start = x)) as [|Hn]; [auto|]. destruct (decide (lit "e" = x)) as [|Hn']; [auto|]. exfalso. apply Hx. unfold rules_for, ae_rules.
    rewrite filter_cons_False by exact Hn. rewrite filter_cons_False by exact Hn'. reflexivity. }
  split; [intros s; rewrite a_sentences, ae_sentences; reflexivity|]. split.
  - intros x Hx. apply Ha in Hx as ->. exists (lit "a"). apply a_sentences. reflexivity.
  - intros x Hx. apply Hae in Hx as [->| ->]; [exists (lit "a"); apply ae_sentences; reflexivity|]. exists [], (NNode (lit "e") []). split; [apply e_ok|]. auto.
Qed.
Theorem C107_accepted_refuted : exists rs t ps rs' t' ps' script, read_from Checked NullVm rs t ps /\ read_from Checked NullVm rs' t' ps' /\
  same_sentences rs rs' /\ all_stand_for_text rs /\ all_stand_for_text rs' /\
  (exists tr v, parse NullVm ps 400 script 0%N = (Ok tr, v)) /\ exists e, fst (parse NullVm ps' 400 script 0%N) = Err e.
Proof.
  destruct (verdicts_ok 400 (new_from_text Checked NullVm (mkFuels 60 2200) a_text) (lit "ab") (lit "b")) as (ps & Eps & Hok & _); [vm_compute; reflexivity|].
  destruct (verdicts_ok 400 (new_from_text Checked NullVm (mkFuels 60 2200) ae_text) (lit "a") (lit "ab")) as (ps' & Eps' & _ & Herr); [vm_compute; reflexivity|].
  exists a_rules, a_text, ps, ae_rules, ae_text, ps', (lit "ab"). split; [apply (read_null a_rules a_text _ a_text_ok eq_refl ltac:(fits) Eps); reflexivity|].
  split; [apply (read_null ae_rules ae_text _ ae_text_ok eq_refl ltac:(fits) Eps'); reflexivity|]. destruct a_e_same as (S1 & S2 & S3). split; [exact S1|]. split; [exact S2|]. split; [exact S3|]. split; [exact Hok|exact Herr].
Qed.
Print Assumptions C107_accepted_refuted.
End example.
