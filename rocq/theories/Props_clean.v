(** * Property theorems: every accepted text can be written plainly and without useless parts (C110) *)
From Verif Require Import Base Peekables Tree Errors Sets ParserData Vm SimpleStackVm StackVm RuleParsing FirstSets FollowSets SteuerMap ScriptParser
  SpecText SpecData SpecGrammar SpecParser SpecTree SpecScript SpecContract SpecWeave SpecRules SpecNames SpecLanguage SpecIgnore SpecFewer SpecSyntax SpecTyping SpecReached SpecClean Grammar_proofs Construct_proofs Checks Tree_proofs Script_proofs Parse_proofs
  Weave_proofs Names_proofs RuleBuild_proofs RuleText_proofs Language_proofs Fewer_proofs ExprText_proofs Props_steuer Props_script Props_weave Props_rules Props_vm Props_names Props_language Props_errors Props_main SpecRecipes Recipes_proofs Props_recipes Props_same Props_extend Props_fewer Props_typing Props_reached Alive_proofs Clean_proofs Samples.
Notation start := (lit "start").

(** The alternatives of each name, as a list. *)
Lemma all_listed {U : Unicode} {H : HashOrder} m (vm : VM) reads rs t ps : read_from m vm rs t ps -> grammar_text reads rs t ->
  exists l : list (str * list (list (str * ElementType))), NoDup l.*1 /\ (forall x, x ∈ l.*1 <-> defined rs x) /\
  forall x a, (x, a) ∈ l -> lists rs x a /\ a <> [] /\ Forall (Forall (good_element valid_name)) a.
Proof.
  intros Hr Ht. destruct (read_from_built m vm rs t ps Hr) as (pd & pe & st & fl & Hd & Hed & _).
  assert (forall x, x ∈ remove_dups (map ar_name rs) <-> defined rs x) as Hn by (intros x; rewrite elem_of_remove_dups, defined_names; reflexivity).
  destruct (table (lists rs) (remove_dups (map ar_name rs))) as (l & El & Hl).
  { intros x Hx. apply Hn in Hx. destruct (defined_element pd rs Hd x Hx) as (A & HA & Hra). rewrite <- (ed_verbose pd pe Hed) in HA. apply (edd_domain _ _ Hed) in Hra as [r Hra].
    destruct (rule_lists pd pe rs A r x Hd Hed HA Hra) as (a & Ha & _). eauto. }
  exists l. split; [rewrite El; apply NoDup_remove_dups|]. split; [intros x; rewrite El; apply Hn|]. intros x a Hin. pose proof (Hl x a Hin) as Ha. split; [exact Ha|]. split.
  - assert (defined rs x) as Hdx. { apply Hn. rewrite <- El. apply elem_of_list_fmap. exists (x, a). auto. }
    intros ->. pose proof (proj1 (text_alternatives reads rs t Ht x) Hdx) as Hne. destruct (lists_cases rs x) as [H1 H2]. destruct (ignores_dec rs x) as [Hno|(y & Hy & Hu)].
    + apply Hne. apply (lists_unique rs x); [|exact Ha]. apply H1. intros y Hy. destruct (Hno y Hy).
    + assert (~ inside rs y x) as Hni. { intros Hi. apply Hne. apply (lists_unique rs x); [|exact Ha]. apply H1. intros z Hz. rewrite (Hu z Hz). exact Hi. }
      pose proof (lists_unique rs x _ _ (H2 y Hy Hni) Ha) as E. apply Hne. destruct (alternatives_for rs x); [reflexivity|discriminate].
  - apply Forall_forall. intros w Hw. apply elem_of_list_lookup in Hw as [i Hi]. apply Ha in Hi. exact (text_says reads rs t Ht x i w Hi).
Qed.
Lemma same_said {I} (rs rs' : list (arule I)) : says_the_same rs rs' -> same_meaning rs rs'.
Proof.
  intros Hs x. destruct (Hs x) as (H1 & H2 & H3). split; [exact H1|]. split; [exact H2|]. intros a a' Ha Ha'. assert (a = a') as ->; [|reflexivity].
  apply (lists_unique rs x); [exact Ha|]. intros i w. rewrite H3. apply Ha'.
Qed.
Lemma written_out {U : Unicode} {H : HashOrder} m (vm : VM) reads rs t ps : read_from m vm rs t ps -> grammar_text reads rs t ->
  exists rs' t', grammar_text reads rs' t' /\ written_plainly rs' /\ says_the_same rs rs'.
Proof.
  intros Hr Ht. destruct (all_listed m vm reads rs t ps Hr Ht) as (l & Hnd & Hn & Hl).
  assert (forall x a, (x, a) ∈ l -> defined rs x) as Hdef by (intros x a Hin; apply Hn; apply elem_of_list_fmap; exists (x, a); auto).
  destruct (asm_text reads rs t Ht l) as [t' Ht']. { intros x a Hin. destruct (Hl x a Hin) as (_ & H2 & H3). eauto. }
  exists (assembled (instructions_for rs) l), t'. split; [exact Ht'|]. split; [apply asm_plainly, Hnd|]. intros x. split; [|split].
  - rewrite asm_defined. symmetry. apply Hn.
  - destruct (decide (x ∈ l.*1)) as [Hx|Hx]; [symmetry; apply asm_instr; assumption|]. unfold instructions_for at 2. rewrite asm_none by exact Hx.
    rewrite Hn in Hx. unfold defined in Hx. unfold instructions_for. destruct (rules_for x rs); [reflexivity|]. destruct Hx. discriminate.
  - intros i w. rewrite (asm_says (instructions_for rs) l x i w Hnd). split.
    + intros Hs. assert (x ∈ l.*1) as Hx by (apply Hn; eapply Naming_proofs.says_defined; exact Hs). apply elem_of_list_fmap in Hx as ([y a] & -> & Hin). exists a. split; [exact Hin|]. apply (Hl y a Hin). exact Hs.
    + intros (a & Hin & Hw). apply (Hl x a Hin). exact Hw.
Qed.
Lemma plainly_no_ignore {I} (rs : list (arule I)) : written_plainly rs -> forall x y, ~ ignores rs x y.
Proof. intros [_ Ho]. apply NamingAll_proofs.no_override_ignores. intros r x Hr. rewrite (Ho r Hr). discriminate. Qed.

(** ** C110.  Every text that yields a parser can be written without overrides and with one
    definition per name.  From the new text too a parser is made, and it does the same on
    every script. *)
Theorem C110_written_out : forall (U : Unicode) (H : HashOrder) m (vm : VM) reads fl rs t ps, supported vm reads -> tables_disjoint ->
  grammar_text reads rs t -> (N.of_nat (length t) < 2 ^ 63)%N -> enough_for_text fl t -> new_from_text m vm fl t = Ok ps ->
  exists rs' t', grammar_text reads rs' t' /\ written_plainly rs' /\ says_the_same rs rs' /\
  forall (H' : HashOrder) m' fl', (N.of_nat (length t') < 2 ^ 63)%N -> enough_for_text fl' t' ->
  exists ps', @new_from_text U H' m' vm fl' t' = Ok ps' /\ forall fuel script v, same_result (@parse H vm ps fuel script v) (@parse H' vm ps' fuel script v).
Proof.
  intros U H m vm reads fl rs t ps Hs Hd Ht Hlen Hfl Hps. assert (read_from m vm rs t ps) as Hr by (exists reads, fl; auto 10).
  destruct (written_out m vm reads rs t ps Hr Ht) as (rs' & t' & Ht' & Hpl & Hsame). exists rs', t'. split; [exact Ht'|]. split; [exact Hpl|]. split; [exact Hsame|].
  intros H' m' fl' Hlen' Hfl'. destruct (C56_same_meaning U H H' m m' vm reads fl fl' rs rs' t t' Hs Hd Ht Hlen Hfl Ht' Hlen' Hfl' (same_said _ _ Hsame)) as [Hb Hres].
  destruct (proj1 (Hb (pa_ignored _ (read_from_parsable m vm rs t ps Hr)) ltac:(intros x y Hi; destruct (plainly_no_ignore rs' Hpl x y Hi)))) as [ps' Hps']; [eauto|].
  exists ps'. split; [exact Hps'|]. exact (Hres ps ps' Hps Hps').
Qed.
Print Assumptions C110_written_out.

(** If it has a sentence at all, it can be written such that every alternative occurs in the
    tree of some sentence; the sentences and their trees are the same. *)
Theorem C110_reduced : forall (U : Unicode) (H : HashOrder) m (vm : VM) reads fl rs t ps, supported vm reads -> tables_disjoint ->
  grammar_text reads rs t -> (N.of_nat (length t) < 2 ^ 63)%N -> enough_for_text fl t -> new_from_text m vm fl t = Ok ps -> (exists s, sentence rs s) ->
  exists rs' t', grammar_text reads rs' t' /\ written_plainly rs' /\ every_part_used rs' /\ all_stand_for_text rs' /\ fewer_alternatives rs' rs /\
  (forall nt, nroot nt = (start, NonTerminal) -> (nderivation rs' nt <-> nderivation rs nt)) /\
  (forall x, defined rs' x -> defined rs x /\ instructions_for rs x = instructions_for rs' x) /\
  forall (H' : HashOrder) m' fl', (N.of_nat (length t') < 2 ^ 63)%N -> enough_for_text fl' t' -> exists ps', @new_from_text U H' m' vm fl' t' = Ok ps'.
Proof.
  intros U H m vm reads fl rs t ps Hs Hd Ht Hlen Hfl Hps Hsen. assert (read_from m vm rs t ps) as Hr by (exists reads, fl; auto 10).
  destruct (written_out m vm reads rs t ps Hr Ht) as (rs1 & t1 & Ht1 & Hpl & Hsame).
  assert (forall nt, nderivation rs nt <-> nderivation rs1 nt) as Hder.
  { assert (forall (ra rb : list (arule (vm_instr vm))), (forall x i w, says ra x i w -> says rb x i w) -> forall nt, nderivation ra nt -> nderivation rb nt) as Hgo.
    { intros ra rb Hab. induction nt as [b|x subs IH] using ntree_ind'; intros D; [constructor|]. inversion D as [|? i ? Hsay Hsubs]; subst. apply (nder_node rb x i); [auto|].
      rewrite Forall_forall in IH, Hsubs |- *. auto. }
    intros nt. split; apply Hgo; intros x i w; apply (Hsame x). }
  destruct (reduced_exists rs1 (plainly_no_ignore rs1 Hpl)) as (l & Hnd & Hl & Hst & Hcl & Hred).
  { destruct Hsen as (s & nt & D & R & E). exists s, nt. rewrite <- Hder. auto. }
  destruct (Hred (instructions_for rs)) as [Hused Hback]. set (rs' := assembled (instructions_for rs) l) in *.
  assert (forall x, x ∈ l.*1 -> defined rs x) as Hdl. { intros x Hx. apply elem_of_list_fmap in Hx as ([y a] & -> & Hin). apply (Hsame y). apply (Hl y a Hin). }
  destruct (asm_text reads rs t Ht l) as [t' Ht'].
  { intros x a Hin. destruct (Hl x a Hin) as (H1 & H2 & H3). split; [apply (Hsame x); exact H1|]. split; [exact H2|].
    destruct (text_alternatives reads rs1 t1 Ht1 x) as [_ Hg]. rewrite Forall_forall in Hg |- *. intros w Hw. apply Hg. eapply elem_of_submseteq; [exact Hw|apply sublist_submseteq, H3]. }
  assert (fewer_alternatives rs' rs) as Hfew.
  { intros x. destruct (decide (x ∈ l.*1)) as [Hx|Hx].
    - pose proof Hx as Hx'. apply elem_of_list_fmap in Hx' as ([y a] & -> & Hin). cbn [fst] in *. destruct (sublist_positions a (alternatives_for rs1 y)) as (f & Hf1 & Hf2); [apply (Hl y a Hin)|]. exists f. split; [exact Hf1|].
      intros i w Hw. apply (asm_says _ l y i w Hnd) in Hw as (b & Hb & Hw). apply (Hsame y). apply (NamingAll_proofs.plain_says rs1 (plainly_no_ignore rs1 Hpl)). apply Hf2.
      assert (a = b) as ->; [|exact Hw]. pose proof (asm_rules (instructions_for rs) l y a Hnd Hin) as E1. rewrite (asm_rules (instructions_for rs) l y b Hnd Hb) in E1. congruence.
    - exists (fun i => i). split; [auto|]. intros i w Hw. apply Naming_proofs.says_defined in Hw. apply asm_defined in Hw. contradiction. }
  exists rs', t'. split; [exact Ht'|]. split; [apply asm_plainly, Hnd|]. split; [exact Hused|]. split; [|split; [exact Hfew|split; [|split]]].
  - intros x Hx. apply asm_defined in Hx. apply elem_of_list_fmap in Hx as ([y a] & -> & Hin). cbn [fst]. destruct (Hl y a Hin) as (_ & Hne & _). destruct a as [|w a]; [congruence|].
    destruct (Hused y 0 w) as (nt & path & subs & N1 & N2 & N3 & _); [apply (asm_says _ l y 0 w Hnd); exists (w :: a); auto|]. exists (nyield (NNode y subs)), (NNode y subs).
    split; [exact (sub_derivation rs' path nt _ N1 N3)|auto].
  - intros nt R. split; [apply (fewer_derivation rs' rs Hfew)|]. intros D. apply (Hback nt start R Hst). apply Hder, D.
  - intros x Hx. apply asm_defined in Hx. split; [auto|]. symmetry. apply asm_instr; assumption.
  - intros H' m' fl' Hlen' Hfl'. apply (C58_buildable_iff_parsable U H' m' vm reads rs' t' fl' Hs Hd Ht' Hlen' Hfl'). apply (fewer_parsable rs' rs Hfew (read_from_parsable m vm rs t ps Hr)).
    + apply asm_defined. exact Hst.
    + intros x y (w & Hw & Hy). apply elem_of_list_lookup in Hw as [i Hi]. apply (NamingAll_proofs.plain_says rs' (asm_no_ignore _ l)) in Hi. apply (asm_says _ l x i w Hnd) in Hi as (a & Hin & Hi).
      apply asm_defined. apply (Hcl x a w y Hin); [eapply elem_of_list_lookup_2; exact Hi|exact Hy].
    + intros x y Hi. destruct (asm_no_ignore _ l x y Hi).
Qed.
Print Assumptions C110_reduced.

(** What such a text is good for: on the sentences the new parser does the same as the old
    one; all it accepts, the old one accepts with the same tree and state; and it gets just
    as far into a script as the script is the beginning of a sentence. *)
Theorem C110_reduced_parser : forall (U : Unicode) (H H' : HashOrder) m m' (vm : VM) rs t ps rs' t' ps',
  @read_from U H m vm rs t ps -> @read_from U H' m' vm rs' t' ps' -> fewer_alternatives rs' rs -> all_stand_for_text rs' ->
  (forall nt, nroot nt = (start, NonTerminal) -> (nderivation rs' nt <-> nderivation rs nt)) ->
  (forall x, defined rs' x -> instructions_for rs x = instructions_for rs' x) ->
  forall fuel fuel' script v, (length script + 1) * length t <= fuel -> (length script + 1) * length t' <= fuel' ->
  (sentence rs script -> fst (@parse H vm ps fuel script v) = fst (@parse H' vm ps' fuel' script v) /\
     forall tr v', @parse H vm ps fuel script v = (Ok tr, v') <-> @parse H' vm ps' fuel' script v = (Ok tr, v')) /\
  (forall tr v', @parse H' vm ps' fuel' script v = (Ok tr, v') -> @parse H vm ps fuel script v = (Ok tr, v')) /\
  (finished (fst (@parse H' vm ps' fuel' script v)) -> forall p, gets_to (fst (@parse H' vm ps' fuel' script v)) p <->
     p <= length script /\ forall k, k <= length script -> (can_go_on rs (take k script) <-> k <= p)).
Proof.
  intros U H H' m m' vm rs t ps rs' t' ps' Hr Hr' Hfew Hall Hder Hins fuel fuel' script v Hf Hf'.
  assert (forall s, sentence rs' s <-> sentence rs s) as Hsen. { intros s. split; intros (nt & D & R & E); exists nt; (split; [apply (Hder nt R); exact D|auto]). }
  split; [|split].
  - intros Hsc. apply Hsen in Hsc. destruct (C85_sentences U H' H m' m vm rs' rs t' t ps' ps Hr' Hr Hfew Hins fuel' fuel script v Hf' Hf Hsc) as [E1 E2]. split; [auto|]. intros tr v'. symmetry. apply E2.
  - intros tr v' Hp. exact (C85_accepted_scripts U H' H m' m vm rs' rs t' t ps' ps Hr' Hr Hfew Hins fuel' fuel script v tr v' Hf Hp).
  - intros Hfin p. rewrite (@C107_reached U H' m' vm rs' t' ps' Hr' Hall fuel' script v Hfin p).
    assert (forall k, can_go_on rs' (take k script) <-> can_go_on rs (take k script)) as Hgo. { intros k. split; intros [more Hm]; exists more; apply Hsen; exact Hm. }
    split; (intros [H1 H2]; split; [exact H1|]); intros k Hk; [rewrite <- Hgo|rewrite Hgo]; auto.
Qed.
Print Assumptions C110_reduced_parser.

(** ** Non-vacuity: a text with an override, a name that is defined twice and an alternative
    no sentence uses. *)
Section example.
Local Existing Instance ascii_unicode.
Local Existing Instance plain_order.
Notation K := (vm_instr NullVm).
Notation made t := (new_from_text Checked NullVm (mkFuels 60 2200) t).
Ltac name := split; [reflexivity|repeat constructor].
Ltac quoted := apply one_quoted; discriminate.
Ltac fits := split; cbn [first_fuel follow_fuel]; apply Nat.leb_le || apply Nat.ltb_lt; vm_compute; reflexivity.
Definition cl_first : arule K := mkARule start (OvIgnore (lit "w")) [[(lit "a", Terminal); (lit "b", Terminal)]; [(lit "d", NonTerminal)]] [].
Definition cl_rules : list (arule K) :=
  [cl_first; mkARule (lit "w") OvAbsent [[(lit " ", Terminal)]] []; mkARule (lit "w") OvAbsent [[]] []; mkARule (lit "d") OvAbsent [[(lit "c", Terminal); (lit "d", NonTerminal)]] []].
Definition cl_text : str := lit "start->$[IGNORE:w]""a""""b""|d;" ++ lit "w->"" "";" ++ lit "w->#;" ++ lit "d->""c""d;" ++ [].
Lemma cl_text_ok : grammar_text null_reads cl_rules cl_text.
Proof.
  unfold cl_text. repeat apply null_then.
  - apply (rule_intro null_reads cl_first [] [] [] [] [] (lit "$[IGNORE:w]") (lit """a""""b""|d") []); try (constructor; fail); try name.
    + apply (ov_ignore [] (lit "w")); [constructor|name].
    + apply (SpecRules.alts_cons _ (lit """a""""b""") [] [] _ (lit "d")); [|constructor..|apply alts_one, alt_elements, els_one, el_name; name].
      apply alt_elements, (els_cons _ (lit """a""") [] _ (lit """b""")); [quoted|constructor|apply els_one; quoted|intros E; discriminate E].
  - apply (null_rule (lit "w") _ (lit """ """)); [name|]. apply alts_one, alt_elements, els_one. quoted.
  - apply (null_rule (lit "w") _ (lit "#")); [name|]. apply alts_one, alt_empty.
  - apply (null_rule (lit "d") _ (lit """c""d")); [name|]. apply alts_one, alt_elements, (els_cons _ (lit """c""") [] _ (lit "d")); [quoted|constructor|apply els_one, el_name; name|intros E; discriminate E].
  - apply null_end.
Qed.
Notation cl_made := (new_from_text Checked NullVm (mkFuels 60 2400) cl_text).
Example C110_example : grammar_text null_reads cl_rules cl_text /\ enough_for_text (mkFuels 60 2400) cl_text /\ (exists ps, cl_made = Ok ps) /\ (exists s, sentence cl_rules s) /\
  ~ written_plainly cl_rules /\ ~ every_part_used cl_rules /\ ~ all_stand_for_text cl_rules.
Proof.
  destruct (verdicts_ok 2000 cl_made (lit "a b") (lit "ac")) as (ps & Eps & (tr & v' & Hp) & _); [vm_compute; reflexivity|].
  assert (read_from Checked NullVm cl_rules cl_text ps) as Hr.
  { exists null_reads, (mkFuels 60 2400). split; [constructor|]. split; [apply ascii_tables|]. split; [exact cl_text_ok|]. split; [reflexivity|]. split; [fits|exact Eps]. }
  split; [exact cl_text_ok|]. split; [fits|]. split; [exists ps; exact Eps|]. split.
  { destruct (parse_tree_literal Checked NullVm cl_rules cl_text ps _ _ _ _ _ Hr Hp) as (nt & rest & (A1 & A2 & _) & _). exists (nyield nt), nt. auto. }
  assert (forall s, ~ derives_text cl_rules (lit "d") s) as Hd.
  { intros s (nt & D & R & _). induction nt as [b|x subs IH] using ntree_ind'; [discriminate|]. cbn in R. injection R as ->. inversion D as [|? i ? Hs Hsubs]; subst.
    assert (forall y, ~ ignores cl_rules (lit "d") y) as Hno. { intros y (r & more & E & Ho). vm_compute in E. injection E as <- <-. discriminate Ho. }
    assert (map nroot subs = [(lit "c", Terminal); (lit "d", NonTerminal)]) as Es.
    { destruct Hs as [w Hw _|w y _ Hy _]; [|destruct (Hno y Hy)]. apply elem_of_list_lookup_2 in Hw. vm_compute in Hw. apply elem_of_list_singleton in Hw as ->. reflexivity. }
    destruct subs as [|d0 [|d1 [|d2 subs]]]; try discriminate Es. cbn [map] in Es. injection Es as _ E1. rewrite Forall_forall in IH, Hsubs. apply (IH d1); [right; left|apply Hsubs; right; left|exact E1]. }
  assert (says cl_rules (lit "d") 0 [(lit "c", Terminal); (lit "d", NonTerminal)]) as Hsd.
  { apply says_plain; [reflexivity|]. intros y (r & more & E & Ho). vm_compute in E. injection E as <- <-. discriminate Ho. }
  split; [|split].
  - intros [_ Ho]. specialize (Ho cl_first). discriminate Ho. left.
  - intros Hu. destruct (Hu _ _ _ Hsd) as (nt & path & subs & N1 & _ & N3 & _). apply (Hd (nyield (NNode (lit "d") subs))). exists (NNode (lit "d") subs). split; [exact (sub_derivation cl_rules path nt _ N1 N3)|auto].
  - intros Ha. destruct (Ha (lit "d")) as [s Hs]; [vm_compute; discriminate|]. exact (Hd s Hs).
Qed.

(** Leaving out a rule that no sentence uses may change what is accepted when more text
    follows behind the sentence: with the rule [more] the parser accepts the empty beginning
    of ["c"], without it it does not. *)
Notation opt := (lit "opt").
Definition un_rules : list (arule K) := [mkARule start OvAbsent [[(opt, NonTerminal)]] []; mkARule opt OvAbsent [[(lit "a", Terminal)]; []] []].
Definition un_more : arule K := mkARule (lit "m") OvAbsent [[(opt, NonTerminal); (lit "c", Terminal)]] [].
Definition un_text : str := lit "start->opt;" ++ lit "opt->""a""|#;" ++ [].
Definition un_more_text : str := lit "start->opt;" ++ lit "opt->""a""|#;" ++ lit "m->opt""c"";" ++ [].
Lemma un_texts_ok : grammar_text null_reads un_rules un_text /\ grammar_text null_reads (un_rules ++ [un_more]) un_more_text.
Proof.
  assert (rule_text null_reads (mkARule start OvAbsent [[(opt, NonTerminal)]] ([] : list K)) (lit "start->opt;")) as R1.
  { apply (null_rule start _ opt); [name|]. apply alts_one, alt_elements, els_one, el_name. name. }
  assert (rule_text null_reads (mkARule opt OvAbsent [[(lit "a", Terminal)]; []] ([] : list K)) (lit "opt->""a""|#;")) as R2.
  { apply (null_rule opt _ (lit """a""|#")); [name|]. apply (SpecRules.alts_cons _ (lit """a""") [] [] _ (lit "#")); [apply alt_elements, els_one; quoted|constructor..|apply alts_one, alt_empty]. }
  split; [exact (null_then _ _ _ _ R1 (null_then _ _ _ _ R2 null_end))|]. refine (null_then _ _ _ _ R1 (null_then _ _ _ _ R2 (null_then un_more _ [] [] _ null_end))).
  apply (null_rule (lit "m") _ (lit "opt""c""")); [name|]. apply alts_one, alt_elements, (els_cons _ opt [] _ (lit """c""")); [apply el_name; name|constructor|apply els_one; quoted|]. intros _ [E|E]; vm_compute in E; discriminate.
Qed.
Lemma un_plain l : (forall r, r ∈ l -> ar_override r = OvAbsent) -> forall x y, ~ ignores (un_rules ++ l) x y.
Proof.
  intros Hl. apply NamingAll_proofs.no_override_ignores. intros r x Hr E. apply elem_of_app in Hr as [Hr|Hr]; [|rewrite (Hl r Hr) in E; discriminate].
  apply elem_of_cons in Hr as [->|Hr]; [discriminate|]. apply elem_of_list_singleton in Hr as ->. discriminate.
Qed.
Theorem C110_trailing_refuted : exists (rs : list (arule K)) t ps rs' t' ps' script, read_from Checked NullVm rs t ps /\ read_from Checked NullVm rs' t' ps' /\
  fewer_alternatives rs' rs /\ written_plainly rs' /\ every_part_used rs' /\ all_stand_for_text rs' /\
  (forall nt, nroot nt = (start, NonTerminal) -> (nderivation rs' nt <-> nderivation rs nt)) /\
  (forall x, defined rs' x -> instructions_for rs x = instructions_for rs' x) /\
  (exists tr v, parse NullVm ps 2000 script 0%N = (Ok tr, v)) /\ exists e, fst (parse NullVm ps' 2000 script 0%N) = Err e.
Proof.
  destruct (verdicts_ok 2000 (made un_more_text) (lit "c") (lit "b")) as (ps & Eps & Hok & _); [vm_compute; reflexivity|].
  destruct (verdicts_ok 2000 (made un_text) (lit "a") (lit "c")) as (ps' & Eps' & _ & Herr); [vm_compute; reflexivity|]. destruct un_texts_ok as [T1 T2].
  assert (forall x y, ~ ignores un_rules x y) as N1. { rewrite <- (app_nil_r un_rules). apply un_plain. intros r Hr. inversion Hr. }
  assert (forall x y, ~ ignores (un_rules ++ [un_more]) x y) as N2. { apply un_plain. intros r Hr. apply elem_of_list_singleton in Hr as ->. reflexivity. }
  pose proof (C85_appended _ un_rules [un_more] N1 N2) as Hfew. pose proof (NamingAll_proofs.plain_says un_rules N1) as S1. pose proof (NamingAll_proofs.plain_says (un_rules ++ [un_more]) N2) as S2.
  assert (forall x, x <> lit "m" -> alternatives_for (un_rules ++ [un_more]) x = alternatives_for un_rules x) as Ealt.
  { intros x Hx. unfold alternatives_for, rules_for. rewrite filter_app. rewrite (filter_cons_False _ un_more []); [rewrite filter_nil, app_nil_r; reflexivity|]. intros E; apply Hx; symmetry; exact E. }
  assert (forall y, ~ (lit "m", NonTerminal) ∈ concat (alternatives_for un_rules y)) as Hm.
  { intros y. unfold alternatives_for. destruct (decide (y = start)) as [->|Y1]; [vm_compute; intros Hin; apply elem_of_list_singleton in Hin; discriminate|].
    destruct (decide (y = opt)) as [->|Y2]; [vm_compute; intros Hin; apply elem_of_list_singleton in Hin; discriminate|].
    unfold rules_for, un_rules. repeat (rewrite filter_cons_False; [|cbn [ar_name]; congruence]). intros Hin. inversion Hin. }
  assert (forall nt, nroot nt <> (lit "m", NonTerminal) -> nderivation (un_rules ++ [un_more]) nt -> nderivation un_rules nt) as Hback.
  { induction nt as [b|x subs IH] using ntree_ind'; intros R D; [constructor|]. inversion D as [|? i ? Hs Hsubs]; subst. apply S2 in Hs. rewrite Ealt in Hs by (intros ->; apply R; reflexivity).
    apply (nder_node _ x i); [apply S1; exact Hs|]. rewrite Forall_forall in IH, Hsubs |- *. intros d Hd. apply (IH d Hd); [|auto]. intros E. apply (Hm x). apply elem_of_list_lookup_2 in Hs.
    apply elem_of_list_In, in_concat. exists (map nroot subs). split; [apply elem_of_list_In; exact Hs|]. apply elem_of_list_In. rewrite <- E. apply elem_of_list_fmap. eauto. }
  assert (nderivation un_rules (NNode opt [])) as D0 by (apply (nder_node _ opt 1); [apply S1; reflexivity|constructor]).
  assert (nderivation un_rules (NNode opt [NLeaf (lit "a")])) as D1 by (apply (nder_node _ opt 0); [apply S1; reflexivity|repeat constructor]).
  assert (forall d, nderivation un_rules d -> nroot d = (opt, NonTerminal) -> nderivation un_rules (NNode start [d])) as Ds.
  { intros d D R. apply (nder_node _ start 0); [apply S1; cbn [map]; rewrite R; reflexivity|]. constructor; [exact D|constructor]. }
  exists (un_rules ++ [un_more]), un_more_text, ps, un_rules, un_text, ps', (lit "c").
  split; [apply (read_null _ un_more_text _ T2 eq_refl ltac:(fits) Eps); reflexivity|]. split; [apply (read_null _ un_text _ T1 eq_refl ltac:(fits) Eps'); reflexivity|]. split; [exact Hfew|].
  assert (forall x, defined un_rules x -> x = start \/ x = opt) as Hdef.
  { intros x Hx. apply defined_names in Hx. cbn in Hx. apply elem_of_cons in Hx as [->|Hx]; [auto|]. apply elem_of_list_singleton in Hx as ->. auto. }
  split; [|split; [|split; [|split; [|split; [|split; [exact Hok|exact Herr]]]]]].
  - split; [vm_compute; repeat constructor; intros Hin; [apply elem_of_list_singleton in Hin; discriminate Hin|inversion Hin]|]. intros r Hr. apply elem_of_cons in Hr as [->|Hr]; [reflexivity|]. apply elem_of_list_singleton in Hr as ->. reflexivity.
  - intros x i w Hs. pose proof (Naming_proofs.says_defined _ _ _ _ Hs) as Hx. apply S1 in Hs. apply Hdef in Hx as [->| ->].
    + destruct i as [|i]; [|destruct i; discriminate Hs]. injection Hs as <-. exists (NNode start [NNode opt []]), [], [NNode opt []]. auto.
    + destruct i as [|[|i]]; [| |destruct i; discriminate Hs]; injection Hs as <-.
      * exists (NNode start [NNode opt [NLeaf (lit "a")]]), [0], [NLeaf (lit "a")]. auto.
      * exists (NNode start [NNode opt []]), [0], []. auto.
  - intros x Hx. apply Hdef in Hx as [->| ->]; eexists; [exists (NNode start [NNode opt []])|exists (NNode opt [])]; auto.
  - intros nt R. split; [apply (fewer_derivation _ _ Hfew)|]. apply Hback. rewrite R. discriminate.
  - intros x Hx. apply Hdef in Hx as [->| ->]; reflexivity.
Qed.
Print Assumptions C110_trailing_refuted.
End example.
