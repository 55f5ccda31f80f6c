(** * C93: which characters the terminals are made of does not matter *)
From Verif Require Import Base Peekables Tree Errors Sets ParserData Vm SimpleStackVm StackVm RuleParsing FirstSets FollowSets SteuerMap ScriptParser
  SpecText SpecData SpecGrammar SpecParser SpecTree SpecScript SpecContract SpecWeave SpecRules SpecNames SpecLanguage SpecRecode
  Grammar_proofs Construct_proofs Checks Tree_proofs Script_proofs Parse_proofs
  Weave_proofs Names_proofs RuleBuild_proofs RuleText_proofs Language_proofs Syntax_proofs Recode_proofs
  Props_steuer Props_script Props_weave Props_rules Props_names Props_language Props_same Props_syntax Props_main Props_errors Samples.

(** ** Listings are read in one way *)
Lemma listing_cons x l : SpecScript.joined (lit ";") (map member_text (x :: l)) = member_text x ++ match l with [] => [] | _ => 59%N :: SpecScript.joined (lit ";") (map member_text l) end.
Proof. destruct l; [cbn; rewrite app_nil_r|]; reflexivity. Qed.
Lemma listing_inj l : forall l', SpecScript.joined (lit ";") (map member_text l) = SpecScript.joined (lit ";") (map member_text l') -> l = l'.
Proof.
  assert (forall x l, SpecScript.joined (lit ";") (map member_text (x :: l)) <> []) as Hne by (intros [|] l0; rewrite listing_cons; discriminate).
  induction l as [|x l IH]; intros [|y l'] E; [reflexivity|symmetry in E; destruct (Hne y l' E)|destruct (Hne x l E)|]. rewrite !listing_cons in E.
  assert (x = y /\ match l with [] => [] | _ => 59%N :: SpecScript.joined (lit ";") (map member_text l) end = match l' with [] => [] | _ => 59%N :: SpecScript.joined (lit ";") (map member_text l') end) as [-> E'].
  { destruct x as [c|], y as [d|]; cbn [member_text] in E.
    - injection E as -> E. auto.
    - exfalso. cbn in E. injection E as _ E. destruct l; discriminate.
    - exfalso. cbn in E. injection E as _ E. destruct l'; discriminate.
    - apply app_inv_head in E. auto. }
  f_equal. destruct l, l'; try discriminate; [reflexivity|]. injection E' as E'. apply IH, E'.
Qed.
Lemma recoded_then_same g vm R n x y z : recoded_result g vm R n x y -> same_result y z -> recoded_result g vm R n x z.
Proof.
  destruct x as [r v], y as [r' v'], z as [r'' v'']. intros [Hv Hr] [<- Hs]. split; [exact Hv|].
  destruct r as [t|e| |], r' as [t'|e'| |], r'' as [t''|e''| |]; try contradiction; try discriminate; try exact Logic.I; [congruence|].
  destruct Hs as [<-|(c & pos & l & l' & Hp & -> & ->)]; [exact Hr|].
  inversion Hr as [c0 pos0 l0 l0' Hpos Hl E1 E2|l0 l0' Hl E1 E2|e0 He E1 E2]; subst.
  - match goal with H : _ = SpecScript.joined _ _ |- _ => apply listing_inj in H; subst end. apply re_char; [assumption|]. rewrite <- Hp. assumption.
  - match goal with H : _ = SpecScript.joined _ _ |- _ => apply listing_inj in H; subst end. apply re_end. rewrite <- Hp. assumption.
  - destruct (He _ _ _ eq_refl).
Qed.

Section texts.
Context (g : char -> char) (Hg : one_to_one g).
Lemma rco_parsable {vm : VM} (pd pe : ParserData (vm_instr vm)) rs : described pd rs -> edited_data pd pe -> wf_grammar pe ->
  defined rs (lit "start") -> (forall x y, ignores rs x y -> defined rs y) -> parsable rs <-> parsable (map (recoded g) rs).
Proof.
  intros D E Hwf Hd Hig. destruct (defined_element pd rs D _ Hd) as (start & Hst & _). rewrite <- (ed_verbose pd pe E) in Hst.
  rewrite <- (constructible_parsable pd pe rs D E start Hst Hig).
  rewrite <- (constructible_parsable (recode_data g pd) (recode_data g pe) (map (recoded g) rs) (rcd_described g Hg pd rs D) (rcd_edited_data g pd pe E) start).
  - symmetry. apply (rc_constructible g Hg pe (recode_data g pe) (rcd_verbose g pe) eq_refl).
  - rewrite rcd_verbose, Hst. reflexivity.
  - intros x y Hxy. apply (rco_ignores g rs) in Hxy. apply (rco_defined g rs). exact (Hig x y Hxy).
Qed.
(** Texts of rules and of the rules with other chars in the terminals: both are accepted or
    both are not; the parsers do the same with a script and with the script of the other chars,
    with every VM that does the same on both kinds of trees. *)
Theorem C93_texts : forall (U : Unicode) (H H' : HashOrder) m m' (vm : VM) reads fl fl' rs t t', supported vm reads -> tables_disjoint ->
  grammar_text reads rs t -> (N.of_nat (length t) < 2 ^ 63)%N -> enough_for_text fl t ->
  grammar_text reads (map (recoded g) rs) t' -> (N.of_nat (length t') < 2 ^ 63)%N -> enough_for_text fl' t' ->
  ((exists ps, @new_from_text U H m vm fl t = Ok ps) <-> (exists ps', @new_from_text U H' m' vm fl' t' = Ok ps')) /\
  (forall R ps ps', vm_recodes g vm R -> @new_from_text U H m vm fl t = Ok ps -> @new_from_text U H' m' vm fl' t' = Ok ps' ->
   forall fuel script v v', R v v' -> recoded_result g vm R (length script) (@parse H vm ps fuel script v) (@parse H' vm ps' fuel (map g script) v')).
Proof.
  intros U H H' m m' vm reads fl fl' rs t t' Hs Hd Ht Hlen Hfl Ht' Hlen' Hfl'. split.
  - rewrite (C58_buildable_iff_parsable U H m vm reads rs t fl Hs Hd Ht Hlen Hfl), (C58_buildable_iff_parsable U H' m' vm reads _ t' fl' Hs Hd Ht' Hlen' Hfl').
    assert ((forall x y, uses rs x y -> defined rs y) -> (forall x y, ignores rs x y -> defined rs y) -> defined rs (lit "start") -> parsable rs <-> parsable (map (recoded g) rs)) as Hgo.
    { intros Hu Hi Hst. destruct (text_edited vm reads Hs Hd H rs t fl Ht Hlen Hfl Hu Hi) as (pd & pe & D & E & Hwf & _). exact (rco_parsable pd pe rs D E Hwf Hst Hi). }
    split; intros Hp; apply Hgo; try exact Hp; try apply Hp.
    + intros x y Hxy. apply (rco_defined g rs), (pa_defined _ Hp x). apply (rco_uses g rs). exact Hxy.
    + intros x y Hxy. apply (rco_defined g rs), (pa_ignored _ Hp x). apply (rco_ignores g rs). exact Hxy.
    + apply (rco_defined g rs). apply Hp.
  - intros R ps ps' Hvm Hps Hps' fuel script v v' Hv.
    destruct (@read_from_built U H m vm rs t ps) as (pd & pe & start & f1 & D1 & E1 & S1 & B1 & _); [exists reads, fl; auto 10|].
    destruct (@read_from_built U H' m' vm (map (recoded g) rs) t' ps') as (pd' & pe' & start' & f2 & D2 & E2 & S2 & B2 & _); [exists reads, fl'; auto 10|].
    pose proof (rcd_wf g pe (proj1 B1)) as Hwf. pose proof (proj1 (proj2 B1)) as Hfit. change (fits_memory (recode_data g pe)) in Hfit.
    destruct (proj2 (proj1 (C26_construction H' m vm (large (recode_data g pe)) (recode_data g pe) start Hwf Hfit (large_enough _)))) as [qs Hq].
    { apply (rc_constructible g Hg pe (recode_data g pe) (rcd_verbose g pe) eq_refl). apply built_spec in B1. apply B1. }
    assert (@built H' m vm (large (recode_data g pe)) (recode_data g pe) start qs) as B3 by (split; auto).
    apply recoded_then_same with (y := @parse H' vm qs fuel (map g script) v').
    + apply (@built_spec H) in B1 as (_ & _ & T1). pose proof (@built_spec H' _ _ _ _ _ _ B3) as (_ & _ & T3). apply recode_parse; try assumption; try reflexivity.
      * intros A. exact (rc_table g Hg pe (recode_data g pe) (rcd_verbose g pe) eq_refl start ps qs A T1 T3).
      * intros e. rewrite (pt_elements _ _ _ T1), (pt_elements _ _ _ T3). apply rcd_verbose.
    + pose proof (rcd_described g Hg pd rs D1) as D3. pose proof (rcd_edited_data g pd pe E1) as E3.
      apply (C56_same_results H' H' m m' vm (large (recode_data g pe)) f2 (recode_data g pe) pe' start start'); eauto using ed_unique, rcd_start.
      assert (same_meaning (map (recoded g) rs) (map (recoded g) rs)) as Hm.
      { intros x. split; [reflexivity|]. split; [reflexivity|]. intros a a' Ha Ha'. rewrite (lists_unique _ _ _ _ Ha Ha'). reflexivity. }
      split; [exact (same_half _ _ _ _ _ _ D3 E3 D2 E2 Hm)|exact (same_half _ _ _ _ _ _ D2 E2 D3 E3 Hm)].
Qed.
End texts.
Print Assumptions C93_texts.

(** NullVm and CountingVm do the same on both kinds of trees, from equal states. *)
Theorem C93_null_and_counting : forall g m, vm_recodes g NullVm eq /\ vm_recodes g (CountingVm m) eq.
Proof.
  intros g m. split; intros t node i v v' <-; cbn; [auto|]. unfold counting_execute. destruct (usize_result m _) as [s|[]| |]; cbn; auto.
Qed.
Print Assumptions C93_null_and_counting.

(** ** Non-vacuity: the text of C57_example with [a] and [b] exchanged. *)
Section example.
Local Existing Instance ascii_unicode.
Local Existing Instance plain_order.
Definition swap_ab (c : char) : char := if (c =? 97)%N then 98%N else if (c =? 98)%N then 97%N else c.
Lemma swap_ab_inj : one_to_one swap_ab.
Proof. intros c d. unfold swap_ab. destruct (N.eqb_spec c 97), (N.eqb_spec d 97), (N.eqb_spec c 98), (N.eqb_spec d 98); lia. Qed.
Definition ba_text : str := lit "start->$[IGNORE:ws]""b"" ""a"";ws->"" ""|#;".
Lemma ba_text_ok : grammar_text null_reads (map (recoded swap_ab) ig_rules) ba_text.
Proof.
  apply (gr_cons null_reads _ (lit "start->$[IGNORE:ws]""b"" ""a"";") [] _ (lit "ws->"" ""|#;")); [constructor| |].
  - apply (rule_intro null_reads (mkARule (lit "start") (OvIgnore (lit "ws")) [[(lit "b", Terminal); (lit "a", Terminal)]] []) [] [] [] [] []
      (lit "$[IGNORE:ws]") (lit """b"" ""a""") []); try (constructor; fail); try apply two_names; try (split; [reflexivity|repeat constructor]).
    + apply (ov_ignore [] (lit "ws")); [constructor|]. split; [reflexivity|repeat constructor].
    + apply alts_one, alt_elements. apply (els_cons _ (lit """b""") (lit " ") _ (lit """a""")); [apply one_quoted; discriminate|repeat constructor|apply els_one, one_quoted; discriminate|discriminate].
  - apply (gr_cons null_reads _ (lit "ws->"" ""|#;") [] _ []); [constructor| |apply gr_end; constructor].
    apply (rule_intro null_reads (mkARule (lit "ws") OvAbsent [[(lit " ", Terminal)]; []] []) [] [] [] [] []
      [] (lit """ ""|#") []); try (constructor; fail); try (split; [reflexivity|repeat constructor]).
    apply (alts_cons _ (lit """ """) [] [] _ (lit "#")); [apply alt_elements, els_one, one_quoted; discriminate|constructor..|apply alts_one, alt_empty].
Qed.
Example C93_example : one_to_one swap_ab /\ ig_text <> ba_text /\ map swap_ab (lit "a b") = lit "b a" /\
  grammar_text null_reads ig_rules ig_text /\ grammar_text null_reads (map (recoded swap_ab) ig_rules) ba_text /\
  enough_for_text (mkFuels 60 2400) ig_text /\ enough_for_text (mkFuels 60 2400) ba_text /\
  (exists ps, new_from_text Checked NullVm (mkFuels 60 2400) ig_text = Ok ps /\
    (exists tr v, parse NullVm ps 200 (lit "a b") 0%N = (Ok tr, v)) /\ exists e, fst (parse NullVm ps 200 (lit "b a") 0%N) = Err e) /\
  (exists ps, new_from_text Checked NullVm (mkFuels 60 2400) ba_text = Ok ps /\
    (exists tr v, parse NullVm ps 200 (lit "b a") 0%N = (Ok tr, v)) /\ exists e, fst (parse NullVm ps 200 (lit "a b") 0%N) = Err e).
Proof.
  split; [apply swap_ab_inj|]. split; [vm_compute; discriminate|]. split; [vm_compute; reflexivity|]. split; [apply ig_text_ok|]. split; [apply ba_text_ok|].
  split; [|split]. 1,2: split; cbn [first_fuel follow_fuel]; apply Nat.leb_le || apply Nat.ltb_lt; vm_compute; reflexivity.
  split; apply verdicts_ok; vm_compute; reflexivity.
Qed.
End example.
