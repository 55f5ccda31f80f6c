(** * Property theorems: the two calculators of the examples directory compared (C117) *)
From Verif Require Import Base Peekables Tree Errors Sets ParserData Vm SimpleStackVm StackVm RuleParsing FirstSets FollowSets SteuerMap ScriptParser
  SpecText SpecData SpecGrammar SpecParser SpecTree SpecScript SpecContract SpecWeave SpecRules SpecNames SpecMath SpecVm SpecRpn SpecCalc SpecSyntax SpecSigned
  Grammar_proofs Script_proofs Parse_proofs Construct_proofs Checks Names_proofs RuleBuild_proofs RuleText_proofs Math_proofs Vm_proofs Rpn_proofs CalcFail_proofs Broken_proofs
  Props_data Props_steuer Props_script Props_weave Props_rules Props_names Props_math Props_vm Props_rpn Props_calc Props_syntax Samples.
Local Open Scope Z_scope.

Notation low := (- 2 ^ 63).
Lemma bits_signed a b : in_word 0 a -> in_word low b -> same_bits a b -> reads_signed a b.
Proof.
  intros Ha Hb [k Hk]. unfold in_word in *. split; [lia|]. destruct (Z.ltb_spec a (2 ^ 63)); lia.
Qed.
Lemma signed_bits a b : reads_signed a b -> same_bits a b.
Proof. intros [_ ->]. destruct (a <? 2 ^ 63); [exists 0|exists 1]; lia. Qed.
Lemma signed_small z : 0 <= z < 2 ^ 63 -> reads_signed z z.
Proof. intros Hz. split; [lia|]. destruct (Z.ltb_spec z (2 ^ 63)); lia. Qed.
Lemma signed_word m m' z z' v v' : same_bits z z' -> word m 0 z (Some v) -> word m' low z' (Some v') -> reads_signed v v'.
Proof.
  intros Hz Hv Hv'. apply bits_signed; [eapply word_in; exact Hv|eapply word_in; exact Hv'|].
  eapply same_bits_trans; [eapply word_bits; exact Hv|]. eapply same_bits_trans; [exact Hz|]. apply same_bits_sym. eapply word_bits; exact Hv'.
Qed.
Lemma bits_sub a b c d : same_bits a b -> same_bits c d -> same_bits (a - c) (b - d).
Proof. intros [i ->] [j ->]. exists (i - j). lia. Qed.
Lemma power_bits m lo b r r2 v y : power m lo b r r2 v (Some y) -> in_word lo y /\ same_bits y (v * b ^ (r mod 2 ^ 32) + r2).
Proof.
  intros Hp. inversion Hp as [|? ? ? ? ? ? Hx|p q x y' Hpw Hq1 Hq2 Hx Hy]; subst. split; [eapply word_in; exact Hy|].
  eapply same_bits_trans; [eapply word_bits; exact Hy|]. apply same_bits_add; [|apply same_bits_refl].
  eapply same_bits_trans; [eapply word_bits; exact Hx|]. apply same_bits_mul; [apply same_bits_refl|].
  eapply same_bits_trans; [exact Hq1|]. eapply word_bits; exact Hpw.
Qed.
Lemma literal_signed m m' ds v : Forall digit_char ds -> literal m 0 ds (Some v) -> forall v', literal m' low ds (Some v') -> reads_signed v v'.
Proof.
  intros Hds. revert v. induction Hds as [|c ds Hc Hds IH]; intros v Hv v' Hv'; [inversion Hv|].
  pose proof (digit_range c Hc) as Hr.
  inversion Hv as [?|? ? t ? Hne Ht Hp|]; subst.
  - inversion Hv' as [?|? ? ? ? Hne|]; subst; [apply signed_small; unfold digit in *; lia|congruence].
  - inversion Hv' as [?|? ? t' ? _ Ht' Hp'|]; subst; [congruence|].
    pose proof (IH _ Ht _ Ht') as Htt. apply power_bits in Hp as [Hin Hb], Hp' as [Hin' Hb']. apply bits_signed; [assumption..|].
    eapply same_bits_trans; [exact Hb|]. apply same_bits_sym. eapply same_bits_trans; [exact Hb'|].
    apply same_bits_add; [apply same_bits_refl|]. apply same_bits_sym, signed_bits, Htt.
Qed.
(** ** One item, a list of items *)
Definition short_item (i : item) : Prop := match i with Num ds => Z.of_nat (length ds) < 2 ^ 63 | _ => True end.
Lemma signed_stack2 b a st l : Forall2 reads_signed (b :: a :: st) l -> exists b' a' st', l = b' :: a' :: st' /\ reads_signed b b' /\ reads_signed a a' /\ Forall2 reads_signed st st'.
Proof.
  intros H. apply Forall2_cons_inv_l in H as (b' & l1 & Hb & H & ->). apply Forall2_cons_inv_l in H as (a' & l2 & Ha & H & ->). eauto 10.
Qed.
Lemma does_signed m m' i s s' t t' : good_item i -> short_item i -> signed_state s s' -> does m 0 i s (Some t) -> does m' low i s' (Some t') -> signed_state t t'.
Proof.
  intros Hg Hsh (S1 & S2 & S3 & S4 & S5) D D'.
  destruct i as [ds| | |].
  - destruct Hg as [_ Hds].
    inversion D as [c ?|c ds0 t0 v ? L1 L2| | | | | | | | |]; subst.
    + assert (t' = stacked s' (digit c :: stack s')) as ->.
      { inversion D' as [|? ? ? ? ? L| | | | | | | | |]; subst; [reflexivity|inversion L]. }
      apply Forall_cons in Hds as [Hc _]. pose proof (digit_range c Hc) as Hr. split; [|auto].
      constructor; [apply signed_small; unfold digit in *; lia|exact S1].
    + inversion D' as [|? ? t1 v1 ? L1' L2'| | | | | | | | |]; subst; [inversion L1|].
      split; [|split; [|split; [|split]]]; cbn [stack reg reg2 err printed]; [|apply signed_small; split; [apply Nat2Z.is_nonneg|exact Hsh]| |exact S4|exact S5].
      * constructor; [exact (literal_signed m m' _ _ Hds L2 _ L2')|exact S1].
      * exact (literal_signed m m' _ _ (Forall_inv_tail Hds) L1 _ L1').
  - inversion D as [| | |a b st ? r Es Hw X1 X2 Er| |b ? Es| |? Es| | |]; subst.
    + destruct r as [v|]; [|discriminate]. injection Er as <-. rewrite Es in S1. apply signed_stack2 in S1 as (b' & a' & st' & Es' & Hb & Ha & Hst).
      inversion D' as [| | |a1 b1 st1 ? r1 E1 Hw1 X3 X4 Er1| |? ? E1| |? E1| | |]; subst; rewrite Es' in E1; [|discriminate..]. injection E1 as <- <- <-.
      destruct r1 as [v1|]; [|discriminate]. injection Er1 as <-. split; [|split; [exact Hb|auto]]. constructor; [|exact Hst].
      refine (signed_word _ _ _ _ _ _ _ Hw Hw1). apply same_bits_add; apply signed_bits; assumption.
    + rewrite Es in S1. apply Forall2_cons_inv_l in S1 as (b' & l1 & Hb & S1 & Es'). apply Forall2_nil_inv_l in S1 as ->.
      inversion D' as [| | |a1 b1 st1 ? r1 E1 Hw1 X3 X4 Er1| |? ? E1| |? E1| | |]; subst; rewrite Es' in E1; try discriminate. injection E1 as <-.
      split; [constructor|]. split; [exact Hb|]. auto.
    + rewrite Es in S1. apply Forall2_nil_inv_l in S1 as Es'.
      inversion D' as [| | |a1 b1 st1 ? r1 E1 Hw1 X3 X4 Er1| |? ? E1| |? E1| | |]; subst; rewrite Es' in E1; try discriminate.
      split; [constructor|]. auto.
  - inversion D as [| | | |a b st ? r Es Hw X1 X2 Er| |b ? Es| |? Es| |]; subst.
    + destruct r as [v|]; [|discriminate]. injection Er as <-. rewrite Es in S1. apply signed_stack2 in S1 as (b' & a' & st' & Es' & Hb & Ha & Hst).
      inversion D' as [| | | |a1 b1 st1 ? r1 E1 Hw1 X3 X4 Er1| |? ? E1| |? E1| |]; subst; rewrite Es' in E1; [|discriminate..]. injection E1 as <- <- <-.
      destruct r1 as [v1|]; [|discriminate]. injection Er1 as <-. split; [|split; [exact Hb|auto]]. constructor; [|exact Hst].
      refine (signed_word _ _ _ _ _ _ _ Hw Hw1). apply bits_sub; apply signed_bits; assumption.
    + rewrite Es in S1. apply Forall2_cons_inv_l in S1 as (b' & l1 & Hb & S1 & Es'). apply Forall2_nil_inv_l in S1 as ->.
      inversion D' as [| | | |a1 b1 st1 ? r1 E1 Hw1 X3 X4 Er1| |? ? E1| |? E1| |]; subst; rewrite Es' in E1; try discriminate. injection E1 as <-.
      split; [constructor|]. split; [exact Hb|]. auto.
    + rewrite Es in S1. apply Forall2_nil_inv_l in S1 as Es'.
      inversion D' as [| | | |a1 b1 st1 ? r1 E1 Hw1 X3 X4 Er1| |? ? E1| |? E1| |]; subst; rewrite Es' in E1; try discriminate.
      split; [constructor|]. auto.
  - inversion D as [| | | | | | | | |v st ? Es|? Es]; subst; rewrite Es in S1.
    + apply Forall2_cons_inv_l in S1 as (v' & st' & Hv & S1 & Es').
      inversion D' as [| | | | | | | | |v1 st1 ? E1|? E1]; subst; rewrite Es' in E1; try discriminate. injection E1 as <- <-.
      split; [exact S1|]. split; [exact Hv|]. split; [exact S3|]. split; [exact S4|]. apply Forall2_app; [exact S5|constructor; [exact Hv|constructor]].
    + apply Forall2_nil_inv_l in S1 as Es'.
      inversion D' as [| | | | | | | | |v1 st1 ? E1|? E1]; subst; rewrite Es' in E1; try discriminate.
      split; [constructor|]. split; [exact S2|]. split; [exact S3|]. split; [reflexivity|]. apply Forall2_app; [exact S5|constructor; [exact S2|constructor]].
Qed.
Lemma does_all_signed m m' l : Forall good_item l -> Forall short_item l -> forall s s' t t', signed_state s s' ->
  does_all m 0 l s (Some t) -> does_all m' low l s' (Some t') -> signed_state t t'.
Proof.
  induction l as [|i l IH]; intros Hg Hsh s s' t t' Hs D D'.
  - inversion D; subst. inversion D'; subst. exact Hs.
  - apply Forall_cons in Hg as [Hi Hg], Hsh as [Hi' Hsh]. inversion D as [|? ? ? s1 ? D1 D2|]; subst. inversion D' as [|? ? ? s1' ? D1' D2'|]; subst.
    exact (IH Hg Hsh _ _ _ _ (does_signed m m' i s s' s1 s1' Hi Hi' Hs D1 D1') D2 D2').
Qed.
(** ** Release builds do not panic *)
Lemma wrapping_some lo z r : word Wrapping lo z r -> r <> None.
Proof. intros H. inversion H; subst; discriminate. Qed.
Lemma literal_some lo ds r : literal Wrapping lo ds r -> r <> None.
Proof.
  induction 1 as [c|c ds v r Hne _ _ Hp|c ds _ IH]; [discriminate| |exact IH].
  inversion Hp as [Hw|? ? ? ? ? Hw|? ? ? ? ? ? ? ? Hw]; subst; [destruct (wrapping_some _ _ _ Hw eq_refl)..|exact (wrapping_some _ _ _ Hw)].
Qed.
Lemma does_some lo i s r : does Wrapping lo i s r -> r <> None.
Proof.
  intros H. inversion H as [| |? ? L|? ? ? ? r0 ? Hw|? ? ? ? r0 ? Hw| | | | | |]; subst; try discriminate.
  - destruct (literal_some _ _ _ L eq_refl).
  - pose proof (wrapping_some _ _ _ Hw). destruct r0; [discriminate|congruence].
  - pose proof (wrapping_some _ _ _ Hw). destruct r0; [discriminate|congruence].
Qed.
Lemma does_all_some lo l s r : does_all Wrapping lo l s r -> r <> None.
Proof. induction 1 as [|? ? ? ? ? _ _ IH|? ? ? D]; [discriminate|exact IH|]. destruct (does_some _ _ _ _ D eq_refl). Qed.
Lemma only_checked m lo l s : does_all m lo l s None -> m = Checked.
Proof. destruct m; [reflexivity|]. intros D. destruct (does_all_some _ _ _ _ D eq_refl). Qed.
Lemma unfinished_signed ds : Forall digit_char ds -> forall s s', signed_state s s' -> signed_state (unfinished ds s) (unfinished ds s').
Proof.
  unfold unfinished. induction 1 as [|c ds Hc _ IH]; intros s s' Hs; [exact Hs|]. cbn [fold_left]. apply IH.
  destruct Hs as (S1 & S2). split; [|exact S2]. pose proof (digit_range c Hc) as Hr. constructor; [apply signed_small; lia|]. constructor; [apply signed_small; unfold digit in *; lia|exact S1].
Qed.

(** ** At the API *)
Lemma item_short l text : program l text -> Z.of_nat (length text) < 2 ^ 63 -> Forall short_item l.
Proof.
  intros (_ & _ & ->) Hlen. apply Forall_forall. intros i Hi. unfold short_item. destruct i as [ds| | |]; try exact Logic.I.
  assert (length ds <= length (SpecScript.joined (lit " ") (map item_text l)))%nat as Hd; [|lia]. clear Hlen.
  assert (ds ∈ map item_text l) as Hin by (apply elem_of_list_fmap; exists (Num ds); auto). clear Hi. revert Hin. generalize (map item_text l). clear l. intros l.
  induction l as [|x l IH]; intros Hin; [inversion Hin|]. apply elem_of_cons in Hin as [<-|Hin].
  - destruct l; simpl; rewrite ?app_length; lia.
  - specialize (IH Hin). destruct l as [|s l]; [inversion Hin|]. change (SpecScript.joined (lit " ") (x :: s :: l)) with (x ++ lit " " ++ SpecScript.joined (lit " ") (s :: l)). rewrite !app_length. lia.
Qed.
Lemma spaced_short l rest : Z.of_nat (length (each_spaced l ++ rest)) < 2 ^ 63 -> Forall short_item l.
Proof.
  intros Hlen. apply Forall_forall. intros i Hi. unfold short_item. destruct i as [ds| | |]; try exact Logic.I.
  assert (length ds <= length (each_spaced l ++ rest))%nat as Hd; [|lia]. clear Hlen. rewrite app_length.
  unfold each_spaced. induction l as [|x l IH]; [inversion Hi|]. cbn [map concat]. rewrite !app_length. apply elem_of_cons in Hi as [<-|Hi]; [simpl; lia|]. specialize (IH Hi). lia.
Qed.
Lemma broken_items l ds read rest : broken l ds read rest -> Z.of_nat (length (read ++ rest)) < 2 ^ 63 -> Forall good_item l /\ Forall short_item l /\ Forall digit_char ds.
Proof.
  intros Hb Hlen. inversion Hb as [? k ? Hg|? ? c rest' Hg _ Hds|l0 i c rest' Hg Hi Hn]; subst; rewrite <- app_assoc in Hlen.
  - split; [assumption|]. split; [eapply spaced_short; exact Hlen|constructor].
  - split; [assumption|]. split; [eapply spaced_short; exact Hlen|assumption].
  - split; [apply Forall_app; split; [assumption|constructor; [assumption|constructor]]|]. split; [|constructor].
    apply Forall_app. split; [eapply spaced_short; exact Hlen|]. constructor; [|constructor]. destruct i; [destruct Hn|..]; exact Logic.I.
Qed.
(** ** C117.  The calculator of examples/simple_stack_based_math.rs and the one of
    examples/stack_based_math.rs on the same text, from states that differ only in the
    reading of the words: the same tree or the same error, and again such states, unless an
    instruction panics, which happens in debug builds only. *)
Theorem C117_calculators_compared : forall (U : Unicode) (H H' : HashOrder) m m' k k' fl fl', enough_for_text fl simple_math_rules -> enough_for_text fl' stack_math_rules ->
  exists ps ps', @new_from_text U H m (SimpleStackVm k) fl simple_math_rules = Ok ps /\ @new_from_text U H' m' (StackVm k') fl' stack_math_rules = Ok ps' /\
  forall fuel text v v', ((length text + 1) * 14 <= fuel)%nat -> Z.of_nat (length text) < 2 ^ 63 -> signed_state (simple_view v) (stack_view v') ->
  match @parse H _ ps fuel text v, @parse H' _ ps' fuel text v' with
  | (Ok t, a), (Ok t', b) => t = t' /\ signed_state (simple_view a) (stack_view b)
  | (Err e, a), (Err e', b) => same_error e e' /\ signed_state (simple_view a) (stack_view b)
  | (Panic, _), (Panic, _) => k = Checked /\ k' = Checked
  | (Panic, _), (Ok _, _) | (Panic, _), (Err _, _) => k = Checked
  | (Ok _, _), (Panic, _) | (Err _, _), (Panic, _) => k' = Checked
  | _, _ => False
  end.
Proof.
  intros U H H' m m' k k' fl fl' Hfl Hfl'. destruct (C73_calculators U H H' m m' k k' fl fl' Hfl Hfl') as (ps & ps' & Hps & Hps' & Hsame).
  destruct (C48_simple_calculator U H k m fl Hfl) as (q & Hq & Hc). assert (q = ps) as -> by congruence.
  destruct (C65_simple_calculator_errors U H k m fl Hfl) as (q & Hq2 & Hr). assert (q = ps) as -> by congruence.
  destruct (C50_stack_calculator U H' k' m' fl' Hfl') as (q & Hq3 & Hc'). assert (q = ps') as -> by congruence.
  destruct (C65_stack_calculator_errors U H' k' m' fl' Hfl') as (q & Hq4 & Hr'). assert (q = ps') as -> by congruence.
  exists ps, ps'. split; [assumption|]. split; [assumption|]. clear Hq Hq2 Hq3 Hq4 Hps Hps'.
  intros fuel text v v' Hfuel Hlen Hs. specialize (Hsame fuel text v v').
  destruct (program_or_broken text) as [[l Hp]|(l & ds & read & rest & Hb & ->)].
  - pose proof (proj1 (Hc fuel text v Hfuel Hlen) l Hp) as D. pose proof (proj1 (Hc' fuel text v' Hfuel Hlen) l Hp) as D'.
    pose proof (item_short l text Hp Hlen) as Hsh. pose proof (proj1 (proj2 Hp)) as Hg.
    destruct (@parse H (SimpleStackVm k) ps fuel text v) as [[t|e| |] a], (@parse H' (StackVm k') ps' fuel text v') as [[t'|e'| |] b]; try contradiction; cbn [fst] in Hsame.
    + split; [exact (Hsame Logic.I Logic.I)|]. exact (does_all_signed k k' l Hg Hsh _ _ _ _ Hs D D').
    + eapply only_checked; exact D'.
    + eapply only_checked; exact D.
    + split; eapply only_checked; [exact D|exact D'].
  - pose proof (Hr fuel l ds read rest v Hfuel Hlen Hb) as D. pose proof (Hr' fuel l ds read rest v' Hfuel Hlen Hb) as D'.
    destruct (broken_items l ds read rest Hb Hlen) as (Hg & Hsh & Hds).
    destruct (@parse H (SimpleStackVm k) ps fuel (read ++ rest) v) as [[t|e| |] a], (@parse H' (StackVm k') ps' fuel (read ++ rest) v') as [[t'|e'| |] b]; try contradiction; cbn [fst] in Hsame.
    + split; [exact (Hsame Logic.I Logic.I)|]. destruct D as (_ & s1 & D & E), D' as (_ & s1' & D' & E'). rewrite E, E'. apply unfinished_signed; [exact Hds|].
      exact (does_all_signed k k' l Hg Hsh _ _ _ _ Hs D D').
    + eapply only_checked; exact D'.
    + eapply only_checked; exact D.
    + split; eapply only_checked; [exact D|exact D'].
Qed.
Print Assumptions C117_calculators_compared.
(** Whole sessions: several texts with the same two states, going on after errors. *)
Theorem C117_sessions : forall (U : Unicode) (H H' : HashOrder) m m' k k' fl fl', enough_for_text fl simple_math_rules -> enough_for_text fl' stack_math_rules ->
  exists ps ps', @new_from_text U H m (SimpleStackVm k) fl simple_math_rules = Ok ps /\ @new_from_text U H' m' (StackVm k') fl' stack_math_rules = Ok ps' /\
  forall fuel texts v v', (forall text, text ∈ texts -> ((length text + 1) * 14 <= fuel)%nat /\ Z.of_nat (length text) < 2 ^ 63) -> signed_state (simple_view v) (stack_view v') ->
  exists rs r rs' r', calls (@parse H (SimpleStackVm k) ps) fuel texts v = Some (rs, r) /\ calls (@parse H' (StackVm k') ps') fuel texts v' = Some (rs', r') /\
  Forall2 same_reply (take (length rs') rs) (take (length rs) rs') /\
  match r, r' with
  | Some a, Some b => length rs = length texts /\ length rs' = length texts /\ signed_state (simple_view a) (stack_view b)
  | None, Some _ => k = Checked
  | Some _, None => k' = Checked
  | None, None => k = Checked \/ k' = Checked
  end.
Proof.
  intros U H H' m m' k k' fl fl' Hfl Hfl'. destruct (C117_calculators_compared U H H' m m' k k' fl fl' Hfl Hfl') as (ps & ps' & Hps & Hps' & Hone).
  destruct (C66_simple_sessions U H k m fl Hfl) as (q & Hq & Hc). assert (q = ps) as -> by congruence.
  destruct (C66_stack_sessions U H' k' m' fl' Hfl') as (q & Hq2 & Hc'). assert (q = ps') as -> by congruence.
  exists ps, ps'. split; [assumption|]. split; [assumption|]. clear Hq Hq2 Hps Hps'. intros fuel texts v v' Hall Hs.
  destruct (Hc fuel texts v Hall) as (rs & r & E & _), (Hc' fuel texts v' Hall) as (rs' & r' & E' & _). exists rs, r, rs', r'. split; [exact E|]. split; [exact E'|]. clear Hc Hc'.
  revert v v' rs r rs' r' Hall Hs E E'. induction texts as [|text texts IH]; intros v v' rs r rs' r' Hall Hs E E'.
  - injection E as <- <-. injection E' as <- <-. split; [constructor|]. auto.
  - destruct (Hall text ltac:(left)) as [Hf Hlen]. pose proof (fun v v' rs r rs' r' => IH v v' rs r rs' r' (fun t Ht => Hall t (elem_of_list_further t text texts Ht))) as IH'. clear IH.
    pose proof (Hone fuel text v v' Hf Hlen Hs) as Hx. cbn [calls] in E, E'.
    assert (Forall2 same_reply (take 0 rs) (take (length rs) ([] : list reply))) as Hnil by (rewrite take_nil; constructor).
    assert (Forall2 same_reply (take (length rs') ([] : list reply)) (take 0 rs')) as Hnil' by (rewrite take_nil; constructor).
    destruct (@parse H (SimpleStackVm k) ps fuel text v) as [[t|e| |] a], (@parse H' (StackVm k') ps' fuel text v') as [[t'|e'| |] b]; try contradiction.
    + match type of E with match ?c with _ => _ end = _ => destruct c as [[rs1 r1]|] eqn:E1 end; [|discriminate]. injection E as <- <-.
      match type of E' with match ?c with _ => _ end = _ => destruct c as [[rs2 r2]|] eqn:E2 end; [|discriminate]. injection E' as <- <-.
      destruct (IH' a b _ _ _ _ (proj2 Hx) E1 E2) as [I1 I2]. split; [cbn; constructor; [exact Logic.I|exact I1]|].
      destruct r1, r2; try exact I2. destruct I2 as (L1 & L2 & L3). cbn. auto.
    + injection E' as <- <-. split; [exact Hnil|]. destruct r; auto.
    + match type of E with match ?c with _ => _ end = _ => destruct c as [[rs1 r1]|] eqn:E1 end; [|discriminate]. injection E as <- <-.
      match type of E' with match ?c with _ => _ end = _ => destruct c as [[rs2 r2]|] eqn:E2 end; [|discriminate]. injection E' as <- <-.
      destruct (IH' a b _ _ _ _ (proj2 Hx) E1 E2) as [I1 I2]. split; [cbn; constructor; [exact (proj1 Hx)|exact I1]|].
      destruct r1, r2; try exact I2. destruct I2 as (L1 & L2 & L3). cbn. auto.
    + injection E' as <- <-. split; [exact Hnil|]. destruct r; auto.
    + injection E as <- <-. split; [exact Hnil'|]. destruct r'; auto.
    + injection E as <- <-. split; [exact Hnil'|]. destruct r'; auto.
    + injection E as <- <-. split; [exact Hnil'|]. destruct r'; [exact (proj1 Hx)|left; exact (proj1 Hx)].
Qed.
Print Assumptions C117_sessions.

(** ** Debug builds: the same numbers *)
Definition within19 (i : item) : Prop := match i with Num ds => Z.of_nat (length ds) <= 19 | _ => True end.
Lemma literal_exact lo ds v : (lo = 0 \/ lo = low) -> Forall digit_char ds -> Z.of_nat (length ds) <= 19 -> literal Checked lo ds (Some v) -> v = Z.of_N (dec_value ds).
Proof.
  intros Hlo Hd Hl Hv. destruct (literal_sound Checked lo Hlo ds Hd) with (v := v) as [Hw _]; [split; [lia|intros _ _; exact Hl]|exact Hv|].
  apply word_some in Hw as [-> _]. reflexivity.
Qed.
Lemma does_equal i s t t' : good_item i -> within19 i -> does Checked 0 i s (Some t) -> does Checked low i s (Some t') -> t = t'.
Proof.
  intros Hg Hsh D D'. destruct i as [ds| | |].
  - destruct Hg as [_ Hds].
    inversion D as [c ?|c ds0 t0 v ? L1 L2| | | | | | | | |]; subst.
    + inversion D' as [|? ? ? ? ? L| | | | | | | | |]; subst; [reflexivity|inversion L].
    + inversion D' as [|? ? t1 v1 ? L1' L2'| | | | | | | | |]; subst; [inversion L1|].
      unfold within19 in Hsh. pose proof (Forall_inv_tail Hds) as Hds0. assert (Z.of_nat (length ds0) <= 19) as Hsh0 by (cbn [length] in Hsh; lia).
      rewrite (literal_exact 0 ds0 t0 ltac:(auto) Hds0 Hsh0 L1), (literal_exact low ds0 t1 ltac:(auto) Hds0 Hsh0 L1').
      rewrite (literal_exact 0 _ v ltac:(auto) Hds Hsh L2), (literal_exact low _ v1 ltac:(auto) Hds Hsh L2'). reflexivity.
  - inversion D as [| | |a b st ? r Es Hw X1 X2 Er| |b ? Es| |? Es| | |]; subst;
      inversion D' as [| | |a1 b1 st1 ? r1 E1 Hw1 X3 X4 Er1| |b1 ? E1| |? E1| | |]; subst; rewrite Es in E1; try discriminate; [|injection E1 as <-; reflexivity|reflexivity].
    injection E1 as <- <- <-. destruct r as [v|]; [|discriminate]. destruct r1 as [v1|]; [|discriminate]. apply word_some in Hw as [-> _], Hw1 as [-> _].
    injection Er as <-. injection Er1 as <-. reflexivity.
  - inversion D as [| | | |a b st ? r Es Hw X1 X2 Er| |b ? Es| |? Es| |]; subst;
      inversion D' as [| | | |a1 b1 st1 ? r1 E1 Hw1 X3 X4 Er1| |b1 ? E1| |? E1| |]; subst; rewrite Es in E1; try discriminate; [|injection E1 as <-; reflexivity|reflexivity].
    injection E1 as <- <- <-. destruct r as [v|]; [|discriminate]. destruct r1 as [v1|]; [|discriminate]. apply word_some in Hw as [-> _], Hw1 as [-> _].
    injection Er as <-. injection Er1 as <-. reflexivity.
  - inversion D as [| | | | | | | | |v st ? Es|? Es]; subst; inversion D' as [| | | | | | | | |v1 st1 ? E1|? E1]; subst; rewrite Es in E1; try discriminate; [|reflexivity].
    injection E1 as <- <-. reflexivity.
Qed.
Lemma does_all_equal l : Forall good_item l -> Forall within19 l -> forall s t t', does_all Checked 0 l s (Some t) -> does_all Checked low l s (Some t') -> t = t'.
Proof.
  induction l as [|i l IH]; intros Hg Hsh s t t' D D'.
  - inversion D; subst. inversion D'; subst. reflexivity.
  - apply Forall_cons in Hg as [Hi Hg], Hsh as [Hi' Hsh]. inversion D as [|? ? ? s1 ? D1 D2|]; subst. inversion D' as [|? ? ? s1' ? D1' D2'|]; subst.
    rewrite <- (does_equal i s s1 s1' Hi Hi' D1 D1') in D2'. exact (IH Hg Hsh _ _ _ D2 D2').
Qed.
Lemma program_infix l text ds : program l text -> Num ds ∈ l -> exists p q, text = p ++ ds ++ q.
Proof.
  intros (_ & _ & ->) Hi. assert (ds ∈ map item_text l) as Hin by (apply elem_of_list_fmap; exists (Num ds); auto). clear Hi. revert Hin. generalize (map item_text l). clear l. intros l.
  induction l as [|x l IH]; intros Hin; [inversion Hin|]. apply elem_of_cons in Hin as [<-|Hin].
  - destruct l as [|s l]; [exists [], []; symmetry; apply app_nil_r|exists [], (lit " " ++ SpecScript.joined (lit " ") (s :: l)); reflexivity].
  - destruct (IH Hin) as (p & q & E). destruct l as [|s l]; [inversion Hin|]. exists (x ++ lit " " ++ p), q.
    change (SpecScript.joined (lit " ") (x :: s :: l)) with (x ++ lit " " ++ SpecScript.joined (lit " ") (s :: l)). rewrite E, <- !app_assoc. reflexivity.
Qed.
Lemma spaced_infix l ds : Num ds ∈ l -> exists p q, each_spaced l = p ++ ds ++ q.
Proof.
  intros Hi. apply elem_of_list_split in Hi as (l1 & l2 & ->). exists (each_spaced l1), (lit " " ++ each_spaced l2).
  unfold each_spaced. rewrite map_app, concat_app. cbn [map concat item_text]. rewrite <- app_assoc. reflexivity.
Qed.
Lemma short_program l text : program l text -> short_numbers text -> Forall within19 l.
Proof.
  intros Hp Hs. apply Forall_forall. intros i Hi. destruct i as [ds| | |]; try exact Logic.I. destruct (program_infix l text ds Hp Hi) as (p & q & E).
  pose proof (proj1 (Forall_forall _ _) (proj1 (proj2 Hp)) _ Hi) as [_ Hd]. pose proof (Hs p ds q E Hd). unfold within19. lia.
Qed.
Lemma short_broken l ds read rest : broken l ds read rest -> short_numbers (read ++ rest) -> Forall within19 l.
Proof.
  intros Hb Hs.
  assert (forall l rest, Forall good_item l -> short_numbers (each_spaced l ++ rest) -> Forall within19 l) as Hsp.
  { clear. intros l rest Hg Hs. apply Forall_forall. intros i Hi. destruct i as [ds| | |]; try exact Logic.I. destruct (spaced_infix l ds Hi) as (p & q & E).
    pose proof (proj1 (Forall_forall _ _) Hg _ Hi) as [_ Hd]. assert (each_spaced l ++ rest = p ++ ds ++ (q ++ rest)) as E' by (rewrite E, <- !app_assoc; reflexivity).
    pose proof (Hs p ds _ E' Hd). unfold within19. lia. }
  inversion Hb as [? k ? Hg|? ? c rest' Hg _ Hds|l0 i c rest' Hg Hi Hn]; subst; rewrite <- app_assoc in Hs; [eapply Hsp; eassumption..|].
  apply Forall_app. split; [eapply Hsp; eassumption|]. constructor; [|constructor]. destruct i; [destruct Hn; exact Logic.I|..]; exact Logic.I.
Qed.
(** In debug builds, if the text has no number of more than 19 digits and both begin with the
    same numbers in stack, registers and output, both that finish end with the same numbers. *)
Theorem C117_debug_same_numbers : forall (U : Unicode) (H H' : HashOrder) m m' fl fl', enough_for_text fl simple_math_rules -> enough_for_text fl' stack_math_rules ->
  exists ps ps', @new_from_text U H m (SimpleStackVm Checked) fl simple_math_rules = Ok ps /\ @new_from_text U H' m' (StackVm Checked) fl' stack_math_rules = Ok ps' /\
  forall fuel text v v', ((length text + 1) * 14 <= fuel)%nat -> Z.of_nat (length text) < 2 ^ 63 -> short_numbers text -> simple_view v = stack_view v' ->
  match @parse H _ ps fuel text v, @parse H' _ ps' fuel text v' with
  | (Ok t, a), (Ok t', b) => t = t' /\ simple_view a = stack_view b
  | (Err e, a), (Err e', b) => same_error e e' /\ simple_view a = stack_view b
  | (Panic, _), (Diverge, _) | (Diverge, _), _ | (Ok _, _), (Err _, _) | (Ok _, _), (Diverge, _) | (Err _, _), (Ok _, _) | (Err _, _), (Diverge, _) => False
  | _, _ => True
  end.
Proof.
  intros U H H' m m' fl fl' Hfl Hfl'. destruct (C73_calculators U H H' m m' Checked Checked fl fl' Hfl Hfl') as (ps & ps' & Hps & Hps' & Hsame).
  destruct (C48_simple_calculator U H Checked m fl Hfl) as (q & Hq & Hc). assert (q = ps) as -> by congruence.
  destruct (C65_simple_calculator_errors U H Checked m fl Hfl) as (q & Hq2 & Hr). assert (q = ps) as -> by congruence.
  destruct (C50_stack_calculator U H' Checked m' fl' Hfl') as (q & Hq3 & Hc'). assert (q = ps') as -> by congruence.
  destruct (C65_stack_calculator_errors U H' Checked m' fl' Hfl') as (q & Hq4 & Hr'). assert (q = ps') as -> by congruence.
  exists ps, ps'. split; [assumption|]. split; [assumption|]. clear Hq Hq2 Hq3 Hq4 Hps Hps'.
  intros fuel text v v' Hfuel Hlen Hsh Hs. specialize (Hsame fuel text v v').
  destruct (program_or_broken text) as [[l Hp]|(l & ds & read & rest & Hb & ->)].
  - pose proof (proj1 (Hc fuel text v Hfuel Hlen) l Hp) as D. pose proof (proj1 (Hc' fuel text v' Hfuel Hlen) l Hp) as D'.
    pose proof (short_program l text Hp Hsh) as Hw. pose proof (proj1 (proj2 Hp)) as Hg. rewrite <- Hs in D'.
    destruct (@parse H (SimpleStackVm Checked) ps fuel text v) as [[t|e| |] a], (@parse H' (StackVm Checked) ps' fuel text v') as [[t'|e'| |] b]; try contradiction; try exact Logic.I; cbn [fst] in Hsame.
    split; [exact (Hsame Logic.I Logic.I)|]. exact (does_all_equal l Hg Hw _ _ _ D D').
  - pose proof (Hr fuel l ds read rest v Hfuel Hlen Hb) as D. pose proof (Hr' fuel l ds read rest v' Hfuel Hlen Hb) as D'.
    destruct (broken_items l ds read rest Hb Hlen) as (Hg & _ & Hds). pose proof (short_broken l ds read rest Hb Hsh) as Hw. rewrite <- Hs in D'.
    destruct (@parse H (SimpleStackVm Checked) ps fuel (read ++ rest) v) as [[t|e| |] a], (@parse H' (StackVm Checked) ps' fuel (read ++ rest) v') as [[t'|e'| |] b]; try contradiction; try exact Logic.I; cbn [fst] in Hsame.
    split; [exact (Hsame Logic.I Logic.I)|]. destruct D as (_ & s1 & D & E), D' as (_ & s1' & D' & E'). rewrite E, E'. f_equal. exact (does_all_equal l Hg Hw _ _ _ D D').
Qed.
Print Assumptions C117_debug_same_numbers.

(** ** Non-vacuity: fresh states are related; the text "1 2 - print" prints 2^64 - 1 with the one
    and -1 with the other in release builds, and panics with the one only in debug builds. *)
Example C117_example :
  (forall (U : Unicode) k k', signed_state (simple_view (vm_new_state (SimpleStackVm k))) (stack_view (vm_new_state (StackVm k')))) /\
  (exists fl, enough_for_text fl simple_math_rules /\ enough_for_text fl stack_math_rules) /\
  let l := [Num (lit "1"); Num (lit "2"); Minus; Print] in let new := mkMach [] 0 0 0 [] in
  program l (lit "1 2 - print") /\
  does_all Wrapping 0 l new (Some (mkMach [] (2 ^ 64 - 1) 0 0 [2 ^ 64 - 1])) /\
  (forall m, does_all m low l new (Some (mkMach [] (-1) 0 0 [-1]))) /\
  does_all Checked 0 l new None /\ reads_signed (2 ^ 64 - 1) (-1).
Proof.
  split; [intros U k k'; split; [apply Forall2_nil_2|]; split; [apply (signed_small 0); lia|]; split; [apply (signed_small 0); lia|]; split; [reflexivity|apply Forall2_nil_2]|]. split; [exact C48_example_fuels|]. intros l new.
  assert (forall c, forallb (fun c => ((48 <=? c) && (c <=? 57))%N) [c] = true -> good_item (Num [c])) as Hg by (intros c Hc; split; [discriminate|apply digits_check; exact Hc]).
  split; [split; [discriminate|]; split; [|reflexivity]; constructor; [apply Hg; reflexivity|constructor; [apply Hg; reflexivity|constructor; [exact Logic.I|constructor; [exact Logic.I|constructor]]]]|].
  split; [|split; [|split]].
  - eapply da_cons; [apply do_digit|]. eapply da_cons; [apply do_digit|].
    eapply da_cons; [refine (do_minus _ _ 1 2 [] _ (Some (2 ^ 64 - 1)) _ _); [reflexivity|]|].
    + apply w_wraps; [unfold in_word; lia|reflexivity|unfold in_word; lia|exists 1; reflexivity].
    + eapply da_cons; [|apply da_nil]. apply (do_print _ _ (2 ^ 64 - 1) []). reflexivity.
  - intros m. eapply da_cons; [apply do_digit|]. eapply da_cons; [apply do_digit|].
    eapply da_cons; [refine (do_minus _ _ 1 2 [] _ (Some (-1)) _ _); [reflexivity|]|].
    + apply w_fits. unfold in_word; lia.
    + eapply da_cons; [|apply da_nil]. apply (do_print _ _ (-1) []). reflexivity.
  - eapply da_cons; [apply do_digit|]. eapply da_cons; [apply do_digit|]. apply da_panic. refine (do_minus _ _ 1 2 [] _ None _ _); [reflexivity|].
    apply w_panic; [unfold in_word; lia|reflexivity].
  - split; [lia|reflexivity].
Qed.
Example C117_debug_example : (forall (U : Unicode) k k', simple_view (vm_new_state (SimpleStackVm k)) = stack_view (vm_new_state (StackVm k'))) /\
  short_numbers (lit "30 12 - print") /\ program [Num (lit "30"); Num (lit "12"); Minus; Print] (lit "30 12 - print").
Proof.
  split; [reflexivity|]. split.
  - intros p ds q E _. assert (length (lit "30 12 - print") = (length p + (length ds + length q))%nat) as El by (rewrite E, !app_length; reflexivity).
    change (length (lit "30 12 - print")) with 13%nat in El. lia.
  - split; [discriminate|]. split; [|reflexivity].
    constructor; [split; [discriminate|apply digits_check; reflexivity]|]. constructor; [split; [discriminate|apply digits_check; reflexivity]|].
    constructor; [exact Logic.I|]. constructor; [exact Logic.I|constructor].
Qed.
