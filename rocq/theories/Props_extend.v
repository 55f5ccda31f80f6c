(** * Property theorems: adding rules for new names (C75) *)
From Verif Require Import Base Peekables Tree Errors Sets ParserData Vm SimpleStackVm StackVm RuleParsing FirstSets FollowSets SteuerMap ScriptParser Main
  SpecText SpecData SpecGrammar SpecParser SpecTree SpecScript SpecContract SpecWeave SpecRules SpecNames SpecLanguage SpecExtend Grammar_proofs Construct_proofs Checks Tree_proofs Script_proofs Parse_proofs
  Weave_proofs Names_proofs RuleBuild_proofs RuleText_proofs Language_proofs Accept_proofs Extend_proofs
  Props_steuer Props_script Props_weave Props_rules Props_vm Props_names Props_language Props_errors Props_main Samples.

(** ** The texts of the old names stay the same, and so do their trees. *)
Theorem C75_same_language : forall I (rs rs' : list (arule I)), extends rs rs' -> self_contained rs ->
  (forall nt x, nroot nt = (x, NonTerminal) -> defined rs x -> nderivation rs nt <-> nderivation rs' nt) /\
  (forall x s, defined rs x -> derives_text rs x s <-> derives_text rs' x s) /\
  (forall s, sentence rs s <-> sentence rs' s).
Proof.
  intros I rs rs' Hx Hc.
  assert (forall nt x, nroot nt = (x, NonTerminal) -> defined rs x -> nderivation rs nt <-> nderivation rs' nt) as H1.
  { intros nt x Hr Hd. split; [apply (ex_derivation rs rs' Hx Hc)|]. intros Hn. apply (ex_derivation_back rs rs' Hx Hc nt Hn). intros y Hy. congruence. }
  assert (forall x s, defined rs x -> derives_text rs x s <-> derives_text rs' x s) as H2.
  { intros x s Hd. split; intros (nt & D1 & D2 & D3); exists nt; (split; [apply (H1 nt x D2 Hd), D1|auto]). }
  split; [exact H1|]. split; [exact H2|]. intros s. apply H2, Hc.
Qed.
Print Assumptions C75_same_language.

(** ** If a parser can be built from the longer text, one can be built from the shorter
    text, provided that the shorter text uses only what it defines. *)
Theorem C75_smaller_buildable : forall (U : Unicode) (H H' : HashOrder) m m' (vm : VM) reads fl fl' rs rs' t t',
  supported vm reads -> tables_disjoint ->
  grammar_text reads rs t -> (N.of_nat (length t) < 2 ^ 63)%N -> enough_for_text fl t ->
  grammar_text reads rs' t' -> (N.of_nat (length t') < 2 ^ 63)%N -> enough_for_text fl' t' ->
  extends rs rs' -> self_contained rs ->
  (exists ps', @new_from_text U H' m' vm fl' t' = Ok ps') -> exists ps, @new_from_text U H m vm fl t = Ok ps.
Proof.
  intros U H H' m m' vm reads fl fl' rs rs' t t' Hs Hd Ht Hlen Hfl Ht' Hlen' Hfl' Hx Hc.
  rewrite (C58_buildable_iff_parsable U H m vm reads rs t fl Hs Hd Ht Hlen Hfl), (C58_buildable_iff_parsable U H' m' vm reads rs' t' fl' Hs Hd Ht' Hlen' Hfl').
  apply (ex_parsable rs rs' Hx Hc).
Qed.
Print Assumptions C75_smaller_buildable.

Lemma read_from_parsable {U : Unicode} {H : HashOrder} m vm rs t ps : read_from m vm rs t ps -> parsable rs.
Proof.
  intros (reads & fl & Hs & Hd & Ht & Hlen & Hfl & Hps). apply (C58_buildable_iff_parsable U H m vm reads rs t fl Hs Hd Ht Hlen Hfl). eauto.
Qed.
Lemma parsable_closed {I} (rs : list (arule I)) : parsable rs -> self_contained rs.
Proof. intros Hp. split; [apply Hp|]. split; [exact (pa_defined rs Hp)|exact (pa_ignored rs Hp)]. Qed.
(** The tree parse returns, from the derivation tree by name. *)
Lemma parse_tree_literal {U : Unicode} {H : HashOrder} m vm rs t ps fuel script v tr v' : read_from m vm rs t ps -> parse vm ps fuel script v = (Ok tr, v') ->
  exists nt rest, accepts_prefix rs script nt rest /\ run_tree rs nt v = Ok v' /\ tr = snd (do_adds (nhistory 0 None nt) tree_new).
Proof.
  intros Hr Hp. destruct (read_from_vm m vm rs t ps Hr) as [Hk Hret].
  destruct (read_from_built m vm rs t ps Hr) as (pd & pd' & start & fl & Hd & Hed & Hst & Hb & Hsz).
  apply built_spec in Hb as (Hwf & Hcon & Htab). unfold parse in Hp. destruct (parse_run vm ps fuel script v) as [o s1] eqn:E. injection Hp as -> <-.
  pose proof (parse_run_spec vm pd' start ps Hwf Hcon Htab Hk start fuel script v Hst (con_start _ _ Hcon)) as Hs. rewrite E in Hs.
  destruct Hs as (pt & rest & v' & Hpr & -> & -> & Hrun). assert (derivation pd' pt) as Hpt by (eapply pred_sound; exact Hpr).
  exists (named pd' pt), rest. split; [apply (accepts_pred script _ rest Hd Hed Hwf Hcon Hst); eauto|]. rewrite (run_named pd pd' rs Hd Hed pt v Hpt), named_history. auto.
Qed.

(** ** What the parser of the shorter text accepts, the parser of the longer text accepts,
    with the same tree and the same state of the VM. *)
Theorem C75_accepted_scripts : forall (U : Unicode) (H H' : HashOrder) m m' (vm : VM) rs rs' t t' ps ps',
  @read_from U H m vm rs t ps -> @read_from U H' m' vm rs' t' ps' -> extends rs rs' ->
  forall fuel fuel' script v tr v', (length script + 1) * length t' <= fuel' ->
  @parse H vm ps fuel script v = (Ok tr, v') -> @parse H' vm ps' fuel' script v = (Ok tr, v').
Proof.
  intros U H H' m m' vm rs rs' t t' ps ps' Hr Hr' Hx fuel fuel' script v tr v' Hfuel Hp.
  pose proof (parsable_closed _ (read_from_parsable _ _ _ _ _ Hr)) as Hc.
  destruct (parse_tree_literal _ _ _ _ _ _ _ _ _ _ Hr Hp) as (nt & rest & (A1 & A2 & A3 & A4) & Hrun & ->).
  assert (accepts_prefix rs' script nt rest) as Ha.
  { split; [apply (ex_derivation rs rs' Hx Hc), A1|]. split; [exact A2|]. split; [exact A3|]. apply (ex_before rs rs' Hx Hc), A4. }
  destruct (C61_accepted_scripts U H' m' vm rs' t' ps' Hr' fuel' script v Hfuel) as (H1 & _ & _ & _ & Huni).
  rewrite <- (ex_run rs rs' Hx nt v A1) in Hrun. destruct (proj2 (H1 v') (ex_intro _ nt (ex_intro _ rest (conj Ha Hrun)))) as [tr' Hp'].
  destruct (parse_tree_literal _ _ _ _ _ _ _ _ _ _ Hr' Hp') as (nt' & rest' & Ha' & _ & ->). destruct (Huni _ _ _ _ Ha Ha') as [<- <-]. exact Hp'.
Qed.
Print Assumptions C75_accepted_scripts.
(** On whole sentences the two parsers do the same, even if an instruction panics. *)
Theorem C75_sentences : forall (U : Unicode) (H H' : HashOrder) m m' (vm : VM) rs rs' t t' ps ps',
  @read_from U H m vm rs t ps -> @read_from U H' m' vm rs' t' ps' -> extends rs rs' ->
  forall fuel fuel' script v, (length script + 1) * length t <= fuel -> (length script + 1) * length t' <= fuel' -> sentence rs script ->
  fst (@parse H vm ps fuel script v) = fst (@parse H' vm ps' fuel' script v) /\
  (forall tr v', @parse H vm ps fuel script v = (Ok tr, v') <-> @parse H' vm ps' fuel' script v = (Ok tr, v')).
Proof.
  intros U H H' m m' vm rs rs' t t' ps ps' Hr Hr' Hx fuel fuel' script v Hfuel Hfuel' (nt & A1 & A2 & <-).
  pose proof (parsable_closed _ (read_from_parsable _ _ _ _ _ Hr)) as Hc. pose proof (ex_derivation rs rs' Hx Hc nt A1) as A1'.
  pose proof (C57_sentences_are_parsed U H m vm rs t ps Hr nt v fuel A1 A2 Hfuel) as S1.
  pose proof (C57_sentences_are_parsed U H' m' vm rs' t' ps' Hr' nt v fuel' A1' A2 Hfuel') as S2. rewrite (ex_run rs rs' Hx nt v A1) in S2.
  destruct (run_tree rs nt v) as [v'|[]| |].
  - destruct S1 as (tr & P1 & _). pose proof (C75_accepted_scripts U H H' m m' vm rs rs' t t' ps ps' Hr Hr' Hx fuel fuel' _ v tr v' Hfuel' P1) as P2.
    rewrite P1, P2. split; [reflexivity|]. intros. reflexivity.
  - split; [congruence|]. intros tr v'. split; intros P; rewrite P in *; discriminate.
  - split; [congruence|]. intros tr v'. split; intros P; rewrite P in *; discriminate.
Qed.
Print Assumptions C75_sentences.

(** ** When both parsers report an error, they report it at the same place, if every name
    stands for some text. *)
Lemma error_places (script before rest before' rest' : str) (P : str -> Prop) :
  script = before ++ rest -> script = before' ++ rest' ->
  (forall more, P (before ++ more) -> look more <> look rest) -> (exists more, P (before' ++ more)) -> length before' <= length before.
Proof.
  intros -> E Hn (more & Hm). destruct (decide (length before' <= length before)) as [|Hlt]; [assumption|]. exfalso.
  assert (exists d, before' = before ++ d /\ rest = d ++ rest') as (d & -> & ->).
  { clear Hn Hm. revert before' E Hlt. induction before as [|c before IH]; intros [|c' before'] E Hlt; cbn in *; try lia; [exists (c' :: before'); auto|].
    injection E as <- E. destruct (IH before' E ltac:(lia)) as (d & -> & ->). exists d. auto. }
  rewrite <- app_assoc in Hm. apply (Hn _ Hm). destruct d; [rewrite app_nil_r in Hlt; lia|reflexivity].
Qed.
Theorem C75_error_positions : forall (U : Unicode) (H H' : HashOrder) m m' (vm : VM) rs rs' t t' ps ps',
  @read_from U H m vm rs t ps -> @read_from U H' m' vm rs' t' ps' -> extends rs rs' -> all_stand_for_text rs' ->
  forall fuel fuel' script v v' e e', fst (@parse H vm ps fuel script v) = Err e -> fst (@parse H' vm ps' fuel' script v') = Err e' ->
  exists pos, error_position e = Some pos /\ error_position e' = Some pos.
Proof.
  intros U H H' m m' vm rs rs' t t' ps ps' Hr Hr' Hx Hall fuel fuel' script v v' e e' Hp Hp'.
  pose proof (parsable_closed _ (read_from_parsable _ _ _ _ _ Hr)) as Hc. destruct (C75_same_language _ rs rs' Hx Hc) as (_ & L2 & L3).
  destruct (@parse H vm ps fuel script v) as [o w] eqn:E. cbn in Hp. subst o. destruct (@parse H' vm ps' fuel' script v') as [o w'] eqn:E'. cbn in Hp'. subst o.
  destruct (C57_errors U H m vm rs t ps Hr _ _ _ _ _ E) as (before & rest & E1 & E2 & E3 & E4).
  destruct (C57_errors U H' m' vm rs' t' ps' Hr' _ _ _ _ _ E') as (before' & rest' & F1 & F2 & F3 & F4).
  assert (forall x, defined rs x -> exists s, derives_text rs x s) as Hall1.
  { intros x Hd. destruct (Hall x (ex_defined rs rs' Hx x Hd)) as [s Hs]. exists s. apply L2; assumption. }
  specialize (E4 Hall1). specialize (F4 Hall).
  assert (length before = length before') as El.
  { apply Nat.le_antisymm.
    - apply (error_places script before' rest' before rest (sentence rs') F1 E1 F3). destruct E4 as [more Hm]. exists more. apply L3, Hm.
    - apply (error_places script before rest before' rest' (sentence rs) E1 F1 E3). destruct F4 as [more Hm]. exists more. apply L3, Hm. }
  exists (length before). split.
  - destruct e; try contradiction; cbn; destruct E2 as [-> _]; reflexivity.
  - rewrite El. destruct e'; try contradiction; cbn; destruct F2 as [-> _]; reflexivity.
Qed.
Print Assumptions C75_error_positions.

(** ** Refuted: rules for new names, used nowhere, change nothing.  They can make the
    construction fail, and they can make the parser accept more scripts, because what may
    follow a name is collected over all rules. *)
Section example.
Local Existing Instance ascii_unicode.
Local Existing Instance plain_order.
Notation T := Terminal.
Notation NT := NonTerminal.
Ltac name := split; [reflexivity|repeat constructor].
Ltac notname := intros _ [E|E]; vm_compute in E; discriminate.
Definition u_rule (c : char) : arule (vm_instr NullVm) := mkARule (lit "u") OvAbsent [[(lit "tail", NT); ([c], T)]] [].
Definition u_text (c : char) : str := lit "u->tail""" ++ c :: lit """;".
Lemma u_text_ok c : c <> 34%N -> c <> 92%N -> grammar_text null_reads [u_rule c] (u_text c).
Proof.
  intros C1 C2. apply (gr_cons null_reads _ (u_text c) [] _ []); [constructor| |apply gr_end; constructor].
  apply (rule_intro null_reads (u_rule c) [] [] [] [] [] [] (lit "tail""" ++ [c; 34%N]) []); try (constructor; fail); try name.
  apply alts_one, alt_elements, (els_cons _ (lit "tail") [] _ [34%N; c; 34%N]); [apply el_name; name|constructor|apply els_one, one_quoted; assumption|notname].
Qed.
Lemma blank_before (rs : list (arule (vm_instr NullVm))) l t : blank l -> grammar_text null_reads rs t -> grammar_text null_reads rs (l ++ t).
Proof.
  intros Hl Ht. destruct Ht as [l' Hl'|r t l' rs t' Hl' Hr Ht]; [apply gr_end, Forall_app; auto|].
  rewrite app_assoc. apply gr_cons; [apply Forall_app; auto|assumption..].
Qed.
Lemma grammar_app (rs rs2 : list (arule (vm_instr NullVm))) t t2 : grammar_text null_reads rs t -> grammar_text null_reads rs2 t2 -> grammar_text null_reads (rs ++ rs2) (t ++ t2).
Proof.
  intros Ht Ht2. induction Ht as [l Hl|r t l rs t' Hl Hr Ht IH]; [apply blank_before; assumption|].
  rewrite <- !app_assoc. apply gr_cons; assumption.
Qed.
Definition ux_rules (c : char) : list (arule (vm_instr NullVm)) := tx_rules ++ [u_rule c].
Definition ux_text (c : char) : str := tx_text ++ u_text c.
Lemma ux_extends c : extends tx_rules (ux_rules c).
Proof.
  intros x Hd. unfold rules_for, ux_rules. rewrite filter_app. destruct (decide (lit "u" = x)) as [<-|Hne].
  - exfalso. apply Hd. reflexivity.
  - rewrite (filter_cons_False _ (u_rule c)); [apply app_nil_r|]. exact Hne.
Qed.
Notation ux_parser c := (@new_from_text _ plain_order Checked NullVm (mkFuels 60 2200) (ux_text c)).
Lemma ux_read c ps : c <> 34%N -> c <> 92%N -> ux_parser c = Ok ps -> read_from Checked NullVm (ux_rules c) (ux_text c) ps.
Proof.
  intros C1 C2 Hps. eapply (read_null (ux_rules c) (ux_text c) _ (grammar_app _ _ _ _ tx_text_ok (u_text_ok c C1 C2))); [reflexivity| |reflexivity|exact Hps].
  split; cbn [first_fuel follow_fuel]; apply Nat.leb_le || apply Nat.ltb_lt; vm_compute; reflexivity.
Qed.
Lemma tx_read ps : @new_from_text _ plain_order Checked NullVm (mkFuels 60 2200) tx_text = Ok ps -> read_from Checked NullVm tx_rules tx_text ps.
Proof.
  intros Hps. eapply (read_null tx_rules tx_text _ tx_text_ok); [reflexivity| |reflexivity|exact Hps].
  split; cbn [first_fuel follow_fuel]; apply Nat.leb_le || apply Nat.ltb_lt; vm_compute; reflexivity.
Qed.
Lemma not_ok_spec (r : outcome Empty_set (Parser (vm_instr NullVm))) : match r with Ok _ => false | _ => true end = true -> forall ps, r <> Ok ps.
Proof. intros E ps ->. discriminate. Qed.
Theorem C75_unused_rules_do_not_matter_refuted : exists rs t ps, read_from Checked NullVm rs t ps /\
  (exists rs' t', grammar_text null_reads rs' t' /\ extends rs rs' /\ self_contained rs' /\ forall ps', @new_from_text _ plain_order Checked NullVm (mkFuels 60 2200) t' <> Ok ps') /\
  (exists rs' t' ps', read_from Checked NullVm rs' t' ps' /\ extends rs rs' /\
     exists script tr v', (exists e, fst (parse NullVm ps 2000 script 0%N) = Err e) /\ parse NullVm ps' 2000 script 0%N = (Ok tr, v')).
Proof.
  destruct (verdicts_ok 2000 (@new_from_text _ plain_order Checked NullVm (mkFuels 60 2200) tx_text) (lit "abb") (lit "ac")) as (ps & Eps & _ & E2); [vm_compute; reflexivity|].
  exists tx_rules, tx_text, ps. split; [apply tx_read, Eps|]. clear Eps. split.
  - exists (ux_rules 98), (ux_text 98). split; [apply grammar_app; [apply tx_text_ok|apply u_text_ok; discriminate]|]. split; [apply ux_extends|]. split.
    + split; [discriminate|]. split.
      * intros x y (w & Hw & Hy). unfold alternatives_for, rules_for, ux_rules in Hw. apply elem_of_list_In, in_concat in Hw as (l & Hl & Hw).
        apply elem_of_list_In in Hw. apply in_map_iff in Hl as (r & <- & Hr). apply elem_of_list_In, elem_of_list_filter in Hr as [_ Hr].
        assert (Forall (fun e => e.2 = T \/ defined (ux_rules 98) e.1) (concat (concat (map ar_alts (ux_rules 98))))) as Hf.
        { cbv - [lit defined ux_rules]. repeat (apply Forall_cons; split; [solve [left; reflexivity|right; discriminate]|]). apply Forall_nil. exact Logic.I. }
        destruct (proj1 (Forall_forall _ _) Hf (y, NT)) as [Hq|Hq]; [|discriminate Hq|exact Hq].
        apply elem_of_list_In, in_concat. exists w. split; [|apply elem_of_list_In; exact Hy]. apply in_concat. exists (ar_alts r).
        split; [apply in_map, elem_of_list_In; exact Hr|apply elem_of_list_In; exact Hw].
      * intros x y (r0 & more & E & Ho). assert (r0 ∈ r0 :: more) as Hin by left. rewrite <- E in Hin. apply elem_of_list_filter in Hin as [_ Hin].
        repeat (apply elem_of_cons in Hin as [->|Hin]; [discriminate|]). inversion Hin.
    + apply not_ok_spec. vm_compute. reflexivity.
  - destruct (verdicts_ok 2000 (ux_parser 99) (lit "ac") (lit "ad")) as (ps' & Eps' & (tr & v' & E1) & _); [vm_compute; reflexivity|].
    exists (ux_rules 99), (ux_text 99), ps'. split; [apply ux_read; [discriminate|discriminate|exact Eps']|]. split; [apply ux_extends|].
    exists (lit "ac"), tr, v'. split; [exact E2|exact E1].
Qed.
Print Assumptions C75_unused_rules_do_not_matter_refuted.
(** ** Non-vacuity: two parsers that differ by the rule for u; a script both accept, and one
    both reject. *)
Example C75_example : exists ps ps', read_from Checked NullVm tx_rules tx_text ps /\ read_from Checked NullVm (ux_rules 99) (ux_text 99) ps' /\
  extends tx_rules (ux_rules 99) /\
  (exists tr v', parse NullVm ps 2000 (lit "abb") 0%N = (Ok tr, v')) /\
  (exists e, fst (parse NullVm ps 2000 (lit "abd") 0%N) = Err e) /\ (exists e, fst (parse NullVm ps' 2000 (lit "abd") 0%N) = Err e).
Proof.
  destruct (verdicts_ok 2000 (@new_from_text _ plain_order Checked NullVm (mkFuels 60 2200) tx_text) (lit "abb") (lit "abd")) as (ps & Eps & E1 & E2); [vm_compute; reflexivity|].
  destruct (verdicts_ok 2000 (ux_parser 99) (lit "ac") (lit "abd")) as (ps' & Eps' & _ & E3); [vm_compute; reflexivity|].
  exists ps, ps'. split; [apply tx_read, Eps|]. split; [apply ux_read; [discriminate|discriminate|exact Eps']|]. split; [apply ux_extends|]. auto.
Qed.
End example.
