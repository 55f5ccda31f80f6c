(** * Property theorems: whether a grammar describes any text, and what is repeated in long sentences (C109) *)
From Verif Require Import Base Peekables Tree Errors Sets ParserData Vm SimpleStackVm StackVm RuleParsing FirstSets FollowSets SteuerMap ScriptParser
  SpecText SpecData SpecGrammar SpecParser SpecTree SpecScript SpecContract SpecWeave SpecRules SpecNames SpecLanguage SpecIgnore SpecDepth SpecAlive Grammar_proofs Construct_proofs Checks Tree_proofs Script_proofs Parse_proofs
  Weave_proofs Names_proofs RuleBuild_proofs RuleText_proofs Language_proofs Ignore_proofs Accept_proofs Props_steuer Props_script Props_weave Props_rules Props_vm Props_names Props_language Props_errors Props_main SpecRecipes Recipes_proofs Props_recipes Props_extend Props_depth Alive_proofs Samples.
Notation start := (lit "start").

(** ** C109.  A name stands for some text iff that turns out within as many rounds as there
    are rules. *)
Theorem C109_found : forall I (rs : list (arule I)) x, (exists s, derives_text rs x s) <-> found_in rs (length rs) x.
Proof.
  intros I rs x. split.
  - intros (s & nt & D & R & _). destruct (shallow rs nt D) as (t' & T1 & T2 & T3). rewrite R in T2. destruct t' as [b|y subs]; [discriminate|]. cbn in T2. injection T2 as ->. exact (tree_found rs _ x subs T1 T3).
  - intros Hf. destruct (found_tree rs _ x Hf) as (subs & D & _). exists (nyield (NNode x subs)), (NNode x subs). auto.
Qed.
Print Assumptions C109_found.
(** new_from_text does not ask for that.  A parser whose start is not found refuses every
    script; otherwise some script is accepted with no more activations than there are rules. *)
Theorem C109_accepts_anything : forall (U : Unicode) (H : HashOrder) m (vm : VM) rs t ps, read_from m vm rs t ps ->
  (~ found_in rs (length rs) start -> forall fuel script v tr, fst (parse vm ps fuel script v) <> Ok tr) /\
  (found_in rs (length rs) start -> exists nt, nderivation rs nt /\ nroot nt = (start, NonTerminal) /\
     forall fuel v v', length rs <= fuel -> run_tree rs nt v = Ok v' -> exists tr, parse vm ps fuel (nyield nt) v = (Ok tr, v') /\ tree_shows tr nt).
Proof.
  intros U H m vm rs t ps Hr. split.
  - intros Hn fuel script v tr E. apply Hn. apply C109_found. destruct (parse vm ps fuel script v) as [o v'] eqn:Ep. cbn in E. subst o.
    destruct (parse_tree_literal m vm rs t ps fuel script v tr v' Hr Ep) as (nt & rest & (A1 & A2 & _) & _). exists (nyield nt), nt. auto.
  - intros Hf. destruct (found_tree rs _ start Hf) as (subs & D & Hd). exists (NNode start subs). split; [assumption|]. split; [reflexivity|]. intros fuel v v' Hl Hrun.
    apply (proj1 (C102_depth U H m vm rs t ps Hr _ _ [] v v' (sentence_accepts m vm rs t ps _ Hr D eq_refl) Hrun fuel)). lia.
Qed.
Print Assumptions C109_accepts_anything.

(** Where more names are nested in one another than there are rules, a part of the sentence
    that is not empty may be left out or repeated any number of times, together with a
    second part. *)
Theorem C109_repeated_parts : forall (U : Unicode) (H : HashOrder) m (vm : VM) rs t ps, read_from m vm rs t ps ->
  forall nt, nderivation rs nt -> nroot nt = (start, NonTerminal) -> length rs < nested_names nt ->
  exists a b c d e, nyield nt = a ++ b ++ c ++ d ++ e /\ b <> [] /\ forall n, sentence rs (a ++ copies n b ++ c ++ copies n d ++ e).
Proof.
  intros U H m vm rs t ps Hr nt D R Hlt. destruct (deep_repeats rs nt D Hlt) as (path & x & subs & inner & subs' & Hp & Hne & Hi).
  destruct (repeated rs nt path x subs inner subs' D Hp Hi) as [Ey Hall]. exists (outside nt path).1, (outside (NNode x subs) inner).1, (nyield (NNode x subs')), (outside (NNode x subs) inner).2, (outside nt path).2.
  split; [exact Ey|]. split.
  - intros E. apply (pa_no_left_recursion rs (read_from_parsable m vm rs t ps Hr) x). exact (left_path rs inner x subs x subs' (sub_derivation rs path nt _ D Hp) Hne Hi E).
  - intros n. destruct (Hall n) as (t' & T1 & T2 & T3). exists t'. split; [assumption|]. split; [congruence|assumption].
Qed.
Print Assumptions C109_repeated_parts.
(** All sentences of more than a certain length have such parts. *)
Theorem C109_long_sentences : forall (U : Unicode) (H : HashOrder) m (vm : VM) rs t ps, read_from m vm rs t ps ->
  exists M, forall s, sentence rs s -> M < length s ->
  exists a b c d e, s = a ++ b ++ c ++ d ++ e /\ b <> [] /\ forall n, sentence rs (a ++ copies n b ++ c ++ copies n d ++ e).
Proof.
  intros U H m vm rs t ps Hr. destruct (bounded_words rs) as (K & HK & Hw). exists (K ^ S (length rs)). intros s (nt & D & R & <-) Hlt.
  apply (C109_repeated_parts U H m vm rs t ps Hr nt D R). destruct (decide (nested_names nt <= length rs)) as [Hle|]; [|lia]. exfalso.
  pose proof (yield_bounded rs K HK Hw nt D ltac:(intros b E; rewrite R in E; discriminate)) as Hy. assert (K ^ S (nested_names nt) <= K ^ S (length rs)) by (apply Nat.pow_le_mono_r; lia). lia.
Qed.
Print Assumptions C109_long_sentences.
(** The lengths of sentences are bounded iff no more names are nested in one another than
    there are rules. *)
Theorem C109_bounded : forall (U : Unicode) (H : HashOrder) m (vm : VM) rs t ps, read_from m vm rs t ps ->
  (exists M, forall s, sentence rs s -> length s <= M) <-> forall nt, nderivation rs nt -> nroot nt = (start, NonTerminal) -> nested_names nt <= length rs.
Proof.
  intros U H m vm rs t ps Hr. split.
  - intros (M & HM) nt D R. destruct (decide (nested_names nt <= length rs)) as [|Hn]; [assumption|]. exfalso.
    destruct (C109_repeated_parts U H m vm rs t ps Hr nt D R ltac:(lia)) as (a & b & c & d & e & _ & Hb & Hall). specialize (HM _ (Hall (S M))). rewrite !app_length in HM.
    assert (forall n, n <= length (copies n b)) as Hc.
    { induction n as [|n IH]; [lia|]. unfold copies in *. cbn [repeat concat]. rewrite app_length. destruct b; [congruence|]. cbn [length] in *. lia. }
    specialize (Hc (S M)). lia.
  - intros Hall. destruct (bounded_words rs) as (K & HK & Hw). exists (K ^ S (length rs)). intros s (nt & D & R & <-). specialize (Hall nt D R).
    pose proof (yield_bounded rs K HK Hw nt D ltac:(intros b E; rewrite R in E; discriminate)) as Hy. etransitivity; [exact Hy|]. apply Nat.pow_le_mono_r; lia.
Qed.
Print Assumptions C109_bounded.

(** ** Non-vacuity: a grammar with no sentence yields a parser; lists have arbitrarily long sentences. *)
Section example.
Local Existing Instance ascii_unicode.
Local Existing Instance plain_order.
Notation K := (vm_instr NullVm).
Definition stuck_rules : list (arule K) := [mkARule start OvAbsent [[(lit "1", Terminal); (start, NonTerminal)]] []].
Definition stuck_text : str := lit "start->""1""start;".
Ltac name := split; [reflexivity|repeat constructor].
Ltac quoted := apply one_quoted; discriminate.
Lemma stuck_text_ok : grammar_text null_reads stuck_rules stuck_text.
Proof.
  rewrite <- (app_nil_r stuck_text). apply null_then; [|apply null_end]. apply (null_rule start _ (lit """1""start")); [name|].
  apply alts_one, alt_elements, (els_cons _ (lit """1""") [] _ start); [quoted|constructor|apply els_one, el_name; name|intros E; discriminate E].
Qed.
Ltac fits := split; cbn [first_fuel follow_fuel]; apply Nat.leb_le || apply Nat.ltb_lt; vm_compute; reflexivity.
Notation made t := (new_from_text Checked NullVm (mkFuels 60 2200) t).
Example C109_example : (exists ps, read_from Checked NullVm stuck_rules stuck_text ps) /\ ~ found_in stuck_rules (length stuck_rules) start /\
  (exists ps, read_from Checked NullVm list_rules list_text ps) /\ found_in list_rules (length list_rules) start /\
  nderivation list_rules (list_tree 2) /\ nroot (list_tree 2) = (start, NonTerminal) /\ length list_rules < nested_names (list_tree 2).
Proof.
  split; [|split; [|split; [|split; [|split; [|split]]]]].
  - destruct (both_fail (made stuck_text) (lit "12") 50%N 1 (lit "1") (lit "1") 35%N 1 (lit "1")) as (ps & Eps & _); [vm_compute; reflexivity|]. exists ps.
    apply (read_null stuck_rules stuck_text _ stuck_text_ok eq_refl ltac:(fits) Eps). reflexivity.
  - intros (i & w & Hw & Hy). apply Recipes_proofs.plain_says in Hw; [|apply one_rule_plain]. apply elem_of_list_lookup_2 in Hw. unfold alternatives_for in Hw. cbn in Hw. apply elem_of_list_singleton in Hw as ->.
    apply (Hy start). right. left.
  - destruct (verdicts_ok 400 (made list_text) (lit "11") (lit "12")) as (ps & Eps & _); [vm_compute; reflexivity|]. exists ps.
    apply (read_null list_rules list_text _ list_text_ok eq_refl ltac:(fits) Eps). reflexivity.
  - exists 1, []. split; [apply Recipes_proofs.plain_says; [apply one_rule_plain|reflexivity]|]. intros y Hy. inversion Hy.
  - apply list_tree_ok.
  - reflexivity.
  - vm_compute. lia.
Qed.
End example.
