(** * Property theorems: a cleaned-up grammar is determined by its trees (C112) *)
From Verif Require Import Base Peekables Tree Errors Sets ParserData Vm SimpleStackVm StackVm RuleParsing FirstSets FollowSets SteuerMap ScriptParser
  SpecText SpecData SpecGrammar SpecParser SpecTree SpecScript SpecContract SpecWeave SpecRules SpecNames SpecLanguage SpecIgnore SpecFewer SpecSyntax SpecTyping SpecWalk SpecReached SpecDepth SpecClean SpecSuite Grammar_proofs Construct_proofs Checks Tree_proofs Script_proofs Parse_proofs
  Weave_proofs Names_proofs RuleBuild_proofs RuleText_proofs Language_proofs Accept_proofs Fewer_proofs ExprText_proofs Props_steuer Props_script Props_weave Props_rules Props_vm Props_names Props_language Props_syntax Props_errors Props_main SpecRecipes Recipes_proofs Props_recipes Props_same Props_extend Props_depth Props_fewer Props_typing Props_walk Props_reached Alive_proofs Clean_proofs Props_clean Props_suite Samples.
Notation start := (lit "start").

(** ** An alternative used in a sentence is taken for some lookahead *)
Section taken.
Context {I : Type} (rs : list (arule I)).
Lemma tree_word nt : nderivation rs nt -> exists z, nderives rs [nroot nt] z /\ Forall (fun e => e.2 = Terminal) z.
Proof.
  induction nt as [b|x subs IH] using ntree_ind'; intros D; [exists [(b, Terminal)]; split; [apply rtc_refl|repeat constructor]|]. inversion D as [|? i ? Hs Hsubs]; subst.
  assert (exists z, nderives rs (map nroot subs) z /\ Forall (fun e => e.2 = Terminal) z) as (z & Hz & Ht).
  { clear Hs D. induction IH as [|d subs Hd _ IHs]; [exists []; split; [apply rtc_refl|constructor]|]. apply Forall_cons in Hsubs as [D1 D2]. destruct (Hd D1) as (z1 & Z1 & T1). destruct (IHs D2) as (z2 & Z2 & T2).
    exists (z1 ++ z2). split; [|apply Forall_app; auto]. change (map nroot (d :: subs)) with ([nroot d] ++ map nroot subs). apply Naming_proofs.nderives_app; assumption. }
  exists z. split; [|exact Ht]. eapply rtc_l; [|exact Hz]. pose proof (nstep_intro rs [] x [] i _ Hs) as Hst. cbn [app] in Hst. rewrite app_nil_r in Hst. exact Hst.
Qed.
Lemma trees_word ts : Forall (nderivation rs) ts -> nnullable rs (map nroot ts) \/ exists c, nfirst rs (map nroot ts) c.
Proof.
  intros Hts. assert (exists z, nderives rs (map nroot ts) z /\ Forall (fun e => e.2 = Terminal) z) as (z & Hz & Ht).
  { induction Hts as [|d ts Hd _ IH]; [exists []; split; [apply rtc_refl|constructor]|]. destruct (tree_word d Hd) as (z1 & Z1 & T1). destruct IH as (z2 & Z2 & T2).
    exists (z1 ++ z2). split; [|apply Forall_app; auto]. change (map nroot (d :: ts)) with ([nroot d] ++ map nroot ts). apply Naming_proofs.nderives_app; assumption. }
  assert (nerased z \/ exists x c s v, z = x ++ (c :: s, Terminal) :: v /\ nerased x) as Hcase.
  { clear Hz. induction Ht as [|[b k] z E _ IH]; [left; constructor|]. cbn in E. subst k. destruct b as [|c s]; [|right; exists [], c, s, z; split; [reflexivity|constructor]].
    destruct IH as [He|(x & c & s & v & -> & He)]; [left; constructor; auto|right]. exists (([], Terminal) :: x), c, s, v. split; [reflexivity|constructor; auto]. }
  destruct Hcase as [He|(x & c & s & v & -> & He)]; [left; exists z; auto|right]. exists c, x, s, v. auto.
Qed.
Lemma follow_below path : forall nt s, nderivation rs nt -> (exists a, nfollow rs (nroot nt) a) -> nsubtree nt path = Some s -> exists a, nfollow rs (nroot s) a.
Proof.
  induction path as [|k path IH]; intros nt s D [a Ha] Hs; [injection Hs as <-; eauto|]. destruct nt as [b|x subs]; [discriminate|]. cbn [nsubtree] in Hs.
  destruct (subs !! k) as [d|] eqn:Ek; [|discriminate]. inversion D as [|? i ? Hsay Hsubs]; subst. apply (IH d s); [rewrite Forall_forall in Hsubs; apply Hsubs; eapply elem_of_list_lookup_2; exact Ek| |exact Hs].
  pose proof (take_drop_middle subs k d Ek) as E. rewrite <- E in Hsay. rewrite map_app in Hsay. cbn [map] in Hsay.
  destruct (trees_word (drop (S k) subs)) as [Hn|[c Hc]]; [apply Forall_drop; exact Hsubs| |].
  - exists a. exact (Naming_proofs.nfollow_last rs x i _ _ _ a Hsay Hn Ha).
  - exists (MChar c). exact (Naming_proofs.nfollow_next rs x i _ _ _ c Hsay Hc).
Qed.
Lemma used_taken x i w : every_part_used rs -> says rs x i w -> exists a, nchoose rs x w a.
Proof.
  intros Hu Hs. destruct (Hu x i w Hs) as (nt & path & subs & D & R & Hp & <-).
  assert (exists a, nfollow rs (nroot nt) a) as Hf. { exists MTerminate, [], []. rewrite R. split; [apply rtc_refl|]. exists []. split; [apply rtc_refl|constructor]. }
  destruct subs as [|d subs]; [exact (follow_below path nt _ D Hf Hp)|]. pose proof (sub_derivation rs path nt _ D Hp) as Ds. inversion Ds as [|? j ? _ Hds]; subst. apply Forall_cons in Hds as [Hd _]. cbn [map nchoose].
  destruct (trees_word [d]) as [Hn|[c Hc]]; [repeat constructor; exact Hd| |].
  - destruct (follow_below (path ++ [0]) nt d D Hf) as [a Ha]; [rewrite nsubtree_app, Hp; reflexivity|]. exists a. right. auto.
  - exists (MChar c). left. exists c. auto.
Qed.
Lemma used_once x alts : parsable rs -> every_part_used rs -> all_said rs x alts -> NoDup alts.
Proof.
  intros Hp Hu Ha. apply NoDup_alt. intros i j w Hi Hj. apply Ha in Hi, Hj. destruct (decide (i = j)) as [|Hne]; [assumption|exfalso].
  destruct (used_taken x i w Hu Hi) as [a Hc]. exact (pa_distinct rs Hp x i j w w a Hi Hj Hne Hc Hc).
Qed.
End taken.
Lemma said_both {I I'} (rs : list (arule I)) (rs' : list (arule I')) : every_part_used rs -> same_trees rs rs' -> forall x i w, says rs x i w -> exists j, says rs' x j w.
Proof.
  intros Hu Hsame x i w Hs. destruct (Hu x i w Hs) as (nt & path & subs & D & R & Hp & <-). apply (Hsame nt R) in D. pose proof (sub_derivation rs' path nt _ D Hp) as Ds. inversion Ds as [|? j ? Hj _]; subst. eauto.
Qed.
Lemma said_somehow {U : Unicode} {H : HashOrder} m (vm : VM) rs t ps x : read_from m vm rs t ps -> defined rs x -> exists w, says rs x 0 w.
Proof.
  intros Hr Hx. pose proof Hr as (reads & fl & _ & _ & Ht & _). destruct (all_listed m vm reads rs t ps Hr Ht) as (l & _ & Hn & Hl). apply Hn in Hx. apply elem_of_list_fmap in Hx as ([y a] & -> & Hin).
  destruct (Hl y a Hin) as (Ha & Hne & _). destruct a as [|w a]; [congruence|]. exists w. apply Ha. reflexivity.
Qed.

(** ** C112.  Two texts, maybe for different VMs, without useless alternatives and with the
    same trees have the same names with the same alternatives, up to their order. *)
Theorem C112_determined : forall (U : Unicode) (H H' : HashOrder) m m' (vm vm' : VM) rs rs' t t' ps ps',
  @read_from U H m vm rs t ps -> @read_from U H' m' vm' rs' t' ps' -> every_part_used rs -> every_part_used rs' -> same_trees rs rs' -> same_syntax rs rs'.
Proof.
  intros U H H' m m' vm vm' rs rs' t t' ps ps' Hr Hr' Hu Hu' Hsame. assert (same_trees rs' rs) as Hsame' by (intros nt R; symmetry; exact (Hsame nt R)). intros x. split.
  - split; intros Hx; [destruct (said_somehow m vm rs t ps x Hr Hx) as [w Hw]; destruct (said_both rs rs' Hu Hsame x 0 w Hw) as [j Hj]|destruct (said_somehow m' vm' rs' t' ps' x Hr' Hx) as [w Hw]; destruct (said_both rs' rs Hu' Hsame' x 0 w Hw) as [j Hj]];
      exact (Naming_proofs.says_defined _ _ _ _ Hj).
  - intros alts alts' Ha Ha'. apply NoDup_Permutation; [exact (used_once rs x alts (read_from_parsable m vm rs t ps Hr) Hu Ha)|exact (used_once rs' x alts' (read_from_parsable m' vm' rs' t' ps' Hr') Hu' Ha')|].
    intros w. rewrite !elem_of_list_lookup. split; intros [i Hi].
    + apply Ha in Hi. destruct (said_both rs rs' Hu Hsame x i w Hi) as [j Hj]. exists j. apply Ha'. exact Hj.
    + apply Ha' in Hi. destruct (said_both rs' rs Hu' Hsame' x i w Hi) as [j Hj]. exists j. apply Ha. exact Hj.
Qed.
Print Assumptions C112_determined.
(** So their parsers return the same tree, or the same error up to the order of the
    listing, on every script, whatever follows behind a sentence. *)
Theorem C112_same_results : forall (U : Unicode) (H H' : HashOrder) m m' (vm vm' : VM) rs rs' t t' ps ps',
  @read_from U H m vm rs t ps -> @read_from U H' m' vm' rs' t' ps' -> every_part_used rs -> every_part_used rs' -> same_trees rs rs' ->
  forall fuel script v v', finished (fst (@parse H vm ps fuel script v)) -> finished (fst (@parse H' vm' ps' fuel script v')) ->
  same_outcome (fst (@parse H vm ps fuel script v)) (fst (@parse H' vm' ps' fuel script v')).
Proof.
  intros U H H' m m' vm vm' rs rs' t t' ps ps' Hr Hr' Hu Hu' Hsame. apply (C73_texts U H H' m m' vm vm' rs rs' t t' ps ps' Hr Hr'). exact (C112_determined U H H' m m' vm vm' rs rs' t t' ps ps' Hr Hr' Hu Hu' Hsame).
Qed.
Print Assumptions C112_same_results.
(** No alternative can be left out without losing a sentence. *)
Theorem C112_none_to_spare : forall (U : Unicode) (H : HashOrder) m (vm : VM) rs t ps rs', read_from m vm rs t ps -> every_part_used rs -> fewer_alternatives rs' rs ->
  forall x i w, says rs x i w -> (forall j, ~ says rs' x j w) -> exists s, sentence rs s /\ ~ sentence rs' s.
Proof.
  intros U H m vm rs t ps rs' Hr Hu Hf x i w Hs Hno. destruct (Hu x i w Hs) as (nt & path & subs & D & R & Hp & E). exists (nyield nt). split; [exists nt; auto|].
  intros (nt' & D' & R' & E'). assert (nt' = nt) as -> by (apply (one_tree m vm rs t ps nt' nt Hr); [apply (fewer_derivation rs' rs Hf), D'|assumption..]).
  pose proof (sub_derivation rs' path nt _ D' Hp) as Ds. inversion Ds as [|? j ? Hj _]; subst. exact (Hno j Hj).
Qed.
Print Assumptions C112_none_to_spare.

(** ** Non-vacuity: the same two alternatives in another order, and one of them left out. *)
Section example.
Local Existing Instance ascii_unicode.
Local Existing Instance plain_order.
Notation K := (vm_instr NullVm).
Notation made t := (new_from_text Checked NullVm (mkFuels 60 2200) t).
Ltac name := split; [reflexivity|repeat constructor].
Ltac quoted := apply one_quoted; discriminate.
Ltac fits := split; cbn [first_fuel follow_fuel]; apply Nat.leb_le || apply Nat.ltb_lt; vm_compute; reflexivity.
Definition turned_rules : list (arule K) := [mkARule start OvAbsent [[(lit "b", Terminal)]; [(lit "a", Terminal)]] []].
Definition turned_text : str := lit "start->""b""|""a"";".
Lemma turned_ok : grammar_text null_reads turned_rules turned_text.
Proof.
  rewrite <- (app_nil_r turned_text). apply null_then; [|apply null_end].
  apply (null_rule start _ (lit """b""|""a""")); [name|]. apply (SpecRules.alts_cons _ (lit """b""") [] [] _ (lit """a""")); [apply alt_elements, els_one; quoted|constructor..|apply alts_one, alt_elements, els_one; quoted].
Qed.
Lemma letters_used (a b : str) : every_part_used [mkARule (I := K) start OvAbsent [[(a, Terminal)]; [(b, Terminal)]] []].
Proof.
  intros x i w Hs. pose proof (Recipes_proofs.plain_says _ (one_rule_plain [[(a, Terminal)]; [(b, Terminal)]])) as S. pose proof (Naming_proofs.says_defined _ _ _ _ Hs) as Hx. apply defined_names in Hx. apply elem_of_list_singleton in Hx as ->.
  pose proof Hs as Hs'. apply S, elem_of_list_lookup_2 in Hs'. unfold alternatives_for in Hs'. cbn in Hs'. apply elem_of_cons in Hs' as [->|Hs']; [|apply elem_of_list_singleton in Hs' as ->].
  - exists (NNode start [NLeaf a]), [], [NLeaf a]. split; [apply (nder_node _ start i); [exact Hs|repeat constructor]|auto].
  - exists (NNode start [NLeaf b]), [], [NLeaf b]. split; [apply (nder_node _ start i); [exact Hs|repeat constructor]|auto].
Qed.
Example C112_example : (exists ps, read_from Checked NullVm both_rules both_text ps) /\ (exists ps, read_from Checked NullVm turned_rules turned_text ps) /\
  every_part_used both_rules /\ every_part_used turned_rules /\ same_trees both_rules turned_rules /\ both_rules <> turned_rules /\
  says both_rules start 1 [(lit "b", Terminal)] /\ fewer_alternatives lost_rules both_rules /\ forall j, ~ says lost_rules start j [(lit "b", Terminal)].
Proof.
  destruct C111_example as (Hb & _ & _ & Hf & _).
  destruct (verdicts_ok 400 (made turned_text) (lit "b") (lit "c")) as (ps' & Eps' & _); [vm_compute; reflexivity|].
  pose proof (Recipes_proofs.plain_says both_rules (one_rule_plain _)) as S1. pose proof (Recipes_proofs.plain_says turned_rules (one_rule_plain _)) as S2. pose proof (Recipes_proofs.plain_says lost_rules (one_rule_plain _)) as S3.
  assert (forall (a b : str), let f c d := [mkARule (I := K) start OvAbsent [[(c, Terminal)]; [(d, Terminal)]] []] in forall nt, nroot nt = (start, NonTerminal) -> nderivation (f a b) nt -> nderivation (f b a) nt) as Hturn.
  { intros a b f nt R D. destruct nt as [c|x subs]; [discriminate R|]. cbn in R. injection R as ->. inversion D as [|? i ? Hs Hsubs]; subst.
    pose proof (Recipes_proofs.plain_says (f a b) (one_rule_plain _)) as T1. pose proof (Recipes_proofs.plain_says (f b a) (one_rule_plain _)) as T2. apply T1, elem_of_list_lookup_2 in Hs. unfold alternatives_for in Hs. cbn in Hs.
    assert (Forall (nderivation (f b a)) subs) as Hd.
    { assert (exists c, map nroot subs = [(c, Terminal)]) as [c Ec] by (apply elem_of_cons in Hs as [->|Hs]; [|apply elem_of_list_singleton in Hs as ->]; eauto).
      destruct subs as [|[b0|y ds] [|? ?]]; try discriminate Ec. repeat constructor. }
    apply elem_of_cons in Hs as [E|Hs]; [|apply elem_of_list_singleton in Hs as E].
    - apply (nder_node _ start 1); [apply T2; rewrite E; reflexivity|exact Hd].
    - apply (nder_node _ start 0); [apply T2; rewrite E; reflexivity|exact Hd]. }
  split; [exact Hb|]. split; [exists ps'; apply (read_null turned_rules turned_text _ turned_ok eq_refl ltac:(fits) Eps'); reflexivity|]. split; [apply letters_used|]. split; [apply letters_used|]. split; [|split; [|split; [|split; [exact Hf|]]]].
  - intros nt R. split; [exact (Hturn (lit "a") (lit "b") nt R)|exact (Hturn (lit "b") (lit "a") nt R)].
  - intros E. discriminate E.
  - apply S1. reflexivity.
  - intros j Hj. apply S3 in Hj. destruct j as [|j]; [discriminate Hj|]. destruct j; discriminate Hj.
Qed.
End example.
