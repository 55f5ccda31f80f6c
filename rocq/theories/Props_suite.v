(** * Property theorems: scripts that notice lost alternatives (C111) *)
From Verif Require Import Base Peekables Tree Errors Sets ParserData Vm SimpleStackVm StackVm RuleParsing FirstSets FollowSets SteuerMap ScriptParser
  SpecText SpecData SpecGrammar SpecParser SpecTree SpecScript SpecContract SpecWeave SpecRules SpecNames SpecLanguage SpecIgnore SpecFewer SpecSyntax SpecTyping SpecWalk SpecReached SpecDepth SpecClean SpecSuite Grammar_proofs Construct_proofs Checks Tree_proofs Script_proofs Parse_proofs
  Weave_proofs Names_proofs RuleBuild_proofs RuleText_proofs Language_proofs Accept_proofs Fewer_proofs ExprText_proofs Props_steuer Props_script Props_weave Props_rules Props_vm Props_names Props_language Props_errors Props_main SpecRecipes Recipes_proofs Props_recipes Props_same Props_extend Props_depth Props_fewer Props_typing Props_walk Props_reached Alive_proofs Clean_proofs Props_clean Samples.
Notation start := (lit "start").

(** ** Counting alternatives *)
Section count.
Context {I : Type}.
Definition total (f : str -> nat) (l : list str) : nat := sum_list (map f l).
Lemma total_le f g l : (forall x, x ∈ l -> f x <= g x) -> total f l <= total g l.
Proof.
  unfold total. induction l as [|x l IH]; intros Hx; [reflexivity|]. cbn. pose proof (Hx x ltac:(left)). specialize (IH ltac:(intros y Hy; apply Hx; right; exact Hy)). lia.
Qed.
Lemma total_one n k f l : NoDup l -> total (fun x => (if decide (n = x) then k else 0) + f x) l <= k + total f l.
Proof.
  unfold total. induction 1 as [|x l Hx Hl IH]; cbn; [lia|]. destruct (decide (n = x)) as [<-|]; [|lia].
  assert (sum_list (map (fun x => (if decide (n = x) then k else 0) + f x) l) = sum_list (map f l)) as ->; [|lia].
  clear IH Hl. induction l as [|y l IH]; [reflexivity|]. cbn. apply not_elem_of_cons in Hx as [Hn Hx]. rewrite (IH Hx). destruct (decide (n = y)); [congruence|reflexivity].
Qed.
Lemma alternatives_cons (r : arule I) rs x : length (alternatives_for (r :: rs) x) = (if decide (ar_name r = x) then length (ar_alts r) else 0) + length (alternatives_for rs x).
Proof.
  unfold alternatives_for, rules_for. destruct (decide (ar_name r = x)) as [E|E]; [rewrite filter_cons_True by exact E; cbn; apply app_length|rewrite filter_cons_False by exact E; reflexivity].
Qed.
Lemma total_alternatives (rs : list (arule I)) l : NoDup l -> total (fun x => length (alternatives_for rs x)) l <= alternatives_in rs.
Proof.
  intros Hl. induction rs as [|r rs IH].
  - unfold alternatives_in, total. clear Hl. induction l as [|x l IH]; cbn in *; [lia|exact IH].
  - unfold alternatives_in in *. cbn [map concat]. rewrite app_length. etransitivity; [|apply Nat.add_le_mono_l, IH]. etransitivity; [|apply (total_one (ar_name r)); exact Hl].
    apply total_le. intros x _. cbn beta. rewrite alternatives_cons. reflexivity.
Qed.
Lemma plain_total (rs : list (arule I)) : NoDup (map ar_name rs) -> alternatives_in rs <= total (fun x => length (alternatives_for rs x)) (map ar_name rs).
Proof.
  induction rs as [|r rs IH]; intros Hn; [reflexivity|]. cbn [map] in *. apply NoDup_cons in Hn as [Hx Hn]. specialize (IH Hn).
  assert (alternatives_in (r :: rs) = length (ar_alts r) + alternatives_in rs) as -> by (unfold alternatives_in; cbn [map concat]; apply app_length).
  set (f := fun x => length (alternatives_for (r :: rs) x)). change (total f (ar_name r :: map ar_name rs)) with (f (ar_name r) + total f (map ar_name rs)).
  assert (length (ar_alts r) <= f (ar_name r)) as H1 by (unfold f; rewrite alternatives_cons, decide_True by reflexivity; lia).
  assert (total (fun x => length (alternatives_for rs x)) (map ar_name rs) <= total f (map ar_name rs)) as H2.
  { apply total_le. intros x _. unfold f. rewrite alternatives_cons. lia. }
  lia.
Qed.
Lemma fewer_count (rs rs' : list (arule I)) x : (forall z y, ~ ignores rs z y) -> fewer_alternatives rs rs' -> length (alternatives_for rs x) <= length (alternatives_for rs' x).
Proof.
  intros Hno Hf. destruct (Hf x) as (f & Hinj & Hs).
  assert (forall i, i < length (alternatives_for rs x) -> f i < length (alternatives_for rs' x)) as Hlt.
  { intros i Hi. apply lookup_lt_is_Some in Hi as [w Hw]. apply (NamingAll_proofs.plain_says rs Hno), Hs in Hw. destruct Hw as [w0 Hw _|w0 y Hw _ _]; eapply lookup_lt_Some; exact Hw. }
  rewrite <- (seq_length (length (alternatives_for rs x)) 0), <- (seq_length (length (alternatives_for rs' x)) 0). rewrite <- (fmap_length f (seq 0 (length (alternatives_for rs x)))).
  apply submseteq_length, NoDup_submseteq.
  - apply NoDup_fmap_2; [intros i j; apply Hinj|apply NoDup_seq].
  - intros k Hk. apply elem_of_list_fmap in Hk as (i & -> & Hi). apply elem_of_seq in Hi. apply elem_of_seq. specialize (Hlt i). lia.
Qed.
Lemma fewer_total (rs rs' : list (arule I)) : written_plainly rs -> fewer_alternatives rs rs' -> alternatives_in rs <= alternatives_in rs'.
Proof.
  intros Hp Hf. etransitivity; [apply plain_total, Hp|]. etransitivity; [|apply (total_alternatives rs' (map ar_name rs)), Hp]. apply total_le. intros x _. apply fewer_count; [apply plainly_no_ignore, Hp|exact Hf].
Qed.
End count.

(** ** One script per alternative *)
Section suite.
Context {I : Type}.
Lemma one_each (rs : list (arule I)) : written_plainly rs -> every_part_used rs -> exists trees : list ntree, length trees = alternatives_in rs /\
  Forall (fun nt => nderivation rs nt /\ nroot nt = (start, NonTerminal)) trees /\
  forall x i w, says rs x i w -> exists nt path subs, nt ∈ trees /\ nsubtree nt path = Some (NNode x subs) /\ map nroot subs = w.
Proof.
  intros Hp Hu. set (pairs := concat (map (fun r => map (pair (ar_name r)) (ar_alts r)) rs)).
  assert (length pairs = alternatives_in rs) as Hlen.
  { unfold pairs, alternatives_in. clear. induction rs as [|r rs IH]; [reflexivity|]. cbn. rewrite !app_length, map_length, IH. reflexivity. }
  assert (forall x w, (x, w) ∈ pairs <-> exists i, says rs x i w) as Hpairs.
  { intros x w. assert ((x, w) ∈ pairs <-> w ∈ alternatives_for rs x) as ->.
    { unfold pairs, alternatives_for, rules_for. clear. induction rs as [|r rs IH]; [split; intros Hin; inversion Hin|]. cbn [map concat]. rewrite elem_of_app, IH.
      assert ((x, w) ∈ map (pair (ar_name r)) (ar_alts r) <-> ar_name r = x /\ w ∈ ar_alts r) as ->.
      { split; [intros Hin; apply elem_of_list_fmap in Hin as (v & [= -> ->] & Hv); auto|]. intros [<- Hw]. apply elem_of_list_fmap. eauto. }
      destruct (decide (ar_name r = x)) as [E|E]; [rewrite filter_cons_True by exact E; cbn; rewrite elem_of_app; tauto|rewrite filter_cons_False by exact E; tauto]. }
    rewrite elem_of_list_lookup. split; intros [i Hi]; exists i; apply (NamingAll_proofs.plain_says rs (plainly_no_ignore rs Hp)); exact Hi. }
  assert (forall l, (forall p, p ∈ l -> p ∈ pairs) -> exists trees : list ntree, length trees = length l /\ Forall (fun nt => nderivation rs nt /\ nroot nt = (start, NonTerminal)) trees /\
    forall x w, (x, w) ∈ l -> exists nt path subs, nt ∈ trees /\ nsubtree nt path = Some (NNode x subs) /\ map nroot subs = w) as Hgo.
  { induction l as [|[x w] l IH]; intros Hl; [exists []; split; [reflexivity|]; split; [constructor|intros x w Hin; inversion Hin]|].
    destruct IH as (trees & L1 & L2 & L3); [intros p Hin; apply Hl; right; exact Hin|]. destruct (proj1 (Hpairs x w)) as [i Hi]; [apply Hl; left|].
    destruct (Hu x i w Hi) as (nt & path & subs & N1 & N2 & N3 & N4). exists (nt :: trees). split; [cbn; congruence|]. split; [constructor; auto|].
    intros y u Hin. apply elem_of_cons in Hin as [[= -> ->]|Hin]; [exists nt, path, subs; split; [left|auto]|]. destruct (L3 y u Hin) as (nt' & path' & subs' & T1 & T2). exists nt', path', subs'. split; [right; exact T1|exact T2]. }
  destruct (Hgo pairs) as (trees & L1 & L2 & L3); [auto|]. exists trees. split; [congruence|]. split; [exact L2|]. intros x i w Hs. apply L3. apply Hpairs. eauto.
Qed.
End suite.
Lemma one_tree {U : Unicode} {H : HashOrder} m (vm : VM) rs t ps nt nt' : read_from m vm rs t ps -> nderivation rs nt -> nroot nt = (start, NonTerminal) -> nderivation rs nt' -> nroot nt' = (start, NonTerminal) ->
  nyield nt = nyield nt' -> nt = nt'.
Proof.
  intros Hr D R D' R' E. pose proof (sentence_accepts m vm rs t ps nt Hr D R) as Ha. pose proof (sentence_accepts m vm rs t ps nt' Hr D' R') as Hb. rewrite <- E in Hb.
  destruct (C61_accepted_scripts U H m vm rs t ps Hr _ (nyield nt) (vm_new_state vm) (le_n _)) as (_ & _ & _ & _ & Hu). destruct (Hu _ _ _ _ Ha Hb). assumption.
Qed.

(** ** C111.  For every grammar text that yields a parser there are sentences, no more than
    it has alternatives, such that a grammar with fewer alternatives that has these has all
    sentences, with the same trees. *)
Theorem C111_suite : forall (U : Unicode) (H : HashOrder) m (vm : VM) rs t ps, read_from m vm rs t ps ->
  exists scripts, length scripts <= alternatives_in rs /\ Forall (sentence rs) scripts /\
  forall rs', fewer_alternatives rs' rs -> Forall (sentence rs') scripts -> same_trees rs rs'.
Proof.
  intros U H m vm rs t ps Hr. pose proof Hr as (reads & fl & Hs & Hd & Ht & Hlen & Hfl & Hps).
  destruct (written_out m vm reads rs t ps Hr Ht) as (rs1 & t1 & Ht1 & Hpl & Hsame). destruct (productive_names rs1 (plainly_no_ignore rs1 Hpl)) as [L HL].
  assert (forall (ra rb : list (arule (vm_instr vm))), (forall x i w, says ra x i w -> says rb x i w) -> forall nt, nderivation ra nt -> nderivation rb nt) as Hmono.
  { intros ra rb Hab. induction nt as [b|x subs IH] using ntree_ind'; intros D; [constructor|]. inversion D as [|? i ? Hsay Hsubs]; subst. apply (nder_node rb x i); [auto|].
    rewrite Forall_forall in IH, Hsubs |- *. auto. }
  destruct (decide (start ∈ L)) as [Hin|Hout].
  - assert (exists s, sentence rs s) as Hsen. { apply HL in Hin as (s & nt & D & R & E). exists s, nt. split; [|auto]. apply (Hmono rs1 rs); [|exact D]. intros x i w. apply (Hsame x). }
    destruct (C110_reduced U H m vm reads fl rs t ps Hs Hd Ht Hlen Hfl Hps Hsen) as (rs2 & t2 & _ & Hpl2 & Hu & _ & Hfew & Hder & _).
    destruct (one_each rs2 Hpl2 Hu) as (trees & L1 & L2 & L3). exists (map nyield trees). split; [rewrite map_length, L1; apply fewer_total; assumption|].
    rewrite Forall_forall in L2. split.
    { apply Forall_forall. intros s Hin'. apply elem_of_list_fmap in Hin' as (nt & -> & Hnt). destruct (L2 nt Hnt) as [D R]. exists nt. split; [apply (Hder nt R), D|auto]. }
    intros rs' Hf' Hall nt R. split; [|apply (fewer_derivation rs' rs Hf')]. intros D. apply (Hder nt R) in D.
    assert (forall x i w, says rs2 x i w -> exists j, says rs' x j w) as Hhas.
    { intros x i w Hw. destruct (L3 x i w Hw) as (nt' & path & subs & N1 & N2 & N3). destruct (L2 nt' N1) as [D' R'].
      assert (sentence rs' (nyield nt')) as (nt'' & D'' & R'' & E). { rewrite Forall_forall in Hall. apply Hall. apply elem_of_list_fmap. eauto. }
      assert (nt'' = nt') as -> by (apply (one_tree m vm rs t ps nt'' nt' Hr); [apply (fewer_derivation rs' rs Hf'), D''|exact R''|apply (Hder nt' R'), D'|exact R'|exact E]).
      pose proof (sub_derivation rs' path nt' _ D'' N2) as Ds. inversion Ds as [|? j ? Hsay _]; subst. eauto. }
    clear R. induction nt as [b|x subs IH] using ntree_ind'; [constructor|]. inversion D as [|? i ? Hsay Hsubs]; subst. destruct (Hhas _ _ _ Hsay) as [j Hj]. apply (nder_node rs' x j); [exact Hj|].
    rewrite Forall_forall in IH, Hsubs |- *. auto.
  - exists []. split; [cbn; lia|]. split; [constructor|]. intros rs' Hf' _ nt R. split; [|apply (fewer_derivation rs' rs Hf')]. intros D. destruct Hout. apply HL. exists (nyield nt), nt. split; [|auto].
    apply (Hmono rs rs1); [|exact D]. intros x i w. apply (Hsame x).
Qed.
Print Assumptions C111_suite.
(** As a test of a parser: if it parses each of these scripts to its end, it parses every
    sentence of the larger grammar with the tree that grammar has for it. *)
Theorem C111_tested : forall (U : Unicode) (H : HashOrder) m (vm : VM) rs t ps, read_from m vm rs t ps ->
  exists scripts, length scripts <= alternatives_in rs /\ Forall (sentence rs) scripts /\
  forall (H' : HashOrder) m' rs' t' ps', @read_from U H' m' vm rs' t' ps' -> fewer_alternatives rs' rs ->
  Forall (fun s => exists fuel v tr v', @parse H' vm ps' fuel s v = (Ok tr, v') /\ text_under tr (mkNodeId 0 0) s) scripts ->
  forall nt v v' fuel, nderivation rs nt -> nroot nt = (start, NonTerminal) -> run_tree rs' nt v = Ok v' -> nested_names nt <= fuel ->
  exists tr, @parse H' vm ps' fuel (nyield nt) v = (Ok tr, v') /\ tree_shows tr nt.
Proof.
  intros U H m vm rs t ps Hr. destruct (C111_suite U H m vm rs t ps Hr) as (scripts & L1 & L2 & L3). exists scripts. split; [exact L1|]. split; [exact L2|].
  intros H' m' rs' t' ps' Hr' Hf Hall nt v v' fuel D R Hrun Hfu.
  assert (same_trees rs rs') as Hsame.
  { apply L3; [exact Hf|]. eapply Forall_impl; [exact Hall|]. intros s (fu & v0 & tr & v1 & Hp & Hu). destruct (@C105_returned U H' m' vm rs' t' ps' Hr' fu s v0 tr v1 Hp) as (nt' & rest & (A1 & A2 & _) & _ & _ & Htext).
    apply Htext in Hu. subst s. exists nt'. auto. }
  apply (Hsame nt R) in D. exact (proj1 (@C102_depth U H' m' vm rs' t' ps' Hr' _ nt [] v v' (sentence_accepts m' vm rs' t' ps' nt Hr' D R) Hrun fuel) Hfu).
Qed.
Print Assumptions C111_tested.

(** ** Non-vacuity: the second of two alternatives is lost; the suite notices. *)
Section example.
Local Existing Instance ascii_unicode.
Local Existing Instance plain_order.
Notation K := (vm_instr NullVm).
Notation made t := (new_from_text Checked NullVm (mkFuels 60 2200) t).
Ltac name := split; [reflexivity|repeat constructor].
Ltac quoted := apply one_quoted; discriminate.
Ltac fits := split; cbn [first_fuel follow_fuel]; apply Nat.leb_le || apply Nat.ltb_lt; vm_compute; reflexivity.
Definition both_rules : list (arule K) := [mkARule start OvAbsent [[(lit "a", Terminal)]; [(lit "b", Terminal)]] []].
Definition lost_rules : list (arule K) := [mkARule start OvAbsent [[(lit "a", Terminal)]] []].
Definition both_text : str := lit "start->""a""|""b"";".
Definition lost_text : str := lit "start->""a"";".
Lemma both_ok : grammar_text null_reads both_rules both_text /\ grammar_text null_reads lost_rules lost_text.
Proof.
  split; [rewrite <- (app_nil_r both_text)|rewrite <- (app_nil_r lost_text)]; (apply null_then; [|apply null_end]).
  - apply (null_rule start _ (lit """a""|""b""")); [name|]. apply (SpecRules.alts_cons _ (lit """a""") [] [] _ (lit """b""")); [apply alt_elements, els_one; quoted|constructor..|apply alts_one, alt_elements, els_one; quoted].
  - apply (null_rule start _ (lit """a""")); [name|]. apply alts_one, alt_elements, els_one. quoted.
Qed.
Example C111_example : (exists ps, read_from Checked NullVm both_rules both_text ps) /\ (exists ps, read_from Checked NullVm lost_rules lost_text ps) /\ alternatives_in both_rules = 2 /\
  fewer_alternatives lost_rules both_rules /\ ~ same_trees both_rules lost_rules /\
  exists s, sentence both_rules s /\ ~ sentence lost_rules s.
Proof.
  destruct both_ok as [T1 T2].
  destruct (verdicts_ok 400 (made both_text) (lit "b") (lit "c")) as (ps & Eps & _); [vm_compute; reflexivity|].
  destruct (verdicts_ok 400 (made lost_text) (lit "a") (lit "b")) as (ps' & Eps' & _); [vm_compute; reflexivity|].
  pose proof (read_null both_rules both_text _ T1 eq_refl ltac:(fits) Eps ps eq_refl) as Hr. pose proof (read_null lost_rules lost_text _ T2 eq_refl ltac:(fits) Eps' ps' eq_refl) as Hr'.
  pose proof (Recipes_proofs.plain_says both_rules (one_rule_plain _)) as S1. pose proof (Recipes_proofs.plain_says lost_rules (one_rule_plain _)) as S2.
  assert (nderivation both_rules (NNode start [NLeaf (lit "b")])) as D by (apply (nder_node _ start 1); [apply S1; reflexivity|repeat constructor]).
  assert (forall nt, nroot nt = (start, NonTerminal) -> nderivation lost_rules nt -> nyield nt = lit "a") as Hlost.
  { intros nt R Dn. destruct nt as [b|x subs]; [discriminate R|]. cbn in R. injection R as ->. inversion Dn as [|? i ? Hs _]; subst. apply S2, elem_of_list_lookup_2 in Hs. unfold alternatives_for in Hs. cbn in Hs.
    apply elem_of_list_singleton in Hs. destruct subs as [|[b|x ds] [|? ?]]; try discriminate Hs. cbn in Hs. injection Hs as ->. reflexivity. }
  split; [exists ps; exact Hr|]. split; [exists ps'; exact Hr'|]. split; [reflexivity|]. split; [|split].
  - intros x. exists (fun i => i). split; [auto|]. intros i w Hw. pose proof (Naming_proofs.says_defined _ _ _ _ Hw) as Hx. apply defined_names in Hx. apply elem_of_list_singleton in Hx as ->. apply S2 in Hw. apply S1.
    destruct i as [|i]; [exact Hw|]. destruct i; discriminate Hw.
  - intros Hsame. apply (Hsame (NNode start [NLeaf (lit "b")]) eq_refl) in D. apply Hlost in D; [discriminate D|reflexivity].
  - exists (lit "b"). split; [exists (NNode start [NLeaf (lit "b")]); auto|]. intros (nt & Dn & R & E). rewrite (Hlost nt R Dn) in E. discriminate E.
Qed.
End example.
