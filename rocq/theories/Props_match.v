(** * Property theorems: a parser that decides whether a script matches an expression (C101) *)
From Verif Require Import Base Peekables Tree Errors Sets ParserData Vm SimpleStackVm StackVm RuleParsing FirstSets FollowSets SteuerMap ScriptParser
  SpecText SpecData SpecGrammar SpecParser SpecTree SpecScript SpecContract SpecWeave SpecRules SpecNames SpecLanguage SpecSyntax SpecRename SpecExtend SpecNaming SpecFewer SpecEffect SpecCompose SpecWhole SpecNested SpecEmbed SpecExpr
  Grammar_proofs Construct_proofs Checks Tree_proofs Script_proofs Parse_proofs
  Weave_proofs Names_proofs RuleBuild_proofs RuleText_proofs Language_proofs Syntax_proofs Rename_proofs Start_proofs Naming_proofs NamingAll_proofs Fewer_proofs Effect_proofs Compose_proofs Whole_proofs Embed_proofs
  Props_steuer Props_script Props_weave Props_rules Props_vm Props_names Props_language Props_same Props_start Props_errors Props_main Props_extend Props_fewer Props_effect Props_compose Props_nested Props_embed
  Expr_proofs ExprTree_proofs ExprText_proofs Props_expr Samples.
Notation start := (lit "start").

(** The end is nothing: it can be put behind every expression. *)
Theorem C101_end : forall I (e : expr I), fine (Then e (Nothing [])) = fine e /\ forall ps, matches (Then e (Nothing [])) ps <-> exists qs, matches e qs /\ ps = qs ++ [(None, [])].
Proof.
  intros I e. split.
  - cbn [fine begins_with]. rewrite andb_true_r. assert (disjoint_chars (may_go_on e) [] = true) as -> by (apply disjoint_spec; intros c _ Hc; inversion Hc). apply andb_true_r.
  - intros ps. split.
    + intros M. inversion M as [| | | |? ? qs rs M1 M2| | |]; subst. inversion M2; subst. eauto.
    + intros (qs & M & ->). constructor; [assumption|constructor].
Qed.
Print Assumptions C101_end.

(** With the end, the parser accepts exactly the texts of the expression, as whole scripts, and
    does their pieces; an error means that the script is no text of the expression. *)
Theorem C101_decides : forall (U : Unicode) (H : HashOrder) m (vm : VM) e G x z t parser, expressed e G -> unused x G -> z <> start -> ~ defined (embedded x G) z ->
  read_from m vm (whole x z [] (embedded x G)) t parser -> looks_down vm ->
  forall script v fuel, (length script + 1) * length t <= fuel ->
  (forall v', (exists tr, parse vm parser fuel script v = (Ok tr, v')) <-> exists ps, matches e ps /\ script = text_of ps /\ do_pieces ps v = Ok v') /\
  (forall er, fst (parse vm parser fuel script v) = Err er -> ~ exists ps, matches e ps /\ script = text_of ps) /\
  (forall ps, matches e ps -> script = text_of ps -> (forall v', do_pieces ps v <> Ok v') -> fst (parse vm parser fuel script v) = Panic) /\
  fst (parse vm parser fuel script v) <> Diverge.
Proof.
  intros U H m vm e G x z t parser He Hu Hzs Hz Hr Hl script v fuel Hf. pose proof (in_part _ _ _ (sound_inner _ _ _ (expressed_sound _ _ He) Hu)) as HP.
  destruct (trees_inner e G x Hu HP (expressed_trees e G He)) as [T1 T2].
  assert (forall n ps, nderivation (alone x [] (embedded x G)) n -> nroot n = (x, NonTerminal) -> done (alone x [] (embedded x G)) n ps -> forall v, effect (whole x z [] (embedded x G)) (NNode start [n; NNode z []]) v = do_pieces ps v) as Heff.
  { intros n ps Dn Rn [_ Hd] v0. pose proof (end_part (I := vm_instr vm) z Hzs) as HQ. pose proof (end_apart (embedded x G) z Hz) as Hap. unfold whole. rewrite start_effect by (apply (two_no_start _ _ x z HP HQ)). fold (whole x z [] (embedded x G)).
    rewrite effects_cons, (moved _ x HP _ (it_left (embedded x G) [end_rule z] x z HP HQ Hap [])), Hd by assumption. destruct (do_pieces ps v0) as [v1|[]| |]; cbn [obind]; try reflexivity.
    rewrite one_effect, effect_node. cbn [effects ofold obind own_instructions]. rewrite (pa_instr _ (whole x z [] (embedded x G)) (it_right (embedded x G) [end_rule z] x z HP HQ Hap []) z) by (apply end_defined; reflexivity).
    unfold instructions_for. rewrite end_rules, decide_True by reflexivity. reflexivity. }
  assert (forall nt rest, accepts_prefix (whole x z [] (embedded x G)) script nt rest -> exists n ps, nt = NNode start [n; NNode z []] /\ matches e ps /\ script = text_of ps /\ forall v, effect (whole x z [] (embedded x G)) nt v = do_pieces ps v) as Hacc.
  { intros nt rest (D & R & Es & Hb). destruct (proj1 (whole_tree _ x z HP Hz Hzs [] [] nt) (conj D R)) as (n & -> & Dn & Rn). destruct (T1 n (conj Dn Rn)) as (ps & M & Hd). exists n, ps. split; [reflexivity|]. split; [assumption|].
    split; [|intros v0; apply (Heff n); assumption]. assert (look rest = MTerminate) as El.
    { apply (end_follow _ x z HP Hz Hzs []). apply (Hb z []). apply (ee_inside start [n] (NNode z []) [] z []); [reflexivity|]. apply (ee_here z []). reflexivity. }
    destruct rest as [|c rest]; [|discriminate]. destruct Hd as [<- _]. rewrite Es. cbn. rewrite !app_nil_r. reflexivity. }
  assert (forall ps, matches e ps -> script = text_of ps -> match do_pieces ps v with Ok v' => exists tr, parse vm parser fuel script v = (Ok tr, v') | _ => fst (parse vm parser fuel script v) = Panic end) as Hall.
  { intros ps M Es. destruct (T2 ps M) as (n & [Dn Rn] & Hd). destruct (proj2 (whole_tree _ x z HP Hz Hzs [] [] (NNode start [n; NNode z []]))) as [D R]; [eauto|].
    assert (nyield (NNode start [n; NNode z []]) = script) as Y by (destruct Hd as [Hy _]; rewrite Es, <- Hy; cbn; rewrite app_nil_r; reflexivity).
    pose proof (C88_sentences U H m vm _ t parser Hr Hl _ v fuel D R) as A. rewrite Y, (Heff n ps Dn Rn Hd) in A. specialize (A Hf). destruct (do_pieces ps v) as [w|[]| |]; try exact A. destruct A as (tr & A & _). eauto. }
  destruct (C61_accepted_scripts U H m vm _ t parser Hr fuel script v Hf) as (_ & _ & _ & A4 & _). destruct (C88_state_after_a_parse U H m vm _ t parser Hr Hl fuel script v Hf) as [B1 _].
  split; [|split; [|split]].
  - intros v'. split.
    + intros Hp. apply B1 in Hp as (nt & rest & Ha & Hv). destruct (Hacc nt rest Ha) as (n & ps & -> & M & Es & Hd). exists ps. rewrite <- Hd. auto.
    + intros (ps & M & Es & Hv). specialize (Hall ps M Es). rewrite Hv in Hall. exact Hall.
  - intros er Herr (ps & M & Es). specialize (Hall ps M Es). destruct (do_pieces ps v) as [w|[]| |]; [destruct Hall as [tr Hp]; rewrite Hp in Herr; discriminate|congruence..].
  - intros ps M Es Hno. specialize (Hall ps M Es). destruct (do_pieces ps v) as [w|[]| |]; [destruct (Hno w eq_refl)|assumption..].
  - exact A4.
Qed.
Print Assumptions C101_decides.

(** For every expression that can be written and passes the check there is a grammar text
    whose parser decides whether a script is a text of the expression. *)
Theorem C101_matcher : forall (U : Unicode) (H : HashOrder) m (vm : VM) reads e, supported vm reads -> tables_disjoint -> looks_down vm -> writable reads e -> fine e = true ->
  exists t, forall fl, (N.of_nat (length t) < 2 ^ 63)%N -> enough_for_text fl t -> exists parser, new_from_text m vm fl t = Ok parser /\
  forall script v fuel, (length script + 1) * length t <= fuel ->
  (forall v', (exists tr, parse vm parser fuel script v = (Ok tr, v')) <-> exists ps, matches e ps /\ script = text_of ps /\ do_pieces ps v = Ok v') /\
  (forall er, fst (parse vm parser fuel script v) = Err er -> ~ exists ps, matches e ps /\ script = text_of ps) /\
  (forall ps, matches e ps -> script = text_of ps -> (forall v', do_pieces ps v <> Ok v') -> fst (parse vm parser fuel script v) = Panic) /\
  fst (parse vm parser fuel script v) <> Diverge.
Proof.
  intros U H m vm reads e Hs Hd Hl Hw Hfine. destruct (C100_written U H m vm reads (Then e (Nothing [])) Hs Hd) as (W & t & He & Ht & Ha).
  { split; [assumption|]. intros nm _. exists []. constructor. }
  exists t. intros fl Hlen Hfl. destruct (proj2 (Ha fl Hlen Hfl)) as [parser Hps]; [rewrite (proj1 (C101_end _ e)); assumption|]. exists parser. split; [assumption|].
  assert (exists G x z, W = whole x z [] (embedded x G) /\ expressed e G /\ unused x G /\ z <> start /\ ~ defined (embedded x G) z) as (G & x & z & -> & HeG & Hu & Hz & Hnd).
  { inversion He as [| | |? ? G1 G2 x z E1 E2 U1 U2 Hap| |]; subst. inversion E2; subst. exists G1, x, z. split; [|split; [assumption|split; [assumption|]]].
    - unfold whole, in_turn, end_rule, embedded at 2, renamed, called. cbn. destruct (decide _) as [_|E]; [reflexivity|destruct (E eq_refl)].
    - split; [apply U2|]. intros Hz. apply (Hap z Hz). assert (embedded z [mkARule start OvAbsent [[]] []] = [end_rule z]) as -> by (unfold end_rule, embedded, renamed, called; cbn; destruct (decide _) as [_|E]; [reflexivity|destruct (E eq_refl)]). apply end_defined. reflexivity. }
  apply (C101_decides U H m vm e G x z t parser); try assumption. exists reads, fl. auto 10.
Qed.
Print Assumptions C101_matcher.

(** ** Non-vacuity: ones, and nothing else, for StackVm. *)
Section example.
Local Existing Instance ascii_unicode.
Local Existing Instance plain_order.
Notation KV := (StackVm Checked).
Notation K := (vm_instr KV).
Notation fl := (mkFuels 60 (55 * 55)).
Definition ones : expr K := Many (Word (lit "1") one).
Definition ones_rules : list (arule K) := repeated (lit "d") [] (embedded (lit "d") (word_rules (lit "1") one)).
Definition ones_text : str := lit "start->x z;x->d x|#;d->""1""{PushConst 1;};z->#;".
Definition whole_ones : list (arule K) := whole (lit "x") (lit "z") [] (embedded (lit "x") ones_rules).
Lemma whole_ones_eq : whole_ones =
  [mkARule start OvAbsent [[(lit "x", NonTerminal); (lit "z", NonTerminal)]] [];
   mkARule (lit "x") OvAbsent [[(lit "d", NonTerminal); (lit "x", NonTerminal)]; []] [];
   mkARule (lit "d") OvAbsent [[(lit "1", Terminal)]] one;
   mkARule (lit "z") OvAbsent [[]] []].
Proof. vm_compute. reflexivity. Qed.
Ltac name := split; [reflexivity|repeat constructor].
Ltac nogo := intros _ [E|E]; vm_compute in E; discriminate.
Ltac unused_now := split; [discriminate|]; intros Hin; vm_compute in Hin; repeat (apply elem_of_cons in Hin as [Hin|Hin]; [discriminate Hin|]); inversion Hin.
Lemma ones_grammar : grammar_text stack_reads whole_ones ones_text.
Proof.
  rewrite whole_ones_eq. assert (forall (r : arule K) tr rs t, rule_text stack_reads r tr -> grammar_text stack_reads rs t -> grammar_text stack_reads (r :: rs) (tr ++ t)) as W.
  { intros r tr rs t Hr Ht. apply (gr_cons stack_reads r tr [] rs t); [constructor|exact Hr|exact Ht]. }
  assert (forall nm alts is ta ts, valid_name nm -> alternatives_text alts ta -> section_text stack_reads nm is ts ->
    rule_text stack_reads (mkARule (I := K) nm OvAbsent alts is) (nm ++ lit "->" ++ ta ++ ts ++ lit ";")) as R.
  { intros nm alts is ta ts Hv Ha Hs. apply (rule_intro stack_reads (mkARule (I := K) nm OvAbsent alts is) [] [] [] [] [] [] ta ts); try (constructor; fail); assumption. }
  apply (W _ (lit "start->x z;") _ (lit "x->d x|#;d->""1""{PushConst 1;};z->#;")).
  { apply (R start _ [] (lit "x z") []); [name| |constructor]. apply alts_one, alt_elements, (els_cons _ (lit "x") (lit " ") _ (lit "z")); [apply el_name; name|repeat constructor|apply els_one, el_name; name|nogo]. }
  apply (W _ (lit "x->d x|#;") _ (lit "d->""1""{PushConst 1;};z->#;")).
  { apply (R (lit "x") _ [] (lit "d x|#") []); [name| |constructor]. apply (alts_cons _ (lit "d x") [] [] _ (lit "#")); [|constructor..|apply alts_one, alt_empty].
    apply alt_elements, (els_cons _ (lit "d") (lit " ") _ (lit "x")); [apply el_name; name|repeat constructor|apply els_one, el_name; name|nogo]. }
  apply (W _ (lit "d->""1""{PushConst 1;};") _ (lit "z->#;")).
  { apply (R (lit "d") _ one (lit """1""") (lit "{PushConst 1;}")); [name|apply alts_one, alt_elements, els_one, one_quoted; discriminate|apply (push_section _ 49%N); [split; discriminate|reflexivity]]. }
  apply (W _ (lit "z->#;") _ []); [|apply gr_end; constructor]. apply (R (lit "z") _ [] (lit "#") []); [name|apply alts_one, alt_empty|constructor].
Qed.
Definition k_refuses {E} (o : outcome E (Parser K)) (fuel : nat) (script : str) : bool :=
  match o with Ok ps => match parse KV ps fuel script (mkKState [] 0 0 0 []) with (Err _, _) => true | _ => false end | _ => false end.
Example C101_example : expressed ones ones_rules /\ unused (lit "x") ones_rules /\ lit "z" <> start /\ ~ defined (embedded (lit "x") ones_rules) (lit "z") /\ looks_down KV /\
  fine ones = true /\ writable stack_reads ones /\ text_for stack_reads whole_ones ones_text fl /\
  (exists parser, new_from_text Checked KV fl ones_text = Ok parser /\ exists tr v, parse KV parser 300 (lit "11") (mkKState [] 0 0 0 []) = (Ok tr, v) /\ ks_stack v = [1; 1]%Z) /\
  k_refuses (new_from_text Checked KV fl ones_text) 300 (lit "112") = true.
Proof.
  split; [apply ed_many; [apply ed_word|unused_now]|]. split; [unused_now|]. split; [discriminate|]. split; [intros E; apply E; vm_compute; reflexivity|].
  split; [apply child_looks_down, stack_looks|]. split; [reflexivity|]. split.
  { split; [repeat constructor; discriminate|]. intros nm _. eexists. apply (push_section nm 49%N); [split; discriminate|reflexivity]. }
  split.
  { split; [apply ones_grammar|]. split; [apply N.ltb_lt; vm_compute; reflexivity|]. split; cbn [first_fuel follow_fuel]; apply Nat.leb_le || apply Nat.ltb_lt; vm_compute; reflexivity. }
  split; [apply k_ends_ok|]; vm_compute; reflexivity.
Qed.
End example.
