(** * Property theorems: grammars written as expressions (C100) *)
From Verif Require Import Base Peekables Tree Errors Sets ParserData Vm SimpleStackVm StackVm RuleParsing FirstSets FollowSets SteuerMap ScriptParser
  SpecText SpecData SpecGrammar SpecParser SpecTree SpecScript SpecContract SpecWeave SpecRules SpecNames SpecLanguage SpecSyntax SpecRename SpecExtend SpecNaming SpecFewer SpecEffect SpecCompose SpecNested SpecEmbed SpecExpr
  Grammar_proofs Construct_proofs Checks Tree_proofs Script_proofs Parse_proofs
  Weave_proofs Names_proofs RuleBuild_proofs RuleText_proofs Language_proofs Syntax_proofs Rename_proofs Start_proofs Naming_proofs NamingAll_proofs Fewer_proofs Effect_proofs Compose_proofs Embed_proofs
  Props_steuer Props_script Props_weave Props_rules Props_vm Props_names Props_language Props_same Props_start Props_errors Props_main Props_extend Props_fewer Props_effect Props_compose Props_nested Props_embed
  Expr_proofs ExprTree_proofs ExprText_proofs Samples.
Notation start := (lit "start").

(** A parser is built exactly from the expressions that pass the check. *)
Theorem C100_accepted : forall (U : Unicode) (H : HashOrder) m (vm : VM) reads e G t fl, supported vm reads -> tables_disjoint -> expressed e G ->
  text_for reads G t fl -> (exists ps, new_from_text m vm fl t = Ok ps) <-> fine e = true.
Proof. intros U H m vm reads e G t fl Hs Hd He T. rewrite (text_accepted U H m vm reads Hs Hd _ t fl T). apply (so_ok _ _ (expressed_sound e G He)). Qed.
Print Assumptions C100_accepted.

(** Its scripts are the texts of the expression. *)
Theorem C100_language : forall (vm : VM) e (G : list (arule (vm_instr vm))), expressed e G -> forall s, sentence G s <-> exists ps, matches e ps /\ s = text_of ps.
Proof.
  intros vm e G He s. destruct (expressed_trees e G He) as [T1 T2]. split.
  - intros (n & Hn & Hr & <-). destruct (T1 n (conj Hn Hr)) as (ps & M & Hy & _). eauto.
  - intros (ps & M & ->). destruct (T2 ps M) as (n & [Hn Hr] & Hy & _). exists n. auto.
Qed.
Print Assumptions C100_language.

(** A text of the expression is parsed, and its pieces are done one after the other. *)
Theorem C100_parsed : forall (U : Unicode) (H : HashOrder) m (vm : VM) e G t parser, expressed e G -> read_from m vm G t parser -> looks_down vm ->
  forall ps v fuel, matches e ps -> (length (text_of ps) + 1) * length t <= fuel ->
  match do_pieces ps v with
  | Ok v' => exists tr, parse vm parser fuel (text_of ps) v = (Ok tr, v')
  | _ => fst (parse vm parser fuel (text_of ps) v) = Panic
  end.
Proof.
  intros U H m vm e G t parser He Hr Hl ps v fuel M Hf. destruct (expressed_trees e G He) as [_ T2]. destruct (T2 ps M) as (n & [Hn Hroot] & Hy & Hd).
  rewrite <- Hy in *. rewrite <- Hd. pose proof (C88_sentences U H m vm G t parser Hr Hl n v fuel Hn Hroot Hf) as A. destruct (effect G n v) as [w|[]| |]; try exact A. destruct A as (tr & A & _). eauto.
Qed.
Print Assumptions C100_parsed.

(** Whatever is parsed begins with a text of the expression, and its pieces were done. *)
Theorem C100_only : forall (U : Unicode) (H : HashOrder) m (vm : VM) e G t parser, expressed e G -> read_from m vm G t parser -> looks_down vm ->
  forall script v fuel tr v', parse vm parser fuel script v = (Ok tr, v') ->
  exists ps rest, matches e ps /\ script = text_of ps ++ rest /\ do_pieces ps v = Ok v'.
Proof.
  intros U H m vm e G t parser He Hr Hl script v fuel tr v' Hp. destruct (C57_only_sentences U H m vm G t parser Hr fuel script v tr v' Hp) as (n & rest & Hn & Hroot & -> & _ & Hrun).
  destruct (expressed_trees e G He) as [T1 _]. destruct (T1 n (conj Hn Hroot)) as (ps & M & Hy & Hd). exists ps, rest. split; [assumption|]. split; [congruence|].
  rewrite <- Hd, <- (run_tree_effect Hl). assumption.
Qed.
Print Assumptions C100_only.

(** However a text is cut into pieces, they do the same. *)
Theorem C100_unambiguous : forall (U : Unicode) (H : HashOrder) m (vm : VM) e G t parser, expressed e G -> read_from m vm G t parser ->
  forall ps qs v, matches e ps -> matches e qs -> text_of ps = text_of qs -> do_pieces ps v = do_pieces (vm := vm) qs v.
Proof.
  intros U H m vm e G t parser He Hr ps qs v Mp Mq E. destruct (expressed_trees e G He) as [_ T2]. destruct (T2 ps Mp) as (n & [Hn Rn] & Yn & Dn). destruct (T2 qs Mq) as (n' & [Hn' Rn'] & Yn' & Dn').
  assert (n = n') as <- by (apply (C57_unambiguous U H m vm G t parser Hr); congruence). rewrite <- Dn. apply Dn'.
Qed.
Print Assumptions C100_unambiguous.

(** Every expression that can be written is written by some text; the check decides whether
    it is accepted. *)
Theorem C100_written : forall (U : Unicode) (H : HashOrder) m (vm : VM) reads e, supported vm reads -> tables_disjoint -> writable reads e ->
  exists G t, expressed e G /\ grammar_text reads G t /\
  forall fl, (N.of_nat (length t) < 2 ^ 63)%N -> enough_for_text fl t -> (exists ps, new_from_text m vm fl t = Ok ps) <-> fine e = true.
Proof.
  intros U H m vm reads e Hs Hd Hw. destruct (expressed_written reads e Hw) as (G & t & He & Ht). exists G, t. split; [assumption|]. split; [assumption|]. intros fl Hlen Hfl.
  apply (C100_accepted U H m vm reads e G t fl Hs Hd He). split; auto.
Qed.
Print Assumptions C100_written.
(** For StackVm these are the lists of instructions that can be written. *)
Theorem C100_stack_instructions : forall (U : Unicode) body is, stack_reads [] body is -> not_starting white body -> readable stack_reads is.
Proof. intros U body is Hr Hw nm _. eexists. apply (sec_braces stack_reads nm [] body); [constructor|assumption|exact Hr]. Qed.
Print Assumptions C100_stack_instructions.

(** ** Non-vacuity: sums in parentheses, for StackVm. *)
Section example.
Local Existing Instance ascii_unicode.
Local Existing Instance plain_order.
Notation KV := (StackVm Checked).
Notation K := (vm_instr KV).
Definition one : list K := [KPushConst 1].
Definition two : list K := [KPushConst 2].
Definition sums : expr K := Nest (lit "(") (lit ")") (Then (Word (lit "1") one) (Many (Word (lit "+") two))).
Definition word_rules (s : str) (is : list K) : list (arule K) := [mkARule start OvAbsent [[(s, Terminal)]] is].
Definition many_rules : list (arule K) := repeated (lit "d") [] (embedded (lit "d") (word_rules (lit "+") two)).
Definition then_rules : list (arule K) := in_turn (lit "b") (lit "c") [] (embedded (lit "b") (word_rules (lit "1") one)) (embedded (lit "c") many_rules).
Definition sums_rules : list (arule K) := nested (lit "a") (lit "(") (lit ")") [] (embedded (lit "a") then_rules).
Lemma sums_eq : sums_rules =
  [mkARule start OvAbsent [[(lit "(", Terminal); (start, NonTerminal); (lit ")", Terminal)]; [(lit "a", NonTerminal)]] [];
   mkARule (lit "a") OvAbsent [[(lit "b", NonTerminal); (lit "c", NonTerminal)]] [];
   mkARule (lit "b") OvAbsent [[(lit "1", Terminal)]] one;
   mkARule (lit "c") OvAbsent [[(lit "d", NonTerminal); (lit "c", NonTerminal)]; []] [];
   mkARule (lit "d") OvAbsent [[(lit "+", Terminal)]] two].
Proof. vm_compute. reflexivity. Qed.
Ltac unused_now := split; [discriminate|]; intros Hin; vm_compute in Hin; repeat (apply elem_of_cons in Hin as [Hin|Hin]; [discriminate Hin|]); inversion Hin.
Lemma sums_expressed : expressed sums sums_rules.
Proof.
  apply ed_nest; [discriminate|discriminate| |unused_now]. apply ed_then; [apply ed_word|apply ed_many; [apply ed_word|unused_now]|unused_now|unused_now|].
  intros x Hb Hc. assert (x = lit "b") as ->. { unfold defined in Hb. destruct (decide (x = lit "b")); [assumption|]. destruct Hb. unfold rules_for, embedded, word_rules. cbn [map]. rewrite filter_cons. destruct (decide _) as [E|_]; [|reflexivity]. destruct n. rewrite <- E. vm_compute. reflexivity. }
  apply Hc. vm_compute. reflexivity.
Qed.
Definition sums_text : str := lit "start->""(""start"")""|a;a->b c;b->""1""{PushConst 1;};c->d c|#;d->""+""{PushConst 2;};".
Ltac name := split; [reflexivity|repeat constructor].
Ltac nogo := intros _ [E|E]; vm_compute in E; discriminate.
Lemma push_section nm (d : char) : digit_char d -> (dec_value [d] < 2 ^ 64)%N -> section_text stack_reads nm [KPushConst (as_isize (dec_value [d]))] (lit "{PushConst " ++ d :: lit ";}").
Proof.
  intros Hd Hv. apply (sec_braces stack_reads nm [] (lit "PushConst " ++ d :: lit ";")); [constructor|intros E; discriminate E|]. exists [], (lit "PushConst " ++ d :: lit ";"). split; [constructor|]. split; [reflexivity|].
  apply (ins_cons [KPushConst (as_isize (dec_value [d]))] (lit "PushConst " ++ [d]) [] [] []); [|constructor|constructor].
  apply (in_operand (lit "PushConst") (fun v => KPushConst (as_isize v)) (lit " ") [d]).
  - right. left.
  - repeat constructor.
  - intros [E|E]; vm_compute in E; discriminate.
  - discriminate.
  - constructor; [assumption|constructor].
  - assumption.
Qed.
Lemma sums_grammar : grammar_text stack_reads sums_rules sums_text.
Proof.
  rewrite sums_eq. assert (forall (r : arule K) tr rs t, rule_text stack_reads r tr -> grammar_text stack_reads rs t -> grammar_text stack_reads (r :: rs) (tr ++ t)) as W.
  { intros r tr rs t Hr Ht. apply (gr_cons stack_reads r tr [] rs t); [constructor|exact Hr|exact Ht]. }
  assert (forall nm alts is ta ts, valid_name nm -> alternatives_text alts ta -> section_text stack_reads nm is ts ->
    rule_text stack_reads (mkARule (I := K) nm OvAbsent alts is) (nm ++ lit "->" ++ ta ++ ts ++ lit ";")) as R.
  { intros nm alts is ta ts Hv Ha Hs. apply (rule_intro stack_reads (mkARule (I := K) nm OvAbsent alts is) [] [] [] [] [] [] ta ts); try (constructor; fail); assumption. }
  apply (W _ (lit "start->""(""start"")""|a;") _ (lit "a->b c;b->""1""{PushConst 1;};c->d c|#;d->""+""{PushConst 2;};")).
  { apply (R start _ [] (lit """(""start"")""|a") []); [name| |constructor]. apply (alts_cons _ (lit """(""start"")""") [] [] _ (lit "a")); [|constructor..|apply alts_one, name_text; name].
    apply alt_elements, (els_cons _ (lit """(""") [] _ (lit "start"")""")); [apply one_quoted; discriminate|constructor| |intros E; discriminate E].
    apply (els_cons _ (lit "start") [] _ (lit """)""")); [apply el_name; name|constructor|apply els_one, one_quoted; discriminate|nogo]. }
  apply (W _ (lit "a->b c;") _ (lit "b->""1""{PushConst 1;};c->d c|#;d->""+""{PushConst 2;};")).
  { apply (R (lit "a") _ [] (lit "b c") []); [name| |constructor]. apply alts_one, alt_elements, (els_cons _ (lit "b") (lit " ") _ (lit "c")); [apply el_name; name|repeat constructor|apply els_one, el_name; name|nogo]. }
  apply (W _ (lit "b->""1""{PushConst 1;};") _ (lit "c->d c|#;d->""+""{PushConst 2;};")).
  { apply (R (lit "b") _ one (lit """1""") (lit "{PushConst 1;}")); [name|apply alts_one, alt_elements, els_one, one_quoted; discriminate|apply (push_section _ 49%N); [split; discriminate|reflexivity]]. }
  apply (W _ (lit "c->d c|#;") _ (lit "d->""+""{PushConst 2;};")).
  { apply (R (lit "c") _ [] (lit "d c|#") []); [name| |constructor]. apply (alts_cons _ (lit "d c") [] [] _ (lit "#")); [|constructor..|apply alts_one, alt_empty].
    apply alt_elements, (els_cons _ (lit "d") (lit " ") _ (lit "c")); [apply el_name; name|repeat constructor|apply els_one, el_name; name|nogo]. }
  apply (W _ (lit "d->""+""{PushConst 2;};") _ []); [|apply gr_end; constructor].
  apply (R (lit "d") _ two (lit """+""") (lit "{PushConst 2;}")); [name|apply alts_one, alt_elements, els_one, one_quoted; discriminate|apply (push_section _ 50%N); [split; discriminate|reflexivity]].
Qed.
Definition k_ends {E} (o : outcome E (Parser K)) (fuel : nat) (script : str) (l : list Z) : bool :=
  match o with Ok ps => match parse KV ps fuel script (mkKState [] 0 0 0 []) with (Ok _, v) => bool_decide (ks_stack v = l) | _ => false end | _ => false end.
Lemma k_ends_ok {E0} (o : outcome E0 (Parser K)) fuel script l : k_ends o fuel script l = true -> exists ps, o = Ok ps /\ exists tr v, parse KV ps fuel script (mkKState [] 0 0 0 []) = (Ok tr, v) /\ ks_stack v = l.
Proof.
  unfold k_ends. destruct o as [ps| | |]; try discriminate. intros E. exists ps. split; [reflexivity|].
  destruct (parse KV ps fuel script (mkKState [] 0 0 0 [])) as [[tr| | |] v]; try discriminate. apply bool_decide_eq_true in E. eauto.
Qed.
Notation fl := (mkFuels 90 (84 * 84)).
Example C100_example : fine sums = true /\ expressed sums sums_rules /\ text_for stack_reads sums_rules sums_text fl /\ looks_down KV /\ writable stack_reads sums /\
  matches sums [(Some (lit "("), []); (Some (lit "1"), one); (Some (lit "+"), two); (Some (lit "+"), two); (Some (lit ")"), [])] /\
  (exists parser, new_from_text Checked KV fl sums_text = Ok parser /\ exists tr v, parse KV parser 800 (lit "(1++)") (mkKState [] 0 0 0 []) = (Ok tr, v) /\ ks_stack v = [2; 2; 1]%Z) /\
  fine (Then (Many (Word (lit "1") one)) (Word (lit "1") one)) = false /\ fine (Many (Alt (Nothing []) (Word (lit "1") one))) = false.
Proof.
  split; [reflexivity|]. split; [apply sums_expressed|]. split.
  { split; [apply sums_grammar|]. split; [apply N.ltb_lt; vm_compute; reflexivity|]. split; cbn [first_fuel follow_fuel]; apply Nat.leb_le || apply Nat.ltb_lt; vm_compute; reflexivity. }
  split; [apply child_looks_down, stack_looks|]. split.
  { assert (forall s : str, Forall (fun c => c <> 34%N /\ c <> 92%N) s -> quoted_body s) as Q by (intros s Hs; induction Hs as [|c s [H1 H2] _ IH]; constructor; assumption).
    assert (readable stack_reads one) as R1 by (intros nm _; eexists; apply (push_section nm 49%N); [split; discriminate|reflexivity]).
    assert (readable stack_reads two) as R2 by (intros nm _; eexists; apply (push_section nm 50%N); [split; discriminate|reflexivity]).
    cbn [writable sums]. repeat split; try assumption; try discriminate; apply Q; repeat constructor; discriminate. }
  split. { apply (ma_nest (lit "(") (lit ")") _ [(Some (lit "1"), one); (Some (lit "+"), two); (Some (lit "+"), two)]), ma_bare.
    apply (ma_then _ _ [(Some (lit "1"), one)]); [constructor|]. apply (ma_many _ [[(Some (lit "+"), two)]; [(Some (lit "+"), two)]]). repeat constructor. }
  split; [apply k_ends_ok; vm_compute; reflexivity|]. split; reflexivity.
Qed.
End example.
