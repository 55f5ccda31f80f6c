(** * Property theorems: parts in brackets (C96) *)
From Verif Require Import Base Peekables Tree Errors Sets ParserData Vm SimpleStackVm StackVm RuleParsing FirstSets FollowSets SteuerMap ScriptParser
  SpecText SpecData SpecGrammar SpecParser SpecTree SpecScript SpecContract SpecWeave SpecRules SpecNames SpecLanguage SpecSyntax SpecExtend SpecNaming SpecFewer SpecEffect SpecCompose SpecNested
  Grammar_proofs Construct_proofs Checks Tree_proofs Script_proofs Parse_proofs
  Weave_proofs Names_proofs RuleBuild_proofs RuleText_proofs Language_proofs Syntax_proofs Start_proofs Naming_proofs NamingAll_proofs Fewer_proofs Effect_proofs Compose_proofs Nested_proofs
  Props_steuer Props_script Props_weave Props_rules Props_vm Props_names Props_language Props_same Props_start Props_errors Props_main Props_extend Props_fewer Props_effect Props_compose Samples.
Notation start := (lit "start").

(** ** Acceptance of [start -> "op" start "cl" | a]: the first char of [op] does not announce
    [a], nor the first char of [cl] if [a] can be empty; and where a script of [a] may end, it
    does not go on with the first char of [cl]. *)
Theorem C96_accepted : forall (U : Unicode) (H : HashOrder) m (vm : VM) reads P a op cl is is1 t t1 fl fl1, supported vm reads -> tables_disjoint ->
  part P a -> op <> [] -> cl <> [] -> text_for reads (nested a op cl is P) t fl -> text_for reads (alone a is1 P) t1 fl1 ->
  accepted m vm fl t <-> accepted m vm fl1 t1 /\ (forall c, head op = Some c -> ~ announces (alone a is1 P) a (MChar c)) /\
    (nnullable (alone a is1 P) [(a, NonTerminal)] -> head op <> head cl) /\ forall c, head cl = Some c -> ~ goes_on (alone a is1 P) c.
Proof.
  intros U H m vm reads P a op cl is is1 t t1 fl fl1 Hs Hd HP Hop Hcl T T1. rewrite (text_accepted U H m vm reads Hs Hd _ t fl T), (text_accepted U H m vm reads Hs Hd _ t1 fl1 T1).
  apply nested_parsable; assumption.
Qed.
Print Assumptions C96_accepted.

(** ** The scripts: those of [a], in any number of pairs of brackets. *)
Theorem C96_language : forall I (P : list (arule I)) a op cl is is1, part P a ->
  forall s, sentence (nested a op cl is P) s <-> exists n s1, s = bracketed op cl n s1 /\ sentence (alone a is1 P) s1.
Proof.
  intros I P a op cl is is1 HP s. split.
  - intros (t & Hd & Hr & <-). destruct (proj1 (ne_tree P a op cl HP is is1 t) (conj Hd Hr)) as (n & n1 & -> & D & R). exists n, (nyield n1). split; [apply nested_yield|].
    apply (alone_sentence P a HP). eauto.
  - intros (n & s1 & -> & Hs). apply (alone_sentence P a HP) in Hs as (n1 & <- & D & R). exists (nested_tree op cl n n1).
    destruct (proj2 (ne_tree P a op cl HP is is1 (nested_tree op cl n n1))) as [D' R']; [eauto|]. split; [assumption|]. split; [assumption|]. apply nested_yield.
Qed.
Print Assumptions C96_language.

(** ** Brackets leave no trace in the state: whatever their number, the parser ends as the
    parser of [a] does on what they enclose. *)
Theorem C96_parsed : forall (U : Unicode) (H H1 : HashOrder) m m1 (vm : VM) P a op cl t t1 ps ps1, part P a -> looks_down vm ->
  @read_from U H m vm (nested a op cl [] P) t ps -> @read_from U H1 m1 vm (alone a [] P) t1 ps1 ->
  forall n s fuel fuel1, sentence (alone a [] P) s ->
  (length (bracketed op cl n s) + 1) * length t <= fuel -> (length s + 1) * length t1 <= fuel1 ->
  (forall v v', (exists tr, @parse H vm ps fuel (bracketed op cl n s) v = (Ok tr, v')) <-> exists tr, @parse H1 vm ps1 fuel1 s v = (Ok tr, v')) /\
  (forall v, fst (@parse H vm ps fuel (bracketed op cl n s) v) = Panic <-> fst (@parse H1 vm ps1 fuel1 s v) = Panic) /\
  exists n1, (forall v tr v', @parse H vm ps fuel (bracketed op cl n s) v = (Ok tr, v') -> tree_shows tr (nested_tree op cl n n1)) /\
    forall v tr v', @parse H1 vm ps1 fuel1 s v = (Ok tr, v') -> tree_shows tr (NNode start [n1]).
Proof.
  intros U H H1 m m1 vm P a op cl t t1 ps ps1 HP Hl Hr Hr1 n s fuel fuel1 Hs Hf Hf1. pose proof (pt_no_start _ _ HP) as Hns.
  apply (alone_sentence P a HP) in Hs as (n1 & <- & D1 & R1). destruct (proj2 (ne_tree P a op cl HP [] [] (nested_tree op cl n n1))) as [D R]; [eauto|].
  assert (forall v, effect (nested a op cl [] P) (nested_tree op cl n n1) v = effect (alone a [] P) n1 v) as Ee.
  { intros v. clear Hf D R. induction n as [|n IH]; cbn [nested_tree]; unfold nested at 1; rewrite start_effect by assumption; fold (nested a op cl [] P).
    - rewrite one_effect. apply (effect_same P a HP _ _ (al_extends P a HP []) (ne_left P a op cl HP []) n1 D1). rewrite R1. intros _. apply (pt_entry _ _ HP).
    - unfold effects. cbn [ofold]. assert (forall b w, effect (nested a op cl [] P) (NLeaf b) w = Ok w) as El by reflexivity. rewrite El. cbn [obind]. rewrite IH.
      destruct (effect (alone a [] P) n1 v) as [w|[]| |]; cbn [obind]; rewrite ?El; reflexivity. }
  assert (forall v, match effect (alone a [] P) n1 v with
    | Ok v' => (exists tr, @parse H vm ps fuel (bracketed op cl n (nyield n1)) v = (Ok tr, v') /\ tree_shows tr (nested_tree op cl n n1)) /\ exists tr, @parse H1 vm ps1 fuel1 (nyield n1) v = (Ok tr, v') /\ tree_shows tr (NNode start [n1])
    | _ => fst (@parse H vm ps fuel (bracketed op cl n (nyield n1)) v) = Panic /\ fst (@parse H1 vm ps1 fuel1 (nyield n1) v) = Panic end) as A.
  { intros v. pose proof (C88_sentences U H m vm _ t ps Hr Hl _ v fuel D R) as A. rewrite nested_yield, Ee in A. specialize (A Hf).
    pose proof (@alone_parse U H1 m1 vm P a t1 ps1 HP Hr1 Hl n1 v fuel1 D1 R1 Hf1) as A1. destruct (effect (alone a [] P) n1 v) as [w|[]| |]; auto. }
  split; [|split].
  - intros v v'. specialize (A v). destruct (effect (alone a [] P) n1 v) as [w|[]| |].
    + destruct A as [(tr & P0 & _) (tr1 & P1 & _)]. rewrite P0, P1. split; intros [x [= _ ->]]; eauto.
    + destruct A as [A A1]. split; intros [x Hx]; rewrite Hx in *; discriminate.
    + destruct A as [A A1]. split; intros [x Hx]; rewrite Hx in *; discriminate.
  - intros v. specialize (A v). destruct (effect (alone a [] P) n1 v) as [w|[]| |]; [|tauto..]. destruct A as [(tr & P0 & _) (tr1 & P1 & _)]. rewrite P0, P1. cbn. split; discriminate.
  - exists n1. split; intros v tr v' Hp; specialize (A v); (destruct (effect (alone a [] P) n1 v) as [w|[]| |]; [|rewrite Hp in A; cbn in A; destruct A; discriminate..]);
      destruct A as [(tr0 & P0 & S0) (tr1 & P1 & S1)]; rewrite Hp in *; [injection P0 as -> ->; exact S0|injection P1 as -> ->; exact S1].
Qed.
Print Assumptions C96_parsed.

(** ** Non-vacuity: a digit in parentheses, for SimpleStackVm. *)
Section example.
Local Existing Instance ascii_unicode.
Local Existing Instance plain_order.
Ltac name := split; [reflexivity|repeat constructor].
Notation SV := (SimpleStackVm Checked).
Definition nested_text : str := lit "start->""(""start"")""|digit;" ++ digit_text.
Lemma nested_ok : grammar_text simple_reads (nested (lit "digit") (lit "(") (lit ")") [] [digit_rule]) nested_text.
Proof.
  apply with_rule; [|rewrite <- (app_nil_r digit_text); apply with_rule; [apply digit_rule_ok|apply no_rules]]. apply (start_text _ (lit """(""start"")""|digit")).
  apply (alts_cons _ (lit """(""start"")""") [] [] _ (lit "digit")); [|constructor..|apply alts_one, name_text; name].
  apply alt_elements, (els_cons _ (lit """(""") [] _ (lit "start"")""")); [apply one_quoted; discriminate|constructor| |intros E; discriminate E].
  apply (els_cons _ (lit "start") [] _ (lit """)""")); [apply el_name; name|constructor|apply els_one, one_quoted; discriminate|].
  intros _ [E|E]; vm_compute in E; discriminate.
Qed.
Ltac fits := split; cbn [first_fuel follow_fuel]; apply Nat.leb_le || apply Nat.ltb_lt; vm_compute; reflexivity.
Notation built_from t := (new_from_text Checked SV (mkFuels 60 2200) t).
Example C96_example : part [digit_rule] (lit "digit") /\ looks_down SV /\
  text_for simple_reads (alone (lit "digit") [] [digit_rule]) alone_digit_text (mkFuels 60 2200) /\
  text_for simple_reads (nested (lit "digit") (lit "(") (lit ")") [] [digit_rule]) nested_text (mkFuels 60 2200) /\
  bracketed (lit "(") (lit ")") 2 (lit "1") = lit "((1))" /\
  exists ps, built_from nested_text = Ok ps /\ exists tr v, parse SV ps 400 (lit "((1))") (mkSState [] 0 0 0 []) = (Ok tr, v) /\ ss_stack v = [1; 1]%N.
Proof.
  split; [apply (one_part digit_rule (lit "1") [SPushFromTree; SPushConst 1]); [discriminate|reflexivity]|].
  split; [apply child_looks_down, simple_looks|].
  split; [apply text_fits; [apply alone_digit_ok|reflexivity|fits]|]. split; [apply text_fits; [apply nested_ok|reflexivity|fits]|].
  split; [reflexivity|]. apply ends_with_ok; vm_compute; reflexivity.
Qed.
End example.
