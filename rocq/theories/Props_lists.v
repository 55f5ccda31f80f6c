(** * Property theorems: optional parts and lists with separators (C94) *)
From Verif Require Import Base Peekables Tree Errors Sets ParserData Vm SimpleStackVm StackVm RuleParsing FirstSets FollowSets SteuerMap ScriptParser
  SpecText SpecData SpecGrammar SpecParser SpecTree SpecScript SpecContract SpecWeave SpecRules SpecNames SpecLanguage SpecSyntax SpecExtend SpecNaming SpecFewer SpecEffect SpecCompose SpecLists
  Grammar_proofs Construct_proofs Checks Tree_proofs Script_proofs Parse_proofs
  Weave_proofs Names_proofs RuleBuild_proofs RuleText_proofs Language_proofs Syntax_proofs Start_proofs Naming_proofs NamingAll_proofs Fewer_proofs Effect_proofs Compose_proofs Lists_proofs
  Props_steuer Props_script Props_weave Props_rules Props_vm Props_names Props_language Props_same Props_start Props_errors Props_main Props_extend Props_fewer Props_effect Props_compose Samples.
Notation start := (lit "start").

(** ** Which of them are accepted *)
Section accepted.
Context (U : Unicode) (H : HashOrder) (m : ovf_mode) (vm : VM) (reads : str -> str -> list (vm_instr vm) -> Prop) (Hs : supported vm reads) (Hd : tables_disjoint).
Context (P : list (arule (vm_instr vm))) (a : str) (HP : part P a) (is is1 : list (vm_instr vm)).
Context (t1 : str) (fl1 : fuels) (T1 : text_for reads (alone a is1 P) t1 fl1).
(** [start -> a | #]: [a] stands for no empty text. *)
Theorem C94_optional_accepted : forall t fl, text_for reads (optional a is P) t fl ->
  accepted m vm fl t <-> accepted m vm fl1 t1 /\ ~ nnullable (alone a is1 P) [(a, NonTerminal)].
Proof. intros t fl Ht. rewrite (text_accepted U H m vm reads Hs Hd _ t fl Ht), (text_accepted U H m vm reads Hs Hd _ t1 fl1 T1). apply optional_parsable; assumption. Qed.
(** [start -> a more; more -> "sep" a more | #]: where a script of [a] may end, it does not go
    on with the first char of the separator.  [a] may stand for the empty text. *)
Theorem C94_separated_accepted : forall more sep is' t fl, more <> start -> ~ defined P more -> sep <> [] -> text_for reads (separated a more sep is is' P) t fl ->
  accepted m vm fl t <-> accepted m vm fl1 t1 /\ forall c, head sep = Some c -> ~ goes_on (alone a is1 P) c.
Proof.
  intros more sep is' t fl Hm Hf Hsep Ht. rewrite (text_accepted U H m vm reads Hs Hd _ t fl Ht), (text_accepted U H m vm reads Hs Hd _ t1 fl1 T1). apply separated_parsable; assumption.
Qed.
End accepted.
Print Assumptions C94_optional_accepted.
Print Assumptions C94_separated_accepted.

(** ** The scripts *)
Lemma trees_of {I} (P : list (arule I)) a is1 : part P a -> forall ss, Forall (sentence (alone a is1 P)) ss ->
  exists ns, map nyield ns = ss /\ Forall (fun n => nderivation (alone a is1 P) n /\ nroot n = (a, NonTerminal)) ns.
Proof.
  intros HP ss Hss. induction Hss as [|s ss Hs _ (ns & <- & Hns)]; [exists []; split; [reflexivity|constructor]|].
  apply (alone_sentence P a HP) in Hs as (n & <- & Hn). exists (n :: ns). split; [reflexivity|]. constructor; assumption.
Qed.
Theorem C94_languages : forall I (P : list (arule I)) a more sep is is' is1, part P a -> more <> start -> ~ defined P more -> sep <> [] ->
  (forall s, sentence (optional a is P) s <-> s = [] \/ sentence (alone a is1 P) s) /\
  (forall s, sentence (separated a more sep is is' P) s <-> exists s1 ss, s = with_separator sep s1 ss /\ Forall (sentence (alone a is1 P)) (s1 :: ss)).
Proof.
  intros I P a more sep is is' is1 HP Hm Hf Hsep. split; intros s.
  - unfold sentence, derives_text. split.
    + intros (t & Hd & Hr & Hy). destruct (proj1 (op_tree P a HP is is1 t) (conj Hd Hr)) as [->|[H1 H2]]; [left; symmetry; exact Hy|right; exists t; auto].
    + intros [->|(t & Hd & Hr & Hy)].
      * exists (NNode start []). destruct (proj2 (op_tree P a HP is is1 (NNode start []))) as [H1 H2]; auto.
      * exists t. destruct (proj2 (op_tree P a HP is is1 t)) as [H1 H2]; auto.
  - split.
    + intros (t & Hd & Hr & <-). destruct (proj1 (se_tree P a more sep HP Hm Hf is is' is1 t) (conj Hd Hr)) as (n & ns & -> & Hns). exists (nyield n), (map nyield ns). split; [apply list_yield|].
      change (nyield n :: map nyield ns) with (map nyield (n :: ns)). apply Forall_fmap. eapply Forall_impl; [exact Hns|]. intros n' [H1 H2]. apply (alone_sentence P a HP). exists n'. auto.
    + intros (s1 & ss & -> & Hss). apply (trees_of P a is1 HP) in Hss as ([|n ns] & E & Hns); [discriminate|]. injection E as <- <-.
      exists (list_tree more sep n ns). destruct (proj2 (se_tree P a more sep HP Hm Hf is is' is1 (list_tree more sep n ns))) as [H1 H2]; [eauto|]. split; [assumption|]. split; [assumption|]. apply list_yield.
Qed.
Print Assumptions C94_languages.

(** ** What the parsers do *)
Lemma optional_fewer {I} (P : list (arule I)) a is is1 : part P a -> fewer_alternatives (alone a is1 P) (optional a is P).
Proof.
  intros HP x. exists (fun i => i). split; [auto|]. intros i w Hs. pose proof (al_cases P a HP is1 x i w Hs) as [[-> _]|[Hx Hs']].
  - apply (al_start P a HP) in Hs as [-> ->]. apply (op_start P a HP). auto.
  - apply (pa_says P a HP _ (op_left P a HP is) x i w Hx), Hs'.
Qed.
(** [start -> a | #] does on the scripts of [a] what the parser of [a] does, and on the empty
    script leaves the state as it is (if start has no instructions). *)
Theorem C94_optional_parsed : forall (U : Unicode) (H H1 : HashOrder) m m1 (vm : VM) P a is t t1 ps ps1, part P a ->
  @read_from U H m vm (optional a is P) t ps -> @read_from U H1 m1 vm (alone a is P) t1 ps1 ->
  (forall fuel fuel1 script v, sentence (alone a is P) script -> (length script + 1) * length t <= fuel -> (length script + 1) * length t1 <= fuel1 ->
   fst (@parse H vm ps fuel script v) = fst (@parse H1 vm ps1 fuel1 script v) /\
   forall tr v', @parse H vm ps fuel script v = (Ok tr, v') <-> @parse H1 vm ps1 fuel1 script v = (Ok tr, v')) /\
  (is = [] -> looks_down vm -> forall fuel v, length t <= fuel -> exists tr, @parse H vm ps fuel [] v = (Ok tr, v) /\ tree_shows tr (NNode start [])).
Proof.
  intros U H H1 m m1 vm P a is t t1 ps ps1 HP Hr Hr1. split.
  - intros fuel fuel1 script v Hsen Hf Hf1.
    destruct (C85_sentences U H1 H m1 m vm _ _ t1 t ps1 ps Hr1 Hr (optional_fewer P a is is HP) (alone_instr P a is _ is _ HP (op_left P a HP is) (pt_no_start _ _ HP) eq_refl) fuel1 fuel script v Hf1 Hf Hsen) as [E1 E2].
    split; [congruence|]. intros tr v'. symmetry. apply E2.
  - intros -> Hl fuel v Hf. destruct (proj2 (op_tree P a HP [] [] (NNode start []))) as [D1 D2]; [auto|].
    pose proof (C88_sentences U H m vm _ t ps Hr Hl _ v fuel D1 D2) as A. unfold optional in A at 1. rewrite start_effect in A by apply (pt_no_start _ _ HP). apply A.
    change (length (nyield (NNode start []))) with 0. lia.
Qed.
Print Assumptions C94_optional_parsed.
Lemma more_effect {vm : VM} (P : list (arule (vm_instr vm))) a more sep (HP : part P a) (Hm : more <> start) (Hf : ~ defined P more) subs v :
  effect (separated a more sep [] [] P) (NNode more subs) v = effects (separated a more sep [] [] P) subs v.
Proof.
  rewrite effect_node. unfold own_instructions, instructions_for. rewrite (W_more_rules P a more sep Hm Hf). cbn [more_rule ar_instr ofold map concat app].
  destruct (effects _ subs v) as [w|[]| |]; reflexivity.
Qed.
(** [start -> a more; more -> "sep" a more | #]: a list leaves the state that the parser of
    [a] leaves when it parses the members one by one; the separators leave no trace in it. *)
Theorem C94_separated_parsed : forall (U : Unicode) (H H1 : HashOrder) m m1 (vm : VM) P a more sep t t1 ps ps1, part P a -> more <> start -> ~ defined P more -> sep <> [] -> looks_down vm ->
  @read_from U H m vm (separated a more sep [] [] P) t ps -> @read_from U H1 m1 vm (alone a [] P) t1 ps1 ->
  forall s1 ss fuel fuel1, Forall (sentence (alone a [] P)) (s1 :: ss) ->
  (length (with_separator sep s1 ss) + 1) * length t <= fuel -> Forall (fun s => (length s + 1) * length t1 <= fuel1) (s1 :: ss) ->
  (forall v v', (exists tr, @parse H vm ps fuel (with_separator sep s1 ss) v = (Ok tr, v')) <-> @one_by_one H1 vm ps1 fuel1 (s1 :: ss) v v') /\
  exists n ns, map nyield (n :: ns) = s1 :: ss /\ (forall v tr v', @parse H vm ps fuel (with_separator sep s1 ss) v = (Ok tr, v') -> tree_shows tr (list_tree more sep n ns)) /\
    Forall (fun n => forall v tr v', @parse H1 vm ps1 fuel1 (nyield n) v = (Ok tr, v') -> tree_shows tr (NNode start [n])) (n :: ns).
Proof.
  intros U H H1 m m1 vm P a more sep t t1 ps ps1 HP Hm Hfr Hsep Hl Hr Hr1 s1 ss fuel fuel1 Hss Hf Hf1. pose proof (pt_no_start _ _ HP) as Hns.
  destruct (trees_of P a [] HP _ Hss) as ([|n0 ns0] & E & Hns'); [discriminate|]. injection E as <- <-. clear Hss.
  destruct (proj2 (se_tree P a more sep HP Hm Hfr [] [] [] (list_tree more sep n0 ns0))) as [Dw Rw]; [eauto|].
  assert (Forall (fun n => forall v, match effect (alone a [] P) n v with
    | Ok v' => exists tr, @parse H1 vm ps1 fuel1 (nyield n) v = (Ok tr, v') /\ tree_shows tr (NNode start [n])
    | _ => fst (@parse H1 vm ps1 fuel1 (nyield n) v) = Panic end) (n0 :: ns0)) as A1.
  { change (nyield n0 :: map nyield ns0) with (map nyield (n0 :: ns0)) in Hf1. apply Forall_fmap in Hf1. apply Forall_forall. intros n Hn v. destruct (proj1 (Forall_forall _ _) Hns' n Hn) as [D1 R1].
    exact (@alone_parse U H1 m1 vm P a t1 ps1 HP Hr1 Hl n v fuel1 D1 R1 (proj1 (Forall_forall _ _) Hf1 n Hn)). }
  assert (forall n, nderivation (alone a [] P) n -> nroot n = (a, NonTerminal) -> forall v, effect (separated a more sep [] [] P) n v = effect (alone a [] P) n v) as Ea.
  { intros n D1 R1 v. apply (effect_same P a HP _ _ (al_extends P a HP []) (W_left P a more sep HP Hfr [] []) n D1). rewrite R1. intros _. apply (pt_entry _ _ HP). }
  assert (forall v, effect (separated a more sep [] [] P) (more_tree more sep ns0) v = effects (alone a [] P) ns0 v) as Em.
  { apply Forall_cons in Hns' as [_ Hns']. clear -Hns' HP Hm Hfr Ea. induction Hns' as [|n ns [D1 R1] _ IH]; intros v; cbn [more_tree]; rewrite (more_effect P a more sep HP Hm Hfr); [reflexivity|].
    change ([NLeaf sep; n; more_tree more sep ns]) with ([NLeaf sep] ++ [n] ++ [more_tree more sep ns]). rewrite effects_app, one_effect. assert (effect (separated a more sep [] [] P) (NLeaf sep) v = Ok v) as -> by reflexivity. cbn [obind]. rewrite effects_app, one_effect, (Ea _ D1 R1). unfold effects at 2. cbn [ofold].
    destruct (effect (alone a [] P) n v) as [v1|[]| |]; cbn [obind]; try reflexivity. rewrite one_effect. apply IH. }
  assert (forall v, effect (separated a more sep [] [] P) (list_tree more sep n0 ns0) v = effects (alone a [] P) (n0 :: ns0) v) as Ee.
  { intros v. apply Forall_cons in Hns' as [[D1 R1] _]. unfold list_tree. unfold separated at 1. rewrite start_effect by (apply (M_no_start P a more sep HP Hm)). fold (separated a more sep [] [] P).
    change ([n0; more_tree more sep ns0]) with ([n0] ++ [more_tree more sep ns0]). rewrite effects_app, one_effect, (Ea _ D1 R1). unfold effects at 2. cbn [ofold].
    destruct (effect (alone a [] P) n0 v) as [v1|[]| |]; cbn [obind]; try reflexivity. rewrite one_effect. apply Em. }
  assert (forall v, match effects (alone a [] P) (n0 :: ns0) v with
    | Ok v' => exists tr, @parse H vm ps fuel (with_separator sep (nyield n0) (map nyield ns0)) v = (Ok tr, v') /\ tree_shows tr (list_tree more sep n0 ns0)
    | _ => fst (@parse H vm ps fuel (with_separator sep (nyield n0) (map nyield ns0)) v) = Panic end) as A.
  { intros v. pose proof (C88_sentences U H m vm _ t ps Hr Hl _ v fuel Dw Rw) as A. rewrite list_yield in A. rewrite Ee in A. exact (A Hf). }
  assert (forall v v', @one_by_one H1 vm ps1 fuel1 (map nyield (n0 :: ns0)) v v' <-> effects (alone a [] P) (n0 :: ns0) v = Ok v') as Ho.
  { clear -A1. generalize dependent (n0 :: ns0). intros l A1. induction A1 as [|n ns An _ IH]; intros v v'; cbn [map].
    - split; [inversion 1; reflexivity|]. intros [= <-]. constructor.
    - unfold effects. cbn [ofold]. specialize (An v). split.
      + inversion 1 as [|? ? ? tr v1 ? P1 Hrest]; subst. rewrite P1 in An. destruct (effect (alone a [] P) n v) as [w|[]| |]; [|discriminate..]. destruct An as (tr' & [= <- <-] & _). cbn [obind]. apply IH, Hrest.
      + destruct (effect (alone a [] P) n v) as [w|[]| |]; cbn [obind]; try discriminate. destruct An as (tr & P1 & _). intros E. econstructor; [exact P1|]. apply IH, E. }
  split.
  - intros v v'. change (nyield n0 :: map nyield ns0) with (map nyield (n0 :: ns0)). rewrite Ho. specialize (A v). split.
    + intros [tr Hp]. rewrite Hp in A. destruct (effects (alone a [] P) (n0 :: ns0) v) as [w|[]| |]; [|discriminate..]. destruct A as (tr' & [= <- <-] & _). reflexivity.
    + intros E. rewrite E in A. destruct A as (tr & Hp & _). eauto.
  - exists n0, ns0. split; [reflexivity|]. split.
    + intros v tr v' Hp. specialize (A v). rewrite Hp in A. destruct (effects (alone a [] P) (n0 :: ns0) v) as [w|[]| |]; [|discriminate..]. destruct A as (tr' & [= <- <-] & Hsh). exact Hsh.
    + eapply Forall_impl; [exact A1|]. intros n An v tr v' Hp. specialize (An v). rewrite Hp in An. destruct (effect (alone a [] P) n v) as [w|[]| |]; [|discriminate..]. destruct An as (tr' & [= <- <-] & Hsh). exact Hsh.
Qed.
Print Assumptions C94_separated_parsed.

(** ** Non-vacuity: an optional digit, and digits with commas, for SimpleStackVm. *)
Section example.
Local Existing Instance ascii_unicode.
Local Existing Instance plain_order.
Ltac name := split; [reflexivity|repeat constructor].
Notation SV := (SimpleStackVm Checked).
Definition optional_text : str := lit "start->digit|#;" ++ digit_text.
Definition separated_text : str := lit "start->digit m;" ++ lit "m->"",""digit m|#;" ++ digit_text.
Lemma optional_ok : grammar_text simple_reads (optional (lit "digit") [] [digit_rule]) optional_text.
Proof.
  apply with_rule; [|rewrite <- (app_nil_r digit_text); apply with_rule; [apply digit_rule_ok|apply no_rules]]. apply (start_text _ (lit "digit|#")).
  apply (alts_cons _ (lit "digit") [] [] _ (lit "#")); [apply name_text; name|constructor..|apply alts_one, alt_empty].
Qed.
Lemma more_text_ok : rule_text simple_reads (more_rule (I := vm_instr SV) (lit "digit") (lit "m") (lit ",") []) (lit "m->"",""digit m|#;").
Proof.
  pose proof (rule_intro simple_reads (more_rule (I := vm_instr SV) (lit "digit") (lit "m") (lit ",") []) [] [] [] [] [] [] (lit """,""digit m|#") []) as Hr.
  cbn [app] in Hr. apply Hr; try (constructor; fail); try name.
  apply (alts_cons _ (lit """,""digit m") [] [] _ (lit "#")); [|constructor..|apply alts_one, alt_empty].
  apply alt_elements, (els_cons _ (lit """,""") [] _ (lit "digit m")); [apply one_quoted; discriminate|constructor| |intros E; discriminate E].
  apply (els_cons _ (lit "digit") (lit " ") _ (lit "m")); [apply el_name; name|repeat constructor|apply els_one, el_name; name|intros _ [E|E]; vm_compute in E; discriminate].
Qed.
Lemma separated_ok : grammar_text simple_reads (separated (lit "digit") (lit "m") (lit ",") [] [] [digit_rule]) separated_text.
Proof.
  apply with_rule; [|apply with_rule; [apply more_text_ok|rewrite <- (app_nil_r digit_text); apply with_rule; [apply digit_rule_ok|apply no_rules]]]. apply (start_text _ (lit "digit m")).
  apply alts_one, alt_elements, (els_cons _ (lit "digit") (lit " ") _ (lit "m")); [apply el_name; name|repeat constructor|apply els_one, el_name; name|intros _ [E|E]; vm_compute in E; discriminate].
Qed.
Ltac fits := split; cbn [first_fuel follow_fuel]; apply Nat.leb_le || apply Nat.ltb_lt; vm_compute; reflexivity.
Notation built_from t := (new_from_text Checked SV (mkFuels 60 2200) t).
Example C94_example : part [digit_rule] (lit "digit") /\ ~ defined [digit_rule] (lit "m") /\ looks_down SV /\
  text_for simple_reads (alone (lit "digit") [] [digit_rule]) alone_digit_text (mkFuels 60 2200) /\
  text_for simple_reads (optional (lit "digit") [] [digit_rule]) optional_text (mkFuels 60 2200) /\
  text_for simple_reads (separated (lit "digit") (lit "m") (lit ",") [] [] [digit_rule]) separated_text (mkFuels 60 2200) /\
  (exists ps, built_from optional_text = Ok ps /\ exists tr v, parse SV ps 200 (lit "1") (mkSState [] 0 0 0 []) = (Ok tr, v) /\ ss_stack v = [1; 1]%N) /\
  (exists ps, built_from separated_text = Ok ps /\ exists tr v, parse SV ps 400 (lit "1,1,1") (mkSState [] 0 0 0 []) = (Ok tr, v) /\ ss_stack v = [1; 1; 1; 1; 1; 1]%N).
Proof.
  split; [apply (one_part digit_rule (lit "1") [SPushFromTree; SPushConst 1]); [discriminate|reflexivity]|].
  split; [intros Hd; apply Hd; reflexivity|]. split; [apply child_looks_down, simple_looks|].
  split; [apply text_fits; [apply alone_digit_ok|reflexivity|fits]|]. split; [apply text_fits; [apply optional_ok|reflexivity|fits]|].
  split; [apply text_fits; [apply separated_ok|reflexivity|fits]|].
  split; apply ends_with_ok; vm_compute; reflexivity.
Qed.
End example.
