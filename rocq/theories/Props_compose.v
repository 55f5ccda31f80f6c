(** * Property theorems: grammars put together from parts (C87) *)
From Verif Require Import Base Peekables Tree Errors Sets ParserData Vm SimpleStackVm StackVm RuleParsing FirstSets FollowSets SteuerMap ScriptParser
  SpecText SpecData SpecGrammar SpecParser SpecTree SpecScript SpecContract SpecWeave SpecRules SpecNames SpecLanguage SpecSyntax SpecExtend SpecNaming SpecFewer SpecEffect SpecCompose
  Grammar_proofs Construct_proofs Checks Tree_proofs Script_proofs Parse_proofs
  Weave_proofs Names_proofs RuleBuild_proofs RuleText_proofs Language_proofs Syntax_proofs Start_proofs Naming_proofs NamingAll_proofs Fewer_proofs Effect_proofs Compose_proofs
  Props_steuer Props_script Props_weave Props_rules Props_vm Props_names Props_language Props_same Props_start Props_errors Props_main Props_extend Props_fewer Props_effect Samples.

(** A text of the rules [rs], with loop bounds that suffice for it. *)
Definition text_for {U : Unicode} {I} (reads : str -> str -> list I -> Prop) (rs : list (arule I)) (t : str) (fl : fuels) : Prop :=
  grammar_text reads rs t /\ (N.of_nat (length t) < 2 ^ 63)%N /\ enough_for_text fl t.
Notation accepted m vm fl t := (exists ps, new_from_text m vm fl t = Ok ps).

(** ** Every name begins with something *)
Lemma begins {U : Unicode} {H : HashOrder} (vm : VM) reads rs t fl x : supported vm reads -> tables_disjoint -> text_for reads rs t fl -> parsable rs -> defined rs x ->
  nnullable rs [(x, NonTerminal)] \/ exists c, nfirst rs [(x, NonTerminal)] c.
Proof.
  intros Hs Hd (Ht & Hlen & Hfl) Hp Hx. destruct (text_edited vm reads Hs Hd H rs t fl Ht Hlen Hfl (pa_defined _ Hp) (pa_ignored _ Hp)) as (pd & pe & D & E & Hwf & Hbuilt).
  destruct (proj2 (C58_buildable_iff_parsable U H Checked vm reads rs t fl Hs Hd Ht Hlen Hfl) Hp) as [ps Hps].
  destruct (Hbuilt Checked ps Hps) as (start & _ & Hb). apply built_spec in Hb as (_ & Hc & _).
  destruct (defined_element pd rs D x Hx) as (A & HA & HrA). assert (called pe [(x, NonTerminal)] [A]) as Hcall by (constructor; [rewrite (ed_verbose _ _ E); exact HA|constructor]).
  assert (has_rule pe A) as HrA' by (apply (edd_domain _ _ E); exact HrA).
  destruct (@known_starts H _ pe Hwf (con_defined _ _ Hc) (con_no_left_recursion _ _ Hc) (text_no_empty pd pe rs D E (text_alternatives reads rs t Ht)) A (or_intror HrA')) as [Hn|[c Hf]].
  - left. apply (nnullable_iff pd pe rs D E _ _ Hcall), NULLABLE_nuls. constructor; [assumption|constructor].
  - right. exists c. apply (nfirst_iff pd pe rs D E _ _ c Hcall), FIRST_fsts. apply fsts_cons. auto.
Qed.

(** ** Which compositions are accepted *)
Section accepted.
Context (U : Unicode) (H : HashOrder) (m : ovf_mode) (vm : VM) (reads : str -> str -> list (vm_instr vm) -> Prop) (Hs : supported vm reads) (Hd : tables_disjoint).
Context (P Q : list (arule (vm_instr vm))) (a b : str) (HP : part P a) (HQ : part Q b) (Hap : apart P Q) (is is1 is2 : list (vm_instr vm)).
Lemma text_accepted rs t fl : text_for reads rs t fl -> accepted m vm fl t <-> parsable rs.
Proof. intros (Ht & Hlen & Hfl). exact (C58_buildable_iff_parsable U H m vm reads rs t fl Hs Hd Ht Hlen Hfl). Qed.
Context (t1 t2 : str) (fl1 fl2 : fuels) (T1 : text_for reads (alone a is1 P) t1 fl1) (T2 : text_for reads (alone b is2 Q) t2 fl2).
(** [start -> a | b]: no lookahead announces both. *)
Theorem C87_either_accepted : forall t fl, text_for reads (either a b is P Q) t fl ->
  accepted m vm fl t <-> accepted m vm fl1 t1 /\ accepted m vm fl2 t2 /\ forall l, announces (alone a is1 P) a l -> announces (alone b is2 Q) b l -> False.
Proof. intros t fl Ht. rewrite (text_accepted _ t fl Ht), (text_accepted _ t1 fl1 T1), (text_accepted _ t2 fl2 T2). apply either_parsable; assumption. Qed.
(** [start -> a b]: where a script of [a] may end, it does not go on with a first char of [b]. *)
Theorem C87_in_turn_accepted : forall t fl, text_for reads (in_turn a b is P Q) t fl ->
  accepted m vm fl t <-> accepted m vm fl1 t1 /\ accepted m vm fl2 t2 /\ forall c, nfirst (alone b is2 Q) [(b, NonTerminal)] c -> ~ goes_on (alone a is1 P) c.
Proof.
  intros t fl Ht. rewrite (text_accepted _ t fl Ht), (text_accepted _ t1 fl1 T1), (text_accepted _ t2 fl2 T2). apply in_turn_parsable; try assumption.
  intros Hp. apply (begins vm reads _ t2 fl2); try assumption. apply st_defined; [apply (pt_no_start _ _ HQ)|]. right. apply (pt_entry _ _ HQ).
Qed.
(** [start -> a start | #]: [a] stands for no empty text and, where a script of [a] may end,
    it does not go on with a first char of [a]. *)
Theorem C87_repeated_accepted : forall t fl, text_for reads (repeated a is P) t fl ->
  accepted m vm fl t <-> accepted m vm fl1 t1 /\ ~ nnullable (alone a is1 P) [(a, NonTerminal)] /\ forall c, nfirst (alone a is1 P) [(a, NonTerminal)] c -> ~ goes_on (alone a is1 P) c.
Proof. intros t fl Ht. rewrite (text_accepted _ t fl Ht), (text_accepted _ t1 fl1 T1). apply repeated_parsable; assumption. Qed.
End accepted.
Print Assumptions C87_either_accepted.
Print Assumptions C87_in_turn_accepted.
Print Assumptions C87_repeated_accepted.

(** ** The scripts *)
Section language.
Context {I : Type} (P Q : list (arule I)) (a b : str) (HP : part P a) (HQ : part Q b) (Hap : apart P Q) (is is1 is2 : list I).
Lemma alone_sentence s : sentence (alone a is1 P) s <-> exists n, nyield n = s /\ nderivation (alone a is1 P) n /\ nroot n = (a, NonTerminal).
Proof.
  unfold sentence, derives_text. split.
  - intros (t & Hd & Hr & <-). destruct (proj1 (al_tree P a HP is1 t) (conj Hd Hr)) as (n & -> & Hn & Hrn). exists n. cbn. rewrite app_nil_r. auto.
  - intros (n & <- & Hn & Hrn). exists (NNode (lit "start") [n]). destruct (proj2 (al_tree P a HP is1 (NNode (lit "start") [n]))) as [H1 H2]; [eauto|]. split; [assumption|]. split; [assumption|]. cbn. apply app_nil_r.
Qed.
End language.
Theorem C87_languages : forall I (P Q : list (arule I)) a b is is1 is2, part P a -> part Q b -> apart P Q ->
  (forall s, sentence (either a b is P Q) s <-> sentence (alone a is1 P) s \/ sentence (alone b is2 Q) s) /\
  (forall s, sentence (in_turn a b is P Q) s <-> exists s1 s2, s = s1 ++ s2 /\ sentence (alone a is1 P) s1 /\ sentence (alone b is2 Q) s2) /\
  (forall s, sentence (repeated a is P) s <-> exists ss, s = concat ss /\ Forall (sentence (alone a is1 P)) ss).
Proof.
  intros I P Q a b is is1 is2 HP HQ Hap. split; [|split]; intros s.
  - unfold sentence, derives_text. split.
    + intros (t & Hd & Hr & Hy). destruct (proj1 (ei_tree P Q a b HP HQ Hap is is1 is2 t) (conj Hd Hr)) as [[H1 H2]|[H1 H2]]; [left|right]; exists t; auto.
    + intros [(t & Hd & Hr & Hy)|(t & Hd & Hr & Hy)]; exists t; destruct (proj2 (ei_tree P Q a b HP HQ Hap is is1 is2 t)) as [H1 H2]; auto.
  - setoid_rewrite (alone_sentence P a HP is1). setoid_rewrite (alone_sentence Q b HQ is2). unfold sentence, derives_text. split.
    + intros (t & Hd & Hr & <-). destruct (proj1 (it_tree P Q a b HP HQ Hap is is1 is2 t) (conj Hd Hr)) as (n1 & n2 & -> & D1 & D2).
      exists (nyield n1), (nyield n2). split; [cbn; rewrite app_nil_r; reflexivity|]. split; [exists n1; auto|exists n2; auto].
    + intros (s1 & s2 & -> & (n1 & <- & D1) & (n2 & <- & D2)). exists (NNode (lit "start") [n1; n2]).
      destruct (proj2 (it_tree P Q a b HP HQ Hap is is1 is2 (NNode (lit "start") [n1; n2]))) as [H1 H2]; [eauto 10|]. split; [assumption|]. split; [assumption|]. cbn. rewrite app_nil_r. reflexivity.
  - setoid_rewrite Forall_forall. setoid_rewrite (alone_sentence P a HP is1). setoid_rewrite <- Forall_forall. unfold sentence, derives_text. split.
    + intros (t & Hd & Hr & <-). destruct (proj1 (re_tree P a HP is is1 t) (conj Hd Hr)) as (ns & -> & Hns). exists (map nyield ns). split; [apply listed_yield|].
      apply Forall_fmap. eapply Forall_impl; [exact Hns|]. intros n [H1 H2]. exists n. auto.
    + intros (ss & -> & Hss). assert (exists ns, map nyield ns = ss /\ Forall (fun n => nderivation (alone a is1 P) n /\ nroot n = (a, NonTerminal)) ns) as (ns & <- & Hns).
      { induction Hss as [|s ss (n & <- & Hn) _ (ns & <- & Hns)]; [exists []; split; [reflexivity|constructor]|]. exists (n :: ns). split; [reflexivity|]. constructor; assumption. }
      exists (listed ns). destruct (proj2 (re_tree P a HP is is1 (listed ns))) as [H1 H2]; [eauto|]. split; [assumption|]. split; [assumption|]. apply listed_yield.
Qed.
Print Assumptions C87_languages.

(** ** What the parsers do *)
Lemma either_fewer {I} (P Q : list (arule I)) a b is is1 is2 : part P a -> part Q b -> apart P Q ->
  fewer_alternatives (alone a is1 P) (either a b is P Q) /\ fewer_alternatives (alone b is2 Q) (either a b is P Q).
Proof.
  intros HP HQ Hap. split; intros x.
  - exists (fun i => i). split; [auto|]. intros i w Hs. pose proof (al_cases P a HP is1 x i w Hs) as [[-> _]|[Hx Hs']].
    + apply (al_start P a HP) in Hs as [-> ->]. apply (ei_start P Q a b HP HQ). auto.
    + apply (pa_says P a HP _ (ei_left P Q a b HP HQ Hap is) x i w Hx), Hs'.
  - exists (fun i => if decide (x = lit "start") then S i else i). split; [intros i j; destruct (decide _); congruence|]. intros i w Hs.
    pose proof (al_cases Q b HQ is2 x i w Hs) as [[-> _]|[Hx Hs']].
    + rewrite decide_True by reflexivity. apply (al_start Q b HQ) in Hs as [-> ->]. apply (ei_start P Q a b HP HQ). auto.
    + rewrite decide_False by (intros ->; exact (pt_no_start _ _ HQ Hx)). apply (pa_says Q b HQ _ (ei_right P Q a b HP HQ Hap is) x i w Hx), Hs'.
Qed.
Lemma alone_instr {I} (P : list (arule I)) a is alts is' R : part P a -> extends P (starting alts is' R) -> ~ defined R (lit "start") -> is' = is ->
  forall x, defined (alone a is P) x -> instructions_for (starting alts is' R) x = instructions_for (alone a is P) x.
Proof.
  intros HP Hx HR -> x Hd. apply st_defined in Hd as [->|Hd]; [|..|apply (pt_no_start _ _ HP)].
  - rewrite st_instr by assumption. unfold alone. rewrite st_instr by apply (pt_no_start _ _ HP). reflexivity.
  - rewrite (pa_instr P _ Hx x Hd), (pa_instr P _ (al_extends P a HP is) x Hd). reflexivity.
Qed.
(** [start -> a | b] does on the scripts of [a] what the parser of [a] does: the same tree,
    the same state, the same panics; and on those of [b] what the parser of [b] does.  (The
    instructions of start are the same.) *)
Theorem C87_either_parsed : forall (U : Unicode) (H H1 H2 : HashOrder) m m1 m2 (vm : VM) P Q a b is t t1 t2 ps ps1 ps2, part P a -> part Q b -> apart P Q ->
  @read_from U H m vm (either a b is P Q) t ps -> @read_from U H1 m1 vm (alone a is P) t1 ps1 -> @read_from U H2 m2 vm (alone b is Q) t2 ps2 ->
  forall fuel fuel' script v, (length script + 1) * length t <= fuel ->
  (sentence (alone a is P) script -> (length script + 1) * length t1 <= fuel' ->
   fst (@parse H vm ps fuel script v) = fst (@parse H1 vm ps1 fuel' script v) /\
   forall tr v', @parse H vm ps fuel script v = (Ok tr, v') <-> @parse H1 vm ps1 fuel' script v = (Ok tr, v')) /\
  (sentence (alone b is Q) script -> (length script + 1) * length t2 <= fuel' ->
   fst (@parse H vm ps fuel script v) = fst (@parse H2 vm ps2 fuel' script v) /\
   forall tr v', @parse H vm ps fuel script v = (Ok tr, v') <-> @parse H2 vm ps2 fuel' script v = (Ok tr, v')).
Proof.
  intros U H H1 H2 m m1 m2 vm P Q a b is t t1 t2 ps ps1 ps2 HP HQ Hap Hr Hr1 Hr2 fuel fuel' script v Hfuel.
  destruct (either_fewer P Q a b is is is HP HQ Hap) as [F1 F2].
  assert (~ defined (P ++ Q) (lit "start")) as Hns.
  { intros Hd. unfold defined, rules_for in Hd. rewrite filter_app in Hd. pose proof (pt_no_start _ _ HP) as N1. pose proof (pt_no_start _ _ HQ) as N2.
    unfold defined, rules_for in N1, N2. destruct (filter _ P); [destruct (filter _ Q); [destruct (Hd eq_refl)|destruct N2; discriminate]|destruct N1; discriminate]. }
  split; intros Hsen Hfuel'.
  - destruct (C85_sentences U H1 H m1 m vm _ _ t1 t ps1 ps Hr1 Hr F1 (alone_instr P a is _ is _ HP (ei_left P Q a b HP HQ Hap is) Hns eq_refl) fuel' fuel script v Hfuel' Hfuel Hsen) as [E1 E2].
    split; [congruence|]. intros tr v'. symmetry. apply E2.
  - destruct (C85_sentences U H2 H m2 m vm _ _ t2 t ps2 ps Hr2 Hr F2 (alone_instr Q b is _ is _ HQ (ei_right P Q a b HP HQ Hap is) Hns eq_refl) fuel' fuel script v Hfuel' Hfuel Hsen) as [E1 E2].
    split; [congruence|]. intros tr v'. symmetry. apply E2.
Qed.
Print Assumptions C87_either_parsed.

Section effects.
Context {vm : VM}.
Lemma effect_same (P : list (arule (vm_instr vm))) a (HP : part P a) rs rs' (Hx : extends P rs) (Hx' : extends P rs') n : nderivation rs n -> inp P (nroot n) -> forall v, effect rs' n v = effect rs n v.
Proof.
  induction n as [c|x subs IH] using ntree_ind'; intros Hd Hin v; [reflexivity|]. specialize (Hin eq_refl). cbn in Hin. inversion Hd as [|? i ? Hs Hsubs]; subst. rewrite !effect_node.
  assert (forall v, effects rs' subs v = effects rs subs v) as ->.
  { pose proof (pa_says_in P a HP rs Hx x i _ Hin Hs) as Hall. clear -IH Hsubs Hall. unfold effects. induction subs as [|s subs IHs]; intros v; [reflexivity|].
    apply Forall_cons in IH as [Hi IH]. apply Forall_cons in Hsubs as [Hd Hsubs]. cbn [map] in Hall. apply Forall_cons in Hall as [Ha Hall]. cbn [ofold]. rewrite (Hi Hd Ha).
    destruct (effect rs s v) as [v1|[]| |]; cbn [obind]; try reflexivity. apply IHs; assumption. }
  destruct (effects rs subs v) as [v1|[]| |]; cbn [obind]; try reflexivity. unfold own_instructions. rewrite (pa_instr P rs' Hx' x Hin), (pa_instr P rs Hx x Hin). reflexivity.
Qed.
Lemma start_effect alts (P : list (arule (vm_instr vm))) subs v : ~ defined P (lit "start") -> effect (starting alts [] P) (NNode (lit "start") subs) v = effects (starting alts [] P) subs v.
Proof. intros Hns. rewrite effect_node. unfold own_instructions. rewrite st_instr by assumption. cbn [ofold]. destruct (effects _ subs v) as [w|[]| |]; reflexivity. Qed.
Lemma one_effect (rs : list (arule (vm_instr vm))) n v : effects rs [n] v = effect rs n v.
Proof. unfold effects. cbn [ofold]. destruct (effect rs n v) as [w|[]| |]; reflexivity. Qed.
End effects.
Lemma alone_parse (U : Unicode) (H : HashOrder) m (vm : VM) P a t ps : part P a -> @read_from U H m vm (alone a [] P) t ps -> looks_down vm ->
  forall n v fuel, nderivation (alone a [] P) n -> nroot n = (a, NonTerminal) -> (length (nyield n) + 1) * length t <= fuel ->
  match effect (alone a [] P) n v with
  | Ok v' => exists tr, parse vm ps fuel (nyield n) v = (Ok tr, v') /\ tree_shows tr (NNode (lit "start") [n])
  | _ => fst (parse vm ps fuel (nyield n) v) = Panic
  end.
Proof.
  intros HP Hr Hl n v fuel Hn Hroot Hfuel. destruct (proj2 (al_tree P a HP [] (NNode (lit "start") [n]))) as [H1 H2]; [eauto|].
  assert (nyield (NNode (lit "start") [n]) = nyield n) as Ey by (cbn; apply app_nil_r). pose proof (C88_sentences U H m vm _ t ps Hr Hl _ v fuel H1 H2) as S. rewrite Ey in S. specialize (S Hfuel).
  unfold alone in S at 1. rewrite start_effect, one_effect in S by apply (pt_no_start _ _ HP). exact S.
Qed.
(** [start -> a b]: the state after a script of [a] followed by one of [b] is the one the
    parser of [b] leaves when it goes on from the state the parser of [a] leaves; the tree
    has the two trees side by side. *)
Theorem C87_in_turn_parsed : forall (U : Unicode) (H H1 H2 : HashOrder) m m1 m2 (vm : VM) P Q a b t t1 t2 ps ps1 ps2, part P a -> part Q b -> apart P Q -> looks_down vm ->
  @read_from U H m vm (in_turn a b [] P Q) t ps -> @read_from U H1 m1 vm (alone a [] P) t1 ps1 -> @read_from U H2 m2 vm (alone b [] Q) t2 ps2 ->
  forall s1 s2 fuel fuel1 fuel2, sentence (alone a [] P) s1 -> sentence (alone b [] Q) s2 ->
  (length (s1 ++ s2) + 1) * length t <= fuel -> (length s1 + 1) * length t1 <= fuel1 -> (length s2 + 1) * length t2 <= fuel2 ->
  (forall v v', (exists tr, @parse H vm ps fuel (s1 ++ s2) v = (Ok tr, v')) <->
     exists tr1 v1 tr2, @parse H1 vm ps1 fuel1 s1 v = (Ok tr1, v1) /\ @parse H2 vm ps2 fuel2 s2 v1 = (Ok tr2, v')) /\
  exists n1 n2, forall v, (forall tr v', @parse H vm ps fuel (s1 ++ s2) v = (Ok tr, v') -> tree_shows tr (NNode (lit "start") [n1; n2])) /\
    (forall tr v', @parse H1 vm ps1 fuel1 s1 v = (Ok tr, v') -> tree_shows tr (NNode (lit "start") [n1])) /\
    (forall tr v', @parse H2 vm ps2 fuel2 s2 v = (Ok tr, v') -> tree_shows tr (NNode (lit "start") [n2])).
Proof.
  intros U H H1 H2 m m1 m2 vm P Q a b t t1 t2 ps ps1 ps2 HP HQ Hap Hl Hr Hr1 Hr2 s1 s2 fuel fuel1 fuel2 S1 S2 Hf Hf1 Hf2.
  apply (alone_sentence P a HP) in S1 as (n1 & <- & D1 & R1). apply (alone_sentence Q b HQ) in S2 as (n2 & <- & D2 & R2).
  destruct (proj2 (it_tree P Q a b HP HQ Hap [] [] [] (NNode (lit "start") [n1; n2]))) as [Dw Rw]; [eauto 10|].
  assert (nyield (NNode (lit "start") [n1; n2]) = nyield n1 ++ nyield n2) as Ey by (cbn; rewrite app_nil_r; reflexivity).
  assert (~ defined (P ++ Q) (lit "start")) as Hns.
  { intros Hd. unfold defined, rules_for in Hd. rewrite filter_app in Hd. pose proof (pt_no_start _ _ HP) as N1. pose proof (pt_no_start _ _ HQ) as N2.
    unfold defined, rules_for in N1, N2. destruct (filter _ P); [destruct (filter _ Q); [destruct (Hd eq_refl)|destruct N2; discriminate]|destruct N1; discriminate]. }
  assert (forall v, effect (in_turn a b [] P Q) (NNode (lit "start") [n1; n2]) v = let* v1 := effect (alone a [] P) n1 v in effect (alone b [] Q) n2 v1) as Ee.
  { intros v. unfold in_turn at 1. rewrite start_effect by assumption. change ([n1; n2]) with ([n1] ++ [n2]). rewrite effects_app, one_effect. fold (in_turn a b [] P Q).
    rewrite (effect_same P a HP _ _ (al_extends P a HP []) (it_left P Q a b HP HQ Hap []) n1 D1) by (rewrite R1; intros _; apply (pt_entry _ _ HP)).
    destruct (effect (alone a [] P) n1 v) as [v1|[]| |]; cbn [obind]; try reflexivity. rewrite one_effect.
    apply (effect_same Q b HQ _ _ (al_extends Q b HQ []) (it_right P Q a b HP HQ Hap []) n2 D2). rewrite R2. intros _. apply (pt_entry _ _ HQ). }
  assert (forall v, match effect (in_turn a b [] P Q) (NNode (lit "start") [n1; n2]) v with
    | Ok v' => exists tr, @parse H vm ps fuel (nyield n1 ++ nyield n2) v = (Ok tr, v') /\ tree_shows tr (NNode (lit "start") [n1; n2])
    | _ => fst (@parse H vm ps fuel (nyield n1 ++ nyield n2) v) = Panic end) as A.
  { intros v. pose proof (C88_sentences U H m vm _ t ps Hr Hl _ v fuel Dw Rw) as A. rewrite Ey in A. exact (A Hf). }
  pose proof (fun v => @alone_parse U H1 m1 vm P a t1 ps1 HP Hr1 Hl n1 v fuel1 D1 R1 Hf1) as A1.
  pose proof (fun v => @alone_parse U H2 m2 vm Q b t2 ps2 HQ Hr2 Hl n2 v fuel2 D2 R2 Hf2) as A2.
  split.
  - intros v v'. specialize (A v). rewrite Ee in A. specialize (A1 v). split.
    + intros [tr Hp]. destruct (effect (alone a [] P) n1 v) as [v1|[]| |]; cbn [obind] in A; [|rewrite Hp in A; discriminate..]. destruct A1 as (tr1 & P1 & _). specialize (A2 v1).
      destruct (effect (alone b [] Q) n2 v1) as [v2|[]| |]; [|rewrite Hp in A; discriminate..]. destruct A as (tr' & P0 & _), A2 as (tr2 & P2 & _). rewrite Hp in P0. injection P0 as <- <-.
      exists tr1, v1, tr2. auto.
    + intros (tr1 & v1 & tr2 & P1 & P2). rewrite P1 in A1. destruct (effect (alone a [] P) n1 v) as [v1'|[]| |]; [|discriminate..]. destruct A1 as (tr1' & [= <- <-] & _). cbn [obind] in A.
      specialize (A2 v1). rewrite P2 in A2. destruct (effect (alone b [] Q) n2 v1) as [v2|[]| |]; [|discriminate..]. destruct A2 as (tr2' & [= <- <-] & _). destruct A as (tr & P0 & _). eauto.
  - exists n1, n2. intros v. specialize (A v). specialize (A1 v). specialize (A2 v). split; [|split]; intros tr v' Hp.
    + rewrite Hp in A. destruct (effect (in_turn a b [] P Q) (NNode (lit "start") [n1; n2]) v) as [w|[]| |]; [|discriminate..]. destruct A as (tr' & [= <- <-] & Hsh). exact Hsh.
    + rewrite Hp in A1. destruct (effect (alone a [] P) n1 v) as [w|[]| |]; [|discriminate..]. destruct A1 as (tr' & [= <- <-] & Hsh). exact Hsh.
    + rewrite Hp in A2. destruct (effect (alone b [] Q) n2 v) as [w|[]| |]; [|discriminate..]. destruct A2 as (tr' & [= <- <-] & Hsh). exact Hsh.
Qed.
Print Assumptions C87_in_turn_parsed.
(** [start -> a start | #]: scripts of [a], one behind the other, leave the state that the
    parser of [a] leaves when it parses them one by one. *)
Theorem C87_repeated_parsed : forall (U : Unicode) (H H1 : HashOrder) m m1 (vm : VM) P a t t1 ps ps1, part P a -> looks_down vm ->
  @read_from U H m vm (repeated a [] P) t ps -> @read_from U H1 m1 vm (alone a [] P) t1 ps1 ->
  forall ss fuel fuel1, Forall (sentence (alone a [] P)) ss ->
  (length (concat ss) + 1) * length t <= fuel -> Forall (fun s => (length s + 1) * length t1 <= fuel1) ss ->
  (forall v v', (exists tr, @parse H vm ps fuel (concat ss) v = (Ok tr, v')) <-> @one_by_one H1 vm ps1 fuel1 ss v v') /\
  exists ns, map nyield ns = ss /\ (forall v tr v', @parse H vm ps fuel (concat ss) v = (Ok tr, v') -> tree_shows tr (listed ns)) /\
    Forall (fun n => forall v tr v', @parse H1 vm ps1 fuel1 (nyield n) v = (Ok tr, v') -> tree_shows tr (NNode (lit "start") [n])) ns.
Proof.
  intros U H H1 m m1 vm P a t t1 ps ps1 HP Hl Hr Hr1 ss fuel fuel1 Hss Hf Hf1. pose proof (pt_no_start _ _ HP) as Hns.
  assert (exists ns, map nyield ns = ss /\ Forall (fun n => nderivation (alone a [] P) n /\ nroot n = (a, NonTerminal)) ns) as (ns & <- & Hns').
  { clear Hf Hf1. induction Hss as [|s ss Hs _ (ns & <- & Hns')]; [exists []; split; [reflexivity|constructor]|]. apply (alone_sentence P a HP) in Hs as (n & <- & Hn). exists (n :: ns). split; [reflexivity|]. constructor; assumption. }
  clear Hss. destruct (proj2 (re_tree P a HP [] [] (listed ns))) as [Dw Rw]; [eauto|].
  assert (Forall (fun n => forall v, match effect (alone a [] P) n v with
    | Ok v' => exists tr, @parse H1 vm ps1 fuel1 (nyield n) v = (Ok tr, v') /\ tree_shows tr (NNode (lit "start") [n])
    | _ => fst (@parse H1 vm ps1 fuel1 (nyield n) v) = Panic end) ns) as A1.
  { apply Forall_fmap in Hf1. apply Forall_forall. intros n Hn v. destruct (proj1 (Forall_forall _ _) Hns' n Hn) as [D1 R1].
    exact (@alone_parse U H1 m1 vm P a t1 ps1 HP Hr1 Hl n v fuel1 D1 R1 (proj1 (Forall_forall _ _) Hf1 n Hn)). }
  assert (forall v, effect (repeated a [] P) (listed ns) v = effects (alone a [] P) ns v) as Ee.
  { clear -Hns Hns' HP. induction Hns' as [|n ns [D1 R1] _ IH]; intros v; cbn [listed]; unfold repeated at 1; rewrite start_effect by assumption; [reflexivity|]. fold (repeated a [] P).
    change ([n; listed ns]) with ([n] ++ [listed ns]). rewrite effects_app, one_effect. unfold effects at 2. cbn [ofold].
    rewrite (effect_same P a HP _ _ (al_extends P a HP []) (re_left P a HP []) n D1) by (rewrite R1; intros _; apply (pt_entry _ _ HP)).
    destruct (effect (alone a [] P) n v) as [v1|[]| |]; cbn [obind]; try reflexivity. rewrite one_effect. apply IH. }
  assert (forall v, match effects (alone a [] P) ns v with
    | Ok v' => exists tr, @parse H vm ps fuel (concat (map nyield ns)) v = (Ok tr, v') /\ tree_shows tr (listed ns)
    | _ => fst (@parse H vm ps fuel (concat (map nyield ns)) v) = Panic end) as A.
  { intros v. pose proof (C88_sentences U H m vm _ t ps Hr Hl _ v fuel Dw Rw) as A. rewrite listed_yield in A. rewrite Ee in A. exact (A Hf). }
  assert (forall v v', @one_by_one H1 vm ps1 fuel1 (map nyield ns) v v' <-> effects (alone a [] P) ns v = Ok v') as Ho.
  { clear -A1. induction A1 as [|n ns An _ IH]; intros v v'; cbn [map].
    - split; [inversion 1; reflexivity|]. intros [= <-]. constructor.
    - unfold effects. cbn [ofold]. specialize (An v). split.
      + inversion 1 as [|? ? ? tr v1 ? P1 Hrest]; subst. rewrite P1 in An. destruct (effect (alone a [] P) n v) as [w|[]| |]; [|discriminate..]. destruct An as (tr' & [= <- <-] & _). cbn [obind]. apply IH, Hrest.
      + destruct (effect (alone a [] P) n v) as [w|[]| |]; cbn [obind]; try discriminate. destruct An as (tr & P1 & _). intros E. econstructor; [exact P1|]. apply IH, E. }
  split.
  - intros v v'. rewrite Ho. specialize (A v). split.
    + intros [tr Hp]. rewrite Hp in A. destruct (effects (alone a [] P) ns v) as [w|[]| |]; [|discriminate..]. destruct A as (tr' & [= <- <-] & _). reflexivity.
    + intros E. rewrite E in A. destruct A as (tr & Hp & _). eauto.
  - exists ns. split; [reflexivity|]. split.
    + intros v tr v' Hp. specialize (A v). rewrite Hp in A. destruct (effects (alone a [] P) ns v) as [w|[]| |]; [|discriminate..]. destruct A as (tr' & [= <- <-] & Hsh). exact Hsh.
    + eapply Forall_impl; [exact A1|]. intros n An v tr v' Hp. specialize (An v). rewrite Hp in An. destruct (effect (alone a [] P) n v) as [w|[]| |]; [|discriminate..]. destruct An as (tr' & [= <- <-] & Hsh). exact Hsh.
Qed.
Print Assumptions C87_repeated_parsed.


(** ** Non-vacuity: digits and additions for SimpleStackVm, side by side, one after the
    other, and digits repeated. *)
Section example.
Local Existing Instance ascii_unicode.
Local Existing Instance plain_order.
Ltac name := split; [reflexivity|repeat constructor].
Notation SV := (SimpleStackVm Checked).
Notation arules := (list (arule (vm_instr SV))).
Definition digit_rule : arule (vm_instr SV) := mkARule (lit "digit") OvAbsent [[(lit "1", Terminal)]] [SPushFromTree; SPushConst 1].
Definition add_rule : arule (vm_instr SV) := mkARule (lit "add") OvAbsent [[(lit "+", Terminal)]] [SPopToReg; SAdd].
Definition digit_text : str := lit "digit->""1""{};".
Definition add_text : str := lit "add->""+""{};".
Lemma empty_braces nm : section_text simple_reads nm (simple_instrs nm) (lit "{}").
Proof.
  apply (sec_braces simple_reads nm [] []); [constructor|constructor|]. split; [|reflexivity]. split; [intros i Hi; discriminate|]. right. split; [reflexivity|discriminate].
Qed.
Lemma digit_rule_ok : rule_text simple_reads digit_rule digit_text.
Proof.
  apply (rule_intro simple_reads digit_rule [] [] [] [] [] [] (lit """1""") (lit "{}")); try (constructor; fail); try name; [|apply (empty_braces (lit "digit"))].
  apply alts_one, alt_elements, els_one, one_quoted; discriminate.
Qed.
Lemma add_rule_ok : rule_text simple_reads add_rule add_text.
Proof.
  apply (rule_intro simple_reads add_rule [] [] [] [] [] [] (lit """+""") (lit "{}")); try (constructor; fail); try name; [|apply (empty_braces (lit "add"))].
  apply alts_one, alt_elements, els_one, one_quoted; discriminate.
Qed.
Lemma with_rule (r : arule (vm_instr SV)) tr rs t : rule_text simple_reads r tr -> grammar_text simple_reads rs t -> grammar_text simple_reads (r :: rs) (tr ++ t).
Proof. intros Hr Ht. apply (gr_cons simple_reads r tr [] rs t); [constructor|exact Hr|exact Ht]. Qed.
Lemma no_rules : grammar_text (I := vm_instr SV) simple_reads [] []. Proof. apply gr_end. constructor. Qed.
Lemma start_text alts ta : alternatives_text alts ta -> rule_text simple_reads (mkARule (I := vm_instr SV) (lit "start") OvAbsent alts []) (lit "start->" ++ ta ++ lit ";").
Proof.
  intros Ha. pose proof (rule_intro simple_reads (mkARule (I := vm_instr SV) (lit "start") OvAbsent alts []) [] [] [] [] [] [] ta []) as Hr.
  cbn [app] in Hr. apply Hr; try (constructor; fail); try name. exact Ha.
Qed.
Lemma name_text x : valid_name x -> alternative_text [(x, NonTerminal)] x.
Proof. intros Hx. apply alt_elements, els_one, el_name, Hx. Qed.
Definition alone_digit_text : str := lit "start->digit;" ++ digit_text.
Definition alone_add_text : str := lit "start->add;" ++ add_text.
Definition either_text : str := lit "start->digit|add;" ++ digit_text ++ add_text.
Definition in_turn_text : str := lit "start->digit add;" ++ digit_text ++ add_text.
Definition repeated_text : str := lit "start->digit start|#;" ++ digit_text.
Lemma alone_digit_ok : grammar_text simple_reads (alone (lit "digit") [] [digit_rule]) alone_digit_text.
Proof. apply with_rule; [apply (start_text _ (lit "digit")), alts_one, name_text; name|]. rewrite <- (app_nil_r digit_text). apply with_rule; [apply digit_rule_ok|apply no_rules]. Qed.
Lemma alone_add_ok : grammar_text simple_reads (alone (lit "add") [] [add_rule]) alone_add_text.
Proof. apply with_rule; [apply (start_text _ (lit "add")), alts_one, name_text; name|]. rewrite <- (app_nil_r add_text). apply with_rule; [apply add_rule_ok|apply no_rules]. Qed.
Lemma both_ok : grammar_text simple_reads ([digit_rule] ++ [add_rule]) (digit_text ++ add_text).
Proof. apply with_rule; [apply digit_rule_ok|]. rewrite <- (app_nil_r add_text). apply with_rule; [apply add_rule_ok|apply no_rules]. Qed.
Lemma either_ok : grammar_text simple_reads (either (lit "digit") (lit "add") [] [digit_rule] [add_rule]) either_text.
Proof.
  apply with_rule; [|apply both_ok]. apply (start_text _ (lit "digit|add")).
  apply (alts_cons _ (lit "digit") [] [] _ (lit "add")); [apply name_text; name|constructor..|apply alts_one, name_text; name].
Qed.
Lemma in_turn_ok : grammar_text simple_reads (in_turn (lit "digit") (lit "add") [] [digit_rule] [add_rule]) in_turn_text.
Proof.
  apply with_rule; [|apply both_ok]. apply (start_text _ (lit "digit add")).
  apply alts_one, alt_elements, (els_cons _ (lit "digit") (lit " ") _ (lit "add")); [apply el_name; name|repeat constructor|apply els_one, el_name; name|intros _ [E|E]; vm_compute in E; discriminate].
Qed.
Lemma repeated_ok : grammar_text simple_reads (repeated (lit "digit") [] [digit_rule]) repeated_text.
Proof.
  apply with_rule; [|rewrite <- (app_nil_r digit_text); apply with_rule; [apply digit_rule_ok|apply no_rules]]. apply (start_text _ (lit "digit start|#")).
  apply (alts_cons _ (lit "digit start") [] [] _ (lit "#")); [|constructor..|apply alts_one, alt_empty].
  apply alt_elements, (els_cons _ (lit "digit") (lit " ") _ (lit "start")); [apply el_name; name|repeat constructor|apply els_one, el_name; name|intros _ [E|E]; vm_compute in E; discriminate].
Qed.
Lemma one_part (r : arule (vm_instr SV)) s is : ar_name r <> lit "start" -> r = mkARule (ar_name r) OvAbsent [[(s, Terminal)]] is -> part [r] (ar_name r).
Proof.
  intros Hn ->. cbn [ar_name] in *. generalize dependent (ar_name r). intros x Hn.
  assert (forall y, rules_for y [mkARule x OvAbsent [[(s, Terminal)]] is] = if decide (x = y) then [mkARule x OvAbsent [[(s, Terminal)]] is] else []) as Hr.
  { intros y. unfold rules_for. rewrite filter_cons. cbn [ar_name]. destruct (decide (x = y)); reflexivity. }
  split.
  - unfold defined. rewrite Hr, decide_True by reflexivity. discriminate.
  - intros Hd. apply Hd. rewrite Hr, decide_False by assumption. reflexivity.
  - intros y z (w & Hw & Hz). unfold alternatives_for in Hw. rewrite Hr in Hw. destruct (decide (x = y)); cbn in Hw; [|inversion Hw].
    apply elem_of_list_singleton in Hw as ->. apply elem_of_list_singleton in Hz. discriminate.
  - intros y z (r0 & more & E & Ho). rewrite Hr in E. destruct (decide (x = y)); [|discriminate]. injection E as <- _. discriminate.
Qed.
Lemma text_fits rs t : grammar_text simple_reads rs t -> ((N.of_nat (length t) <? 2 ^ 63)%N && (length t * 1 <? 47))%bool = true -> enough_for_text (mkFuels 60 2200) t ->
  text_for (I := vm_instr SV) simple_reads rs t (mkFuels 60 2200).
Proof. intros Ht Hl Hfl. apply andb_prop in Hl as [Hl _]. split; [exact Ht|]. split; [apply N.ltb_lt, Hl|exact Hfl]. Qed.
Ltac fits := split; cbn [first_fuel follow_fuel]; apply Nat.leb_le || apply Nat.ltb_lt; vm_compute; reflexivity.
Notation built_from t := (new_from_text Checked SV (mkFuels 60 2200) t).
Example C87_example : part [digit_rule] (lit "digit") /\ part [add_rule] (lit "add") /\ apart [digit_rule] [add_rule] /\ looks_down SV /\
  text_for simple_reads (alone (lit "digit") [] [digit_rule]) alone_digit_text (mkFuels 60 2200) /\ text_for simple_reads (alone (lit "add") [] [add_rule]) alone_add_text (mkFuels 60 2200) /\
  text_for simple_reads (either (lit "digit") (lit "add") [] [digit_rule] [add_rule]) either_text (mkFuels 60 2200) /\
  text_for simple_reads (in_turn (lit "digit") (lit "add") [] [digit_rule] [add_rule]) in_turn_text (mkFuels 60 2200) /\
  text_for simple_reads (repeated (lit "digit") [] [digit_rule]) repeated_text (mkFuels 60 2200) /\
  (exists ps, built_from alone_digit_text = Ok ps) /\ (exists ps, built_from alone_add_text = Ok ps) /\ (exists ps, built_from either_text = Ok ps) /\
  (exists ps, built_from in_turn_text = Ok ps /\ exists tr v, parse SV ps 200 (lit "1+") (mkSState [] 0 0 0 []) = (Ok tr, v) /\ ss_stack v = [2]%N) /\
  (exists ps, built_from repeated_text = Ok ps /\ exists tr v, parse SV ps 200 (lit "111") (mkSState [] 0 0 0 []) = (Ok tr, v) /\ ss_stack v = [1; 1; 1; 1; 1; 1]%N).
Proof.
  split; [apply (one_part digit_rule (lit "1") [SPushFromTree; SPushConst 1]); [discriminate|reflexivity]|]. split; [apply (one_part add_rule (lit "+") [SPopToReg; SAdd]); [discriminate|reflexivity]|].
  split. { intros x H1 H2. unfold defined, rules_for in H1, H2. rewrite !filter_cons in *. cbn [ar_name digit_rule add_rule] in *.
    destruct (decide (lit "digit" = x)) as [E1|_]; [|destruct (H1 eq_refl)]. destruct (decide (lit "add" = x)) as [E2|_]; [|destruct (H2 eq_refl)]. rewrite <- E1 in E2. discriminate. }
  split; [apply child_looks_down, simple_looks|].
  split; [apply text_fits; [apply alone_digit_ok|reflexivity|fits]|]. split; [apply text_fits; [apply alone_add_ok|reflexivity|fits]|].
  split; [apply text_fits; [apply either_ok|reflexivity|fits]|]. split; [apply text_fits; [apply in_turn_ok|reflexivity|fits]|].
  split; [apply text_fits; [apply repeated_ok|reflexivity|fits]|].
  assert (forall r : outcome Empty_set (Parser SInstr), is_ok r = true -> exists ps, r = Ok ps) as Hok by (intros [ps| | |]; [eauto|discriminate..]).
  split; [apply Hok; vm_compute; reflexivity|]. split; [apply Hok; vm_compute; reflexivity|]. split; [apply Hok; vm_compute; reflexivity|].
  split; apply ends_with_ok; vm_compute; reflexivity.
Qed.
End example.
