(** * Property theorems: rewriting rules that are not accepted (C97, C98) *)
From Verif Require Import Base Peekables Tree Errors Sets ParserData Vm SimpleStackVm StackVm RuleParsing FirstSets FollowSets SteuerMap ScriptParser
  SpecText SpecData SpecGrammar SpecParser SpecTree SpecScript SpecContract SpecWeave SpecRules SpecNames SpecLanguage SpecSyntax SpecExtend SpecNaming SpecFewer SpecEffect SpecCompose SpecAwaits SpecRecipes
  Grammar_proofs Construct_proofs Checks Tree_proofs Script_proofs Parse_proofs
  Weave_proofs Names_proofs RuleBuild_proofs RuleText_proofs Language_proofs Syntax_proofs Start_proofs Naming_proofs NamingAll_proofs Fewer_proofs Effect_proofs Compose_proofs Recipes_proofs
  Props_steuer Props_script Props_weave Props_rules Props_vm Props_names Props_language Props_same Props_start Props_errors Props_main Props_extend Props_fewer Props_effect Props_compose Props_awaits Props_spelling Samples.
Notation start := (lit "start").

(** ** C97: [x -> A | p q1 | p q2 | ...] against [x -> A | p n; n -> q1 | q2 | ...] *)
Theorem C97_same_texts : forall I x n is (L R : list (arule I)) p A Q, nothing_ignored (common x is L R p A Q) -> new_name (common x is L R p A Q) n ->
  forall y s, y <> n -> derives_text (factored x is L R n p A Q) y s <-> derives_text (common x is L R p A Q) y s.
Proof.
  intros I x n is L R p A Q Hi Hn y s Hy. split.
  - intros (t & D & Ro & <-). destruct (fa_tree x n is L R p A Q Hi Hn t y Hy D Ro) as (t' & _ & D' & R' & Y'). exists t'. auto.
  - intros (t & D & Ro & <-). destruct (fa_there x n is L R p A Q Hi Hn t D) as (t' & D' & R' & Y'). exists t'. split; [assumption|]. split; [congruence|assumption].
Qed.
Print Assumptions C97_same_texts.
(** The first one is not accepted if there are two of them and the common part begins with
    something that can begin with a char. *)
Theorem C97_rejected : forall (U : Unicode) (H : HashOrder) m (vm : VM) reads x is L R e p A Q c t fl, supported vm reads -> tables_disjoint ->
  nothing_ignored (common x is L R (e :: p) A Q) -> 2 <= length Q -> nfirst (common x is L R (e :: p) A Q) [e] c ->
  text_for reads (common x is L R (e :: p) A Q) t fl -> ~ accepted m vm fl t.
Proof.
  intros U H m vm reads x is L R e p A Q c t fl Hs Hd Hi HQ Hc Ht Ha. apply (text_accepted U H m vm reads Hs Hd _ t fl Ht) in Ha.
  destruct Q as [|q1 [|q2 Q]]; cbn [length] in HQ; [lia..|]. set (rs := common x is L R (e :: p) A (q1 :: q2 :: Q)) in *.
  assert (alternatives_for rs x = (alternatives_for L x ++ A) ++ ((e :: p ++ q1) :: (e :: p ++ q2) :: map (app (e :: p)) Q ++ alternatives_for R x)) as E.
  { unfold rs, common. rewrite alts_app, Recipes_proofs.alts_cons. cbn [ar_name ar_alts]. rewrite decide_True by reflexivity. cbn [map app]. rewrite <- !app_assoc. reflexivity. }
  assert (nchoose rs x (e :: p ++ q1) (MChar c) /\ nchoose rs x (e :: p ++ q2) (MChar c)) as [C1 C2] by (split; left; exists c; auto).
  apply (pa_distinct _ Ha x (length (alternatives_for L x ++ A)) (S (length (alternatives_for L x ++ A))) (e :: p ++ q1) (e :: p ++ q2) (MChar c)); [| |lia|assumption..].
  - apply (Recipes_proofs.plain_says rs Hi). rewrite E. apply list_lookup_middle. reflexivity.
  - apply (Recipes_proofs.plain_says rs Hi). rewrite E, lookup_app_r, Nat.sub_succ_l, Nat.sub_diag by lia. reflexivity.
Qed.
Print Assumptions C97_rejected.
(** A parser for the second one parses the sentences of the first, and returns trees of the
    first with nodes for [n] in between. *)
Theorem C97_parsed : forall (U : Unicode) (H : HashOrder) m (vm : VM) x n is L R p A Q t ps, nothing_ignored (common x is L R p A Q) -> new_name (common x is L R p A Q) n ->
  read_from m vm (factored x is L R n p A Q) t ps -> forall script v fuel, (length script + 1) * length t <= fuel ->
  (sentence (common x is L R p A Q) script -> match fst (parse vm ps fuel script v) with Ok _ | Panic => True | _ => False end) /\
  (forall tr v', parse vm ps fuel script v = (Ok tr, v') -> exists nt nt0 rest, tree_shows tr nt /\ spliced n nt = [nt0] /\
    nderivation (common x is L R p A Q) nt0 /\ nroot nt0 = (start, NonTerminal) /\ script = nyield nt0 ++ rest).
Proof.
  intros U H m vm x n is L R p A Q t ps Hi Hn Hr script v fuel Hf. pose proof Hn as (Hst & _). split.
  - intros Hs. apply (C97_same_texts _ x n is L R p A Q Hi Hn start script) in Hs as (nt & D & Ro & <-); [|congruence].
    pose proof (C57_sentences_are_parsed U H m vm _ t ps Hr nt v fuel D Ro Hf) as A1. destruct (run_tree _ nt v) as [w|[]| |]; [destruct A1 as (tr & -> & _)|rewrite A1..]; exact Logic.I.
  - intros tr v' Hp. destruct (parse_shows m vm _ t ps fuel script v tr v' Hr Hp) as (nt & rest & (D & Ro & -> & _) & _ & Hsh).
    destruct (fa_tree x n is L R p A Q Hi Hn nt start (not_eq_sym Hst) D Ro) as (nt0 & E & D0 & R0 & Y0). exists nt, nt0, rest. rewrite Y0. auto.
Qed.
Print Assumptions C97_parsed.

(** ** C98: [x -> x q1 | x q2 | ... | b1 | b2 | ...] against [x -> b1 n | b2 n | ...; n -> q1 n | q2 n | ... | #] *)
Theorem C98_same_texts : forall I x n is (L R : list (arule I)) Q B, nothing_ignored (recursive x is L R Q B) -> new_name (recursive x is L R Q B) n -> ~ defined (L ++ R) x ->
  forall y s, y <> n -> derives_text (iterated x is L R n Q B) y s <-> derives_text (recursive x is L R Q B) y s.
Proof.
  intros I x n is L R Q B Hi Hn Hx y s Hy. split.
  - intros (t & D & Ro & <-). destruct (re_back x n is L R Q B Hi Hn Hx t D) as [Hb _]. destruct Hb as (t' & D' & R' & Y'); [congruence|]. exists t'. split; [assumption|]. split; [congruence|assumption].
  - intros (t & D & Ro & <-). destruct (re_there x n is L R Q B Hi Hn Hx t D) as [(t' & D' & R' & Y') _]. exists t'. split; [assumption|]. split; [congruence|assumption].
Qed.
Print Assumptions C98_same_texts.
(** The first one is never accepted. *)
Theorem C98_rejected : forall (U : Unicode) (H : HashOrder) m (vm : VM) reads x is L R Q B t fl, supported vm reads -> tables_disjoint ->
  nothing_ignored (recursive x is L R Q B) -> Q <> [] -> text_for reads (recursive x is L R Q B) t fl -> ~ accepted m vm fl t.
Proof.
  intros U H m vm reads x is L R Q B t fl Hs Hd Hi HQ Ht Ha. apply (text_accepted U H m vm reads Hs Hd _ t fl Ht) in Ha. apply (pa_no_left_recursion _ Ha x). apply tc_once.
  destruct Q as [|q Q]; [destruct (HQ eq_refl)|]. exists (length (alternatives_for L x)), [], q. split; [|exists []; split; constructor].
  apply Recipes_proofs.plain_says; [assumption|]. unfold recursive. rewrite alts_app, Recipes_proofs.alts_cons. cbn [ar_name ar_alts]. rewrite decide_True by reflexivity. apply list_lookup_middle. reflexivity.
Qed.
Print Assumptions C98_rejected.
Theorem C98_parsed : forall (U : Unicode) (H : HashOrder) m (vm : VM) x n is L R Q B t ps, nothing_ignored (recursive x is L R Q B) -> new_name (recursive x is L R Q B) n -> ~ defined (L ++ R) x ->
  read_from m vm (iterated x is L R n Q B) t ps -> forall script v fuel, (length script + 1) * length t <= fuel ->
  (sentence (recursive x is L R Q B) script -> match fst (parse vm ps fuel script v) with Ok _ | Panic => True | _ => False end) /\
  (forall tr v', parse vm ps fuel script v = (Ok tr, v') -> exists s rest, script = s ++ rest /\ sentence (recursive x is L R Q B) s).
Proof.
  intros U H m vm x n is L R Q B t ps Hi Hn Hx Hr script v fuel Hf. pose proof Hn as (Hst & _). split.
  - intros Hs. apply (C98_same_texts _ x n is L R Q B Hi Hn Hx start script) in Hs as (nt & D & Ro & <-); [|congruence].
    pose proof (C57_sentences_are_parsed U H m vm _ t ps Hr nt v fuel D Ro Hf) as A1. destruct (run_tree _ nt v) as [w|[]| |]; [destruct A1 as (tr & -> & _)|rewrite A1..]; exact Logic.I.
  - intros tr v' Hp. destruct (parse_shows m vm _ t ps fuel script v tr v' Hr Hp) as (nt & rest & (D & Ro & -> & _) & _ & Hsh).
    exists (nyield nt), rest. split; [reflexivity|]. apply (C98_same_texts _ x n is L R Q B Hi Hn Hx start); [congruence|]. exists nt. auto.
Qed.
Print Assumptions C98_parsed.

(** ** Non-vacuity: [start->"a""b"|"a""c";] and [start->"a"r;r->"b"|"c";];
    [start->start"a"|"b";] and [start->"b"m;m->"a"m|#;]. *)
Section example.
Local Existing Instance ascii_unicode.
Local Existing Instance plain_order.
Ltac name := split; [reflexivity|repeat constructor].
Lemma null_rule nm alts ta : valid_name nm -> alternatives_text alts ta -> rule_text null_reads (mkARule (I := vm_instr NullVm) nm OvAbsent alts []) (nm ++ lit "->" ++ ta ++ lit ";").
Proof.
  intros Hn Ha. pose proof (rule_intro null_reads (mkARule (I := vm_instr NullVm) nm OvAbsent alts []) [] [] [] [] [] [] ta []) as Hr. cbn [app] in Hr. apply Hr; try (constructor; fail); assumption.
Qed.
Lemma null_then (r : arule (vm_instr NullVm)) tr rs t : rule_text null_reads r tr -> grammar_text null_reads rs t -> grammar_text null_reads (r :: rs) (tr ++ t).
Proof. intros Hr Ht. apply (gr_cons null_reads r tr [] rs t); [constructor|exact Hr|exact Ht]. Qed.
Lemma null_end : grammar_text (I := vm_instr NullVm) null_reads [] []. Proof. apply gr_end. constructor. Qed.
Notation T s := (lit s, Terminal).
Notation ab_ac := (common (I := vm_instr NullVm) start [] [] [] [T "a"] [] [[T "b"]; [T "c"]]).
Notation a_r := (factored (I := vm_instr NullVm) start [] [] [] (lit "r") [T "a"] [] [[T "b"]; [T "c"]]).
Notation b_m := (iterated (I := vm_instr NullVm) start [] [] [] (lit "m") [[T "a"]] [[T "b"]]).
Definition ab_ac_text : str := lit "start->""a""""b""|""a""""c"";".
Definition a_r_text : str := lit "start->""a""r;" ++ lit "r->""b""|""c"";".
Definition b_m_text : str := lit "start->""b""m;" ++ lit "m->""a""m|#;".
Ltac quoted := apply one_quoted; discriminate.
Lemma ab_ac_ok : grammar_text null_reads ab_ac ab_ac_text.
Proof.
  rewrite <- (app_nil_r ab_ac_text). apply null_then; [|apply null_end]. apply (null_rule start _ (lit """a""""b""|""a""""c""")); [name|].
  apply (SpecRules.alts_cons _ (lit """a""""b""") [] [] _ (lit """a""""c""")); [|constructor..|apply alts_one].
  - apply alt_elements, (els_cons _ (lit """a""") [] _ (lit """b""")); [quoted|constructor|apply els_one; quoted|intros E; discriminate E].
  - apply alt_elements, (els_cons _ (lit """a""") [] _ (lit """c""")); [quoted|constructor|apply els_one; quoted|intros E; discriminate E].
Qed.
Lemma a_r_ok : grammar_text null_reads a_r a_r_text.
Proof.
  apply null_then.
  - apply (null_rule start _ (lit """a""r")); [name|]. apply alts_one, alt_elements, (els_cons _ (lit """a""") [] _ (lit "r")); [quoted|constructor|apply els_one, el_name; name|intros E; discriminate E].
  - rewrite <- (app_nil_r (lit "r->""b""|""c"";")). apply null_then; [|apply null_end]. apply (null_rule (lit "r") _ (lit """b""|""c""")); [name|].
    apply (SpecRules.alts_cons _ (lit """b""") [] [] _ (lit """c""")); [apply alt_elements, els_one; quoted|constructor..|apply alts_one, alt_elements, els_one; quoted].
Qed.
Lemma b_m_ok : grammar_text null_reads b_m b_m_text.
Proof.
  apply null_then.
  - apply (null_rule start _ (lit """b""m")); [name|]. apply alts_one, alt_elements, (els_cons _ (lit """b""") [] _ (lit "m")); [quoted|constructor|apply els_one, el_name; name|intros E; discriminate E].
  - rewrite <- (app_nil_r (lit "m->""a""m|#;")). apply null_then; [|apply null_end]. apply (null_rule (lit "m") _ (lit """a""m|#")); [name|].
    apply (SpecRules.alts_cons _ (lit """a""m") [] [] _ (lit "#")); [|constructor..|apply alts_one, alt_empty].
    apply alt_elements, (els_cons _ (lit """a""") [] _ (lit "m")); [quoted|constructor|apply els_one, el_name; name|intros E; discriminate E].
Qed.
Ltac fits := split; cbn [first_fuel follow_fuel]; apply Nat.leb_le || apply Nat.ltb_lt; vm_compute; reflexivity.
Ltac new := split; [discriminate|split; [intros Hd; apply Hd; vm_compute; reflexivity|]].
Notation made t := (new_from_text Checked NullVm (mkFuels 60 2200) t).
Lemma one_rule_unused (alts : list (list element)) n : n <> start -> Forall (fun w => ~ (n, NonTerminal) ∈ w) alts -> new_name [mkARule (I := vm_instr NullVm) start OvAbsent alts []] n.
Proof.
  intros Hn Ha. split; [assumption|]. split.
  - intros Hd. apply Hd. unfold rules_for. rewrite filter_cons_False; [reflexivity|]. intros E. apply Hn. symmetry. exact E.
  - intros x (w & Hw & Hin). rewrite Recipes_proofs.alts_cons in Hw. cbn [ar_name ar_alts] in Hw. apply elem_of_app in Hw as [Hw|Hw]; [|inversion Hw].
    destruct (decide (start = x)); [|inversion Hw]. apply (proj1 (Forall_forall _ _) Ha w Hw Hin).
Qed.
Lemma one_rule_plain (alts : list (list element)) : nothing_ignored [mkARule (I := vm_instr NullVm) start OvAbsent alts []].
Proof. intros r Hr. apply elem_of_list_singleton in Hr as ->. discriminate. Qed.
Ltac no_n := repeat (apply Forall_cons; split); [intros Hin; repeat (apply elem_of_cons in Hin as [Hin|Hin]; [discriminate Hin|]); inversion Hin..|apply Forall_nil; exact Logic.I].
Example C97_example : nothing_ignored ab_ac /\ new_name ab_ac (lit "r") /\ nfirst ab_ac [T "a"] 97%N /\
  text_for null_reads ab_ac ab_ac_text (mkFuels 60 2200) /\ grammar_text null_reads a_r a_r_text /\ enough_for_text (mkFuels 60 2200) a_r_text /\
  exists ps, made a_r_text = Ok ps /\ (exists tr v', parse NullVm ps 400 (lit "ac") 0%N = (Ok tr, v')) /\ exists e, fst (parse NullVm ps 400 (lit "ad") 0%N) = Err e.
Proof.
  split; [apply one_rule_plain|]. split; [apply one_rule_unused; [discriminate|no_n]|].
  split; [exists [], [], []; split; [apply rtc_refl|constructor]|]. split; [split; [apply ab_ac_ok|split; [reflexivity|fits]]|]. split; [apply a_r_ok|]. split; [fits|]. apply verdicts_ok. vm_compute. reflexivity.
Qed.
Example C98_example : recursive start [] [] [] [[T "a"]] [[T "b"]] = lr_rules /\ nothing_ignored lr_rules /\ new_name lr_rules (lit "m") /\ ~ defined ([] ++ []) start (I := vm_instr NullVm) /\
  text_for null_reads lr_rules lr_text (mkFuels 60 2200) /\ grammar_text null_reads b_m b_m_text /\ enough_for_text (mkFuels 60 2200) b_m_text /\
  exists ps, made b_m_text = Ok ps /\ (exists tr v', parse NullVm ps 400 (lit "baa") 0%N = (Ok tr, v')) /\ exists e, fst (parse NullVm ps 400 (lit "bab") 0%N) = Err e.
Proof.
  split; [reflexivity|]. split; [apply one_rule_plain|]. split; [apply one_rule_unused; [discriminate|no_n]|]. split; [intros Hd; apply Hd; reflexivity|].
  split; [split; [apply lr_text_ok|split; [reflexivity|fits]]|]. split; [apply b_m_ok|]. split; [fits|]. apply verdicts_ok. vm_compute. reflexivity.
Qed.
End example.
