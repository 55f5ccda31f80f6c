(** * Property theorems: how deep a parse recurses (C102) *)
From Verif Require Import Base Peekables Tree Errors Sets ParserData Vm SimpleStackVm StackVm RuleParsing FirstSets FollowSets SteuerMap ScriptParser
  SpecText SpecData SpecGrammar SpecParser SpecTree SpecScript SpecContract SpecWeave SpecRules SpecNames SpecLanguage SpecIgnore SpecDepth Grammar_proofs Construct_proofs Checks Tree_proofs Script_proofs Parse_proofs Depth_proofs
  Weave_proofs Names_proofs RuleBuild_proofs RuleText_proofs Language_proofs Ignore_proofs Accept_proofs Props_steuer Props_script Props_weave Props_rules Props_vm Props_names Props_language Props_errors Props_main SpecRecipes Recipes_proofs Props_recipes Samples.
Notation start := (lit "start").

Section read.
Context {vm : VM} {rs : list (arule (vm_instr vm))} {pd pd' : ParserData (vm_instr vm)} (Hd : described pd rs) (Hed : edited_data pd pd').
Lemma named_depth pt : nested_names (named pd' pt) = depth pt.
Proof.
  induction pt as [t|A subs IH] using ptree_rect'; [reflexivity|]. cbn [named nested_names depth]. unfold most. do 2 f_equal. rewrite map_map. apply map_ext_Forall'. assumption.
Qed.
Lemma calls_contains A B : calls vm pd' A B -> contains rs (SpecScript.text_of pd' A) (SpecScript.text_of pd' B).
Proof.
  intros (w & (r & p & Hr & Hp & ->) & HB & HrB).
  assert (forall C, has_rule pd' C -> get_element_verbose pd C = Some (SpecScript.text_of pd' C, NonTerminal)) as Hn.
  { intros C [rc HC]. apply (edd_rules _ _ Hed) in HC as (nr & HC & _). destruct (described_nonterminal pd rs Hd C ltac:(eexists; exact HC)) as [x Hx].
    unfold SpecScript.text_of. rewrite (ed_verbose pd pd' Hed), Hx. reflexivity. }
  apply elem_of_list_lookup in Hp as [i Hi]. destruct (says_rule pd pd' rs Hd Hed A r _ i (Hn A ltac:(eexists; exact Hr)) Hr) as (_ & Hs & _).
  destruct (Hs p Hi) as (w & Hw & Hst). exists i, w. split; [assumption|]. apply stands_right in Hst. apply elem_of_list_lookup in HB as [j Hj].
  destruct (Forall2_lookup_r _ _ _ _ _ Hst Hj) as (e & He & Hv). rewrite (ed_verbose pd pd' Hed), (Hn B HrB) in Hv. injection Hv as <-. apply elem_of_list_lookup. eauto.
Qed.
Lemma rules_few : size (pd_rules pd') <= length rs.
Proof.
  rewrite <- size_dom. change (size (dom (pd_rules pd'))) with (length (elements (dom (pd_rules pd')))). transitivity (length (map ar_name rs)); [|rewrite map_length; reflexivity].
  assert (forall A, A ∈ elements (dom (pd_rules pd')) -> get_element_verbose pd A = Some (SpecScript.text_of pd' A, NonTerminal) /\ SpecScript.text_of pd' A ∈ map ar_name rs) as Hn.
  { intros A HA. apply elem_of_elements, elem_of_dom in HA as [r HA]. apply (edd_rules _ _ Hed) in HA as (nr & HA & _).
    destruct (described_rule pd rs Hd A nr HA) as (r0 & more & Hx & Hrf & _). unfold SpecScript.text_of. rewrite (ed_verbose pd pd' Hed), Hx. split; [reflexivity|].
    apply elem_of_list_fmap. exists r0. split; [reflexivity|]. assert (r0 ∈ rules_for (ar_name r0) rs) as Hin by (rewrite Hrf; left). apply elem_of_list_filter in Hin. apply Hin. }
  rewrite <- (map_length (SpecScript.text_of pd') (elements (dom (pd_rules pd')))). apply submseteq_length, NoDup_submseteq.
  - assert (forall l, NoDup l -> (forall A, A ∈ l -> get_element_verbose pd A = Some (SpecScript.text_of pd' A, NonTerminal)) -> NoDup (map (SpecScript.text_of pd') l)) as Hl.
    { induction 1 as [|A l HA Hl IH]; intros Hv; [constructor|]. cbn. constructor; [|apply IH; intros B HB; apply Hv; right; assumption].
      intros Hin. apply elem_of_list_fmap in Hin as (B & E & HB). apply HA. pose proof (Hv A ltac:(left)) as VA. pose proof (Hv B ltac:(right; assumption)) as VB.
      rewrite <- E in VB. apply (de_numbers pd rs Hd) in VA, VB. congruence. }
    apply Hl; [apply NoDup_elements|]. intros A HA. apply Hn, HA.
  - intros x Hx. apply elem_of_list_fmap in Hx as (A & -> & HA). apply Hn, HA.
Qed.
End read.

Lemma sentence_accepts {U : Unicode} {H : HashOrder} m vm rs t ps nt : read_from m vm rs t ps -> nderivation rs nt -> nroot nt = (start, NonTerminal) -> accepts_prefix rs (nyield nt) nt [].
Proof.
  intros Hr D R. destruct (read_from_built m vm rs t ps Hr) as (pd & pd' & st & fl & Hd & Hed & Hst & Hb & Hsz). apply built_spec in Hb as (Hwf & Hcon & Htab).
  apply (accepts_pred (nyield nt) nt [] Hd Hed Hwf Hcon Hst).
  destruct (derivation_named pd pd' rs Hd Hed nt D st) as (pt & Hpt & Hrt & <-); [rewrite R, <- (ed_verbose pd pd' Hed); apply Hst; reflexivity|].
  exists pt. split; [reflexivity|]. split; [assumption|]. rewrite named_yield. pose proof (complete pd' st Hwf Hcon pt Hpt []) as Hc. rewrite Hrt, app_nil_r in Hc. apply Hc. intros _. apply fol_start.
Qed.

(** ** C102.  The calls of a parse are nested as deep as the names in the tree: with that
    many activations at a time the script is parsed, with fewer it cannot be. *)
Theorem C102_depth : forall (U : Unicode) (H : HashOrder) m (vm : VM) rs t ps, read_from m vm rs t ps ->
  forall script nt rest v v', accepts_prefix rs script nt rest -> run_tree rs nt v = Ok v' ->
  forall fuel,
  (nested_names nt <= fuel -> exists tr, parse vm ps fuel script v = (Ok tr, v') /\ tree_shows tr nt) /\
  (fuel < nested_names nt -> fst (parse vm ps fuel script v) = Diverge).
Proof.
  intros U H m vm rs t ps Hr script nt rest v v' Ha Hrt fuel. destruct (read_from_vm m vm rs t ps Hr) as [Hk Hret].
  destruct (read_from_built m vm rs t ps Hr) as (pd & pd' & st & fl & Hd & Hed & Hst & Hb & Hsz). apply built_spec in Hb as (Hwf & Hcon & Htab).
  apply (accepts_pred script nt rest Hd Hed Hwf Hcon Hst) in Ha as (pt & -> & Hpt & Hp). rewrite named_depth.
  rewrite (run_named pd pd' rs Hd Hed pt v Hpt) in Hrt.
  pose proof (run_depth vm pd' st ps Hwf Hcon Htab Hk st fuel script v Hst (con_start _ _ Hcon)) as Hdp.
  pose proof (parse_run_spec vm pd' st ps Hwf Hcon Htab Hk st fuel script v Hst (con_start _ _ Hcon)) as Hs.
  unfold parse. destruct (parse_run vm ps fuel script v) as [o s1] eqn:E. cbn [fst] in *. destruct o as [tr|e| |].
  - pose proof (Hdp _ _ Hp) as Hle. split; [intros _|lia]. destruct Hs as (pt' & rest' & v1 & Hp' & -> & -> & Hrun).
    destruct (proj1 (pred_deterministic pd' st (con_disjoint pd' st Hcon) (wf_rules pd' Hwf)) _ _ _ _ Hp _ _ Hp') as [<- <-].
    change (run_actions (vm := vm) pd' (tree_history pd' 0 None pt) (post_order 0 pt) v = Ok v') in Hrt. rewrite Hrt in Hrun. injection Hrun as <-. eexists. split; [reflexivity|].
    apply named_shows. intros path. apply tree_paths.
  - destruct Hs as (stk & rest' & v1 & Hf & _). destruct (fails_no_pred pd' st (con_disjoint pd' st Hcon) (wf_rules pd' Hwf) _ _ _ _ Hf _ _ Hp).
  - destruct Hs as (_ & Hs & _). specialize (Hs _ _ Hp). exfalso. change (run_actions (vm := vm) pd' (tree_history pd' 0 None pt) (post_order 0 pt) v = Ok v') in Hrt. congruence.
  - split; [|reflexivity]. intros Hle. exfalso. destruct Hdp as [(t0 & id & i & s & Hp1 & Hp2 & Hp3)|[Hdp _]]; [exact (Hret t0 id i s Hp1 Hp2 Hp3)|]. specialize (Hdp _ _ Hp). lia.
Qed.
Print Assumptions C102_depth.

(** Room for more activations changes nothing. *)
Theorem C102_more_room : forall (H : HashOrder) (vm : VM) ps fuel fuel' script v, fuel <= fuel' -> fst (parse vm ps fuel script v) <> Diverge ->
  parse vm ps fuel' script v = parse vm ps fuel script v.
Proof.
  intros H vm ps fuel fuel' script v Hf Hne. unfold parse in *. destruct (parse_run vm ps fuel script v) as [o s] eqn:E. cbn [fst] in Hne.
  rewrite (parse_run_mono vm ps fuel fuel' script v o s Hf E Hne). reflexivity.
Qed.
Print Assumptions C102_more_room.

(** Where no name is contained in itself the depth is bounded by the number of rules,
    whatever the script, accepted or not. *)
Theorem C102_without_recursion : forall (U : Unicode) (H : HashOrder) m (vm : VM) rs t ps, read_from m vm rs t ps -> not_recursive rs ->
  forall fuel script v, length rs <= fuel -> fst (parse vm ps fuel script v) <> Diverge.
Proof.
  intros U H m vm rs t ps Hr Hn fuel script v Hf. destruct (read_from_vm m vm rs t ps Hr) as [Hk Hret].
  destruct (read_from_built m vm rs t ps Hr) as (pd & pd' & st & fl & Hd & Hed & Hst & Hb & Hsz). apply built_spec in Hb as (Hwf & Hcon & Htab).
  assert (forall A, ~ tc (calls vm pd') A A) as Hac.
  { intros A HA. apply (Hn (SpecScript.text_of pd' A)). assert (forall B, tc (calls vm pd') A B -> tc (contains rs) (SpecScript.text_of pd' A) (SpecScript.text_of pd' B)) as Hm; [|exact (Hm A HA)].
    clear HA. intros B HB. induction HB as [x y Hc|x y z Hc _ IH]; [apply tc_once|eapply tc_l; [|exact IH]]; exact (calls_contains Hd Hed _ _ Hc). }
  pose proof (flat_run vm pd' st ps Hwf Hcon Htab Hk Hac st fuel script v Hst (con_start _ _ Hcon)) as Hfl.
  unfold parse. destruct (parse_run vm ps fuel script v) as [o s]. cbn [fst] in *. apply Hfl.
  - intros (t0 & id & i & s0 & Hp1 & Hp2 & Hp3). exact (Hret t0 id i s0 Hp1 Hp2 Hp3).
  - pose proof (rules_few Hd Hed). lia.
Qed.
Print Assumptions C102_without_recursion.

(** Where a sentence has a name inside itself there is no bound: for every number of
    activations some sentence needs more. *)
Lemma nested_replaced path : forall nt s, is_Some (nsubtree nt path) -> length path + nested_names s <= nested_names (replaced nt path s).
Proof.
  induction path as [|k path IH]; intros nt s [u Hu]; [reflexivity|]. destruct nt as [b|x subs]; [discriminate|]. cbn [nsubtree] in Hu.
  destruct (subs !! k) as [a|] eqn:Ek; [|discriminate]. rewrite (replaced_node x subs k path s a Ek). specialize (IH a s ltac:(eauto)). cbn [nested_names length].
  assert (nested_names (replaced a path s) <= foldr max 0 (map nested_names (take k subs ++ replaced a path s :: drop (S k) subs))); [|lia].
  rewrite map_app, foldr_app. cbn [map foldr]. generalize (map nested_names (take k subs)) as l. induction l as [|y l IHl]; cbn; lia.
Qed.
Theorem C102_recursion : forall I (rs : list (arule I)) nt path x subs inner subs', nderivation rs nt -> nroot nt = (start, NonTerminal) ->
  nsubtree nt path = Some (NNode x subs) -> inner <> [] -> nsubtree (NNode x subs) inner = Some (NNode x subs') ->
  forall n, exists nt', nderivation rs nt' /\ nroot nt' = (start, NonTerminal) /\ n < nested_names nt'.
Proof.
  intros I rs nt path x subs inner subs' D R Hp Hi Hin n.
  assert (forall p t s, nderivation rs t -> nsubtree t p = Some s -> nderivation rs s) as Hsub.
  { induction p as [|k p IH]; intros t s Dt E; cbn [nsubtree] in E; [congruence|]. destruct t as [b|y ts]; [discriminate|]. destruct (ts !! k) as [a|] eqn:Ek; [|discriminate].
    inversion Dt as [|? i ? _ Hf]; subst. apply (IH a); [exact (proj1 (Forall_lookup _ ts) Hf k a Ek)|assumption]. }
  pose proof (Hsub _ _ _ D Hp) as Dx.
  assert (exists b, nderivation rs b /\ nroot b = (x, NonTerminal) /\ n < nested_names b) as (b & Db & Rb & Hb).
  { induction n as [|n (b & Db & Rb & Hb)].
    - exists (NNode x subs). split; [assumption|]. split; [reflexivity|]. cbn. lia.
    - destruct (replaced_ok rs inner (NNode x subs) (NNode x subs') b Dx Hin Db Rb) as (H1 & H2 & _). exists (replaced (NNode x subs) inner b). split; [assumption|]. split; [assumption|].
      pose proof (nested_replaced inner (NNode x subs) b ltac:(eauto)). destruct inner as [|k inner]; [congruence|]. cbn [length] in *. lia. }
  destruct (replaced_ok rs path nt (NNode x subs) b D Hp Db Rb) as (H1 & H2 & _). exists (replaced nt path b). split; [assumption|]. split; [congruence|].
  pose proof (nested_replaced path nt b ltac:(eauto)). lia.
Qed.
Print Assumptions C102_recursion.

(** With actions that succeed such sentences exhaust every stack. *)
Theorem C102_every_stack_exhausted : forall (U : Unicode) (H : HashOrder) m (vm : VM) rs t ps, read_from m vm rs t ps ->
  (forall nt v, nderivation rs nt -> exists v', run_tree rs nt v = Ok v') ->
  forall nt path x subs inner subs', nderivation rs nt -> nroot nt = (start, NonTerminal) ->
  nsubtree nt path = Some (NNode x subs) -> inner <> [] -> nsubtree (NNode x subs) inner = Some (NNode x subs') ->
  forall fuel, exists script, sentence rs script /\ forall v, fst (parse vm ps fuel script v) = Diverge.
Proof.
  intros U H m vm rs t ps Hr Hok nt path x subs inner subs' D R Hp Hi Hin fuel.
  destruct (C102_recursion _ rs nt path x subs inner subs' D R Hp Hi Hin fuel) as (nt' & D' & R' & Hn). exists (nyield nt'). split; [exists nt'; auto|].
  intros v. destruct (Hok nt' v D') as [v' Hv].
  pose proof (sentence_accepts m vm rs t ps nt' Hr D' R') as Ha.
  exact (proj2 (C102_depth U H m vm rs t ps Hr _ nt' [] v v' Ha Hv fuel) Hn).
Qed.
Print Assumptions C102_every_stack_exhausted.

(** ** Non-vacuity: a list of n members needs n+1 activations; a grammar without recursion. *)
Section example.
Local Existing Instance ascii_unicode.
Local Existing Instance plain_order.
Notation K := (vm_instr NullVm).
Definition list_rules : list (arule K) := [mkARule start OvAbsent [[(lit "1", Terminal); (start, NonTerminal)]; []] []].
Definition list_text : str := lit "start->""1""start|#;".
Definition flat_rules : list (arule K) := [mkARule start OvAbsent [[(lit "d", NonTerminal); (lit "d", NonTerminal)]] []; mkARule (lit "d") OvAbsent [[(lit "1", Terminal)]; [(lit "2", Terminal)]] []].
Definition flat_text : str := lit "start->d d;d->""1""|""2"";".
Fixpoint list_tree (n : nat) : ntree := match n with 0 => NNode start [] | S n => NNode start [NLeaf (lit "1"); list_tree n] end.
Ltac name := split; [reflexivity|repeat constructor].
Ltac quoted := apply one_quoted; discriminate.
Lemma list_text_ok : grammar_text null_reads list_rules list_text.
Proof.
  rewrite <- (app_nil_r list_text). apply null_then; [|apply null_end]. apply (null_rule start _ (lit """1""start|#")); [name|].
  apply (SpecRules.alts_cons _ (lit """1""start") [] [] _ (lit "#")); [|constructor..|apply alts_one, alt_empty].
  apply alt_elements, (els_cons _ (lit """1""") [] _ start); [quoted|constructor|apply els_one, el_name; name|intros E; discriminate E].
Qed.
Lemma flat_text_ok : grammar_text null_reads flat_rules flat_text.
Proof.
  apply (null_then _ (lit "start->d d;") _ (lit "d->""1""|""2"";")).
  - apply (null_rule start _ (lit "d d")); [name|]. apply alts_one, alt_elements, (els_cons _ (lit "d") (lit " ") _ (lit "d")); [apply el_name; name|repeat constructor|apply els_one, el_name; name|]. intros _ [E|E]; vm_compute in E; discriminate.
  - rewrite <- (app_nil_r (lit "d->""1""|""2"";")). apply null_then; [|apply null_end]. apply (null_rule (lit "d") _ (lit """1""|""2""")); [name|].
    apply (SpecRules.alts_cons _ (lit """1""") [] [] _ (lit """2""")); [apply alt_elements, els_one; quoted|constructor..|apply alts_one, alt_elements, els_one; quoted].
Qed.
Lemma null_actions_succeed rs nt (v : N) : run_tree (vm := NullVm) rs nt v = Ok v.
Proof.
  unfold run_tree. generalize (npost_order 0 nt) as l. induction l as [|[[i x] k] l IH]; [reflexivity|]. cbn [ofold].
  assert (forall tr id is, ofold (fun s ins => let* '(_t, s') := vm_execute NullVm tr id ins s in Ok s') v is = (Ok v : outcome Empty_set N)) as ->; [|exact IH].
  intros tr id is. induction is as [|j is IHi]; [reflexivity|]. exact IHi.
Qed.
Lemma list_tree_ok n : nderivation list_rules (list_tree n) /\ nroot (list_tree n) = (start, NonTerminal) /\ nyield (list_tree n) = repeat 49%N n /\ nested_names (list_tree n) = S n.
Proof.
  assert (forall i w, [[(lit "1", Terminal); (start, NonTerminal)]; []] !! i = Some w -> says list_rules start i w) as Hs.
  { intros i w Hi. apply Recipes_proofs.plain_says; [apply one_rule_plain|exact Hi]. }
  induction n as [|n (D & R & Y & E)].
  - split; [apply (nder_node _ start 1); [apply Hs; reflexivity|constructor]|]. split; [reflexivity|]. split; reflexivity.
  - split; [|split; [reflexivity|split]].
    + cbn [list_tree]. apply (nder_node _ start 0); [apply Hs; cbn [map]; rewrite R; reflexivity|]. apply Forall_cons_2; [constructor|]. apply Forall_cons_2; [assumption|apply Forall_nil_2].
    + cbn [list_tree nyield map concat]. rewrite Y, app_nil_r. reflexivity.
    + cbn [list_tree nested_names map foldr]. rewrite E. lia.
Qed.
(** A script of n ones needs n+1 activations. *)
Theorem C102_lists : forall ps, read_from Checked NullVm list_rules list_text ps -> forall n fuel v,
  (n < fuel -> exists tr, parse NullVm ps fuel (repeat 49%N n) v = (Ok tr, v)) /\ (fuel <= n -> fst (parse NullVm ps fuel (repeat 49%N n) v) = Diverge).
Proof.
  intros ps Hr n fuel v. destruct (list_tree_ok n) as (D & R & Y & E). pose proof (sentence_accepts _ _ _ _ _ _ Hr D R) as Ha. rewrite Y in Ha.
  destruct (C102_depth _ _ Checked NullVm _ _ _ Hr _ _ _ v v Ha (null_actions_succeed _ _ _) fuel) as [H1 H2]. rewrite E in H1, H2.
  split; [intros Hl; destruct (H1 ltac:(lia)) as (tr & Hp & _); eauto|intros Hl; apply H2; lia].
Qed.
Print Assumptions C102_lists.
Ltac fits := split; cbn [first_fuel follow_fuel]; apply Nat.leb_le || apply Nat.ltb_lt; vm_compute; reflexivity.
Notation made t := (new_from_text Checked NullVm (mkFuels 60 2200) t).
Example C102_example : (exists ps, read_from Checked NullVm list_rules list_text ps) /\
  nsubtree (list_tree 1) [] = Some (NNode start [NLeaf (lit "1"); NNode start []]) /\ nsubtree (NNode start [NLeaf (lit "1"); NNode start []]) [1] = Some (NNode start []) /\
  (exists ps, read_from Checked NullVm flat_rules flat_text ps) /\ not_recursive flat_rules /\ length flat_rules = 2.
Proof.
  split; [|split; [reflexivity|split; [reflexivity|split; [|split; [|reflexivity]]]]].
  - destruct (verdicts_ok 400 (made list_text) (lit "11") (lit "12")) as (ps & Eps & _); [vm_compute; reflexivity|]. exists ps.
    apply (read_null list_rules list_text _ list_text_ok eq_refl ltac:(fits) Eps). reflexivity.
  - destruct (verdicts_ok 400 (made flat_text) (lit "12") (lit "13")) as (ps & Eps & _); [vm_compute; reflexivity|]. exists ps.
    apply (read_null flat_rules flat_text _ flat_text_ok eq_refl ltac:(fits) Eps). reflexivity.
  - assert (forall x y, contains flat_rules x y -> x = start /\ y = lit "d") as Hc.
    { intros x y (i & w & Hw & Hy). apply Recipes_proofs.plain_says in Hw; [|intros r Hr; repeat (apply elem_of_cons in Hr as [->|Hr]; [discriminate|]); inversion Hr].
      unfold flat_rules in Hw. rewrite !Recipes_proofs.alts_cons in Hw. cbn [ar_name ar_alts] in Hw. apply elem_of_list_lookup_2 in Hw.
      apply elem_of_app in Hw as [Hw|Hw]; [|apply elem_of_app in Hw as [Hw|Hw]; [|inversion Hw]].
      - destruct (decide (start = x)) as [<-|]; [|inversion Hw]. apply elem_of_list_singleton in Hw as ->. repeat (apply elem_of_cons in Hy as [Hy|Hy]; [injection Hy as ->; auto|]). inversion Hy.
      - exfalso. destruct (decide (lit "d" = x)) as [<-|]; [|inversion Hw]. repeat (apply elem_of_cons in Hw as [->|Hw]; [repeat (apply elem_of_cons in Hy as [Hy|Hy]; [discriminate Hy|]); inversion Hy|]). inversion Hw. }
    intros x Hx. assert (forall a b, tc (contains flat_rules) a b -> a = start /\ b = lit "d") as Ht.
    { induction 1 as [a b Hab|a b c Hab _ [-> _]]; [apply Hc; assumption|]. apply Hc in Hab as [_ E]. discriminate E. }
    destruct (Ht x x Hx) as [-> E]. discriminate E.
Qed.
End example.
