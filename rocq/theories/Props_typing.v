(** * Property theorems: scripts that are not finished (C104) *)
From Verif Require Import Base Peekables Tree Errors Sets ParserData Vm SimpleStackVm StackVm RuleParsing FirstSets FollowSets SteuerMap ScriptParser
  SpecText SpecData SpecGrammar SpecParser SpecTree SpecScript SpecContract SpecWeave SpecRules SpecNames SpecLanguage SpecIgnore SpecTyping Grammar_proofs Construct_proofs Checks Tree_proofs Script_proofs Parse_proofs
  Weave_proofs Names_proofs RuleBuild_proofs RuleText_proofs Language_proofs Ignore_proofs Accept_proofs Props_steuer Props_script Props_weave Props_rules Props_vm Props_names Props_language Props_errors Props_main SpecRecipes Recipes_proofs Props_recipes Samples.
Notation start := (lit "start").

Lemma reported_at {I} (pd : ParserData I) st stk rest n e : reports pd st stk rest n e -> error_position e = Some n.
Proof.
  induction stk as [A|t k|A c s IH a]; cbn [reports]; [| |exact IH].
  - intros (? & ? & _ & _ & _ & ->). reflexivity.
  - destruct rest; [intros ->; reflexivity|]. intros (? & _ & _ & ->). reflexivity.
Qed.
Lemma where_it_stops {U : Unicode} {H : HashOrder} m (vm : VM) rs t ps fuel script v e v' : read_from m vm rs t ps -> parse vm ps fuel script v = (Err e, v') ->
  exists before rest, script = before ++ rest /\ error_position e = Some (length before) /\
    (forall more, sentence rs (before ++ more) -> look more <> look rest) /\ (all_stand_for_text rs -> can_go_on rs before).
Proof.
  intros Hr Hp. destruct (read_from_vm m vm rs t ps Hr) as [Hk Hret].
  destruct (read_from_built m vm rs t ps Hr) as (pd & pd' & st & fl & Hd & Hed & Hst & Hb & Hsz).
  unfold parse in Hp. destruct (parse_run vm ps fuel script v) as [o s1] eqn:E. injection Hp as -> <-.
  apply built_spec in Hb as (Hwf & Hcon & Htab).
  pose proof (parse_run_spec vm pd' st ps Hwf Hcon Htab Hk st fuel script v Hst (con_start _ _ Hcon)) as Hs.
  rewrite E in Hs. destruct Hs as (stk & rest & v' & Hf & -> & _ & Hrep).
  destruct (fails_sound pd' st st script stk rest Hf (wf_rules pd' Hwf st) (wf_rules pd' Hwf)) as (F1 & F2 & F3).
  assert (get_element_verbose pd st = Some (start, NonTerminal)) as Hstart by (rewrite <- (ed_verbose pd pd' Hed); apply Hst; reflexivity).
  exists (consumed pd' stk), rest. split; [assumption|]. split; [eapply reported_at, Hrep|]. split.
  - intros more (nt & Hnt & Hroot & Hy) Hl. destruct (derivation_named pd pd' rs Hd Hed nt Hnt st) as (pt & Hpt & Hrt & <-); [congruence|].
    rewrite named_yield in Hy. pose proof (complete pd' st Hwf Hcon pt Hpt []) as Hc. rewrite Hrt, app_nil_r in Hc.
    specialize (Hc (fun _ => fol_start pd' st)). rewrite Hy in Hc.
    eapply (fails_not_pred pd' st Hwf Hcon); [|exact Hc]. eapply (fails_lookahead pd' st Hwf); [exact Hf|]. symmetry. exact Hl.
  - intros Hall. assert (forall A, has_rule pd' A -> productive pd' A) as Hprod.
    { intros A HA. destruct (rule_element pd pd' rs Hd Hed A HA) as [x Hx]. apply (edd_domain _ _ Hed) in HA.
      apply (has_rule_defined pd rs Hd A x Hx) in HA. destruct (Hall x HA) as (s & nt & Hnt & Hroot & _).
      destruct (derivation_named pd pd' rs Hd Hed nt Hnt A) as (pt & Hpt & Hrt & _); [congruence|]. exists pt. auto. }
    destruct (stuck_completion pd' st Hwf Hcon stk F1 Hprod) as (pt & more & S1 & S2 & S3). exists more, (named pd' pt).
    destruct (named_derivation pd pd' rs Hd Hed pt S1) as [N1 N2]. split; [assumption|]. rewrite S2, F2, Hstart in N2. split; [congruence|]. rewrite named_yield. assumption.
Qed.
Lemma can_go_on_prefix {I} (rs : list (arule I)) s s' : can_go_on rs (s ++ s') -> can_go_on rs s.
Proof. intros [more Hm]. exists (s' ++ more). rewrite app_assoc. assumption. Qed.

(** ** C104.  If every name of the grammar stands for some text: the position reported is
    the length of the longest beginning of the script that can go on to a sentence. *)
Theorem C104_longest_beginning : forall (U : Unicode) (H : HashOrder) m (vm : VM) rs t ps, read_from m vm rs t ps -> all_stand_for_text rs ->
  forall fuel script v e v', parse vm ps fuel script v = (Err e, v') ->
  forall p, error_position e = Some p <-> p <= length script /\ forall k, k <= length script -> (can_go_on rs (take k script) <-> k <= p).
Proof.
  intros U H m vm rs t ps Hr Hall fuel script v e v' Hp. destruct (where_it_stops m vm rs t ps fuel script v e v' Hr Hp) as (before & rest & -> & He & Hno & Hyes). specialize (Hyes Hall).
  assert (forall k, k <= length (before ++ rest) -> (can_go_on rs (take k (before ++ rest)) <-> k <= length before)) as Hk.
  { intros k Hk. split.
    - intros Hc. destruct (decide (k <= length before)) as [|Hn]; [assumption|]. exfalso. rewrite app_length in Hk. destruct rest as [|c rest]; [cbn in Hk; lia|].
      rewrite take_app_ge in Hc by lia. destruct (k - length before) as [|j] eqn:Ej; [lia|]. cbn [take] in Hc. destruct Hc as [more Hm].
      rewrite <- app_assoc in Hm. apply (Hno _ Hm). reflexivity.
    - intros Hle. rewrite take_app_le by lia. apply (can_go_on_prefix rs _ (drop k before)). rewrite take_drop. assumption. }
  intros p. rewrite He. split.
  - intros [= <-]. split; [rewrite app_length; lia|exact Hk].
  - intros [Hle Hp']. f_equal. pose proof (Hk p Hle) as K1. pose proof (Hp' p Hle) as K2.
    pose proof (Hk (length before) ltac:(rewrite app_length; lia)) as K3. pose proof (Hp' (length before) ltac:(rewrite app_length; lia)) as K4. apply Nat.le_antisymm; [apply K4, K3, le_n|apply K1, K2, le_n].
Qed.
Print Assumptions C104_longest_beginning.

(** So the position tells a script that is not finished from one that is wrong. *)
Theorem C104_unfinished : forall (U : Unicode) (H : HashOrder) m (vm : VM) rs t ps, read_from m vm rs t ps -> all_stand_for_text rs ->
  forall fuel script v e v', parse vm ps fuel script v = (Err e, v') -> (error_position e = Some (length script) <-> can_go_on rs script).
Proof.
  intros U H m vm rs t ps Hr Hall fuel script v e v' Hp. rewrite (C104_longest_beginning U H m vm rs t ps Hr Hall fuel script v e v' Hp (length script)). split.
  - intros [_ Hk]. specialize (Hk (length script) (le_n _)). rewrite firstn_all in Hk. apply Hk. lia.
  - intros Hc. split; [lia|]. intros k Hk. split; [intros _; assumption|]. intros _. apply (can_go_on_prefix rs _ (drop k script)). rewrite take_drop. assumption.
Qed.
Print Assumptions C104_unfinished.

(** While a sentence is typed in, no error is reported inside of what stands there already,
    whether or not every name stands for some text. *)
Theorem C104_typing : forall (U : Unicode) (H : HashOrder) m (vm : VM) rs t ps, read_from m vm rs t ps ->
  forall script more, sentence rs (script ++ more) ->
  forall fuel v e v', parse vm ps fuel script v = (Err e, v') -> error_position e = Some (length script) /\ more <> [].
Proof.
  intros U H m vm rs t ps Hr script more Hs fuel v e v' Hp. destruct (where_it_stops m vm rs t ps fuel script v e v' Hr Hp) as (before & rest & -> & He & Hno & _).
  rewrite <- app_assoc in Hs. specialize (Hno _ Hs). destruct rest as [|c rest]; [|cbn in Hno; congruence]. rewrite app_nil_r. split; [assumption|]. intros ->. exact (Hno eq_refl).
Qed.
Print Assumptions C104_typing.

(** A wrong char is found as soon as it is there, and however much follows. *)
Theorem C104_wrong_char : forall (U : Unicode) (H : HashOrder) m (vm : VM) rs t ps, read_from m vm rs t ps -> all_stand_for_text rs ->
  forall before c after, can_go_on rs before -> ~ can_go_on rs (before ++ [c]) ->
  forall fuel v e v', parse vm ps fuel (before ++ c :: after) v = (Err e, v') -> error_position e = Some (length before).
Proof.
  intros U H m vm rs t ps Hr Hall before c after Hb Hc fuel v e v' Hp. apply (C104_longest_beginning U H m vm rs t ps Hr Hall fuel _ v e v' Hp).
  split; [rewrite app_length; lia|]. intros k Hk. split.
  - intros Hg. destruct (decide (k <= length before)) as [|Hn]; [assumption|]. exfalso. apply Hc.
    rewrite take_app_ge in Hg by lia. destruct (k - length before) as [|j] eqn:Ej; [lia|]. cbn [take] in Hg.
    apply (can_go_on_prefix rs _ (take j after)). rewrite <- app_assoc. exact Hg.
  - intros Hle. rewrite take_app_le by lia. apply (can_go_on_prefix rs _ (drop k before)). rewrite take_drop. assumption.
Qed.
Print Assumptions C104_wrong_char.

(** ** Without the condition: [start->"a"start;] has no sentence at all, and yet every
    script of a's is refused at its end, as if something were missing. *)
Section example.
Local Existing Instance ascii_unicode.
Local Existing Instance plain_order.
Notation K := (vm_instr NullVm).
Definition endless_rules : list (arule K) := [mkARule start OvAbsent [[(lit "a", Terminal); (start, NonTerminal)]] []].
Definition endless_text : str := lit "start->""a""start;".
Ltac name := split; [reflexivity|repeat constructor].
Lemma endless_text_ok : grammar_text null_reads endless_rules endless_text.
Proof.
  rewrite <- (app_nil_r endless_text). apply null_then; [|apply null_end]. apply (null_rule start _ (lit """a""start")); [name|]. apply alts_one.
  apply alt_elements, (els_cons _ (lit """a""") [] _ start); [apply one_quoted; discriminate|constructor|apply els_one, el_name; name|intros E; discriminate E].
Qed.
Lemma endless_none s : ~ sentence endless_rules s.
Proof.
  intros (nt & D & R & _). revert D R. assert (forall n nt, ncount nt <= n -> nderivation endless_rules nt -> nroot nt = (start, NonTerminal) -> False) as Hn; [|exact (Hn (ncount nt) nt (le_n _))].
  clear nt. induction n as [|n IH]; intros nt Hc D R; [destruct nt; cbn in Hc; lia|]. inversion D as [|? i subs Hs Hsubs]; subst; [discriminate R|]. injection R as ->.
  apply Recipes_proofs.plain_says in Hs; [|apply one_rule_plain]. unfold endless_rules in Hs. rewrite Recipes_proofs.alts_cons in Hs. cbn [ar_name ar_alts] in Hs.
  apply elem_of_list_lookup_2 in Hs. apply elem_of_app in Hs as [Hs|Hs]; [|inversion Hs]. destruct (decide (start = start)) as [_|]; [|inversion Hs].
  apply elem_of_list_singleton in Hs. destruct subs as [|s1 [|s2 [|s3 subs]]]; try discriminate Hs. cbn [map] in Hs. injection Hs as _ Hs2.
  inversion Hsubs as [|? ? _ Hf]; subst. inversion Hf as [|? ? D2 _]; subst. apply (IH s2); [|assumption..].
  cbn [ncount] in Hc. unfold list_sum in Hc. cbn [map foldr] in Hc. lia.
Qed.
Definition stops_at (r : outcome Empty_set (Parser K)) (script : str) (p : nat) : bool :=
  match r with Ok ps => match fst (parse NullVm ps 60 script 0%N) with Err e => bool_decide (error_position e = Some p) | _ => false end | _ => false end.
Lemma stops_at_ok r script p : stops_at r script p = true -> exists ps, r = Ok ps /\ exists e v', parse NullVm ps 60 script 0%N = (Err e, v') /\ error_position e = Some p.
Proof.
  unfold stops_at. destruct r as [ps| | |]; try discriminate. intros E. exists ps. split; [reflexivity|].
  destruct (parse NullVm ps 60 script 0%N) as [[tr|e| |] v']; try discriminate. apply bool_decide_eq_true in E. eauto.
Qed.
Ltac fits := split; cbn [first_fuel follow_fuel]; apply Nat.leb_le || apply Nat.ltb_lt; vm_compute; reflexivity.
Theorem C104_without_texts_refuted : exists rs t ps script e v', read_from Checked NullVm rs t ps /\ parse NullVm ps 60 script 0%N = (Err e, v') /\
  error_position e = Some (length script) /\ ~ can_go_on rs script.
Proof.
  destruct (stops_at_ok (new_from_text Checked NullVm (mkFuels 60 2200) endless_text) (lit "aa") 2) as (ps & Eps & e & v' & Ep & Ee); [vm_compute; reflexivity|].
  exists endless_rules, endless_text, ps, (lit "aa"), e, v'. split; [|split; [assumption|split; [assumption|intros [more Hm]; exact (endless_none _ Hm)]]].
  apply (read_null endless_rules endless_text _ endless_text_ok eq_refl ltac:(fits) Eps). reflexivity.
Qed.
Print Assumptions C104_without_texts_refuted.

(** ** Non-vacuity: [start->"x"num;num->"a"|"b"num;] (C59), all names of which stand for
    texts; xb is not finished, xc is wrong. *)
Example C104_example : all_stand_for_text nx_rules /\ sentence nx_rules (lit "xba") /\
  (exists ps, read_from Checked NullVm nx_rules nx_text ps /\ exists e v', parse NullVm ps 60 (lit "xb") 0%N = (Err e, v') /\ error_position e = Some 2) /\
  (exists ps, read_from Checked NullVm nx_rules nx_text ps /\ exists e v', parse NullVm ps 60 (lit "xcb") 0%N = (Err e, v') /\ error_position e = Some 1).
Proof.
  assert (forall x i w, alternatives_for nx_rules x !! i = Some w -> says nx_rules x i w) as Hs.
  { intros x i w Hw. apply Recipes_proofs.plain_says; [|exact Hw]. intros r Hr. repeat (apply elem_of_cons in Hr as [->|Hr]; [discriminate|]). inversion Hr. }
  assert (nderivation nx_rules (NNode (lit "num") [NLeaf (lit "a")])) as D1 by (apply (nder_node _ _ 0); [apply Hs; reflexivity|apply Forall_singleton; constructor]).
  assert (nderivation nx_rules (NNode (lit "num") [NLeaf (lit "b"); NNode (lit "num") [NLeaf (lit "a")]])) as D2.
  { apply (nder_node _ _ 1); [apply Hs; reflexivity|]. apply Forall_cons_2; [constructor|]. apply Forall_singleton. exact D1. }
  assert (sentence nx_rules (lit "xba")) as S.
  { exists (NNode start [NLeaf (lit "x"); NNode (lit "num") [NLeaf (lit "b"); NNode (lit "num") [NLeaf (lit "a")]]]). split; [|split; reflexivity].
    apply (nder_node _ _ 0); [apply Hs; reflexivity|]. apply Forall_cons_2; [constructor|]. apply Forall_singleton. exact D2. }
  split; [|split; [exact S|split]].
  - intros x Hx. assert (x = start \/ x = lit "num") as [->| ->].
    { unfold defined, rules_for, nx_rules in Hx. rewrite !filter_cons, filter_nil in Hx. cbn [ar_name] in Hx.
      destruct (decide (start = x)); [auto|]. destruct (decide (lit "num" = x)); [auto|]. congruence. }
    + exists (lit "xba"). exact S.
    + exists (lit "a"), (NNode (lit "num") [NLeaf (lit "a")]). split; [exact D1|split; reflexivity].
  - destruct (stops_at_ok (new_from_text Checked NullVm (mkFuels 60 2200) nx_text) (lit "xb") 2) as (ps & Eps & Hp); [vm_compute; reflexivity|]. exists ps. split; [|exact Hp].
    apply (read_null nx_rules nx_text _ nx_text_ok eq_refl ltac:(fits) Eps). reflexivity.
  - destruct (stops_at_ok (new_from_text Checked NullVm (mkFuels 60 2200) nx_text) (lit "xcb") 1) as (ps & Eps & Hp); [vm_compute; reflexivity|]. exists ps. split; [|exact Hp].
    apply (read_null nx_rules nx_text _ nx_text_ok eq_refl ltac:(fits) Eps). reflexivity.
Qed.
End example.
