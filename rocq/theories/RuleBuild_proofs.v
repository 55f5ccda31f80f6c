(** * The parser data built from an abstract grammar describe it *)
From Verif Require Import Base Peekables Tree Errors ParseFuncs ParserData Vm RuleParsing
  SpecText SpecData SpecGrammar SpecWeave SpecRules ParserData_proofs VmText_proofs RuleText_proofs.

(** ** First occurrences *)
Lemma firsts_ext l : forall s s', (forall k, k ∈ s <-> k ∈ s') -> firsts s l = firsts s' l.
Proof.
  induction l as [|e l IH]; intros s s' Hs; [reflexivity|]. cbn [firsts].
  destruct (decide (e ∈ s)) as [He|He], (decide (e ∈ s')) as [He'|He']; [auto|exfalso; apply He', Hs, He|exfalso; apply He, Hs, He'|].
  f_equal. apply IH. intros k. rewrite !elem_of_cons, Hs. reflexivity.
Qed.
Lemma firsts_elem l : forall s k, k ∈ s ++ firsts s l <-> k ∈ s \/ k ∈ l.
Proof.
  induction l as [|e l IH]; intros s k; cbn [firsts].
  - rewrite app_nil_r. split; [auto|]. intros [?|H]; [assumption|]. inversion H.
  - rewrite elem_of_cons. destruct (decide (e ∈ s)) as [He|He].
    + rewrite IH. split; [tauto|]. intros [?|[->|?]]; auto.
    + specialize (IH (e :: s) k). rewrite !elem_of_app, ?elem_of_cons in IH |- *. rewrite ?elem_of_cons. tauto.
Qed.
Lemma firsts_app l1 : forall s l2, firsts s (l1 ++ l2) = firsts s l1 ++ firsts (s ++ firsts s l1) l2.
Proof.
  induction l1 as [|e l1 IH]; intros s l2; cbn [firsts app].
  - rewrite app_nil_r. reflexivity.
  - destruct (decide (e ∈ s)) as [He|He]; [apply IH|]. cbn [app]. f_equal. rewrite IH. f_equal. apply firsts_ext.
    intros k. repeat rewrite ?elem_of_app, ?elem_of_cons. tauto.
Qed.

Section build.
Context (vm : VM).
Notation I := (vm_instr vm).
Implicit Types (pd : ParserData I) (keys : list (str * ElementType)).

(** ** Interning *)
Definition grown keys es := keys ++ firsts keys es.
Lemma grown_app keys es es' : grown (grown keys es) es' = grown keys (es ++ es').
Proof. unfold grown. rewrite firsts_app, <- app_assoc. reflexivity. Qed.
Lemma grown_nil keys : grown keys [] = keys.
Proof. apply app_nil_r. Qed.
Lemma grown_lookup keys es i k : keys !! i = Some k -> grown keys es !! i = Some k.
Proof. intros H. apply lookup_app_l_Some. assumption. Qed.
Lemma intern_one pd keys e i pd' : table_is pd keys -> get_or_add_element_key pd e = (i, pd') ->
  table_is pd' (grown keys [e]) /\ grown keys [e] !! i = Some e /\ parse_rules pd' = parse_rules pd.
Proof.
  intros Ht E. assert (parse_rules pd' = parse_rules pd) as Hpr.
  { unfold get_or_add_element_key in E. destruct (element_verbose_map pd !! e); injection E as <- <-; reflexivity. }
  destruct (table_get_or_add pd e keys Ht) as [(He & ix & Hix & E2)|(He & pd2 & E2 & Ht2)]; rewrite E in E2; injection E2 as -> ->;
    unfold grown; cbn [firsts]; [rewrite decide_True by assumption; rewrite app_nil_r; auto|]. rewrite decide_False by assumption. split; [assumption|]. split; [|assumption].
  rewrite lookup_app_r, Nat.sub_diag by lia. reflexivity.
Qed.
Lemma interns_spec es : forall pd keys ixs pd', table_is pd keys -> interns vm pd es = (ixs, pd') ->
  table_is pd' (grown keys es) /\ Forall2 (fun e i => grown keys es !! i = Some e) es ixs /\ parse_rules pd' = parse_rules pd.
Proof.
  induction es as [|e es IH]; intros pd keys ixs pd' Ht E; cbn [interns] in E.
  - injection E as <- <-. rewrite grown_nil. auto.
  - destruct (get_or_add_element_key pd e) as [i pd1] eqn:E1. destruct (interns vm pd1 es) as [is pd2] eqn:E2. injection E as <- <-.
    destruct (intern_one pd keys e i pd1 Ht E1) as (Ht1 & Hi & Hp1). destruct (IH pd1 _ _ _ Ht1 E2) as (Ht2 & Hf & Hp2).
    rewrite grown_app in *. cbn [app] in *. split; [assumption|]. split; [|congruence]. constructor; [|assumption].
    change (e :: es) with ([e] ++ es). rewrite <- grown_app. apply grown_lookup. assumption.
Qed.
Definition stands_in keys (a : list (str * ElementType)) (p : Production) : Prop :=
  exists ixs, alternative_of ixs p /\ Forall2 (fun e ix => keys !! ix = Some e) a ixs.
Lemma stands_in_grown keys es a p : stands_in keys a p -> stands_in (grown keys es) a p.
Proof. intros (ixs & H1 & H2). exists ixs. split; [assumption|]. eapply Forall2_impl; [exact H2|]. intros ? ?. apply grown_lookup. Qed.
Lemma alternative_production_of ixs : alternative_of ixs (production_of ixs).
Proof. destruct ixs; [left; auto|right]. split; [discriminate|reflexivity]. Qed.
Lemma intern_alts_spec alts : forall pd keys ps pd', table_is pd keys -> intern_alts vm pd alts = (ps, pd') ->
  table_is pd' (grown keys (concat alts)) /\ Forall2 (stands_in (grown keys (concat alts))) alts ps /\ parse_rules pd' = parse_rules pd.
Proof.
  induction alts as [|a alts IH]; intros pd keys ps pd' Ht E; cbn [intern_alts concat] in *.
  - injection E as <- <-. rewrite grown_nil. auto.
  - destruct (interns vm pd a) as [ixs pd1] eqn:E1. destruct (intern_alts vm pd1 alts) as [ps2 pd2] eqn:E2. injection E as <- <-.
    destruct (interns_spec a pd keys ixs pd1 Ht E1) as (Ht1 & Hi & Hp1). destruct (IH pd1 _ _ _ Ht1 E2) as (Ht2 & Hf & Hp2).
    rewrite grown_app in *. split; [assumption|]. split; [|congruence]. constructor; [|assumption].
    rewrite <- grown_app. apply stands_in_grown. exists ixs. auto using alternative_production_of.
Qed.

(** ** Rules *)
Definition ignore_in keys (o : override) (ig : option nat) : Prop :=
  match o with
  | OvIgnore x => exists ix, ig = Some ix /\ keys !! ix = Some (x, NonTerminal)
  | _ => ig = None
  end.
Lemma ignore_in_grown keys es o ig : ignore_in keys o ig -> ignore_in (grown keys es) o ig.
Proof. destruct o; cbn; auto. intros (ix & -> & H). exists ix. auto using grown_lookup. Qed.
Definition rule_in keys (defs : list (arule I)) (nr : option (NonTerminalRules I)) : Prop :=
  match defs with
  | [] => nr = None
  | r0 :: _ => exists nr', nr = Some nr' /\ Forall2 (stands_in keys) (concat (map ar_alts defs)) (possible_productions nr') /\
      ignore_in keys (ar_override r0) (ntr_ignore nr') /\ instruction nr' = ar_instr r0
  end.
Lemma rule_in_grown keys es defs nr : rule_in keys defs nr -> rule_in (grown keys es) defs nr.
Proof.
  destruct defs as [|r0 more]; [auto|]. intros (nr' & -> & H1 & H2 & H3). exists nr'. split; [reflexivity|].
  split; [eapply Forall2_impl; [exact H1|]; intros; apply stands_in_grown; assumption|]. auto using ignore_in_grown.
Qed.
Definition all_keys (rs : list (arule I)) := firsts [] (concat (map mentioned rs)).
Record built (rs : list (arule I)) pd : Prop := {
  bu_table : table_is pd (all_keys rs);
  bu_global : pr_ignore (parse_rules pd) = None;
  bu_rules : forall A, match all_keys rs !! A with
    | Some (x, NonTerminal) => rule_in (all_keys rs) (rules_for x rs) (pd_rules pd !! A)
    | _ => pd_rules pd !! A = None
    end;
}.
Lemma all_keys_grown rs r : all_keys (rs ++ [r]) = grown (all_keys rs) (mentioned r).
Proof.
  unfold all_keys, grown. rewrite map_app, concat_app, firsts_app. f_equal. cbn [map concat]. rewrite app_nil_r. reflexivity.
Qed.
Lemma rules_for_app x (rs rs' : list (arule I)) : rules_for x (rs ++ rs') = rules_for x rs ++ rules_for x rs'.
Proof. apply filter_app. Qed.
Lemma rules_for_one x (r : arule I) : rules_for x [r] = if decide (ar_name r = x) then [r] else [].
Proof. unfold rules_for. rewrite filter_cons, filter_nil. reflexivity. Qed.
Lemma rules_for_known x rs : (x, NonTerminal) ∉ all_keys rs -> rules_for x rs = [].
Proof.
  intros Hn. unfold rules_for. induction rs as [|r rs IH] using rev_ind; [reflexivity|]. rewrite filter_app.
  rewrite all_keys_grown in Hn. unfold grown in Hn. rewrite firsts_elem in Hn. rewrite IH by tauto.
  rewrite filter_cons, filter_nil. destruct (decide (ar_name r = x)) as [<-|]; [|reflexivity]. exfalso. apply Hn. right. left.
Qed.
Lemma read_rule_spec pd keys r key nr pd' : table_is pd keys -> pr_ignore (parse_rules pd) = None ->
  read_rule vm pd r = ((key, nr), pd') ->
  table_is pd' (grown keys (mentioned r)) /\ parse_rules pd' = parse_rules pd /\
  grown keys (mentioned r) !! key = Some (ar_name r, NonTerminal) /\
  Forall2 (stands_in (grown keys (mentioned r))) (ar_alts r) (possible_productions nr) /\
  ignore_in (grown keys (mentioned r)) (ar_override r) (ntr_ignore nr) /\ instruction nr = ar_instr r.
Proof.
  intros Ht Hg E. unfold read_rule in E. destruct (get_or_add_element_key pd (ar_name r, NonTerminal)) as [k1 pd1] eqn:E1.
  destruct (build_override vm pd1 (ar_override r)) as [ig pd2] eqn:E2. destruct (intern_alts vm pd2 (ar_alts r)) as [ps pd3] eqn:E3.
  injection E as <- <- <-. cbn [possible_productions ntr_ignore instruction].
  destruct (intern_one pd keys _ k1 pd1 Ht E1) as (Ht1 & Hk & Hp1).
  assert (table_is pd2 (grown keys ([(ar_name r, NonTerminal)] ++ override_element (ar_override r))) /\ parse_rules pd2 = parse_rules pd1 /\
    ignore_in (grown keys ([(ar_name r, NonTerminal)] ++ override_element (ar_override r))) (ar_override r) ig) as (Ht2 & Hp2 & Hig).
  { rewrite <- grown_app. assert (pr_ignore (parse_rules pd1) = None) as Hg1 by congruence.
    destruct (ar_override r) as [| |x|x]; cbn [build_override override_element ignore_in] in *;
      try (injection E2 as <- <-; rewrite grown_nil; auto; fail).
    destruct (get_or_add_element_key pd1 (x, NonTerminal)) as [i pd2'] eqn:E4. injection E2 as <- <-.
    destruct (intern_one pd1 _ _ i pd2' Ht1 E4) as (Ht2 & Hi & Hp2). split; [assumption|]. split; [assumption|]. exists i. auto. }
  destruct (intern_alts_spec _ pd2 _ ps pd3 Ht2 E3) as (Ht3 & Hf & Hp3). rewrite grown_app in Ht3, Hf. rewrite <- app_assoc in Ht3, Hf.
  change ([(ar_name r, NonTerminal)] ++ override_element (ar_override r) ++ concat (ar_alts r)) with (mentioned r) in Ht3, Hf.
  split; [assumption|]. split; [congruence|]. split; [|split; [assumption|split; [|reflexivity]]].
  - unfold mentioned. change (?a :: ?b) with ([a] ++ b). rewrite <- grown_app. apply grown_lookup. assumption.
  - unfold mentioned. change (?a :: ?b ++ ?c) with (([a] ++ b) ++ c). rewrite <- grown_app. apply ignore_in_grown. assumption.
Qed.
Lemma build_rule_built rs pd r : built rs pd -> built (rs ++ [r]) (build_rule vm pd r).
Proof.
  intros [Ht Hg Hr]. unfold build_rule. destruct (read_rule vm pd r) as [[key nr] pd'] eqn:E.
  destruct (read_rule_spec pd _ r key nr pd' Ht Hg E) as (Ht' & Hp & Hk & Hps & Hig & Hin).
  rewrite <- all_keys_grown in *.
  assert (pd_rules pd' = pd_rules pd) as Hpr by (unfold pd_rules; rewrite Hp; reflexivity).
  assert (exists nr0, merge_rule vm pd' nr key = set_rules pd' (<[key := nr0]> (pd_rules pd)) /\
    rule_in (all_keys (rs ++ [r])) (rules_for (ar_name r) (rs ++ [r])) (Some nr0)) as (nr0 & Em & Hnr0).
  { unfold merge_rule. rewrite Hpr. rewrite rules_for_app, rules_for_one, decide_True by reflexivity.
    assert (rule_in (all_keys rs) (rules_for (ar_name r) rs) (pd_rules pd !! key)) as Hold.
    { specialize (Hr key). destruct (all_keys rs !! key) as [k|] eqn:Ek.
      - assert (k = (ar_name r, NonTerminal)) as ->. { apply (grown_lookup _ (mentioned r)) in Ek. rewrite <- all_keys_grown in Ek. congruence. } exact Hr.
      - rewrite rules_for_known; [exact Hr|]. intros Hin'. apply elem_of_list_lookup in Hin' as [i Hi].
        assert (i = key) as ->; [|congruence]. apply (grown_lookup _ (mentioned r)) in Hi. rewrite <- all_keys_grown in Hi.
        eapply NoDup_lookup; [apply Ht'|exact Hi|exact Hk]. }
    apply (rule_in_grown _ (mentioned r)) in Hold. rewrite <- all_keys_grown in Hold.
    destruct (rules_for (ar_name r) rs) as [|r0 more] eqn:Erf; cbn [rule_in] in Hold.
    - rewrite Hold. exists nr. split; [reflexivity|]. cbn [app rule_in]. exists nr. split; [reflexivity|]. cbn [map concat]. rewrite app_nil_r. auto.
    - destruct Hold as (nro & -> & H1 & H2 & H3). eexists. split; [reflexivity|]. cbn [app rule_in]. eexists. split; [reflexivity|]. cbn [possible_productions ntr_ignore instruction].
      split; [|auto]. change (r0 :: more ++ [r]) with ((r0 :: more) ++ [r]). rewrite map_app, concat_app. apply Forall2_app; [assumption|].
      cbn [map concat]. rewrite app_nil_r. assumption. }
  rewrite Em. split.
  - apply table_set_rules. assumption.
  - cbn. rewrite Hp. assumption.
  - intros A. rewrite pd_rules_set_rules. destruct (decide (A = key)) as [->|HA].
    + rewrite Hk, lookup_insert. assumption.
    + rewrite lookup_insert_ne by congruence. specialize (Hr A).
      destruct (all_keys rs !! A) as [[x [|]]|] eqn:EA.
      * apply (grown_lookup _ (mentioned r)) in EA. rewrite <- all_keys_grown in EA. rewrite EA. assumption.
      * apply (grown_lookup _ (mentioned r)) in EA. rewrite <- all_keys_grown in EA. rewrite EA.
        assert (ar_name r <> x) as Hx. { intros <-. apply HA. eapply NoDup_lookup; [apply Ht'|exact EA|exact Hk]. }
        rewrite rules_for_app, rules_for_one, decide_False, app_nil_r by assumption. rewrite all_keys_grown. apply rule_in_grown. assumption.
      * destruct (all_keys (rs ++ [r]) !! A) as [[x [|]]|] eqn:EA'; [assumption| |assumption].
        assert (ar_name r <> x) as Hx. { intros <-. apply HA. eapply NoDup_lookup; [apply Ht'|exact EA'|exact Hk]. }
        rewrite rules_for_app, rules_for_one, decide_False, app_nil_r by assumption.
        rewrite rules_for_known; [assumption|]. intros Hin'. apply elem_of_list_lookup in Hin' as [i Hi].
        assert (i = A) as ->; [|congruence]. apply (grown_lookup _ (mentioned r)) in Hi. rewrite <- all_keys_grown in Hi.
        eapply NoDup_lookup; [apply Ht'|exact Hi|exact EA'].
Qed.
Lemma built_all rs : built rs (fold_left (build_rule vm) rs pd_new).
Proof.
  induction rs as [|r rs IH] using rev_ind.
  - split; [apply table_new|reflexivity|]. intros A. reflexivity.
  - rewrite fold_left_app. apply build_rule_built. assumption.
Qed.

(** ** From [built] to the specification *)
Lemma built_described rs pd : built rs pd -> described pd rs.
Proof.
  intros [Ht Hg Hr].
  assert (forall a p, stands_in (all_keys rs) a p -> stands_for pd a p) as Hst.
  { intros a p (ixs & H1 & H2). exists ixs. split; [assumption|]. eapply Forall2_impl; [exact H2|]. intros e ix. rewrite (table_verbose pd _ ix Ht). auto. }
  split.
  - apply table_all_verbose. assumption.
  - intros key ix. apply (table_index pd _ key ix Ht).
  - intros A [nr HA]. specialize (Hr A). rewrite (table_verbose pd _ A Ht). destruct (all_keys rs !! A) as [[x [|]]|] eqn:EA; try congruence.
    destruct (rules_for x rs) as [|r0 more] eqn:E; [cbn in Hr; congruence|].
    assert (r0 ∈ rules_for x rs) as Hin by (rewrite E; left). apply elem_of_list_filter in Hin as [<- Hin]. eauto.
  - intros x r0 more Hrf.
    assert ((x, NonTerminal) ∈ all_keys rs) as Hin.
    { destruct (decide ((x, NonTerminal) ∈ all_keys rs)) as [|Hn]; [assumption|]. rewrite rules_for_known in Hrf by assumption. discriminate. }
    apply elem_of_list_lookup in Hin as [A HA]. specialize (Hr A). rewrite HA, Hrf in Hr. destruct Hr as (nr & Hnr & H1 & H2 & H3).
    exists nr. unfold get_rule_by_element_verbose.
    assert (get_element_index pd (x, NonTerminal) = Some A) as ->. { apply (table_index pd _ _ _ Ht). rewrite (table_verbose pd _ A Ht). assumption. }
    split; [assumption|]. split; [eapply Forall2_impl; [exact H1|auto]|]. split; [|assumption].
    destruct (ar_override r0); cbn in *; auto. destruct H2 as (ix & -> & H2). exists ix. rewrite (table_verbose pd _ ix Ht). auto.
  - assumption.
Qed.
End build.

(** ** What a description gives *)
Section described.
Context {I : Type} (pd : ParserData I) (rs : list (arule I)) (Hd : described pd rs).
Lemma described_rule A nr : pd_rules pd !! A = Some nr -> exists r0 more,
  get_element_verbose pd A = Some (ar_name r0, NonTerminal) /\ rules_for (ar_name r0) rs = r0 :: more /\
  Forall2 (stands_for pd) (concat (map ar_alts (r0 :: more))) (possible_productions nr) /\
  ignore_is pd (ar_override r0) (ntr_ignore nr) /\ instruction nr = ar_instr r0.
Proof.
  intros HA. destruct (de_none pd rs Hd A ltac:(eexists; exact HA)) as (r & Hr & HAr).
  destruct (rules_for (ar_name r) rs) as [|r0 more] eqn:E.
  { exfalso. assert (r ∈ rules_for (ar_name r) rs) as Hin by (apply elem_of_list_filter; auto). rewrite E in Hin. inversion Hin. }
  assert (ar_name r0 = ar_name r) as Hn. { assert (r0 ∈ rules_for (ar_name r) rs) as Hin by (rewrite E; left). apply elem_of_list_filter in Hin. tauto. }
  exists r0, more. rewrite Hn. split; [assumption|]. split; [assumption|].
  destruct (de_rule pd rs Hd (ar_name r) r0 more E) as (nr' & Hnr & H). unfold get_rule_by_element_verbose in Hnr.
  rewrite (proj2 (de_numbers pd rs Hd _ A) HAr) in Hnr. unfold get_rule_by_key in Hnr. assert (nr' = nr) as <- by congruence. exact H.
Qed.
Lemma described_alternative A w e : alternative pd A w -> e ∈ w -> is_Some (get_element_verbose pd e).
Proof.
  intros (nr & p & HA & Hp & ->) He. destruct (described_rule A nr HA) as (r0 & more & _ & _ & Hf & _).
  apply elem_of_list_lookup in Hp as [j Hj]. destruct (Forall2_lookup_r _ _ _ _ _ Hf Hj) as (a & _ & ixs & Halt & Hix).
  assert (right_side p = ixs) as E by (destruct Halt as [[-> ->]|[_ ->]]; reflexivity). rewrite E in He.
  apply elem_of_list_lookup in He as [i Hi]. destruct (Forall2_lookup_r _ _ _ _ _ Hix Hi) as (k & _ & Hk). eauto.
Qed.
Lemma described_indices : indices_ok pd.
Proof.
  split; [exact described_alternative|]. intros A nr ig HA Hig. destruct (described_rule A nr HA) as (r0 & more & _ & _ & _ & Hi & _).
  rewrite Hig in Hi. destruct (ar_override r0); cbn in Hi; try discriminate. destruct Hi as (ix & E & Hx). injection E as ->. eauto.
Qed.
Lemma described_nonterminal A : has_rule pd A -> is_nonterminal pd A.
Proof. intros HA. destruct (de_none pd rs Hd A HA) as (r & _ & E). eexists. exact E. Qed.
Lemma stands_for_det a p p' : stands_for pd a p -> stands_for pd a p' -> p = p'.
Proof.
  intros (ixs & H1 & H2) (ixs' & H1' & H2'). assert (ixs = ixs') as <-.
  { clear H1 H1'. revert ixs' H2'. induction H2 as [|e ix a ixs He Hf IH]; intros ixs' H2'; inversion H2' as [|? ix' ? ixs2 He' Hf']; subst; [reflexivity|].
    f_equal; [|auto]. apply (de_numbers pd rs Hd) in He. apply (de_numbers pd rs Hd) in He'. congruence. }
  destruct H1 as [[? ->]|[? ->]], H1' as [[? ->]|[? ->]]; congruence.
Qed.
End described.
Lemma zip_length {E} d : forall t l, @zip_elements E d t = Ok l -> length l = length d /\ length d <= length t.
Proof.
  induction d as [|x d IH]; intros [|y t] l H; cbn in H; try discriminate; try (injection H as <-; cbn; lia).
  destruct (@zip_elements E d t) as [l'|e| |] eqn:El; cbn in H; try discriminate. injection H as <-. specialize (IH t l' El). cbn. lia.
Qed.
Lemma built_wf (vm : VM) rs (pd : ParserData (vm_instr vm)) : built vm rs pd -> wf_grammar pd.
Proof.
  intros Hb. split.
  - destruct Hb as [(_ & Ht & Hd & _) _ _]. rewrite Ht, <- (map_length ed_name), Hd, !fmap_length. reflexivity.
  - apply (described_nonterminal pd rs), built_described, Hb.
Qed.
