(** * Property theorems, rule text: C11, C12, C13, C14, C15 (texts), C17, C24 (texts),
    C49, C53 (braces).  The specification is SpecRules.v: [grammar_text reads rs t] says
    that [t] is a text of the abstract grammar [rs], [described pd rs] that the parser
    data [pd] say exactly what [rs] says; [edited_data] (SpecWeave.v) is the effect of the
    IGNORE overrides. *)
From Verif Require Import Base Peekables Tree Errors ParseFuncs ParserData Vm SimpleStackVm StackVm RuleParsing
  FirstSets FollowSets SteuerMap ScriptParser Samples
  SpecText SpecData SpecGrammar SpecWeave SpecRules SpecContract SpecParser
  Streams_proofs ParseFuncs_proofs Terminal_proofs ParserData_proofs VmText_proofs RuleText_proofs RuleRead_proofs RuleBuild_proofs Weave_proofs
  Checks Props_weave Props_steuer Construct_proofs.

Lemma supported_reads {U : Unicode} vm reads : supported vm reads -> vm_reads vm reads.
Proof. intros []; auto using null_vm_reads, counting_vm_reads, simple_vm_reads, stack_vm_reads. Qed.

Notation at_ w n pd := (mkRP (outer w n) pd).

Section text.
Context {U : Unicode} {H : HashOrder} (vm : VM) (reads : str -> str -> list (vm_instr vm) -> Prop) (Hvm : vm_reads vm reads).
Notation data rs := (fold_left (build_rule vm) rs pd_new).
Lemma data_built rs : built vm rs (data rs).
Proof. apply built_all. Qed.
Lemma data_described rs : described (data rs) rs.
Proof. apply built_described, data_built. Qed.
Lemma data_wf rs : wf_grammar (data rs).
Proof. apply (built_wf vm rs), data_built. Qed.
Lemma data_indices rs : indices_ok (data rs).
Proof. apply (described_indices _ rs), data_described. Qed.
(** What follows the reading of the rules. *)
Lemma parse_rules_split t : parse_rules_fn vm (rp_new vm t) =
  match rules_loop vm (S (length t)) (at_ t 0 pd_new) with
  | (Ok _, s1) => match edit_rules vm (rp_pd s1) with
     | Ok pd => (Ok tt, mkRP (rp_pp s1) pd)
     | Err e => (Err e, s1)
     | Panic => (Panic, s1)
     | Diverge => (Diverge, s1)
     end
  | (Err e, s1) => (Err e, s1)
  | (Panic, s1) => (Panic, s1)
  | (Diverge, s1) => (Diverge, s1)
  end.
Proof. reflexivity. Qed.
Definition final t (r : outcome ParserError unit) (s : RP (vm_instr vm)) : Prop :=
  exists pre w', rp_pp s = outer w' (length pre) /\ t = pre ++ w' /\
    match r with
    | Ok _ => w' = [] /\ exists rs, grammar_text reads rs t /\ edit_rules vm (data rs) = Ok (rp_pd s)
    | Err e => error_at (length pre) e
    | Panic | Diverge => False
    end.
Lemma parse_text t : exists r s, parse_rules_fn vm (rp_new vm t) = (r, s) /\ final t r s.
Proof.
  rewrite parse_rules_split.
  destruct (rules_loop_runs vm reads Hvm (S (length t)) 0 t pd_new ltac:(lia)) as (r & pre & w' & pd' & E & Hw & Hr).
  rewrite E. cbn [Nat.add] in *. destruct r as [[]|e| |]; try contradiction.
  - destruct Hr as (-> & rs & Hrs & ->). rewrite app_nil_r in Hw. subst pre. cbn [rp_pd rp_pp].
    pose proof (edit_rules_spec (data rs) (data_wf rs) (data_indices rs)) as He.
    destruct (edit_rules vm (data rs)) as [pd2|e| |] eqn:Ee; try contradiction; (eexists _, _; split; [reflexivity|]; exists t, []; rewrite app_nil_r; split; [reflexivity|]; split; [reflexivity|]).
    + split; [reflexivity|]. eauto.
    + destruct He as (A & nr & ig & HA & Hig & Hc).
      pose proof (check_spec (data rs) ig A (data_wf rs) (data_indices rs) (proj2 (data_indices rs) A nr ig HA Hig)) as Hs. rewrite Hc in Hs.
      destruct Hs as (x & u & v & -> & _). exact Logic.I.
  - eexists _, _. split; [reflexivity|]. exists pre, w'. auto.
Qed.
Lemma parse_rendering rs t : tables_disjoint -> grammar_text reads rs t ->
  parse_rules_fn vm (rp_new vm t) =
  match edit_rules vm (data rs) with
  | Ok pd => (Ok tt, at_ [] (length t) pd)
  | Err e => (Err e, at_ [] (length t) (data rs))
  | Panic => (Panic, at_ [] (length t) (data rs))
  | Diverge => (Diverge, at_ [] (length t) (data rs))
  end.
Proof. intros Hd Ht. rewrite parse_rules_split. rewrite (rules_loop_eq vm Hd reads Hvm rs t Ht) by lia. reflexivity. Qed.
End text.

(** The hypothesis [tables_disjoint] concerns the chars above U+007F only. *)
Lemma tables_disjoint_above_ascii (U : Unicode) :
  (forall c, (127 < c)%N -> uni_white c = true -> uni_alpha c = false /\ uni_numeric c = false) -> tables_disjoint.
Proof.
  intros Hu c Hw Hn. unfold white, namechar, is_whitespace, is_alphanumeric, is_alphabetic, is_numeric, is_ascii_alpha, is_ascii_digit, in_range in *.
  specialize (Hu c). destruct (uni_white c), (uni_alpha c), (uni_numeric c);
    repeat match goal with
    | H : _ || _ = true |- _ => apply orb_prop in H as [H|H]
    | H : _ && _ = true |- _ => apply andb_prop in H as [? H]
    | H : _ \/ _ |- _ => destruct H as [H|H]
    end; rewrite ?N.leb_le, ?N.eqb_eq, ?N.ltb_lt in *; try discriminate; try lia; destruct Hu; (lia || auto || discriminate).
Qed.
Lemma ascii_tables : @tables_disjoint ascii_unicode.
Proof. apply tables_disjoint_above_ascii. discriminate. Qed.

(** ** C11.  Every text of an abstract grammar is read, and yields the data that describe
    the grammar, followed by the weaving of the IGNORE overrides.  The only failure is an
    override whose element needs an undefined nonterminal. *)
Theorem C11_texts_are_read : forall (U : Unicode) (H : HashOrder) (vm : VM) reads rs t,
  supported vm reads -> tables_disjoint -> grammar_text reads rs t ->
  exists pd, described pd rs /\
  match parse_rules_fn vm (rp_new vm t) with
  | (Ok _, s) => edited_data pd (rp_pd s)
  | (Err e, s) => rp_pd s = pd /\ exists A r ig, get_rule_by_key pd A = Some r /\ ntr_ignore r = Some ig /\ needs_undefined pd ig
  | (Panic, _) | (Diverge, _) => False
  end.
Proof.
  intros U H vm reads rs t Hs Hd Ht. apply supported_reads in Hs. exists (fold_left (build_rule vm) rs pd_new).
  split; [apply data_described|]. rewrite (parse_rendering vm reads Hs rs t Hd Ht).
  pose proof (C15_edited_rules H vm _ (data_wf vm rs) (data_indices vm rs)) as He.
  destruct (edit_rules vm (fold_left (build_rule vm) rs pd_new)); auto.
Qed.
Print Assumptions C11_texts_are_read.

Lemma described_verbose {I} (pd : ParserData I) rs A : described pd rs ->
  get_element_verbose pd A = firsts [] (concat (map mentioned rs)) !! A.
Proof.
  intros Hd. pose proof (de_elements pd rs Hd) as He. unfold get_elements_verbose in He. unfold get_element_verbose.
  revert He. generalize (firsts [] (concat (map mentioned rs))). generalize (element_types pd). generalize (element_data pd). clear.
  intros d. revert A. induction d as [|e d IH]; intros A [|ty tys] l He; cbn in *; try discriminate; try (injection He as <-; reflexivity).
  destruct (@zip_elements Empty_set d tys) as [l'|e'| |] eqn:El; cbn in He; try discriminate. injection He as <-.
  destruct A as [|A]; [reflexivity|]. cbn. apply IH. assumption.
Qed.
(** Grammars in which every nonterminal mentioned is defined are always accepted. *)
Definition closed {I} (rs : list (arule I)) : Prop :=
  forall r x, r ∈ rs -> (x, NonTerminal) ∈ mentioned r -> exists r', r' ∈ rs /\ ar_name r' = x.
Lemma described_closed {I} (pd : ParserData I) rs ig : described pd rs -> closed rs -> ~ needs_undefined pd ig.
Proof.
  intros Hd Hc (x & u & v & _ & [s Hx] & Hn). apply Hn.
  assert ((s, NonTerminal) ∈ concat (map mentioned rs)) as Hin.
  { rewrite (described_verbose pd rs x Hd) in Hx. apply elem_of_list_lookup_2 in Hx.
    pose proof (firsts_elem (concat (map mentioned rs)) [] (s, NonTerminal)) as Hfe. cbn [app] in Hfe. apply Hfe in Hx as [Hx|Hx]; [inversion Hx|assumption]. }
  apply elem_of_list_In, in_concat in Hin as (ms & Hms & Hin). apply in_map_iff in Hms as (r & <- & Hr).
  apply elem_of_list_In in Hr, Hin. destruct (Hc r s Hr Hin) as (r' & Hr' & <-).
  destruct (rules_for (ar_name r') rs) as [|r0 more] eqn:E.
  { exfalso. assert (r' ∈ rules_for (ar_name r') rs) as Hin' by (apply elem_of_list_filter; auto). rewrite E in Hin'. inversion Hin'. }
  destruct (de_rule pd rs Hd _ r0 more E) as (nr & Hnr & _). unfold get_rule_by_element_verbose in Hnr.
  rewrite (proj2 (de_numbers pd rs Hd _ x) Hx) in Hnr. eexists. exact Hnr.
Qed.
Theorem C11_closed_grammars_accepted : forall (U : Unicode) (H : HashOrder) (vm : VM) reads rs t,
  supported vm reads -> tables_disjoint -> grammar_text reads rs t -> closed rs ->
  exists pd s, described pd rs /\ parse_rules_fn vm (rp_new vm t) = (Ok tt, s) /\ edited_data pd (rp_pd s).
Proof.
  intros U H vm reads rs t Hs Hd Ht Hc. destruct (C11_texts_are_read U H vm reads rs t Hs Hd Ht) as (pd & Hdes & Hm).
  destruct (parse_rules_fn vm (rp_new vm t)) as [[[]|e| |] s]; try contradiction; [eauto|].
  destruct Hm as (_ & A & r & ig & _ & _ & Hn). exfalso. exact (described_closed pd rs ig Hdes Hc Hn).
Qed.
Print Assumptions C11_closed_grammars_accepted.
(** Without IGNORE overrides the data themselves describe the grammar. *)
Theorem C11_without_ignore : forall (U : Unicode) (H : HashOrder) (vm : VM) reads rs t,
  supported vm reads -> tables_disjoint -> grammar_text reads rs t ->
  (forall r x, r ∈ rs -> ar_override r <> OvIgnore x) ->
  exists s, parse_rules_fn vm (rp_new vm t) = (Ok tt, s) /\ described (rp_pd s) rs.
Proof.
  intros U H vm reads rs t Hs Hd Ht Hno. destruct (C11_texts_are_read U H vm reads rs t Hs Hd Ht) as (pd & Hdes & Hm).
  assert (forall A nr, pd_rules pd !! A = Some nr -> ntr_ignore nr = None) as Hnone.
  { intros A nr HA. destruct (described_rule pd rs Hdes A nr HA) as (r0 & more & _ & Hrf & _ & Hi & _).
    assert (r0 ∈ rs) as Hr0. { assert (r0 ∈ rules_for (ar_name r0) rs) as Hin by (rewrite Hrf; left). apply elem_of_list_filter in Hin. tauto. }
    specialize (Hno r0). destruct (ar_override r0) as [| |x|x]; cbn in Hi; auto. exfalso. exact (Hno x Hr0 eq_refl). }
  destruct (parse_rules_fn vm (rp_new vm t)) as [[[]|e| |] s]; try contradiction.
  - exists s. split; [reflexivity|]. replace (rp_pd s) with pd; [assumption|].
    destruct Hm as [H1 Hdom H2 H3 H4 H5]. destruct pd as [[rs0 g0] ty0 m0 d0], (rp_pd s) as [[rs1 g1] ty1 m1 d1].
    unfold pd_rules in *. cbn in *. subst. f_equal. f_equal. apply map_eq. intros A.
    apply option_eq. intros nr. rewrite H1. split.
    + intros HA. exists nr. split; [assumption|]. constructor. eapply Hnone; eassumption.
    + intros (nr' & HA & Hed). inversion Hed; subst; [assumption|..]; specialize (Hnone A nr' HA); congruence.
  - destruct Hm as (_ & A & nr & ig & HA & Hig & _). unfold get_rule_by_key in HA. specialize (Hnone A nr HA). congruence.
Qed.
Print Assumptions C11_without_ignore.
(** Conversely, only texts of abstract grammars are accepted. *)
Theorem C11_only_texts_are_accepted : forall (U : Unicode) (H : HashOrder) (vm : VM) reads t s,
  supported vm reads -> parse_rules_fn vm (rp_new vm t) = (Ok tt, s) ->
  exists rs pd, grammar_text reads rs t /\ described pd rs /\ edited_data pd (rp_pd s).
Proof.
  intros U H vm reads t s Hs E. apply supported_reads in Hs. destruct (parse_text vm reads Hs t) as (r & s' & E' & pre & w' & _ & _ & Hr).
  rewrite E in E'. injection E' as <- <-. destruct Hr as (_ & rs & Hrs & He). exists rs, (fold_left (build_rule vm) rs pd_new).
  split; [assumption|]. split; [apply data_described|].
  pose proof (C15_edited_rules H vm _ (data_wf vm rs) (data_indices vm rs)) as Hed. rewrite He in Hed. exact Hed.
Qed.
Print Assumptions C11_only_texts_are_accepted.
(** The description leaves no freedom: it fixes every element and every rule. *)
Theorem C11_description_determines : forall (I : Type) (pd pd' : ParserData I) rs, described pd rs -> described pd' rs ->
  forall A, get_element_verbose pd A = get_element_verbose pd' A /\ get_rule_by_key pd A = get_rule_by_key pd' A.
Proof.
  intros I pd pd' rs Hd Hd'.
  assert (forall A, get_element_verbose pd A = get_element_verbose pd' A) as Hv.
  { intros A. rewrite !(described_verbose _ rs) by assumption. reflexivity. }
  assert (forall a p, stands_for pd' a p -> stands_for pd a p) as Hst.
  { intros a p (ixs & Ha & Hf). exists ixs. split; [assumption|]. eapply Forall2_impl; [exact Hf|]. intros e ix He. rewrite Hv. exact He. }
  assert (forall p p' : ParserData I, described p rs -> described p' rs -> (forall A, get_element_verbose p A = get_element_verbose p' A) ->
    (forall a q, stands_for p' a q -> stands_for p a q) -> forall A nr, pd_rules p !! A = Some nr -> pd_rules p' !! A = Some nr) as Hhalf.
  { clear. intros p p' Hp Hp' Hv Hst A nr HA. destruct (described_rule p rs Hp A nr HA) as (r0 & more & Hx & Hrf & Hf & Hi & Hin).
    destruct (de_rule p' rs Hp' _ r0 more Hrf) as (nr' & Hnr' & Hf' & Hi' & Hin'). unfold get_rule_by_element_verbose in Hnr'.
    rewrite Hv in Hx. rewrite (proj2 (de_numbers p' rs Hp' _ A) Hx) in Hnr'. unfold get_rule_by_key in Hnr'. rewrite Hnr'. f_equal.
    destruct nr as [ps ig is], nr' as [ps' ig' is']. cbn in *. f_equal; [|destruct (ar_override r0); cbn in *; try congruence|congruence].
    - clear -Hf Hf' Hst Hp. revert ps Hf. induction Hf' as [|a q l ps' Ha Hf' IH]; intros ps Hf; inversion Hf as [|? q2 ? ps2 Ha2 Hf2]; subst; [reflexivity|].
      f_equal; [|auto]. apply (stands_for_det p rs Hp a); auto.
    - destruct Hi as (ix & -> & Hix), Hi' as (ix' & -> & Hix'). f_equal. rewrite Hv in Hix.
      apply (de_numbers p' rs Hp') in Hix. apply (de_numbers p' rs Hp') in Hix'. congruence. }
  intros A. split; [apply Hv|]. unfold get_rule_by_key. apply option_eq. intros nr. split.
  - apply Hhalf; assumption.
  - apply Hhalf; try assumption; [intros; symmetry; apply Hv|]. intros a q (ixs & Ha & Hf). exists ixs. split; [assumption|].
    eapply Forall2_impl; [exact Hf|]. intros e ix He. rewrite <- Hv. exact He.
Qed.
Print Assumptions C11_description_determines.

(** ** C12.  parse_rules always returns, and on success has read everything. *)
Theorem C12_total_and_complete : forall (U : Unicode) (H : HashOrder) (vm : VM) reads t, supported vm reads ->
  match parse_rules_fn vm (rp_new vm t) with
  | (Ok _, s) => fst (pp_peek base_tp (rp_pp s)) = None /\ cur_pos (rp_pp s) = length t
  | (Err _, _) => True
  | (Panic, _) | (Diverge, _) => False
  end.
Proof.
  intros U H vm reads t Hs. apply supported_reads in Hs. destruct (parse_text vm reads Hs t) as (r & s & -> & pre & w' & Hp & -> & Hr).
  destruct r; auto. destruct Hr as (-> & _). rewrite Hp, app_nil_r. split; reflexivity.
Qed.
Print Assumptions C12_total_and_complete.

(** ** C17.  The position in an error is the number of chars consumed; what was not
    consumed is the rest of the text. *)
Theorem C17_error_position : forall (U : Unicode) (H : HashOrder) (vm : VM) reads t e s, supported vm reads ->
  parse_rules_fn vm (rp_new vm t) = (Err e, s) ->
  cur_pos (rp_pp s) <= length t /\ pp_inner (rp_pp s) = drop (cur_pos (rp_pp s)) t /\
  forall k, error_position e = Some k -> k = cur_pos (rp_pp s).
Proof.
  intros U H vm reads t e s Hs E. apply supported_reads in Hs. destruct (parse_text vm reads Hs t) as (r & s' & E' & pre & w' & Hp & -> & Hr).
  rewrite E in E'. injection E' as <- <-. rewrite Hp. cbn. split; [rewrite app_length; lia|]. split; [rewrite drop_app; reflexivity|].
  intros k Hk. unfold error_at in Hr. rewrite Hk in Hr. assumption.
Qed.
Print Assumptions C17_error_position.
(** Reading errors (as opposed to IGNORE errors) always carry a position, or are the
    out-of-range number of an instruction. *)

(** ** C14.  The global directive is never accepted: any text whose first char after
    layout is '$' is rejected there. *)
Theorem C14_global_ignore_refuted : forall (U : Unicode) (H : HashOrder) (vm : VM) l w, blank l ->
  exists s, parse_rules_fn vm (rp_new vm (l ++ 36%N :: w)) = (Err (UnexpectedCharError 36%N (length l) (lit "alphabetic character")), s) /\
  rp_pd s = pd_new.
Proof.
  intros U H vm l w Hl. rewrite parse_rules_split. cbn [rules_loop]. unfold sbind at 1.
  rewrite ws_eq; [|assumption|cbn; unfold white; discriminate]. unfold sbind at 1. unfold on_pp at 1. cbn [rp_pp rp_pd]. rewrite outer_peek. cbn [head].
  unfold sbind at 1. unfold parse_rule. unfold sbind at 1. unfold on_pp. cbn [rp_pp rp_pd].
  destruct (parse_var_name_other base_tp plainR plain_psim (outer (36%N :: w) (0 + length l)) (0 + length l) 36%N w eq_refl eq_refl) as (p' & -> & ->).
  eexists. split; reflexivity.
Qed.
Print Assumptions C14_global_ignore_refuted.

(** ** C13.  Repeated definitions.  For every name: the alternatives of all its definitions
    in textual order, the override and the instructions of the first. *)
Theorem C13_merged : forall (U : Unicode) (H : HashOrder) (vm : VM) reads rs t s,
  supported vm reads -> tables_disjoint -> grammar_text reads rs t -> parse_rules_fn vm (rp_new vm t) = (Ok tt, s) ->
  exists pd, edited_data pd (rp_pd s) /\
  forall x r0 more, rules_for x rs = r0 :: more -> exists nr, get_rule_by_element_verbose pd x = Some nr /\
    Forall2 (stands_for pd) (concat (map ar_alts (r0 :: more))) (possible_productions nr) /\
    ignore_is pd (ar_override r0) (ntr_ignore nr) /\ instruction nr = ar_instr r0.
Proof.
  intros U H vm reads rs t s Hs Hd Ht E. destruct (C11_texts_are_read U H vm reads rs t Hs Hd Ht) as (pd & Hdes & Hm).
  rewrite E in Hm. exists pd. split; [assumption|]. apply (de_rule pd rs Hdes).
Qed.
Print Assumptions C13_merged.
Lemma described_same {I} (pd : ParserData I) rs : described pd rs -> same_rules pd rs.
Proof. intros [H1 H2 H3 H4 H5]. split; assumption. Qed.
(** Two definitions of a name are the same as one definition with both lists of
    alternatives in the place of the first. *)
Lemma joined_same {I} (pd : ParserData I) a r1 b r2 c : ar_name r1 = ar_name r2 ->
  (forall r, r ∈ b -> ar_name r <> ar_name r1) ->
  same_rules pd (a ++ r1 :: b ++ r2 :: c) <-> same_rules pd (a ++ joined r1 r2 :: b ++ c).
Proof.
  intros Hn Hb.
  assert (forall x, rules_for x (b ++ r2 :: c) = rules_for x b ++ rules_for x (r2 :: c)) as Hbc by (intros; apply filter_app).
  assert (rules_for (ar_name r1) b = []) as Hb1.
  { unfold rules_for. induction b as [|r b IH]; [reflexivity|]. rewrite filter_cons_False; [apply IH; [intros; apply Hb; right; assumption|intros; apply filter_app]|apply Hb; left]. }
  assert (forall x, match rules_for x (a ++ r1 :: b ++ r2 :: c), rules_for x (a ++ joined r1 r2 :: b ++ c) with
    | [], [] => True
    | r0 :: more, r0' :: more' => concat (map ar_alts (r0 :: more)) = concat (map ar_alts (r0' :: more')) /\ ar_override r0 = ar_override r0' /\ ar_instr r0 = ar_instr r0'
    | _, _ => False
    end) as Hrf.
  { intros x. unfold rules_for in *. rewrite !filter_app, !filter_cons, !filter_app, filter_cons. cbn [ar_name joined].
    destruct (decide (ar_name r1 = x)) as [<-|Hx].
    - rewrite decide_True by congruence. rewrite Hb1. cbn [app].
      destruct (filter (fun r => ar_name r = ar_name r1) a) as [|r0 more]; cbn [app].
      + cbn [map concat ar_alts joined]. rewrite app_assoc. auto.
      + split; [|auto]. cbn [map concat]. rewrite !map_app, !concat_app. cbn [map concat ar_alts joined]. rewrite <- app_assoc. reflexivity.
    - rewrite decide_False by congruence. destruct (filter (fun r => ar_name r = x) a ++ filter (fun r => ar_name r = x) b ++ filter (fun r => ar_name r = x) c); auto. }
  assert (forall A, (exists r, r ∈ a ++ r1 :: b ++ r2 :: c /\ get_element_verbose pd A = Some (ar_name r, NonTerminal)) <->
    (exists r, r ∈ a ++ joined r1 r2 :: b ++ c /\ get_element_verbose pd A = Some (ar_name r, NonTerminal))) as Hnone.
  { intros A. split; intros (r & Hr & Hv).
    - repeat rewrite ?elem_of_app, ?elem_of_cons in Hr.
      destruct Hr as [Hr|[->|[Hr|[->|Hr]]]]; [exists r|exists (joined r1 r2)|exists r|exists (joined r1 r2)|exists r]; (split; [repeat rewrite ?elem_of_app, ?elem_of_cons; tauto|]); cbn [ar_name joined] in *; congruence.
    - repeat rewrite ?elem_of_app, ?elem_of_cons in Hr.
      destruct Hr as [Hr|[->|[Hr|Hr]]]; [exists r|exists r1|exists r|exists r]; (split; [repeat rewrite ?elem_of_app, ?elem_of_cons; tauto|]); cbn [ar_name joined] in *; congruence. }
  split; intros [H1 H2 H3 H4]; (split; [assumption| | |assumption]).
  1,3: intros A HA; apply Hnone; auto.
  - intros x r0 more E. specialize (Hrf x). rewrite E in Hrf. destruct (rules_for x (a ++ r1 :: b ++ r2 :: c)) as [|r0' more'] eqn:E'; [contradiction|].
    destruct Hrf as (Ha & Ho & Hi). rewrite <- Ha, <- Ho, <- Hi. apply (H3 x r0' more' E').
  - intros x r0 more E. specialize (Hrf x). rewrite E in Hrf. destruct (rules_for x (a ++ joined r1 r2 :: b ++ c)) as [|r0' more'] eqn:E'; [contradiction|].
    destruct Hrf as (Ha & Ho & Hi). rewrite Ha, Ho, Hi. apply (H3 x r0' more' E').
Qed.
Theorem C13_joined : forall (U : Unicode) (H : HashOrder) (vm : VM) reads a r1 b r2 c t s,
  supported vm reads -> tables_disjoint -> grammar_text reads (a ++ r1 :: b ++ r2 :: c) t ->
  ar_name r1 = ar_name r2 -> (forall r, r ∈ b -> ar_name r <> ar_name r1) ->
  parse_rules_fn vm (rp_new vm t) = (Ok tt, s) ->
  exists pd, edited_data pd (rp_pd s) /\ same_rules pd (a ++ joined r1 r2 :: b ++ c).
Proof.
  intros U H vm reads a r1 b r2 c t s Hs Hd Ht Hn Hb E. destruct (C11_texts_are_read U H vm reads _ t Hs Hd Ht) as (pd & Hdes & Hm).
  rewrite E in Hm. exists pd. split; [assumption|]. apply joined_same; auto. apply described_same. assumption.
Qed.
Print Assumptions C13_joined.

(** ** C15 on texts: what becomes of the rule for [x], by name. *)
Inductive read_back {I} (pd pd' : ParserData I) (x : str) (r0 : arule I) (alts : list (list (str * ElementType))) : NonTerminalRules I -> Prop :=
| rb_plain nr : (forall y, ar_override r0 <> OvIgnore y) ->
    Forall2 (stands_for pd') alts (possible_productions nr) -> ntr_ignore nr = None -> instruction nr = ar_instr r0 -> read_back pd pd' x r0 alts nr
| rb_inside nr y iy ix : ar_override r0 = OvIgnore y -> get_element_index pd (y, NonTerminal) = Some iy -> get_element_index pd (x, NonTerminal) = Some ix ->
    can_derive pd iy ix ->
    Forall2 (stands_for pd') alts (possible_productions nr) -> ntr_ignore nr = None -> instruction nr = ar_instr r0 -> read_back pd pd' x r0 alts nr
| rb_woven nr y iy ix : ar_override r0 = OvIgnore y -> get_element_index pd (y, NonTerminal) = Some iy -> get_element_index pd (x, NonTerminal) = Some ix ->
    ~ can_derive pd iy ix ->
    Forall2 (stands_for pd') (map (interleave (y, NonTerminal)) alts) (possible_productions nr) -> ntr_ignore nr = Some iy -> instruction nr = ar_instr r0 ->
    read_back pd pd' x r0 alts nr.
Lemma interleave_forall2 {X Y} (R : X -> Y -> Prop) x y : R x y -> forall a b, Forall2 R a b -> Forall2 R (interleave x a) (interleave y b).
Proof.
  intros Hxy. intros a b Hab. induction Hab as [|e i a b He Hab IH]; [constructor|]. cbn [interleave].
  destruct Hab as [|e' i' a b He' Hab]; [repeat constructor; assumption|]. constructor; [assumption|]. constructor; assumption.
Qed.
Lemma interleave_nil {X} (x : X) l : interleave x l = [] <-> l = [].
Proof. destruct l as [|a [|b l]]; split; intros E; try discriminate; reflexivity. Qed.
Theorem C15_texts : forall (U : Unicode) (H : HashOrder) (vm : VM) reads rs t s,
  supported vm reads -> tables_disjoint -> grammar_text reads rs t -> parse_rules_fn vm (rp_new vm t) = (Ok tt, s) ->
  exists pd, described pd rs /\
  (forall A, get_element_verbose (rp_pd s) A = get_element_verbose pd A) /\
  (forall A, has_rule (rp_pd s) A <-> has_rule pd A) /\
  forall x r0 more, rules_for x rs = r0 :: more -> exists nr, get_rule_by_element_verbose (rp_pd s) x = Some nr /\
    read_back pd (rp_pd s) x r0 (concat (map ar_alts (r0 :: more))) nr.
Proof.
  intros U H vm reads rs t s Hs Hd Ht E. destruct (C11_texts_are_read U H vm reads rs t Hs Hd Ht) as (pd & Hdes & Hm).
  rewrite E in Hm. exists pd. split; [assumption|]. destruct Hm as [H1 Hdom H2 H3 H4 H5].
  assert (forall A, get_element_verbose (rp_pd s) A = get_element_verbose pd A) as Hv by (intros; unfold get_element_verbose; rewrite H2, H3; reflexivity).
  assert (forall a p, stands_for pd a p -> stands_for (rp_pd s) a p) as Hst.
  { intros a p (ixs & Ha & Hf). exists ixs. split; [assumption|]. eapply Forall2_impl; [exact Hf|]. intros e ix He. rewrite Hv. exact He. }
  split; [assumption|]. split; [assumption|].
  intros x r0 more Hrf. destruct (de_rule pd rs Hdes x r0 more Hrf) as (nr & Hnr & Hf & Hi & Hin).
  unfold get_rule_by_element_verbose in *. destruct (get_element_index pd (x, NonTerminal)) as [ix|] eqn:Eix; [|discriminate].
  assert (get_element_index (rp_pd s) (x, NonTerminal) = Some ix) as -> by (unfold get_element_index; rewrite H4; exact Eix).
  unfold get_rule_by_key in *. destruct (proj2 (Hdom ix) ltac:(eexists; exact Hnr)) as [nr' Hnr']. rewrite Hnr'. exists nr'. split; [reflexivity|].
  destruct (proj1 (H1 ix nr') Hnr') as (nr2 & Hnr2 & Hed). assert (nr2 = nr) as -> by congruence.
  destruct Hed as [Hn|ig Hig Hc|ig Hig Hc].
  - apply rb_plain; auto; [|eapply Forall2_impl; [exact Hf|auto]]. intros y Hy. rewrite Hy in Hi. destruct Hi as (i & Hi & _). congruence.
  - destruct (ar_override r0) as [| |y|y] eqn:Ho; cbn in Hi; try congruence. destruct Hi as (i & Hi & Hy). assert (i = ig) as -> by congruence.
    apply (rb_inside _ _ _ _ _ _ y ig ix); auto; [apply (de_numbers pd rs Hdes); assumption|]. cbn. eapply Forall2_impl; [exact Hf|auto].
  - destruct (ar_override r0) as [| |y|y] eqn:Ho; cbn in Hi; try congruence. destruct Hi as (i & Hi & Hy). assert (i = ig) as -> by congruence.
    apply (rb_woven _ _ _ _ _ _ y ig ix); auto; [apply (de_numbers pd rs Hdes); assumption|]. cbn [possible_productions].
    apply Forall2_fmap. eapply Forall2_impl; [exact Hf|]. intros a p (ixs & Ha & Hixs). apply Hst. exists (interleave ig ixs). split.
    + destruct Ha as [[-> ->]|[Hne ->]]; [left; auto|right]. split; [rewrite interleave_nil; assumption|reflexivity].
    + apply interleave_forall2; assumption.
Qed.
Print Assumptions C15_texts.

(** ** Sizes: the data of a text are no larger than the text. *)
Section sizes.
Context {U : Unicode} {I : Type} (reads : str -> str -> list I -> Prop).
Lemma elements_size es t : elements_text es t -> length es <= length t.
Proof.
  induction 1 as [e t He|e t l es t' He Hl Ht IH Hsep]; apply element_text_length in He; cbn [length]; [lia|]. rewrite !app_length. lia.
Qed.
Lemma alternative_size a t : alternative_text a t -> length a <= length t.
Proof. intros [|es t' He]; [cbn; lia|]. apply elements_size. assumption. Qed.
Lemma alternatives_size alts t : alternatives_text alts t -> length (concat alts) <= length t.
Proof.
  induction 1 as [a t Ha|a t l l' rest t' Ha Hl Hl' Ht IH]; apply alternative_size in Ha; cbn [concat]; repeat (rewrite ?app_length; cbn [length]); lia.
Qed.
Lemma rule_size (r : arule I) t : rule_text reads r t -> length (mentioned r) <= length t.
Proof.
  intros [l1 l2 l3 l4 l5 to ta ts Hx Hto Hta]. unfold mentioned. cbn [length]. apply alternatives_size in Hta.
  assert (1 <= length (ar_name r)) by (destruct (ar_name r); [contradiction|cbn; lia]).
  assert (length (override_element (ar_override r)) <= length to) by (destruct Hto; cbn; lia). rewrite !app_length. lia.
Qed.
Lemma grammar_size rs t : grammar_text reads rs t -> length (concat (map mentioned rs)) <= length t.
Proof.
  induction 1 as [l Hl|r t l rs t' Hl Hr Ht IH]; cbn [map concat length]; [lia|]. apply rule_size in Hr. rewrite !app_length. lia.
Qed.
Lemma firsts_size l : forall s, length (firsts s l) <= length l.
Proof. induction l as [|e l IH]; intros s; cbn; [lia|]. destruct (decide (e ∈ s)); cbn; [specialize (IH s)|specialize (IH (e :: s))]; lia. Qed.
Lemma rules_for_size x (rs : list (arule I)) : length (concat (concat (map ar_alts (rules_for x rs)))) <= length (concat (map mentioned rs)).
Proof.
  unfold rules_for. induction rs as [|r rs IH]; [cbn; lia|]. rewrite filter_cons. cbn [map concat]. rewrite app_length. unfold mentioned at 1. cbn [length]. rewrite app_length.
  destruct (decide (ar_name r = x)); [|lia]. cbn [map concat]. rewrite concat_app, app_length. lia.
Qed.
End sizes.
Section text_size.
Context {U : Unicode} {H : HashOrder} (vm : VM) (reads : str -> str -> list (vm_instr vm) -> Prop).
Context (rs : list (arule (vm_instr vm))) (t : str) (Ht : grammar_text reads rs t) (pd' : ParserData (vm_instr vm)).
Notation data := (fold_left (build_rule vm) rs pd_new).
Context (Hed : edited_data data pd').
Lemma text_wf : wf_grammar pd'.
Proof.
  destruct (data_wf vm rs) as [Hl Hr]. destruct Hed as [H1 Hdom H2 H3 H4 H5]. split; [congruence|].
  intros A HA. apply Hdom, Hr in HA as [s Hs]. exists s. unfold get_element_verbose in *. rewrite H2, H3. exact Hs.
Qed.
Lemma text_elements : length (element_data pd') <= length t.
Proof.
  rewrite (edd_names _ _ Hed). destruct (bu_table vm rs _ (data_built vm rs)) as (_ & _ & Hn & _). apply (f_equal length) in Hn.
  rewrite map_length, fmap_length in Hn. rewrite Hn. unfold all_keys. pose proof (firsts_size (concat (map mentioned rs)) []). pose proof (grammar_size reads rs t Ht). lia.
Qed.
Lemma text_rules : size (pd_rules pd') <= length t.
Proof.
  rewrite <- size_dom. assert (dom (pd_rules pd') ⊆ list_to_set (seq 0 (length (element_data pd')))) as Hsub.
  { intros A HA. apply elem_of_dom in HA. apply (wf_rules _ text_wf) in HA as [s Hs]. unfold get_element_verbose in Hs.
    destruct (element_data pd' !! A) as [d|] eqn:E; [|discriminate]. apply lookup_lt_Some in E. apply elem_of_list_to_set, elem_of_seq. lia. }
  apply subseteq_size in Hsub. rewrite size_list_to_set in Hsub by apply NoDup_seq. rewrite seq_length in Hsub. pose proof text_elements. lia.
Qed.
Lemma interleave_length {X} (x : X) l : length (interleave x l) <= 2 * length l.
Proof.
  induction l as [|a l IH]; [cbn; lia|]. cbn [interleave]. destruct l as [|b l]; [cbn; lia|].
  change (2 * length (a :: b :: l)) with (2 * S (length (b :: l))). cbn [length] in *. lia.
Qed.
Lemma text_fits : (N.of_nat (length t) < 2 ^ 63)%N -> fits_memory pd'.
Proof.
  intros Hlen. split; [pose proof text_rules; lia|]. intros A r' HA.
  apply (edd_rules _ _ Hed) in HA as (nr & HA & He).
  destruct (described_rule data rs (data_described vm rs) A nr HA) as (r0 & more & _ & Hrf & Hf & _).
  assert (length (concat (map right_side (possible_productions nr))) <= length t) as Hn.
  { pose proof (rules_for_size (ar_name r0) rs) as Hs. rewrite Hrf in Hs. pose proof (grammar_size reads rs t Ht).
    enough (length (concat (map right_side (possible_productions nr))) = length (concat (concat (map ar_alts (r0 :: more))))) by lia.
    clear -Hf. induction Hf as [|a p l ps (ixs & Ha & Hix) Hf IH]; [reflexivity|]. cbn [map concat]. rewrite !app_length, IH. f_equal.
    apply Forall2_length in Hix. destruct Ha as [[-> ->]|[_ ->]]; cbn [right_side]; [cbn in *|]; congruence. }
  assert (length (concat (map right_side (possible_productions r'))) <= 2 * length (concat (map right_side (possible_productions nr)))) as Hle.
  { destruct He as [Hn'|ig Hig Hc|ig Hig Hc]; cbn [possible_productions]; [lia..|]. rewrite map_map.
    generalize (possible_productions nr) as l. clear. induction l as [|p ps IH]; [cbn; lia|]. cbn [map concat]. rewrite !app_length.
    assert (length (right_side (interleaved ig p)) <= 2 * length (right_side p)) by (destruct p; [apply interleave_length|cbn; lia]). lia. }
  lia.
Qed.
End text_size.

(** ** C24, C26 on texts. *)
Section from_text.
Context {U : Unicode} {H : HashOrder} (m : ovf_mode) (vm : VM) (fl : fuels) (t : str).
Lemma new_from_text_ok ps : new_from_text m vm fl t = Ok ps <->
  exists s start els, parse_rules_fn vm (rp_new vm t) = (Ok tt, s) /\ get_element_nt_index (rp_pd s) (lit "start") = Some start /\
    @get_elements_verbose _ Empty_set (rp_pd s) = Ok els /\ new_from_parser_data m vm fl (rp_pd s) start = Ok ps.
Proof.
  unfold new_from_text. destruct (parse_rules_fn vm (rp_new vm t)) as [[[]|e| |] s]; cbn [unwrap obind].
  2-4: split; [discriminate|]; intros (s' & start & els & E & _); discriminate.
  unfold new_from_parser_data. split.
  - intros E. destruct (@get_elements_verbose _ Empty_set (rp_pd s)) as [els|[]| |] eqn:Eels; cbn [obind] in E; try discriminate.
    destruct (unwrap (get_first_sets (rp_pd s) (first_fuel fl))) as [fs|[]| |] eqn:Efs; cbn [obind] in E; try discriminate.
    destruct (get_element_nt_index (rp_pd s) (lit "start")) as [start|] eqn:Est; [|discriminate].
    destruct (unwrap (get_follow_sets m (rp_pd s) (follow_fuel fl) start fs)) as [fw|[]| |] eqn:Efw; cbn [obind] in E; try discriminate.
    exists s, start, els. split; [reflexivity|]. split; [assumption|]. split; [assumption|]. rewrite ?Efs. cbn [obind]. rewrite Efw. cbn [obind]. rewrite Eels. exact E.
  - intros (s' & start & els & E & Est & Eels & Enew). injection E as <-. rewrite Eels in *. cbn [obind].
    destruct (unwrap (get_first_sets (rp_pd s) (first_fuel fl))) as [fs|[]| |]; cbn [obind] in *; try discriminate. rewrite Est.
    destruct (unwrap (get_follow_sets m (rp_pd s) (follow_fuel fl) start fs)) as [fw|[]| |]; cbn [obind] in *; try discriminate. exact Enew.
Qed.
End from_text.
(** Loop bounds that suffice for a text of that length. *)
Definition enough_for_text (fl : fuels) (t : str) : Prop :=
  length t + 2 <= first_fuel fl /\ length t * (length t + 1) < follow_fuel fl.
Lemma text_data {U : Unicode} {H : HashOrder} (vm : VM) reads t s fl : supported vm reads -> (N.of_nat (length t) < 2 ^ 63)%N -> enough_for_text fl t ->
  parse_rules_fn vm (rp_new vm t) = (Ok tt, s) -> wf_grammar (rp_pd s) /\ fits_memory (rp_pd s) /\ enough fl (rp_pd s) /\
  exists els, @get_elements_verbose _ Empty_set (rp_pd s) = Ok els.
Proof.
  intros Hs Hlen [Hf1 Hf2] E. apply supported_reads in Hs. destruct (parse_text vm reads Hs t) as (r & s' & E' & pre & w' & _ & _ & Hr).
  rewrite E in E'. injection E' as <- <-. destruct Hr as (_ & rs & Hrs & He).
  pose proof (C15_edited_rules H vm _ (data_wf vm rs) (data_indices vm rs)) as Hed. rewrite He in Hed.
  pose proof (text_wf vm rs (rp_pd s) Hed) as Hwf. split; [assumption|]. split; [eapply text_fits; eassumption|].
  pose proof (text_rules vm reads rs t Hrs (rp_pd s) Hed). pose proof (text_elements vm reads rs t Hrs (rp_pd s) Hed).
  split; [|destruct (@elements_verbose_ok _ Empty_set (rp_pd s) Hwf) as (els & Hels & _); eauto]. split; [lia|].
  apply Nat.le_lt_trans with (length t * (length t + 1)); [apply Nat.mul_le_mono; lia|assumption].
Qed.
Theorem C26_texts : forall (U : Unicode) (H : HashOrder) m (vm : VM) reads fl t, supported vm reads ->
  (N.of_nat (length t) < 2 ^ 63)%N -> enough_for_text fl t ->
  ((exists ps, new_from_text m vm fl t = Ok ps) <->
   exists s start, parse_rules_fn vm (rp_new vm t) = (Ok tt, s) /\
     get_element_nt_index (rp_pd s) (lit "start") = Some start /\ constructible (rp_pd s) start) /\
  (forall ps, new_from_text m vm fl t = Ok ps -> exists s start, parse_rules_fn vm (rp_new vm t) = (Ok tt, s) /\
     get_element_nt_index (rp_pd s) (lit "start") = Some start /\ parser_table (rp_pd s) start ps).
Proof.
  intros U H m vm reads fl t Hs Hlen Hfl. split; [split|].
  - intros [ps Hps]. apply new_from_text_ok in Hps as (s & start & els & E & Est & Eels & Enew). exists s, start. split; [assumption|]. split; [assumption|].
    destruct (text_data vm reads t s fl Hs Hlen Hfl E) as (Hwf & Hfit & Hen & _). apply (C26_construction H m vm fl (rp_pd s) start Hwf Hfit Hen). eauto.
  - intros (s & start & E & Est & Hc). destruct (text_data vm reads t s fl Hs Hlen Hfl E) as (Hwf & Hfit & Hen & els & Hels).
    apply (C26_construction H m vm fl (rp_pd s) start Hwf Hfit Hen) in Hc as [ps Hps]. exists ps. apply new_from_text_ok. eauto 10.
  - intros ps Hps. apply new_from_text_ok in Hps as (s & start & els & E & Est & Eels & Enew). exists s, start. split; [assumption|]. split; [assumption|].
    destruct (text_data vm reads t s fl Hs Hlen Hfl E) as (Hwf & Hfit & Hen & _). apply (C26_construction H m vm fl (rp_pd s) start Hwf Hfit Hen). assumption.
Qed.
Print Assumptions C26_texts.
Theorem C24_texts : forall (U : Unicode) (H H' : HashOrder) m (vm : VM) reads fl t, supported vm reads ->
  (N.of_nat (length t) < 2 ^ 63)%N -> enough_for_text fl t ->
  (exists ps, @new_from_text U H m vm fl t = Ok ps /\ @new_from_text U H' m vm fl t = Ok ps) \/
  ((forall ps, @new_from_text U H m vm fl t <> Ok ps) /\ (forall ps, @new_from_text U H' m vm fl t <> Ok ps)).
Proof.
  intros U H H' m vm reads fl t Hs Hlen Hfl.
  assert ((exists s, @parse_rules_fn U H vm (rp_new vm t) = (Ok tt, s) /\ @parse_rules_fn U H' vm (rp_new vm t) = (Ok tt, s)) \/
    ((forall s, @parse_rules_fn U H vm (rp_new vm t) <> (Ok tt, s)) /\ (forall s, @parse_rules_fn U H' vm (rp_new vm t) <> (Ok tt, s)))) as Hcase.
  { rewrite !parse_rules_split. pose proof (supported_reads vm reads Hs) as Hr.
    destruct (rules_loop_runs vm reads Hr (S (length t)) 0 t pd_new ltac:(lia)) as (r & pre & w' & pd' & E & _ & Hrr). rewrite E.
    destruct r as [[]|e| |]; try contradiction; [|right; split; intros; discriminate].
    destruct Hrr as (-> & rs & _ & ->). cbn [rp_pd rp_pp].
    destruct (C15_order_irrelevant H H' vm _ (data_wf vm rs) (data_indices vm rs)) as [(pd & -> & ->)|(e1 & e2 & -> & ->)]; [eauto|].
    right. split; intros; discriminate. }
  destruct Hcase as [(s & E & E')|[Hn Hn']].
  - destruct (text_data vm reads t s fl Hs Hlen Hfl E) as (Hwf & Hfit & Hen & els & Hels).
    destruct (get_element_nt_index (rp_pd s) (lit "start")) as [start|] eqn:Est.
    + destruct (C24_hash_order_irrelevant H H' m vm fl (rp_pd s) start Hwf Hfit Hen) as [(ps & H1 & H2)|[H1 H2]].
      * left. exists ps. split; apply new_from_text_ok; eauto 10.
      * right. split; intros ps Hps; apply new_from_text_ok in Hps as (s' & start' & els' & E2 & Est' & _ & Hnew);
          (rewrite E in E2 || rewrite E' in E2); injection E2 as <-; rewrite Est in Est'; injection Est' as <-; [exact (H1 ps Hnew)|exact (H2 ps Hnew)].
    + right. split; intros ps Hps; apply new_from_text_ok in Hps as (s' & start' & els' & E2 & Est' & _); (rewrite E in E2 || rewrite E' in E2); injection E2 as <-; congruence.
  - right. split; intros ps Hps; apply new_from_text_ok in Hps as (s' & start' & els' & E2 & _); [exact (Hn _ E2)|exact (Hn' _ E2)].
Qed.
Print Assumptions C24_texts.

(** ** C49.  Instruction text of StackVm (SpecRules.v: [stack_reads]).  The process handed
    to the VM is the one parse_instruction_section makes: it stops at '}'. *)
Definition at_braces (w : str) (n : nat) : PP (PP str) :=
  pp_new_nested (mkPP w n None None false) (Some 125%N (* } *)) (Some 92%N (* \ *)) n.
Theorem C49_instruction_text_read : forall (U : Unicode) m name body is n rest, tables_disjoint -> stack_reads name body is ->
  exists g, vm_parse_instructions (StackVm m) (PP str) (pp_tp base_tp) name (at_braces (body ++ 125%N :: rest) n) = (Ok is, g) /\
    pp_inner (pp_inner g) = 125%N :: rest /\ cur_pos (pp_inner g) = n + length body.
Proof.
  intros U m name body is n rest Hd Hr. destruct (vr_reads _ _ (stack_vm_reads m) Hd name body is n rest Hr) as (g & E & Eg).
  exists g. split; [exact E|]. rewrite Eg. split; reflexivity.
Qed.
Print Assumptions C49_instruction_text_read.
(** Conversely whatever is accepted in front of a closing brace is instruction text; and
    reading never panics or loops. *)
Theorem C49_only_instruction_text : forall (U : Unicode) m name w n,
  match vm_parse_instructions (StackVm m) (PP str) (pp_tp base_tp) name (at_braces w n) with
  | (Ok is, g) => forall rest, pp_inner (pp_inner g) = 125%N :: rest -> exists body, w = body ++ 125%N :: rest /\ stack_reads name body is
  | (Err _, _) => True
  | _ => False
  end.
Proof.
  intros U m name w n. destruct (vr_total _ _ (stack_vm_reads m) name w n) as (r & g & pre & rest & E & Eg & -> & Hr). unfold brace_process in E.
  unfold at_braces. rewrite E. destruct r; auto. intros rest' Hrest. rewrite Eg in Hrest. cbn in Hrest. subst rest. exists pre. split; [reflexivity|]. eapply Hr. reflexivity.
Qed.
Print Assumptions C49_only_instruction_text.
(** Every list of instructions that fit the machine has a text. *)
Definition instr_fits (i : KInstr) : Prop :=
  match i with
  | KRegAddConst z | KPushConst z => (- 2 ^ 63 <= z < 2 ^ 63)%Z
  | KPow v => (v < 2 ^ 64)%N
  | _ => True
  end.
Lemma as_isize_surj z : (- 2 ^ 63 <= z < 2 ^ 63)%Z -> exists v, (v < 2 ^ 64)%N /\ as_isize v = z.
Proof.
  intros Hz. destruct (Z.leb_spec 0 z).
  - exists (Z.to_N z). split; [lia|]. unfold as_isize. destruct (N.ltb_spec (Z.to_N z) (2 ^ 63)); lia.
  - exists (Z.to_N (z + 2 ^ 64)). split; [lia|]. unfold as_isize. destruct (N.ltb_spec (Z.to_N (z + 2 ^ 64)) (2 ^ 63)); lia.
Qed.
Lemma operand_text {U : Unicode} x k v : tables_disjoint -> (x, k) ∈ operand_names -> (v < 2 ^ 64)%N ->
  instr_text [k v] (x ++ [32%N] ++ decimal v).
Proof.
  intros Hd Hx Hv. destruct (decimal_spec v) as (H1 & H2 & H3). rewrite <- H3 at 1. apply in_operand; auto; [repeat constructor| |rewrite H3; assumption].
  cbn. apply Hd. reflexivity.
Qed.
Theorem C49_every_list_has_a_text : forall (U : Unicode) name is, tables_disjoint -> Forall instr_fits is -> exists body, stack_reads name body is.
Proof.
  intros U name is Hd Hf. enough (exists t, instrs_text is t) as [t Ht] by (exists t, [], t; repeat split; [constructor|assumption]).
  induction Hf as [|i is Hi Hf (t & Ht)]; [exists []; constructor|].
  assert (exists ti, instr_text [i] ti) as [ti Hti].
  { destruct i as [|z| | | | | |z| | | | | | |v]; cbn in Hi;
      try (destruct (as_isize_surj z Hi) as (v & Hv & <-)).
    1: eexists; apply in_plain with (x := lit "Add"); repeat (first [left; reflexivity|right]).
    1: eexists; apply (operand_text (lit "RegAddConst") (fun v => KRegAddConst (as_isize v))); auto; repeat (first [left; reflexivity|right]).
    1: eexists; apply in_plain with (x := lit "Sub"); repeat (first [left; reflexivity|right]).
    1: eexists; apply in_plain with (x := lit "Digit"); repeat (first [left; reflexivity|right]).
    1: eexists; apply in_plain with (x := lit "PopToReg"); repeat (first [left; reflexivity|right]).
    1: eexists; apply in_plain with (x := lit "PopToReg2"); repeat (first [left; reflexivity|right]).
    1: eexists; apply in_plain with (x := lit "PopDiscard"); repeat (first [left; reflexivity|right]).
    1: eexists; apply (operand_text (lit "PushConst") (fun v => KPushConst (as_isize v))); auto; repeat (first [left; reflexivity|right]).
    1: eexists; apply in_plain with (x := lit "PushFromTree"); repeat (first [left; reflexivity|right]).
    1: eexists; apply in_plain with (x := lit "PushReg"); repeat (first [left; reflexivity|right]).
    1: eexists; apply in_plain with (x := lit "PushReg2"); repeat (first [left; reflexivity|right]).
    1: eexists; apply in_plain with (x := lit "PrintReg"); repeat (first [left; reflexivity|right]).
    1: eexists; apply in_plain with (x := lit "PrintReg2"); repeat (first [left; reflexivity|right]).
    1: eexists; apply in_plain with (x := lit "PrintError"); repeat (first [left; reflexivity|right]).
    1: eexists; apply (operand_text (lit "Pow") (fun v => KPow v)); auto; repeat (first [left; reflexivity|right]). }
  exists (ti ++ lit ";" ++ [] ++ t). apply (ins_cons [i] ti [] is t); auto. constructor.
Qed.
Print Assumptions C49_every_list_has_a_text.
(** An unknown name is dropped, whatever stands around it. *)
Lemma instrs_text_app {U : Unicode} is t is' t' : instrs_text is t -> instrs_text is' t' -> instrs_text (is ++ is') (t ++ t').
Proof.
  intros H1 H2. induction H1 as [|i1 t1 l i2 t2 Ha Hb _ IH]; [exact H2|]. replace ((i1 ++ i2) ++ is') with (i1 ++ i2 ++ is') by apply app_assoc.
  replace ((t1 ++ lit ";" ++ l ++ t2) ++ t') with (t1 ++ lit ";" ++ l ++ t2 ++ t') by (rewrite <- !app_assoc; reflexivity). apply ins_cons; assumption.
Qed.
Theorem C49_unknown_dropped : forall (U : Unicode) m name l x body body' is is' n rest, tables_disjoint -> blank l ->
  valid_name x -> x ∉ plain_names.*1 -> x ∉ operand_names.*1 -> instrs_text is body -> instrs_text is' body' ->
  exists g, vm_parse_instructions (StackVm m) (PP str) (pp_tp base_tp) name (at_braces ((body ++ x ++ lit ";" ++ l ++ body') ++ 125%N :: rest) n) = (Ok (is ++ is'), g) /\
    pp_inner (pp_inner g) = 125%N :: rest /\ cur_pos (pp_inner g) = n + length (body ++ x ++ lit ";" ++ l ++ body').
Proof.
  intros U m name l x body body' is is' n rest Hd Hl Hx H1 H2 Hb Hb'. apply C49_instruction_text_read; [assumption|].
  exists [], (body ++ x ++ lit ";" ++ l ++ body'). split; [constructor|]. split; [reflexivity|]. apply instrs_text_app; [assumption|]. apply (ins_cons [] x l is' body'); auto. apply in_unknown; assumption.
Qed.
Print Assumptions C49_unknown_dropped.

(** ** C53.  NullVm: the text between braces may be anything in which every '}' is escaped. *)
Lemma brace_free_tail {U : Unicode} l b : blank l -> brace_free (l ++ b) -> brace_free b.
Proof.
  intros Hl [H1 H2]. split.
  - intros i Hi. destruct (H1 (length l + i)) as (j & Hj & Hb); [rewrite lookup_app_r by lia; rewrite <- Hi; f_equal; lia|].
    destruct i as [|i].
    + exfalso. rewrite Nat.add_0_r in Hj. assert (l !! j = Some 92%N) as Hlj by (rewrite lookup_app_l in Hb by lia; assumption).
      unfold blank in Hl. rewrite Forall_lookup in Hl. specialize (Hl j _ Hlj). discriminate.
    + exists i. split; [reflexivity|]. assert (j = length l + i) as -> by lia. rewrite lookup_app_r in Hb by lia. rewrite <- Hb. f_equal. lia.
  - destruct H2 as [?|[H2 H3]]; [discriminate|]. right. split; [assumption|]. destruct b as [|c b]; [discriminate|].
    rewrite last_app in H3. destruct (last (c :: b)) eqn:E; [assumption|]. apply last_None in E. discriminate.
Qed.
Theorem C53_any_brace_text : forall (U : Unicode) name body rest n pd, brace_free body ->
  parse_instruction_section NullVm name (mkRP (mkPP (lit "{" ++ body ++ lit "}" ++ rest) n None None false) pd)
  = (Ok [0%N], mkRP (mkPP rest (n + length body + 2) None None false) pd).
Proof.
  intros U name body rest n pd Hb. destruct (span_exists white body) as (l & b & -> & Hl & Hw).
  unfold parse_instruction_section. change (lit "{" ++ (l ++ b) ++ lit "}" ++ rest) with (123%N :: (l ++ b) ++ 125%N :: rest). rewrite symbol_ok.
  unfold sbind at 1. rewrite <- app_assoc. rewrite ws_eq; [|assumption|destruct b; [cbn; unfold white; discriminate|exact Hw]].
  apply brace_free_tail in Hb; [|assumption].
  unfold sbind at 1. cbn [rp_pp rp_pd cur_pos pp_pos]. apply (stops_between_brace b rest) in Hb.
  destruct (drain_all_spec _ _ (n + 1 + length l) Hb) as [flag Hd]. cbn [vm_parse_instructions NullVm]. unfold null_parse.
  unfold brace_process in Hd. rewrite Hd. cbn [obind pp_inner]. unfold sbind. rewrite symbol_ok. unfold sret. rewrite app_length.
  replace (n + 1 + length l + length b + 1) with (n + (length l + length b) + 2) by lia. reflexivity.
Qed.
Print Assumptions C53_any_brace_text.
Theorem C53_rule_with_braces : forall (U : Unicode) (H : HashOrder) x body, tables_disjoint -> valid_name x -> brace_free body ->
  exists s nr, parse_rules_fn NullVm (rp_new NullVm (x ++ lit "->#{" ++ body ++ lit "};")) = (Ok tt, s) /\
    get_rule_by_element_verbose (rp_pd s) x = Some nr /\ instruction nr = [0%N].
Proof.
  intros U H x body Hd Hx Hb. destruct (span_exists white body) as (l & b & -> & Hl & Hw).
  pose (r := mkARule (I := vm_instr NullVm) x OvAbsent [[]] [0%N]).
  assert (grammar_text null_reads [r] (x ++ lit "->#{" ++ (l ++ b) ++ lit "};")) as Ht.
  { assert (rule_text null_reads r (x ++ lit "->#{" ++ (l ++ b) ++ lit "};")) as Hr.
    { replace (x ++ lit "->#{" ++ (l ++ b) ++ lit "};") with (x ++ [] ++ lit "->" ++ [] ++ [] ++ [] ++ [35%N] ++ [] ++ (lit "{" ++ l ++ b ++ lit "}") ++ [] ++ lit ";")
        by (cbn; rewrite <- !app_assoc; reflexivity).
      apply (rule_intro null_reads r); [exact Hx|exact ov_absent|apply alts_one, alt_empty| |constructor..].
      apply sec_braces; [assumption|assumption|]. split; [|reflexivity]. eapply brace_free_tail; eassumption. }
    rewrite <- (app_nil_r (x ++ _)). apply (gr_cons null_reads r _ [] [] []); [constructor|exact Hr|]. constructor. constructor. }
  destruct (C11_without_ignore U H NullVm null_reads [r] _ sh_null Hd Ht) as (s & E & Hdes).
  { intros r' y Hr'. apply elem_of_list_singleton in Hr' as ->. discriminate. }
  destruct (de_rule _ _ Hdes x r []) as (nr & Hnr & _ & _ & Hi).
  { unfold rules_for. rewrite filter_cons_True by reflexivity. reflexivity. }
  exists s, nr. auto.
Qed.
Print Assumptions C53_rule_with_braces.
(** ** C55.  CountingVm reads nothing: only blank braces are accepted. *)
Theorem C55_counting_braces : forall (U : Unicode) m name l c rest n pd, blank l -> ~ white c ->
  parse_instruction_section (CountingVm m) name (mkRP (mkPP (lit "{" ++ l ++ c :: rest) n None None false) pd)
  = if N.eqb c 125 then (Ok [0%N], mkRP (mkPP rest (n + length l + 2) None None false) pd)
    else (Err (UnexpectedCharError c (n + length l + 1) [125%N]), mkRP (mkPP (c :: rest) (n + length l + 1) None None false) pd).
Proof.
  intros U m name l c rest n pd Hl Hc. unfold parse_instruction_section. change (lit "{" ++ l ++ c :: rest) with (123%N :: l ++ c :: rest).
  rewrite symbol_ok. unfold sbind at 1. rewrite ws_eq; [|assumption|exact Hc]. unfold sbind at 1. cbn [rp_pp rp_pd cur_pos pp_pos vm_parse_instructions CountingVm counting_parse pp_inner pp_new_nested].
  unfold sbind. rewrite r_symbol_eq. replace (n + 1 + length l) with (n + length l + 1) by lia. destruct (N.eqb c 125); [|reflexivity].
  unfold sret. replace (n + length l + 1 + 1) with (n + length l + 2) by lia. reflexivity.
Qed.
Print Assumptions C55_counting_braces.

(** ** Concrete cases *)
Lemma ascii_disjoint : @tables_disjoint ascii_unicode.
Proof.
  intros c Hw [Hn| ->]; [|discriminate]. unfold white, is_whitespace, is_alphanumeric, is_alphabetic, is_numeric, is_ascii_alpha, is_ascii_digit, in_range in *. cbn in *.
  rewrite !andb_false_r, !orb_false_r in *. rewrite !orb_true_iff, !andb_true_iff, !N.leb_le, !N.eqb_eq in *. lia.
Qed.
(** A text with layout, an IGNORE override, an empty alternative, a section with an
    escaped brace, and a repeated definition. *)
Definition ex_text : str := lit "s ->$[IGNORE :w] b""x\"""" | # {any \} thing};w->"" "";
 b -> ""b""; s->w w;".
Definition ex_rules : list (arule (vm_instr NullVm)) :=
  [mkARule (lit "s") (OvIgnore (lit "w")) [[(lit "b", NonTerminal); (lit "x\""", Terminal)]; []] [0%N];
   mkARule (lit "w") OvAbsent [[(lit " ", Terminal)]] []; mkARule (lit "b") OvAbsent [[(lit "b", Terminal)]] [];
   mkARule (lit "s") OvAbsent [[(lit "w", NonTerminal); (lit "w", NonTerminal)]] []].
Ltac blanks := match goal with |- blank _ => unfold blank; repeat constructor end.
Local Existing Instance ascii_unicode.
Lemma letter_name c : is_alphabetic c = true -> valid_name [c].
Proof. intros Hc. split; [exact Hc|constructor]. Qed.
Lemma ex_rule1 : rule_text null_reads (mkARule (lit "s") (OvIgnore (lit "w")) [[(lit "b", NonTerminal); (lit "x\""", Terminal)]; []] [0%N])
    (lit "s ->$[IGNORE :w] b""x\"""" | # {any \} thing};").
Proof.
  apply (rule_intro null_reads (mkARule (lit "s") (OvIgnore (lit "w")) [[(lit "b", NonTerminal); (lit "x\""", Terminal)]; []] [0%N])
      (lit " ") [] (lit " ") (lit " ") [] (lit "$[IGNORE :w]") (lit "b""x\"""" | #") (lit "{any \} thing}")); try (blanks; fail).
  - apply letter_name. reflexivity.
  - apply (ov_ignore (lit " ") (lit "w")); [blanks|apply letter_name; reflexivity].
  - apply (alts_cons [(lit "b", NonTerminal); (lit "x\""", Terminal)] (lit "b""x\""""") (lit " ") (lit " ") [[]] (lit "#")); try (blanks; fail).
    + constructor. apply (els_cons (lit "b", NonTerminal) (lit "b") [] [(lit "x\""", Terminal)] (lit """x\""""")); [|constructor| |].
      * apply el_name, letter_name. reflexivity.
      * apply els_one. apply (el_quoted (lit "x\""")). apply qb_plain; [discriminate..|]. apply qb_esc, qb_nil.
      * intros _. intros [?|?]; discriminate.
    + apply alts_one, alt_empty.
  - apply (sec_braces null_reads (lit "s") [] (lit "any \} thing")); [constructor|intros ?; discriminate|]. split; [|reflexivity]. split.
    + intros i Hi. do 12 (destruct i as [|i]; [first [discriminate|eexists; split; reflexivity]|]). discriminate.
    + right. split; [reflexivity|discriminate].
Qed.
Lemma ex_rule_letter x c l : is_alphabetic x = true -> c <> 34%N -> c <> 92%N -> blank l ->
  rule_text (I := vm_instr NullVm) null_reads (mkARule [x] OvAbsent [[([c], Terminal)]] []) ([x] ++ l ++ lit "->" ++ l ++ 34%N :: c :: lit """;").
Proof.
  intros Hx Hc1 Hc2 Hl. apply (rule_intro null_reads (mkARule [x] OvAbsent [[([c], Terminal)]] []) l l [] [] [] [] (34%N :: [c] ++ [34%N]) []); try (blanks; fail); try assumption.
  - apply letter_name. assumption.
  - apply ov_absent.
  - apply alts_one, alt_elements, els_one, el_quoted. apply qb_plain; auto using qb_nil.
  - apply sec_absent.
Qed.
Lemma ex_rule4 : rule_text (I := vm_instr NullVm) null_reads (mkARule (lit "s") OvAbsent [[(lit "w", NonTerminal); (lit "w", NonTerminal)]] []) (lit "s->w w;").
Proof.
  apply (rule_intro null_reads (mkARule (lit "s") OvAbsent [[(lit "w", NonTerminal); (lit "w", NonTerminal)]] []) [] [] [] [] [] [] (lit "w w") []); try (blanks; fail).
  - apply letter_name. reflexivity.
  - apply ov_absent.
  - apply alts_one, alt_elements. apply (els_cons (lit "w", NonTerminal) (lit "w") (lit " ") [(lit "w", NonTerminal)] (lit "w")).
    + apply el_name, letter_name. reflexivity.
    + blanks.
    + apply els_one, el_name, letter_name. reflexivity.
    + intros _ [?|?]; discriminate.
  - apply sec_absent.
Qed.
Lemma ex_is_text : grammar_text null_reads ex_rules ex_text.
Proof.
  apply (gr_cons null_reads _ _ [] _ _ ltac:(constructor) ex_rule1).
  apply (gr_cons null_reads _ _ [] _ _ ltac:(constructor) (ex_rule_letter 119%N 32%N [] eq_refl ltac:(discriminate) ltac:(discriminate) ltac:(constructor))).
  apply (gr_cons null_reads _ _ [10%N; 32%N] _ _ ltac:(blanks) (ex_rule_letter 98%N 98%N [32%N] eq_refl ltac:(discriminate) ltac:(discriminate) ltac:(blanks))).
  apply (gr_cons null_reads _ _ [32%N] _ [] ltac:(blanks) ex_rule4). apply gr_end. constructor.
Qed.
Lemma ex_closed : closed ex_rules.
Proof.
  intros r x Hr Hx. unfold ex_rules in *. repeat (apply elem_of_cons in Hr as [->|Hr]); [..|inversion Hr]; cbn in Hx;
    repeat (apply elem_of_cons in Hx as [Hx|Hx]); try (inversion Hx; fail); injection Hx as ->;
    first [eexists; split; [left; reflexivity|reflexivity] | eexists; split; [right; left; reflexivity|reflexivity]
          | eexists; split; [right; right; left; reflexivity|reflexivity]].
Qed.
(** The hypotheses of C11, C13, C15 hold of it, and this is what is read: s is woven with
    w; its second definition contributes the alternative [w w]. *)
Definition show_data (s : RP (vm_instr NullVm)) : list (str * ElementType) * list (str * option (list Production * option nat * list N)) :=
  (match @get_elements_verbose _ Empty_set (rp_pd s) with Ok l => l | _ => [] end,
   map (fun x => (x, option_map (fun nr => (possible_productions nr, ntr_ignore nr, instruction nr)) (get_rule_by_element_verbose (rp_pd s) x))) [lit "s"; lit "w"; lit "b"]).
Example C11_example :
  supported NullVm null_reads /\ tables_disjoint /\ grammar_text null_reads ex_rules ex_text /\ closed ex_rules /\
  match @parse_rules_fn ascii_unicode plain_order NullVm (rp_new NullVm ex_text) with
  | (Ok _, s) => show_data s =
     ([(lit "s", NonTerminal); (lit "w", NonTerminal); (lit "b", NonTerminal); (lit "x\""", Terminal); (lit " ", Terminal); (lit "b", Terminal)],
      [(lit "s", Some ([NotEmpty [2; 1; 3]; Empty; NotEmpty [1; 1; 1]], Some 1, [0%N]));
       (lit "w", Some ([NotEmpty [4]], None, [])); (lit "b", Some ([NotEmpty [5]], None, []))])
  | _ => False
  end.
Proof.
  split; [constructor|]. split; [apply ascii_disjoint|]. split; [apply ex_is_text|]. split; [apply ex_closed|]. vm_compute. reflexivity.
Qed.
(** The example grammars of the repository are texts of abstract grammars. *)
Lemma accepted_is_text (H : HashOrder) vm reads t : supported vm reads ->
  is_ok (fst (parse_rules_fn vm (rp_new vm t))) = true -> exists rs, grammar_text reads rs t.
Proof.
  intros Hs E. destruct (parse_rules_fn vm (rp_new vm t)) as [[[]| | |] s] eqn:Ep; try discriminate.
  destruct (C11_only_texts_are_accepted _ _ _ _ _ _ Hs Ep) as (rs & pd & Ht & _). eauto.
Qed.
Example C11_repository_examples :
  (exists rs : list (arule (vm_instr (SimpleStackVm Checked))), grammar_text simple_reads rs simple_math_rules) /\
  (exists rs : list (arule (vm_instr (StackVm Checked))), grammar_text stack_reads rs stack_math_rules).
Proof.
  split.
  - apply (accepted_is_text plain_order _ _ simple_math_rules (sh_simple Checked)). vm_compute. reflexivity.
  - apply (accepted_is_text plain_order _ _ stack_math_rules (sh_stack Checked)). vm_compute. reflexivity.
Qed.
(** A text that fails in the middle, with its position. *)
Example C17_example : fst (@parse_rules_fn ascii_unicode plain_order NullVm (rp_new NullVm (lit "a->b;c=d"))) = Err (UnexpectedCharError 61%N 6 (lit "-")).
Proof. vm_compute. reflexivity. Qed.
(** The directive of the repository's discarder tests is one of the texts of C14. *)
Example C14_example : exists s, @parse_rules_fn ascii_unicode plain_order NullVm (rp_new NullVm (lit "$IGNORE:ws; start->""a"" ws;ws->"" "";"))
  = (Err (UnexpectedCharError 36%N 0 (lit "alphabetic character")), s) /\ rp_pd s = pd_new.
Proof. apply (C14_global_ignore_refuted ascii_unicode plain_order NullVm []). constructor. Qed.
Example C24_example : supported (StackVm Checked) stack_reads /\ enough_for_text (mkFuels (length stack_math_rules + 2) (S (length stack_math_rules * (length stack_math_rules + 1)))) stack_math_rules.
Proof. split; [constructor|]. split; cbn [first_fuel follow_fuel]; lia. Qed.
Ltac digits := match goal with |- Forall digit_char ?l => let l' := eval vm_compute in l in change (Forall digit_char l') end; repeat (apply Forall_cons_2; [unfold digit_char; lia|]); apply Forall_nil_2.
Example C49_example : stack_reads (lit "digit") (lit "PushConst 7; Pow
 10;Nonsense; PopToReg;") [KPushConst 7; KPow 10; KPopToReg].
Proof.
  exists [], (lit "PushConst 7; Pow
 10;Nonsense; PopToReg;"). split; [constructor|]. split; [reflexivity|].
  apply (ins_cons [KPushConst 7] (lit "PushConst 7") (lit " ") [KPow 10; KPopToReg] (lit "Pow
 10;Nonsense; PopToReg;")); [|blanks|].
  { apply (in_operand (lit "PushConst") (fun v => KPushConst (as_isize v)) (lit " ") (lit "7")); [right; left|blanks|intros [?|?]; discriminate|discriminate| |reflexivity]. digits. }
  apply (ins_cons [KPow 10] (lit "Pow
 10") [] [KPopToReg] (lit "Nonsense; PopToReg;")); [|blanks|].
  { apply (in_operand (lit "Pow") KPow [10%N; 32%N] (lit "10")); [right; right; left|blanks|intros [?|?]; discriminate|discriminate| |reflexivity]. digits. }
  apply (ins_cons [] (lit "Nonsense") (lit " ") [KPopToReg] (lit "PopToReg;")); [|blanks|].
  { apply in_unknown; [split; [reflexivity|repeat constructor; left; reflexivity]|intros Hx; vm_compute in Hx; repeat (apply elem_of_cons in Hx as [Hx|Hx]; [discriminate|]); inversion Hx..]. }
  apply (ins_cons [KPopToReg] (lit "PopToReg") [] [] []); [|constructor|constructor]. apply in_plain. repeat (first [left; reflexivity|right]).
Qed.
