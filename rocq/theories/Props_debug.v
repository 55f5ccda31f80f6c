(** * Property theorems: C68, what errors and trees print with [{:?}]; C69, what the panic
    message of new_from_text says about the grammar. *)
From Verif Require Import Base Peekables Tree Errors Sets ParserData Vm SimpleStackVm StackVm RuleParsing FirstSets FollowSets SteuerMap ScriptParser Display DebugFmt Payload
  SpecText SpecData SpecGrammar SpecParser SpecTree SpecScript SpecContract SpecWeave SpecRules SpecNames SpecLanguage SpecComplaint SpecMessages
  Grammar_proofs First_proofs Follow_proofs Steuer_proofs Construct_proofs Checks Tree_proofs Script_proofs Parse_proofs
  Weave_proofs Names_proofs RuleBuild_proofs RuleText_proofs Language_proofs Props_steuer Props_script Props_weave Props_rules Props_vm Props_names Props_language Props_main Props_same SpecPoints ParseFuncs_proofs Props_errors Props_points
  Debug_proofs Blame_proofs Samples.

(** ** C68.  What [{:?}] prints tells errors apart, and trees. *)
Theorem C68_debug_tells_errors_apart : forall (P : Printable),
  (forall e e', debug_parser_error e = debug_parser_error e' -> e = e') /\
  (forall e e', debug_grammar_error e = debug_grammar_error e' -> e = e') /\
  (forall e e', debug_tree_error e = debug_tree_error e' -> e = e') /\
  (forall e e', debug_graph_error e = debug_graph_error e' -> e = e').
Proof.
  intros P. split; [|split; [|split]]; apply code_inj; [apply code_parser_error|apply code_grammar_error|apply code_tree_error|apply code_graph_error].
Qed.
Print Assumptions C68_debug_tells_errors_apart.
(** Two trees of strings that print the same are the same tree. *)
Theorem C68_debug_tells_trees_apart : forall (P : Printable) (t t' : Tree str), debug_tree debug_str t = debug_tree debug_str t' -> t = t'.
Proof. intros P. apply code_inj, code_tree, code_str. Qed.
Print Assumptions C68_debug_tells_trees_apart.
(** All of it is printable: no line break, no control char, whatever chars the script had. *)
Definition shown {P : Printable} (c : char) : Prop := (32 <= c <= 126)%N \/ ((126 < c)%N /\ uni_plain c = true).
Lemma shown_ascii {P : Printable} s : forallb (fun c => in_range 32 126 c) s = true -> Forall shown s.
Proof.
  intros Hf. apply Forall_forall. intros c Hc. rewrite forallb_forall in Hf. apply elem_of_list_In in Hc. specialize (Hf c Hc).
  unfold in_range in Hf. apply andb_true_iff in Hf as [H1 H2]. apply N.leb_le in H1, H2. left. auto.
Qed.
Lemma shown_usize {P : Printable} n : Forall shown (debug_usize n).
Proof.
  unfold debug_usize, show_usize. destruct (decimal_spec (N.of_nat n)) as (D1 & _ & _). eapply Forall_impl; [exact D1|]. intros c [H1 H2]. left. lia.
Qed.
Lemma shown_hex {P : Printable} n : Forall shown (show_hex n).
Proof.
  apply shown_ascii. unfold show_hex. generalize (N.to_hex_uint n). clear n. intros u. induction u; cbn [hex_chars forallb]; [reflexivity|..]; (rewrite IHu; reflexivity).
Qed.
Lemma shown_escape {P : Printable} q c : (q = 34 \/ q = 39)%N -> Forall shown (escape_debug q c).
Proof.
  intros Hq. unfold escape_debug.
  repeat (match goal with |- Forall _ (if ?b then lit _ else _) => destruct b; [apply shown_ascii; reflexivity|] end).
  destruct (c =? q)%N eqn:E; [apply N.eqb_eq in E; subst c; destruct Hq as [->| ->]; apply shown_ascii; reflexivity|].
  destruct (_ || _) eqn:E2.
  - apply Forall_cons; split; [|constructor]. apply orb_true_iff in E2 as [E2|E2]; apply andb_true_iff in E2 as [H1 H2]; [left; apply N.leb_le in H1, H2; auto|right; apply N.ltb_lt in H1; auto].
  - apply Forall_app. split; [apply shown_ascii; reflexivity|]. apply Forall_app. split; [apply shown_hex|apply shown_ascii; reflexivity].
Qed.
Lemma shown_str {P : Printable} s : Forall shown (debug_str s).
Proof.
  unfold debug_str. apply Forall_app. split; [apply shown_ascii; reflexivity|]. apply Forall_app. split; [|apply shown_ascii; reflexivity].
  induction s as [|c s IH]; cbn [map concat]; [constructor|]. apply Forall_app. split; [apply shown_escape; auto|assumption].
Qed.
Lemma shown_char {P : Printable} c : Forall shown (debug_char c).
Proof.
  unfold debug_char. apply Forall_app. split; [apply shown_ascii; reflexivity|]. apply Forall_app. split; [apply shown_escape; auto|apply shown_ascii; reflexivity].
Qed.
Ltac all_shown := repeat (apply Forall_app; split); first [apply shown_usize|apply shown_str|apply shown_char|apply shown_ascii; reflexivity|idtac].
Lemma shown_fields {P : Printable} l : Forall (fun fv => forallb (fun c => in_range 32 126 c) (fst fv) = true /\ Forall shown (snd fv)) l -> Forall shown (debug_fields l).
Proof.
  induction 1 as [|[f v] l [Hf Hv] Hl IH]; [constructor|]. destruct l as [|fv l]; cbn [debug_fields fst snd] in *; all_shown; auto using shown_ascii.
Qed.
Lemma shown_struct {P : Printable} n l : forallb (fun c => in_range 32 126 c) (lit n) = true ->
  Forall (fun fv => forallb (fun c => in_range 32 126 c) (lit (fst fv)) = true /\ Forall shown (snd fv)) l -> Forall shown (debug_struct n l).
Proof.
  intros Hn Hl. unfold debug_struct. apply Forall_app. split; [apply shown_ascii; assumption|]. apply Forall_app. split; [apply shown_ascii; reflexivity|].
  apply Forall_app. split; [|apply shown_ascii; reflexivity]. apply shown_fields. induction Hl; cbn [map]; constructor; assumption.
Qed.
#[local] Hint Resolve shown_usize shown_str shown_char : shown_db.
Ltac struct_shown := apply shown_struct; [reflexivity|repeat first [apply Forall_nil; exact Logic.I|apply Forall_cons; split; [split; [reflexivity|cbn [snd]; solve [auto 2 with shown_db nocore]]|]]].
Lemma shown_node_id {P : Printable} n : Forall shown (debug_node_id n).
Proof. struct_shown. Qed.
#[local] Hint Resolve shown_node_id : shown_db.
Lemma shown_tree_error {P : Printable} e : Forall shown (debug_tree_error e).
Proof. destruct e; struct_shown. Qed.
Lemma shown_grammar_error {P : Printable} e : Forall shown (debug_grammar_error e).
Proof. destruct e; struct_shown. Qed.
#[local] Hint Resolve shown_tree_error shown_grammar_error : shown_db.
Theorem C68_debug_is_printable : forall (P : Printable),
  (forall e, Forall shown (debug_parser_error e)) /\ (forall e, Forall shown (debug_grammar_error e)) /\
  (forall e, Forall shown (debug_tree_error e)) /\ (forall e, Forall shown (debug_graph_error e)) /\
  (forall t : Tree str, Forall shown (debug_tree debug_str t)).
Proof.
  intros P. split; [|split; [apply shown_grammar_error|split; [apply shown_tree_error|split]]].
  - intros []; try struct_shown. apply shown_ascii. reflexivity.
  - intros []; struct_shown.
  - assert (forall A (f : A -> str) l, (forall x, Forall shown (f x)) -> Forall shown (debug_list f l)) as Hlist.
    { intros A f l Hf. unfold debug_list. apply Forall_app. split; [apply shown_ascii; reflexivity|]. apply Forall_app. split; [|apply shown_ascii; reflexivity].
      induction l as [|x l IH]; [constructor|]. destruct l as [|y l]; cbn [debug_items] in *; [apply Hf|]. all_shown; [apply Hf|exact IH]. }
    assert (forall o, Forall shown (debug_option debug_usize o)) as Hopt by (intros [n|]; cbn [debug_option]; all_shown).
    intros [ns fr c]. unfold debug_tree. cbn [t_nodes t_free t_counter]. apply shown_struct; [reflexivity|].
    repeat (apply Forall_cons; split; [split; [reflexivity|cbn [snd]]|]); [apply Hlist|apply Hlist; apply shown_usize|apply shown_usize|constructor].
    intros [a b d e g pk dat]. unfold debug_node. cbn [n_parent n_prev n_next n_first n_last n_pk n_data]. apply shown_struct; [reflexivity|].
    repeat (apply Forall_cons; split; [split; [reflexivity|cbn [snd]; first [apply Hopt|apply shown_usize|apply shown_str]]|]). apply Forall_nil; exact Logic.I.
Qed.
Print Assumptions C68_debug_is_printable.

(** ** C69.  The reports are those of the calls. *)
Lemma zip_unwrap {E E'} ds : forall ts, zip_elements (E := E') ds ts = unwrap (zip_elements (E := E) ds ts).
Proof.
  induction ds as [|d ds IH]; intros [|t ts]; try reflexivity. cbn [zip_elements]. rewrite (IH ts). destruct (zip_elements ds ts); reflexivity.
Qed.
Theorem C69_reports_the_call : forall (U : Unicode) (H : HashOrder) m (vm : VM) fl,
  (forall t, new_from_text m vm fl t = unwrap (report_from_text m vm fl t)) /\
  (forall pd start, new_from_parser_data m vm fl pd start = unwrap (report_from_parser_data m vm fl pd start)).
Proof.
  intros U H m vm fl. split.
  - intros t. unfold new_from_text, report_from_text, get_elements_verbose. destruct (parse_rules_fn vm (rp_new vm t)) as [[[]|e| |] s]; try reflexivity.
    cbn [map_err unwrap obind]. rewrite (@zip_unwrap complaint Empty_set). destruct (zip_elements _ _) as [els|e| |]; try reflexivity. cbn [unwrap obind].
    destruct (get_first_sets _ _) as [fs|e| |]; try reflexivity. cbn [unwrap map_err obind]. destruct (get_element_nt_index _ _) as [start|]; [|reflexivity].
    destruct (get_follow_sets _ _ _ _ _) as [fw|e| |]; try reflexivity. cbn [unwrap map_err obind]. destruct (get_steuermaps _ _ _); reflexivity.
  - intros pd start. unfold new_from_parser_data, report_from_parser_data, get_elements_verbose.
    destruct (get_first_sets _ _) as [fs|e| |]; try reflexivity. cbn [unwrap map_err obind].
    destruct (get_follow_sets _ _ _ _ _) as [fw|e| |]; try reflexivity. cbn [unwrap map_err obind].
    rewrite (@zip_unwrap complaint Empty_set). destruct (zip_elements _ _) as [els|e| |]; try reflexivity. cbn [unwrap obind].
    destruct (get_steuermaps _ _ _); reflexivity.
Qed.
Print Assumptions C69_reports_the_call.

Section named.
Context {H : HashOrder} {vm : VM} (pd pd' : ParserData (vm_instr vm)) (rs : list (arule (vm_instr vm))).
Context (Hd : described pd rs) (Hed : edited_data pd pd').
Lemma numbered_verbose k x : numbered rs k x <-> get_element_verbose pd k = Some (x, NonTerminal).
Proof. unfold numbered. rewrite <- (described_verbose pd rs k Hd). reflexivity. Qed.
Lemma undef_named w k A : alternative pd' A w -> k ∈ w -> is_nonterminal pd' k -> ~ has_rule pd' k -> exists y, wanted_but_missing rs y /\ numbered rs k y.
Proof.
  intros Ha Hk [y Hy] Hn. rewrite (ed_verbose pd pd' Hed) in Hy. exists y. split; [|apply numbered_verbose; assumption].
  assert (has_rule pd' A) as HrA by (destruct Ha as (r & p & Hr & _); eexists; exact Hr).
  destruct (rule_element pd pd' rs Hd Hed A HrA) as [x HA]. destruct (alternative_says pd pd' rs Hd Hed A x w HA Ha) as (i & n & Hs & Hc).
  apply elem_of_list_lookup in Hk as [j Hj]. destruct (Forall2_lookup_r _ _ _ _ _ Hc Hj) as (v & Hv & HvB). rewrite (ed_verbose pd pd' Hed) in HvB.
  exists x, i, n. split; [assumption|]. split; [apply elem_of_list_lookup; exists j; congruence|].
  rewrite <- (has_rule_defined pd rs Hd k y Hy), <- (edd_domain _ _ Hed). assumption.
Qed.
Lemma sound_edited : sound_indices pd'.
Proof.
  pose proof (edited_proper pd pd' rs Hd Hed) as [P1 P2]. split; [|assumption].
  intros A w e Ha He. destruct (P2 A w e Ha He) as [[n k] Hv]. destruct k; [left; exists n; exact Hv|right; exists n; exact Hv].
Qed.
Lemma label_word p w : stands_for pd' w p -> clash_label pd' p = clash_word w.
Proof.
  intros (ixs & [[-> ->]|[Hne ->]] & Hf); [inversion Hf; reflexivity|]. destruct Hf as [|v ix w l Hv Hf]; [congruence|]. cbn. rewrite Hv. destruct v as [n []]; reflexivity.
Qed.
End named.
(** what the analysis of a grammar text says *)
Theorem C69_panic_names_a_defect : forall (U : Unicode) (H : HashOrder) m (vm : VM) reads fl rs t,
  supported vm reads -> tables_disjoint -> grammar_text reads rs t -> (N.of_nat (length t) < 2 ^ 63)%N -> enough_for_text fl t ->
  match report_from_text m vm fl t with
  | Ok _ => parsable rs
  | Err c => because rs c
  | Panic => exists x i w, says rs x i w /\ head w = Some ([], Terminal)
  | Diverge => exists x, left_recursive_name rs x
  end.
Proof.
  intros U H m vm reads fl rs t Hs Htab Ht Hlen Hfl.
  pose proof (data_wf vm rs) as Hwf. pose proof (data_indices vm rs) as Hix. pose proof (data_described vm rs) as Hdes.
  pose proof (C15_edited_rules H vm _ Hwf Hix) as Hed.
  pose proof (parse_rendering vm reads (supported_reads vm reads Hs) rs t Htab Ht) as E.
  pose proof (C58_buildable_iff_parsable U H m vm reads rs t fl Hs Htab Ht Hlen Hfl) as Hbuild.
  pose proof (proj1 (proj2 (C58_failures U H m vm reads t fl Hs Htab Hlen) rs Ht) Hfl) as Hdiv.
  rewrite (proj1 (C69_reports_the_call U H m vm fl) t) in Hbuild, Hdiv.
  assert (forall ps, report_from_text m vm fl t = Ok ps -> parsable rs) as Hok.
  { intros ps Hps. apply Hbuild. rewrite Hps. exists ps. reflexivity. }
  assert (report_from_text m vm fl t = Diverge -> exists x, left_recursive_name rs x) as Hdi.
  { intros Hx. apply Hdiv. rewrite Hx. reflexivity. }
  clear Hbuild Hdiv. destruct (report_from_text m vm fl t) as [ps|c| |] eqn:Er; [eapply Hok; reflexivity| | |apply Hdi; reflexivity]; clear Hok Hdi;
    revert Er; unfold report_from_text; rewrite E.
  all: pose proof (fun s Es => text_data vm reads t s fl Hs Hlen Hfl (eq_trans E Es)) as Htd.
  all: destruct (edit_rules vm (fold_left (build_rule vm) rs pd_new)) as [pd'|e| |] eqn:Eed; try contradiction; cbn [map_err obind]; try discriminate.
  2:{ intros [= <-]. pose proof (edit_rules_spec _ Hwf Hix) as Hsp. rewrite Eed in Hsp. destruct Hsp as (A & r & ig & Hr & Hig & Hc).
      pose proof (check_spec _ ig A Hwf Hix (proj2 Hix A r ig Hr Hig)) as Hck. rewrite Hc in Hck. destruct Hck as (z & u & v & -> & Hder & [zn Hz] & Hnz).
      destruct (ignore_named _ rs A r ig Hdes Hr Hig) as (xn & yn & HA & Hy & Hxy).
      apply (because_ignored rs xn yn zn z); [assumption| | |apply (numbered_verbose _ rs Hdes); assumption].
      2:{ rewrite <- (has_rule_defined _ rs Hdes z zn Hz). assumption. }
      destruct (decide (has_rule (fold_left (build_rule vm) rs pd_new) ig)) as [Hru|Hno].
      - apply (inside_derives _ rs Hdes ig z yn zn Hy Hz). split; [assumption|]. exists u, v. assumption.
      - assert (z = ig) as ->; [|assert (zn = yn) as -> by congruence; constructor].
        inversion Hder as [E1 E2|? l ? Hst _ E1 E2].
        + destruct u as [|? [|]]; cbn in *; congruence.
        + exfalso. inversion Hst as [u' B v' w' Halt E3 E4]. destruct u' as [|? [|]]; cbn in E3; try discriminate. injection E3 as -> _.
          apply Hno. destruct Halt as (r' & p & Hr' & _). eexists. exact Hr'. }
  all: specialize (Htd _ eq_refl); cbn [rp_pd] in Htd |- *; destruct Htd as (Hwf' & Hfit & Hen & _); cbn [rp_pd] in *.
  all: destruct (@elements_verbose_ok _ complaint pd' Hwf') as (els & -> & _); cbn [obind].
  all: pose proof (sound_edited _ pd' rs Hdes Hed) as Hsi.
  all: pose proof (get_first_sets_blame pd' Hwf' Hsi (first_fuel fl)) as Hfb.
  all: destruct (get_first_sets pd' (first_fuel fl)) as [fs|e| |] eqn:Efs; try contradiction; cbn [map_err obind]; try discriminate.
  2:{ intros [= <-]. destruct Hfb as (k & -> & Hnt & Hnr & A & w & Ha & Hk).
      destruct (undef_named _ pd' rs Hdes Hed w k A Ha Hk Hnt Hnr) as (y & Hy & Hn). eapply because_production; eassumption. }
  all: destruct (get_first_sets_exact pd' Hwf' _ _ Efs) as (F1 & F2 & _); destruct (get_first_sets_grounded pd' Hwf' _ _ Efs) as [[Hne _] _].
  all: assert (forall start, get_element_nt_index pd' (lit "start") = Some start <-> get_element_verbose (fold_left (build_rule vm) rs pd_new) start = Some (lit "start", NonTerminal)) as Hst
    by (intros start; rewrite <- (de_numbers _ _ Hdes); unfold get_element_nt_index, get_element_index; rewrite (edd_index _ _ Hed); reflexivity).
  all: destruct (get_element_nt_index pd' (lit "start")) as [start|] eqn:Est; try discriminate.
  2:{ intros [= <-]. apply because_nothing. intros Hin.
      assert ((lit "start", NonTerminal) ∈ firsts [] (concat (map mentioned rs))) as Hin'.
      { pose proof (firsts_elem (concat (map mentioned rs)) [] (lit "start", NonTerminal)) as Hfe. cbn [app] in Hfe. apply Hfe. right. assumption. }
      apply elem_of_list_lookup in Hin' as [k Hk]. rewrite <- (described_verbose _ rs k Hdes) in Hk. apply Hst in Hk. discriminate. }
  all: pose proof (proj1 (Hst start) eq_refl) as Hstart; clear Hst; pose proof Hstart as Hstart'; rewrite <- (ed_verbose _ pd' Hed) in Hstart'.
  all: pose proof (get_follow_sets_blame m pd' Hwf' Hsi fs start (follow_fuel fl) F1 F2 Hfit) as Hwb; pose proof (get_follow_sets_spec m pd' Hwf' start fs (follow_fuel fl) F1 F2 Hfit) as Hws.
  all: destruct (get_follow_sets m pd' (follow_fuel fl) start fs) as [fw|e| |] eqn:Efw; try contradiction; cbn [map_err obind]; try discriminate.
  2:{ intros [= <-]. destruct Hwb as [[-> Hnr]|(A & w & Ha & k & Hk & Hnt & Hnr & Hn)].
      - apply because_start; [|apply (numbered_verbose _ rs Hdes); assumption]. rewrite <- (has_rule_defined _ rs Hdes start _ Hstart), <- (edd_domain _ _ Hed). assumption.
      - destruct (undef_named _ pd' rs Hdes Hed w k A Ha Hk Hnt Hnr) as (y & Hy & Hnum). destruct Hn as [->| ->]; [eapply because_first|eapply because_node]; eassumption. }
  all: destruct Hws as (_ & Hgood & W1 & W2); pose proof (tables_blame pd' Hwf' fs fw start F1 F2 W1 W2 (conj Hne Hgood)) as Htb.
  all: destruct (get_steuermaps fs fw pd') as [maps|e| |]; try contradiction; cbn [map_err obind]; try discriminate.
  - intros [= <-]. destruct Htb as (A & r & i & j & p & q & x & HA & Hi & Hj & Hij & Hp & Hq & ->).
    destruct (rule_element _ pd' rs Hdes Hed A) as [xn Hxn]; [eexists; exact HA|].
    destruct (proj1 (proj2 (says_rule _ pd' rs Hdes Hed A r xn i Hxn HA)) _ Hi) as (w & Hsw & Hst1).
    destruct (proj1 (proj2 (says_rule _ pd' rs Hdes Hed A r xn j Hxn HA)) _ Hj) as (w' & Hsw' & Hst2).
    rewrite (label_word pd' q w' Hst2). pose proof (numbered_verbose _ rs Hdes A xn) as Hnum. pose proof (proj2 Hnum Hxn) as Hnx. rewrite <- (ed_verbose _ _ Hed) in Hxn.
    apply (because_clash rs xn i j w w' x A Hsw Hsw' Hij); [| |assumption].
    + apply (nchoose_iff _ pd' rs Hdes Hed start A xn w p x Hstart' Hxn); assumption.
    + apply (nchoose_iff _ pd' rs Hdes Hed start A xn w' q x Hstart' Hxn); assumption.
  - intros _. destruct Htb as (A & r & p & HA & Hp & e & l & -> & He). destruct (rule_element _ pd' rs Hdes Hed A) as [xn Hxn]; [eexists; exact HA|].
    apply elem_of_list_lookup in Hp as [i Hi]. destruct (proj1 (proj2 (says_rule _ pd' rs Hdes Hed A r xn i Hxn HA)) _ Hi) as (w & Hsw & ixs & [[_ E3]|[_ E3]] & Hf); [discriminate|].
    injection E3 as <-. inversion Hf as [|v ix w0 l0 Hv Hf']; subst. exists xn, i, (v :: w0). split; [assumption|]. cbn. unfold is_terminal in He. congruence.
Qed.
Print Assumptions C69_panic_names_a_defect.
(** the same for parser data made by other means *)
Theorem C69_parser_data : forall (H : HashOrder) m (vm : VM) fl (pd : ParserData (vm_instr vm)) start,
  wf_grammar pd -> sound_indices pd -> fits_memory pd -> enough fl pd ->
  match report_from_parser_data m vm fl pd start with
  | Ok _ => constructible pd start
  | Err c => exists e, c = AboutGrammar e /\
      ((exists k, undefined_used pd k /\ (e = MissingProduction k \/ e = MissingFirstSet k \/ e = GraphNodeDoesNotExistsError k)) \/
       (e = GraphNodeDoesNotExistsError start /\ ~ has_rule pd start) \/
       exists A r i j p q x, pd_rules pd !! A = Some r /\ possible_productions r !! i = Some p /\ possible_productions r !! j = Some q /\ i < j /\
         CHOOSE pd start A p x /\ CHOOSE pd start A q x /\ e = SteuerSetsNotDistinct (clash_label pd q) (fill_char x) A)
  | Panic => exists A r p, pd_rules pd !! A = Some r /\ p ∈ possible_productions r /\ starts_with_empty_terminal pd p
  | Diverge => exists A, left_recursive pd A
  end.
Proof.
  intros H m vm fl pd start Hwf Hsi Hfit Hen. pose proof (construct_spec m vm fl pd start Hwf Hfit) as Hc.
  revert Hc. unfold new_from_parser_data, report_from_parser_data.
  pose proof (get_first_sets_blame pd Hwf Hsi (first_fuel fl)) as Hfb.
  destruct (get_first_sets pd (first_fuel fl)) as [fs|e| |] eqn:Efs; cbn [map_err unwrap obind]; [|intros _..].
  2:{ destruct Hfb as (k & -> & Hk). exists (MissingProduction k). split; [reflexivity|]. left. exists k. auto. }
  2:{ contradiction. }
  2:{ destruct Hen as [He _]. apply (get_first_sets_div pd Hwf (first_fuel fl) He Efs). }
  destruct (get_first_sets_exact pd Hwf _ _ Efs) as (F1 & F2 & _); destruct (get_first_sets_grounded pd Hwf _ _ Efs) as [[Hne _] _].
  pose proof (get_follow_sets_blame m pd Hwf Hsi fs start (follow_fuel fl) F1 F2 Hfit) as Hwb; pose proof (get_follow_sets_spec m pd Hwf start fs (follow_fuel fl) F1 F2 Hfit) as Hws.
  destruct (get_follow_sets m pd (follow_fuel fl) start fs) as [fw|e| |] eqn:Efw; cbn [map_err unwrap obind]; [|intros _..].
  2:{ exists e. split; [reflexivity|]. destruct Hwb as [Hst|(A & w & Ha & k & Hk & Hnt & Hnr & Hn)]; [auto|]. left. exists k.
      split; [|destruct Hn as [->| ->]; auto]. split; [assumption|]. split; [assumption|]. exists A, w. auto. }
  2:{ contradiction. }
  2:{ exfalso. destruct Hen as [_ Hen]. specialize (Hws (follow_universe pd) (follow_universe_ok pd Hwf start)).
      pose proof (Nat.mul_le_mono_l _ _ (size (pd_rules pd)) (follow_universe_size pd Hwf)). lia. }
  destruct Hws as (_ & Hgood & W1 & W2); pose proof (tables_blame pd Hwf fs fw start F1 F2 W1 W2 (conj Hne Hgood)) as Htb.
  destruct (@elements_verbose_ok _ complaint pd Hwf) as (els & -> & _). destruct (@elements_verbose_ok _ Empty_set pd Hwf) as (els' & -> & _). cbn [obind].
  destruct (get_steuermaps fs fw pd) as [maps|e| |]; cbn [map_err unwrap obind]; [|intros _..].
  - intros [Hc _]. exact Hc.
  - exists e. split; [reflexivity|]. right. right. exact Htb.
  - exact Htb.
  - contradiction.
Qed.
Print Assumptions C69_parser_data.
(** texts that are not grammar texts: the error is that of reading the text, and if it has a
    position this is where the text stops being the beginning of a rule text *)
Theorem C69_other_texts : forall (U : Unicode) (H : HashOrder) m (vm : VM) reads fl t, supported vm reads -> vm_points vm reads -> tables_disjoint ->
  (forall rs, ~ grammar_text reads rs t) ->
  exists e s, parse_rules_fn vm (rp_new vm t) = (Err e, s) /\ report_from_text m vm fl t = Err (AboutText e) /\
    forall k, error_position e = Some k -> forall j, j <= length t -> (begins reads (take j t) <-> if is_hash_error e then j < k else j <= k).
Proof.
  intros U H m vm reads fl t Hs Hp Hd Hno. unfold report_from_text.
  pose proof (C12_total_and_complete U H vm reads t Hs) as Htot. pose proof (C11_only_texts_are_accepted U H vm reads t) as Hon.
  destruct (parse_rules_fn vm (rp_new vm t)) as [[[]|e| |] s] eqn:E; try contradiction.
  - destruct (Hon s Hs eq_refl) as (rs & pd & Ht & _). destruct (Hno rs Ht).
  - exists e, s. split; [reflexivity|]. split; [reflexivity|]. intros k Hk. eapply C67_longest_viable_prefix; eauto using supported_reads.
Qed.
Print Assumptions C69_other_texts.
(** Its wording: that of [Result::unwrap] and [Option::unwrap]. *)
Theorem C92_panics : forall (P : Printable),
  (forall e, panic_message (AboutText e) = fill "called `Result::unwrap()` on an `Err` value: {}" [debug_parser_error e]) /\
  (forall e, panic_message (AboutGrammar e) = fill "called `Result::unwrap()` on an `Err` value: {}" [debug_grammar_error e]) /\
  panic_message AboutStart = fill "called `Option::unwrap()` on a `None` value" [].
Proof.
  intros P. split; [|split]; [intros e; unfold panic_message; generalize (debug_parser_error e)|intros e; unfold panic_message; generalize (debug_grammar_error e)|vm_compute; reflexivity];
    intros l; rewrite <- (app_nil_r l) at 1; vm_compute; reflexivity.
Qed.
Print Assumptions C92_panics.
(** The message tells which of these it is. *)
Theorem C69_message_tells : forall (P : Printable) c c', panic_message c = panic_message c' -> c = c'.
Proof.
  intros P. assert (forall e e', debug_parser_error e <> debug_grammar_error e') as Hne by (intros [] []; discriminate).
  destruct (C68_debug_tells_errors_apart P) as (H1 & H2 & _).
  intros [e|e|] [e'|e'|] E; unfold panic_message in E; try discriminate; try reflexivity; apply app_inv_head in E; f_equal; auto; exfalso; [|symmetry in E]; eapply Hne; eassumption.
Qed.
Print Assumptions C69_message_tells.

(** ** Cases *)
Section example.
Local Existing Instance ascii_unicode.
Instance plain_ascii : Printable := {| uni_plain c := false |}.
Example C68_example :
  debug_parser_error (UnexpectedCharError 10 3 (lit "a""b")) = lit "UnexpectedCharError { chr: '\n', pos: 3, expected: ""a\""b"" }" /\
  debug_parser_error (GramError (UnexpectedElementError ReasonNoElements 7)) <> debug_parser_error (GramError (UnexpectedElementError ReasonNoElements 8)) /\
  show_parser_error (GramError (UnexpectedElementError ReasonNoElements 7)) = show_parser_error (GramError (UnexpectedElementError ReasonNoElements 8)) /\
  debug_char 252 = lit "'\u{fc}'" /\
  debug_tree debug_str (snd (add_node (lit "x") None tree_new)) =
    lit "Tree { nodes: [Node { parent: None, previous_sibling: None, next_sibling: None, first_child: None, last_child: None, pk: 0, data: ""x"" }], free_node_indexes: [], counter: 1 }".
Proof. split; [vm_compute; reflexivity|]. split; [vm_compute; discriminate|]. split; [vm_compute; reflexivity|]. split; vm_compute; reflexivity. Qed.

(** one text for each complaint *)
Notation rep t := (match @report_from_text _ plain_order Checked NullVm (mkFuels 100 3000) (lit t) with Err c => Some c | _ => None end).
Example C69_complaints_example :
  rep "start->x;" = Some (AboutGrammar (MissingProduction 1)) /\
  rep "start->""a"" s y;s->""b"";" = Some (AboutGrammar (MissingFirstSet 3)) /\
  rep "start->""a""x;" = Some (AboutGrammar (GraphNodeDoesNotExistsError 2)) /\
  rep "x->""a""start;" = Some (AboutGrammar (GraphNodeDoesNotExistsError 2)) /\
  rep "x->""a"";" = Some AboutStart /\
  rep "start->$[IGNORE:w]""a"";" = Some (AboutText (InternalError 1)) /\
  rep "start->x|#;x->""a""|#;" = Some (AboutGrammar (SteuerSetsNotDistinct (lit "follow_set") 35 0)) /\
  rep "start=" = Some (AboutText (UnexpectedCharError 61 5 (lit "-"))).
Proof. vm_compute. auto 10. Qed.
(** a text, its grammar, what the call reports, and what the report says *)
Definition cl_rules : list (arule (vm_instr NullVm)) := [mkARule (lit "start") OvAbsent [[(lit "b", Terminal)]; [(lit "b", Terminal)]] []].
Definition cl_text : str := lit "start->""b""|""b"";".
Lemma cl_text_ok : grammar_text null_reads cl_rules cl_text.
Proof.
  apply (gr_cons null_reads _ (lit "start->""b""|""b"";") [] _ []); [constructor| |apply gr_end; constructor].
  apply (rule_intro null_reads (mkARule (lit "start") OvAbsent [[(lit "b", Terminal)]; [(lit "b", Terminal)]] []) [] [] [] [] []
      [] (lit """b""|""b""") []); try (constructor; fail); try (split; [reflexivity|repeat constructor]).
  apply (alts_cons _ (lit """b""") [] [] _ (lit """b""")); [|constructor..|apply alts_one]; apply alt_elements, els_one, one_quoted; discriminate.
Qed.
Example C69_example : supported NullVm null_reads /\ grammar_text null_reads cl_rules cl_text /\ enough_for_text (mkFuels 100 3000) cl_text /\
  exists c, @report_from_text _ plain_order Checked NullVm (mkFuels 100 3000) cl_text = Err c /\ because cl_rules c /\
    panic_message c = lit "called `Result::unwrap()` on an `Err` value: SteuerSetsNotDistinct { steuer_terminal: ""b"", steuer_char: 'b', rule_name: ""0"" }".
Proof.
  assert (enough_for_text (mkFuels 100 3000) cl_text) as Hf by (split; cbn [first_fuel follow_fuel]; apply Nat.leb_le || apply Nat.ltb_lt; vm_compute; reflexivity).
  split; [constructor|]. split; [apply cl_text_ok|]. split; [exact Hf|].
  assert (@report_from_text _ plain_order Checked NullVm (mkFuels 100 3000) cl_text = Err (AboutGrammar (SteuerSetsNotDistinct (lit "b") 98 0))) as Hr.
  { assert (forall (A : Type) (r : outcome complaint A) c, (match r with Err c => Some c | _ => None end) = Some c -> r = Err c) as Hx by (intros A [] c; congruence).
    apply Hx. vm_compute. reflexivity. }
  eexists. split; [exact Hr|]. split; [|vm_compute; reflexivity].
  pose proof (C69_panic_names_a_defect _ plain_order Checked NullVm null_reads (mkFuels 100 3000) cl_rules cl_text ltac:(constructor) ascii_tables cl_text_ok ltac:(vm_compute; reflexivity) Hf) as Hb.
  rewrite Hr in Hb. exact Hb.
Qed.
(** the data of that text, and an index that is not that of a rule *)
Lemma data_of_text {H : HashOrder} rs t : grammar_text null_reads rs t -> (N.of_nat (length t) < 2 ^ 63)%N -> forall fl, enough_for_text fl t ->
  fst (parse_rules_fn NullVm (rp_new NullVm t)) = Ok tt ->
  let pd := rp_pd (snd (parse_rules_fn NullVm (rp_new NullVm t))) in wf_grammar pd /\ sound_indices pd /\ fits_memory pd /\ enough fl pd.
Proof.
  intros Ht Hlen fl Hfl E. destruct (parse_rules_fn NullVm (rp_new NullVm t)) as [r s] eqn:Ep. cbn [fst snd] in *. subst r.
  destruct (text_data NullVm null_reads t s fl ltac:(constructor) Hlen Hfl Ep) as (H1 & H2 & H3 & _). split; [assumption|]. split; [|auto].
  pose proof (parse_rendering NullVm null_reads (supported_reads NullVm null_reads ltac:(constructor)) rs t ascii_tables Ht) as E'. rewrite Ep in E'.
  pose proof (C15_edited_rules H NullVm _ (data_wf NullVm rs) (data_indices NullVm rs)) as Hed.
  destruct (edit_rules NullVm (fold_left (build_rule NullVm) rs pd_new)) as [pd'|e| |]; try discriminate. injection E' as ->. cbn [rp_pd] in *.
  apply (sound_edited _ pd' rs (data_described NullVm rs) Hed).
Qed.
Example C69_data_example : exists pd : ParserData (vm_instr NullVm), wf_grammar pd /\ sound_indices pd /\ fits_memory pd /\ enough (mkFuels 100 3000) pd /\
  @report_from_parser_data plain_order Checked NullVm (mkFuels 100 3000) pd 1 = Err (AboutGrammar (GraphNodeDoesNotExistsError 1)).
Proof.
  exists (rp_pd (snd (@parse_rules_fn _ plain_order NullVm (rp_new NullVm cl_text)))).
  destruct (@data_of_text plain_order cl_rules cl_text cl_text_ok ltac:(vm_compute; reflexivity) (mkFuels 100 3000)) as (H1 & H2 & H3 & H4).
  - split; cbn [first_fuel follow_fuel]; apply Nat.leb_le || apply Nat.ltb_lt; vm_compute; reflexivity.
  - vm_compute. reflexivity.
  - split; [exact H1|]. split; [exact H2|]. split; [exact H3|]. split; [exact H4|].
    assert (forall (A : Type) (r : outcome complaint A) c, (match r with Err c => Some c | _ => None end) = Some c -> r = Err c) as Hx by (intros A [] c; congruence).
    apply Hx. vm_compute. reflexivity.
Qed.
End example.
