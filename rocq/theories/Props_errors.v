(** * Property theorems: what parse errors tell the user: C59, C60 *)
From Verif Require Import Base Peekables Tree Errors Sets ParserData Vm RuleParsing FirstSets FollowSets SteuerMap ScriptParser Display
  SpecText SpecData SpecGrammar SpecParser SpecTree SpecScript SpecContract SpecWeave SpecRules SpecLanguage ParseFuncs_proofs Grammar_proofs Construct_proofs Checks Tree_proofs Script_proofs Parse_proofs
  Expected_proofs RuleBuild_proofs RuleText_proofs Language_proofs Props_steuer Props_script Props_rules Props_language Samples.

(** ** C60.  Messages *)
Lemma digits_split ds ds' : forall r r' : str, Forall digit_char ds -> Forall digit_char ds' -> not_starting digit_char r -> not_starting digit_char r' ->
  ds ++ r = ds' ++ r' -> ds = ds' /\ r = r'.
Proof.
  revert ds'. induction ds as [|d ds IH]; intros ds' r r' Hd Hd' Hr Hr' E.
  - destruct ds' as [|d' ds']; [auto|]. exfalso. cbn in E. subst r. apply Forall_cons in Hd' as [? _]. contradiction.
  - apply Forall_cons in Hd as [H1 H2]. destruct ds' as [|d' ds']; cbn in E; [subst r'; contradiction|].
    apply Forall_cons in Hd' as [H1' H2']. injection E as -> E. destruct (IH ds' r r' H2 H2' Hr Hr' E) as [-> ->]. auto.
Qed.
Lemma show_split n n' r r' : not_starting digit_char r -> not_starting digit_char r' -> show_usize n ++ r = show_usize n' ++ r' -> n = n' /\ r = r'.
Proof.
  intros Hr Hr' E. unfold show_usize in E. destruct (decimal_spec (N.of_nat n)) as (D1 & _ & D3), (decimal_spec (N.of_nat n')) as (D1' & _ & D3').
  destruct (digits_split _ _ r r' D1 D1' Hr Hr' E) as [E1 ->]. split; [|reflexivity]. rewrite E1 in D3. lia.
Qed.
Lemma show_split_nil n n' : show_usize n = show_usize n' -> n = n'.
Proof. intros E. apply (show_split n n' [] []); try exact Logic.I. rewrite !app_nil_r. assumption. Qed.
Ltac nodigit := intros [? ?]; vm_compute in *; congruence.
Lemma show_head n : exists c r, show_usize n = c :: r /\ digit_char c.
Proof.
  unfold show_usize. destruct (decimal_spec (N.of_nat n)) as (D1 & D2 & _). destruct (decimal (N.of_nat n)) as [|c r]; [congruence|].
  apply Forall_cons in D1 as [D1 _]. eauto.
Qed.

Lemma one_split (c c' : char) (r r' : str) : [c] ++ r = [c'] ++ r' -> c = c' /\ r = r'.
Proof. intros E. injection E as -> ->. auto. Qed.

(** The errors a parse can return: their messages are all different. *)
Definition script_error (e : ParserError) : Prop :=
  match e with UnexpectedCharError _ _ _ | EndOfCharsError _ => True | _ => False end.
Lemma messages_injective e e' : script_error e -> script_error e' -> show_parser_error e = show_parser_error e' -> e = e'.
Proof.
  destruct e as [c pos ex|pos| | | | | | |], e' as [c' pos' ex'|pos'| | | | | | |]; intros [] []; unfold show_parser_error; intros E; try discriminate.
  - apply app_inv_head, one_split in E as [-> E]. apply app_inv_head in E.
    apply show_split in E as [-> E]; [|nodigit..]. apply app_inv_head in E. congruence.
  - apply app_inv_head, show_split_nil in E. congruence.
Qed.
Theorem C60_messages_tell_errors_apart : forall (H H' : HashOrder) m m' (vm vm' : VM) fl fl' pd pd' start start' ps ps' fuel fuel' script script' v v' e e' w w',
  built m vm fl pd start ps -> start_element pd start -> keeps_tree vm ->
  built m' vm' fl' pd' start' ps' -> start_element pd' start' -> keeps_tree vm' ->
  parse vm ps fuel script v = (Err e, w) -> parse vm' ps' fuel' script' v' = (Err e', w') ->
  show_parser_error e = show_parser_error e' -> e = e'.
Proof.
  assert (forall (H : HashOrder) m (vm : VM) fl pd start ps fuel script v e w,
    built m vm fl pd start ps -> start_element pd start -> keeps_tree vm -> parse vm ps fuel script v = (Err e, w) -> script_error e) as Hs.
  { intros H m vm fl pd start ps fuel script v e w Hb Hst Hk Hp. unfold parse in Hp. destruct (parse_run vm ps fuel script v) as [o s] eqn:E. injection Hp as -> <-.
    destruct (C35_first_offending_char H m vm fl pd start ps fuel script v e s Hb Hst Hk E) as (b & r & _ & _ & _ & He & _). destruct e; try contradiction; exact Logic.I. }
  intros. eapply messages_injective; eauto.
Qed.
Print Assumptions C60_messages_tell_errors_apart.
(** The listing after "Expected" can be read back: it determines the list of lookaheads. *)
Lemma member_text_ne x : exists c r, member_text x = c :: r /\ ((x = MChar c /\ r = []) \/ (x = MTerminate /\ r = lit "erminate")).
Proof. destruct x as [c|]; [exists c, []; auto|exists 116%N, (lit "erminate"); auto]. Qed.
Lemma joined_cons x l : SpecScript.joined (lit ";") (map member_text (x :: l)) = member_text x ++ match l with [] => [] | _ => lit ";" ++ SpecScript.joined (lit ";") (map member_text l) end.
Proof. destruct l; cbn [map SpecScript.joined]; [rewrite app_nil_r|]; reflexivity. Qed.
Theorem C60_listing_readable : forall l l', SpecScript.joined (lit ";") (map member_text l) = SpecScript.joined (lit ";") (map member_text l') -> l = l'.
Proof.
  induction l as [|x l IH]; intros [|x' l'] E; [reflexivity| | |].
  - rewrite joined_cons in E. destruct (member_text_ne x') as (c & r & Hx & _). rewrite Hx in E. discriminate.
  - rewrite joined_cons in E. destruct (member_text_ne x) as (c & r & Hx & _). rewrite Hx in E. discriminate.
  - rewrite !joined_cons in E.
    assert (x = x' /\ match l with [] => [] | _ => lit ";" ++ SpecScript.joined (lit ";") (map member_text l) end = match l' with [] => [] | _ => lit ";" ++ SpecScript.joined (lit ";") (map member_text l') end) as [-> E'].
    { destruct x as [c|], x' as [c'|]; cbn [member_text] in E.
      - injection E as -> E. auto.
      - injection E as -> E. exfalso. destruct l; discriminate.
      - injection E as <- E. exfalso. destruct l'; discriminate.
      - apply app_inv_head in E. auto. }
    f_equal. destruct l as [|y l], l' as [|y' l']; try discriminate; [reflexivity|]. apply app_inv_head in E'. apply IH. assumption.
Qed.
Print Assumptions C60_listing_readable.
(** Errors about rule texts do not have this property: the position of a wrong element is
    lost in the message. *)
Theorem C60_rule_messages_refuted : ~ (forall (U : Unicode) (H : HashOrder) t t' e e' s s',
  parse_rules_fn NullVm (rp_new NullVm t) = (Err e, s) -> parse_rules_fn NullVm (rp_new NullVm t') = (Err e', s') ->
  show_parser_error e = show_parser_error e' -> error_position e = error_position e').
Proof.
  intros Hx. specialize (Hx ascii_unicode plain_order (lit "a->;") (lit "a->""b""#;") (GramError (UnexpectedElementError ReasonNoElements 3)) (GramError (UnexpectedElementError ReasonEmptyWithOthers 7))).
  assert (forall (A B : Type) (p : A * B) (a : A), fst p = a -> exists b, p = (a, b)) as Hp by (intros A B [a b] ? <-; eauto).
  destruct (Hp _ _ (@parse_rules_fn ascii_unicode plain_order NullVm (rp_new NullVm (lit "a->;"))) (Err (GramError (UnexpectedElementError ReasonNoElements 3)))) as [s Hs]; [vm_compute; reflexivity|].
  destruct (Hp _ _ (@parse_rules_fn ascii_unicode plain_order NullVm (rp_new NullVm (lit "a->""b""#;"))) (Err (GramError (UnexpectedElementError ReasonEmptyWithOthers 7)))) as [s' Hs']; [vm_compute; reflexivity|].
  specialize (Hx s s' Hs Hs' eq_refl). clear - Hx. cbn in Hx. discriminate Hx.
Qed.
Print Assumptions C60_rule_messages_refuted.
(** The other error types: tree errors and graph errors are told apart by their messages;
    grammar errors are, except that four of them always print the same text. *)
Lemma node_id_split id id' r r' : not_starting digit_char r -> not_starting digit_char r' -> show_node_id id ++ r = show_node_id id' ++ r' -> id = id' /\ r = r'.
Proof.
  intros Hr Hr' E. unfold show_node_id in E. rewrite <- !app_assoc in E. apply app_inv_head in E. apply show_split in E as [E1 E]; [|nodigit..].
  apply app_inv_head in E. apply show_split in E as [E2 ->]; [|assumption..]. split; [|reflexivity]. destruct id, id'. cbn in *. congruence.
Qed.
Lemma usize_not_id n r id r' : show_usize n ++ r <> show_node_id id ++ r'.
Proof.
  destruct (show_head n) as (c & x & -> & [H1 H2]). unfold show_node_id. intros E. injection E as -> _. vm_compute in H2. congruence.
Qed.
Theorem C60_tree_messages : forall e e', show_tree_error e = show_tree_error e' -> e = e'.
Proof.
  intros e e' E. destruct e as [i|i|n], e' as [i'|i'|n']; unfold show_tree_error in E; try (exfalso; symmetry in E; exact (usize_not_id _ _ _ _ E)); try (exfalso; exact (usize_not_id _ _ _ _ E)).
  1,2,3,4: apply node_id_split in E as [-> E]; [reflexivity || discriminate E|nodigit..].
  apply show_split in E as [-> _]; [reflexivity|nodigit..].
Qed.
Print Assumptions C60_tree_messages.
Lemma suffix_split (a a' s : str) : a ++ s = a' ++ s -> a = a'.
Proof. apply app_inv_tail. Qed.
Theorem C60_graph_messages : forall e e', show_graph_error e = show_graph_error e' -> e = e'.
Proof.
  intros [n|n|i] [n'|n'|i'] E; unfold show_graph_error in E; try discriminate; apply app_inv_head in E.
  - apply app_inv_tail in E. congruence.
  - apply app_inv_tail in E. congruence.
  - apply app_inv_tail, show_split_nil in E. congruence.
Qed.
Print Assumptions C60_graph_messages.
Definition constant_message (e : GrammarError) : Prop :=
  match e with
  | SteuerSetsNotDistinct _ _ _ | GraphNodeAlreadyExistsError _ | GraphNodeDoesNotExistsError _ | GraphIndexOutOfBounds _ => True
  | _ => False
  end.
Theorem C60_grammar_messages : forall e e', show_grammar_error e = show_grammar_error e' -> constant_message e \/ e = e'.
Proof.
  assert (forall i r why pos, show_usize i ++ r <> reason_text why ++ pos) as Hr.
  { intros i r why pos. destruct (show_head i) as (c & x & -> & [H1 H2]). destruct why; intros E; injection E as -> _; vm_compute in H2; congruence. }
  intros e e' E. destruct e as [i|i|i|i|i| |why pos| | |], e' as [i'|i'|i'|i'|i'| |why' pos'| | |]; try (left; exact Logic.I); right; unfold show_grammar_error in E; try discriminate; apply app_inv_head in E;
    try (exfalso; exact (Hr _ _ _ _ E)); try (exfalso; symmetry in E; exact (Hr _ _ _ _ E)).
  all: try (apply show_split in E as [-> E]; [reflexivity || discriminate E|nodigit..]).
  assert (why = why' /\ lit """ at pos " ++ show_usize pos ++ lit " was not expected" = lit """ at pos " ++ show_usize pos' ++ lit " was not expected") as [-> E'].
  { destruct why, why'; try discriminate; apply app_inv_head in E; auto. }
  apply app_inv_head, app_inv_tail, show_split_nil in E'. congruence.
Qed.
Print Assumptions C60_grammar_messages.

(** ** C59.  The listing after "Expected" names distinct lookaheads other than the one
    found.  If no nonterminal of the grammar stands for the empty text, it names exactly
    the possible continuations: none is missing, and (if every nonterminal stands for some
    text) each one can be continued to a sentence. *)
Lemma fails_unexpected {I} (pd : ParserData I) start e text stk rest : fails pd start e text stk rest -> ~ expects pd start stk (look rest).
Proof.
  induction 1 as [A r text Hr Hn|t s k rest Ht Hk Hne|A r p text es subs mid e stk after rest Hr Hp Hc He Hs Hf IH]; simpl; [| |assumption].
  - intros (r' & p & Hr' & Hp & Hc). assert (r' = r) as -> by congruence. exact (Hn p Hp Hc).
  - rewrite (text_of_terminal pd t s Ht). intros (c & Hc & El). apply Hne. rewrite Hc. destruct rest; simpl in *; congruence.
Qed.
Lemma reports_listing {I} (pd : ParserData I) start stk rest n c pos ex : reports pd start stk rest n (UnexpectedCharError c pos ex) ->
  exists keys, NoDup keys /\ ex = SpecScript.joined (lit ";") (map member_text keys) /\ pos = n /\ forall x, x ∈ keys <-> expects pd start stk x.
Proof.
  induction stk as [A|t k|A cs s IH after]; cbn [reports expects]; [| |exact IH].
  - intros (keys & r & Hnd & Hr & Hk & [= -> -> ->]). exists keys. split; [assumption|]. split; [reflexivity|]. split; [reflexivity|]. intros x. rewrite Hk. split.
    + intros (p & Hp & Hc). exists r, p. auto.
    + intros (r' & p & Hr' & Hp & Hc). assert (r' = r) as -> by congruence. eauto.
  - destruct rest as [|x rest]; [discriminate|]. intros (c' & Hc & Hne & [= -> -> ->]). exists [MChar c']. split; [apply NoDup_singleton|]. split; [reflexivity|]. split; [reflexivity|].
    intros y. rewrite elem_of_list_singleton. split; [intros ->; eauto|]. intros (c2 & Hc2 & ->). congruence.
Qed.
Definition no_empty_texts {I} (rs : list (arule I)) : Prop := forall x, defined rs x -> ~ derives_text rs x [].
Definition all_stand_for_text {I} (rs : list (arule I)) : Prop := forall x, defined rs x -> exists s, derives_text rs x s.
Theorem C59_expected_listing : forall (U : Unicode) (H : HashOrder) m (vm : VM) rs t ps, read_from m vm rs t ps ->
  forall fuel script v c pos ex v', parse vm ps fuel script v = (Err (UnexpectedCharError c pos ex), v') ->
  exists before rest keys, script = before ++ rest /\ pos = length before /\
    ex = SpecScript.joined (lit ";") (map member_text keys) /\ NoDup keys /\ look rest ∉ keys /\
    (no_empty_texts rs -> forall more, sentence rs (before ++ more) -> look more ∈ keys) /\
    (no_empty_texts rs -> all_stand_for_text rs -> forall a, a ∈ keys -> exists more, sentence rs (before ++ more) /\ look more = a).
Proof.
  intros U H m vm rs t ps Hr fuel script v c pos ex v' Hp. destruct (read_from_vm m vm rs t ps Hr) as [Hk Hret].
  destruct (read_from_built m vm rs t ps Hr) as (pd & pd' & start & fl & Hd & Hed & Hst & Hb & Hsz).
  unfold parse in Hp. destruct (parse_run vm ps fuel script v) as [o s1] eqn:E. injection Hp as -> <-.
  apply built_spec in Hb as (Hwf & Hcon & Htab).
  pose proof (parse_run_spec vm pd' start ps Hwf Hcon Htab Hk start fuel script v Hst (con_start _ _ Hcon)) as Hs.
  rewrite E in Hs. destruct Hs as (stk & rest & v' & Hf & -> & _ & Hrep).
  destruct (fails_sound pd' start start script stk rest Hf (wf_rules pd' Hwf start) (wf_rules pd' Hwf)) as (F1 & F2 & F3).
  destruct (reports_listing pd' start stk rest _ c pos ex Hrep) as (keys & Hnd & Hex & Hpos & Hkeys).
  assert (get_element_verbose pd start = Some (lit "start", NonTerminal)) as Hstart by (rewrite <- (ed_verbose pd pd' Hed); apply Hst; reflexivity).
  assert (no_empty_texts rs -> forall pt, derivation pd' pt -> has_rule pd' (root pt) -> yield pd' pt <> []) as Hnn.
  { intros Hne pt Hpt Hrt Hy. destruct (rule_element pd pd' rs Hd Hed (root pt) Hrt) as [x Hx]. apply (edd_domain _ _ Hed) in Hrt.
    apply (has_rule_defined pd rs Hd (root pt) x Hx) in Hrt. destruct (named_derivation pd pd' rs Hd Hed pt Hpt) as [N1 N2].
    apply (Hne x Hrt). exists (named pd' pt). rewrite named_yield. split; [assumption|]. split; [congruence|assumption]. }
  exists (consumed pd' stk), rest, keys. split; [assumption|]. split; [assumption|]. split; [assumption|]. split; [assumption|].
  split; [rewrite Hkeys; eapply fails_unexpected; exact Hf|]. split.
  - intros Hne more (nt & Hnt & Hroot & Hy). destruct (derivation_named pd pd' rs Hd Hed nt Hnt start) as (pt & Hpt & Hrt & <-); [congruence|].
    rewrite named_yield in Hy. pose proof (expects_complete pd' start Hwf Hcon (Hnn Hne) start script stk rest pt more Hf eq_refl Hpt Hrt Hy) as Hx.
    destruct (decide (look more ∈ keys)) as [Hin|Hin]; [assumption|]. exfalso. apply Hx. rewrite <- Hkeys. assumption.
  - intros Hne Hprod a Ha. apply Hkeys in Ha.
    destruct (expects_sound pd' start Hwf Hcon (Hnn Hne)) with (stk := stk) (x := a) as (pt & more & D1 & D2 & D3 & D4); [|assumption..|].
    + intros A HA. destruct (rule_element pd pd' rs Hd Hed A HA) as [x Hx]. apply (edd_domain _ _ Hed) in HA.
      apply (has_rule_defined pd rs Hd A x Hx) in HA. destruct (Hprod x HA) as (s & nt & Hnt & Hroot & _).
      destruct (derivation_named pd pd' rs Hd Hed nt Hnt A) as (pt & Hpt & Hrt & _); [congruence|]. exists pt. auto.
    + exists more. split; [|assumption]. destruct (named_derivation pd pd' rs Hd Hed pt D1) as [N1 N2]. exists (named pd' pt). split; [assumption|].
      rewrite D2, F2, Hstart in N2. split; [congruence|]. rewrite named_yield. assumption.
Qed.
Print Assumptions C59_expected_listing.

(** ** Examples *)
Section example.
Local Existing Instance ascii_unicode.
Local Existing Instance plain_order.
Lemma plain_says {I} (rs : list (arule I)) : (forall r, r ∈ rs -> ar_override r = OvAbsent) ->
  forall x i w, says rs x i w <-> alternatives_for rs x !! i = Some w.
Proof.
  intros Ho x i w. assert (forall y, ~ ignores rs x y) as Hn.
  { intros y (r0 & more & E & Hov). assert (r0 ∈ rules_for x rs) as Hin by (rewrite E; left). apply elem_of_list_filter in Hin as [_ Hin].
    rewrite (Ho r0 Hin) in Hov. discriminate. }
  split; [|intros Hw; apply says_plain; [assumption|intros y Hy; destruct (Hn y Hy)]].
  intros [w' Hw _|w' y _ Hy _]; [assumption|destruct (Hn y Hy)].
Qed.
(** Grammars all of whose alternatives begin with a nonempty quoted text. *)
Lemma no_empty_by_heads {I} (rs : list (arule I)) : (forall r, r ∈ rs -> ar_override r = OvAbsent) ->
  Forall (fun r => Forall (fun w => match w with (_ :: _, Terminal) :: _ => True | _ => False end) (ar_alts r)) rs -> no_empty_texts rs.
Proof.
  intros Ho Hf x Hx (nt & Hnt & Hroot & Hy). inversion Hnt as [|? i subs Hs Hsubs]; subst; [discriminate|]. injection Hroot as ->.
  apply plain_says in Hs; [|assumption]. apply elem_of_list_lookup_2 in Hs. unfold alternatives_for in Hs.
  apply elem_of_list_In, in_concat in Hs as (alts & Ha & Hw). apply in_map_iff in Ha as (r & <- & Hr). apply elem_of_list_In, elem_of_list_filter in Hr as [_ Hr].
  rewrite Forall_forall in Hf. specialize (Hf r Hr). rewrite Forall_forall in Hf. apply elem_of_list_In in Hw. specialize (Hf _ Hw).
  destruct subs as [|[[|? ?]|[|? ?] ss] subs]; cbn in Hf; try contradiction. discriminate Hy.
Qed.
Notation T := Terminal.
Notation NT := NonTerminal.
Definition nx_rules : list (arule (vm_instr NullVm)) :=
  [mkARule (lit "start") OvAbsent [[(lit "x", T); (lit "num", NT)]] [];
   mkARule (lit "num") OvAbsent [[(lit "a", T)]; [(lit "b", T); (lit "num", NT)]] []].
Definition nx_text : str := lit "start->""x""num;num->""a""|""b""num;".
Definition ox_rules : list (arule (vm_instr NullVm)) :=
  [mkARule (lit "start") OvAbsent [[(lit "x", T); (lit "opt", NT); (lit "1", T)]; [(lit "y", T); (lit "opt", NT); (lit "2", T)]] [];
   mkARule (lit "opt") OvAbsent [[(lit "a", T)]; []] []].
Definition ox_text : str := lit "start->""x""opt""1""|""y""opt""2"";opt->""a""|#;".
Ltac name := split; [reflexivity|repeat constructor].
Ltac notname := intros _ [E|E]; vm_compute in E; discriminate.
Lemma nx_text_ok : grammar_text null_reads nx_rules nx_text.
Proof.
  apply (gr_cons null_reads _ (lit "start->""x""num;") [] _ (lit "num->""a""|""b""num;")); [constructor| |].
  - apply (rule_intro null_reads (mkARule (lit "start") OvAbsent [[(lit "x", T); (lit "num", NT)]] []) [] [] [] [] [] [] (lit """x""num") []); try (constructor; fail); try name.
    apply alts_one, alt_elements, (els_cons _ (lit """x""") [] _ (lit "num")); [apply one_quoted; discriminate|constructor|apply els_one, el_name; name|discriminate].
  - apply (gr_cons null_reads _ (lit "num->""a""|""b""num;") [] _ []); [constructor| |apply gr_end; constructor].
    apply (rule_intro null_reads (mkARule (lit "num") OvAbsent [[(lit "a", T)]; [(lit "b", T); (lit "num", NT)]] []) [] [] [] [] [] [] (lit """a""|""b""num") []); try (constructor; fail); try name.
    apply (alts_cons _ (lit """a""") [] [] _ (lit """b""num")); [apply alt_elements, els_one, one_quoted; discriminate|constructor..|].
    apply alts_one, alt_elements, (els_cons _ (lit """b""") [] _ (lit "num")); [apply one_quoted; discriminate|constructor|apply els_one, el_name; name|discriminate].
Qed.
Lemma ox_text_ok : grammar_text null_reads ox_rules ox_text.
Proof.
  assert (forall c d : char, c <> 34%N -> c <> 92%N -> d <> 34%N -> d <> 92%N ->
    elements_text [([c], T); (lit "opt", NT); ([d], T)] ([34%N; c; 34%N] ++ [] ++ lit "opt" ++ [] ++ [34%N; d; 34%N])) as Hels.
  { intros c d H1 H2 H3 H4. apply els_cons; [apply one_quoted; assumption|constructor| |discriminate].
    apply els_cons; [apply el_name; name|constructor|apply els_one, one_quoted; assumption|notname]. }
  apply (gr_cons null_reads _ (lit "start->""x""opt""1""|""y""opt""2"";") [] _ (lit "opt->""a""|#;")); [constructor| |].
  - apply (rule_intro null_reads (mkARule (lit "start") OvAbsent [[(lit "x", T); (lit "opt", NT); (lit "1", T)]; [(lit "y", T); (lit "opt", NT); (lit "2", T)]] []) [] [] [] [] [] [] (lit """x""opt""1""|""y""opt""2""") []);
      try (constructor; fail); try name.
    apply (alts_cons _ (lit """x""opt""1""") [] [] _ (lit """y""opt""2""")); [|constructor..|apply alts_one].
    + apply alt_elements, (Hels 120%N 49%N); discriminate.
    + apply alt_elements, (Hels 121%N 50%N); discriminate.
  - apply (gr_cons null_reads _ (lit "opt->""a""|#;") [] _ []); [constructor| |apply gr_end; constructor].
    apply (rule_intro null_reads (mkARule (lit "opt") OvAbsent [[(lit "a", T)]; []] []) [] [] [] [] [] [] (lit """a""|#") []); try (constructor; fail); try name.
    apply (alts_cons _ (lit """a""") [] [] _ (lit "#")); [apply alt_elements, els_one, one_quoted; discriminate|constructor..|apply alts_one, alt_empty].
Qed.
(** Parsing a script ends in this error. *)
Definition fails_with (r : outcome Empty_set (Parser (vm_instr NullVm))) (script : str) (c : char) (pos : nat) (ex : str) : bool :=
  match r with
  | Ok ps => match fst (parse NullVm ps 100 script 0%N) with
             | Err (UnexpectedCharError c' pos' ex') => (c' =? c)%N && (pos' =? pos) && bool_decide (ex' = ex)
             | _ => false
             end
  | _ => false
  end.
Lemma fails_with_spec ps script c pos ex : fails_with (Ok ps) script c pos ex = true ->
  exists v', parse NullVm ps 100 script 0%N = (Err (UnexpectedCharError c pos ex), v').
Proof.
  unfold fails_with. destruct (parse NullVm ps 100 script 0%N) as [[t|[]| |] v']; cbn [fst]; try discriminate.
  intros E. apply andb_true_iff in E as [E E3]. apply andb_true_iff in E as [E1 E2]. apply N.eqb_eq in E1. apply Nat.eqb_eq in E2. apply bool_decide_eq_true in E3. subst. eauto.
Qed.
Lemma read_null rs t r : grammar_text null_reads rs t -> (N.of_nat (length t) <? 2 ^ 63)%N = true -> enough_for_text (mkFuels 60 2200) t ->
  @new_from_text _ plain_order Checked NullVm (mkFuels 60 2200) t = r -> forall ps, r = Ok ps -> @read_from _ plain_order Checked NullVm rs t ps.
Proof.
  intros Ht Hl Hfl <- ps Hps. exists null_reads, (mkFuels 60 2200). split; [constructor|]. split; [apply ascii_tables|]. split; [assumption|].
  split; [apply N.ltb_lt; assumption|]. split; assumption.
Qed.
Lemma both_fail (r : outcome Empty_set (Parser (vm_instr NullVm))) s1 c1 p1 e1 s2 c2 p2 e2 :
  fails_with r s1 c1 p1 e1 && fails_with r s2 c2 p2 e2 = true ->
  exists ps, r = Ok ps /\ fails_with (Ok ps) s1 c1 p1 e1 = true /\ fails_with (Ok ps) s2 c2 p2 e2 = true.
Proof. intros E. apply andb_true_iff in E as [E1 E2]. destruct r as [ps| | |]; try discriminate. eauto. Qed.
Notation nx_parser := (@new_from_text _ plain_order Checked NullVm (mkFuels 60 2200) nx_text).
Notation ox_parser := (@new_from_text _ plain_order Checked NullVm (mkFuels 60 2200) ox_text).
Lemma leaf_derives {I} (rs : list (arule I)) b : nderivation rs (NLeaf b).
Proof. constructor. Qed.
Lemma rules_of_two {I} (a b : arule I) x : defined [a; b] x -> x = ar_name a \/ x = ar_name b.
Proof.
  unfold defined. intros Hx. destruct (rules_for x [a; b]) as [|r l] eqn:E; [congruence|]. assert (r ∈ rules_for x [a; b]) as Hin by (rewrite E; left).
  apply elem_of_list_filter in Hin as [Hn Hin]. apply elem_of_cons in Hin as [->|Hin]; [auto|]. apply elem_of_list_singleton in Hin as ->. auto.
Qed.
Ltac plain := let r := fresh in let Hr := fresh in intros r Hr; repeat (apply elem_of_cons in Hr as [->|Hr]; [reflexivity|]); inversion Hr.
Lemma nx_num : nderivation nx_rules (NNode (lit "num") [NLeaf (lit "a")]).
Proof. apply (nder_node _ _ 0); [apply plain_says; [plain|reflexivity]|]. apply Forall_cons; split; [apply leaf_derives|constructor]. Qed.
(** A grammar without empty texts: the listing after "xb" says "b;a" (in hash order). *)
Example C59_example : exists ps, @read_from _ plain_order Checked NullVm nx_rules nx_text ps /\ no_empty_texts nx_rules /\ all_stand_for_text nx_rules /\
  exists v', parse NullVm ps 100 (lit "xbc") 0%N = (Err (UnexpectedCharError 99 2 (lit "b;a")), v').
Proof.
  destruct (both_fail nx_parser (lit "xbc") 99 2 (lit "b;a") (lit "xbc") 99 2 (lit "b;a")) as (ps & Eps & E & _); [vm_compute; reflexivity|].
  exists ps. split; [|split; [|split]].
  - eapply (read_null nx_rules nx_text _ nx_text_ok); [vm_compute; reflexivity| |reflexivity|exact Eps].
    split; cbn [first_fuel follow_fuel]; apply Nat.leb_le || apply Nat.ltb_lt; vm_compute; reflexivity.
  - apply no_empty_by_heads; [plain|]. repeat constructor.
  - intros x Hx. apply rules_of_two in Hx as [->| ->].
    + exists (lit "xa"), (NNode (lit "start") [NLeaf (lit "x"); NNode (lit "num") [NLeaf (lit "a")]]). split; [|split; reflexivity].
      apply (nder_node _ _ 0); [apply plain_says; [plain|reflexivity]|]. apply Forall_cons; split; [apply leaf_derives|]. apply Forall_cons; split; [apply nx_num|constructor].
    + exists (lit "a"), (NNode (lit "num") [NLeaf (lit "a")]). split; [apply nx_num|split; reflexivity].
  - apply fails_with_spec. assumption.
Qed.
(** With empty texts the listing may omit a possible continuation, and may name an
    impossible one.  After "x" the texts "a" and "1" can follow and "2" cannot; the listing
    for "x2" is "1", that for "xz" is "2;a;1". *)
Theorem C59_with_empty_texts_refuted : exists rs t ps, @read_from _ plain_order Checked NullVm rs t ps /\ all_stand_for_text rs /\
  (exists script c pos ex v' more, parse NullVm ps 100 script 0%N = (Err (UnexpectedCharError c pos ex), v') /\
     sentence rs (take pos script ++ more) /\ forall keys, ex = SpecScript.joined (lit ";") (map member_text keys) -> look more ∉ keys) /\
  (exists script c pos ex v' keys a, parse NullVm ps 100 script 0%N = (Err (UnexpectedCharError c pos ex), v') /\
     ex = SpecScript.joined (lit ";") (map member_text keys) /\ a ∈ keys /\ forall more, sentence rs (take pos script ++ more) -> look more <> a).
Proof.
  destruct (both_fail ox_parser (lit "x2") 50 1 (lit "1") (lit "xz") 122 1 (lit "2;a;1")) as (ps & Eps & E1 & E2); [vm_compute; reflexivity|].
  apply fails_with_spec in E1 as [v1 E1]. apply fails_with_spec in E2 as [v2 E2].
  assert (@read_from _ plain_order Checked NullVm ox_rules ox_text ps) as Hread.
  { eapply (read_null ox_rules ox_text _ ox_text_ok); [vm_compute; reflexivity| |reflexivity|exact Eps].
    split; cbn [first_fuel follow_fuel]; apply Nat.leb_le || apply Nat.ltb_lt; vm_compute; reflexivity. }
  assert (nderivation ox_rules (NNode (lit "opt") [NLeaf (lit "a")])) as Hopt.
  { apply (nder_node _ _ 0); [apply plain_says; [plain|reflexivity]|]. apply Forall_cons; split; [apply leaf_derives|constructor]. }
  assert (sentence ox_rules (lit "xa1")) as Hsent.
  { exists (NNode (lit "start") [NLeaf (lit "x"); NNode (lit "opt") [NLeaf (lit "a")]; NLeaf (lit "1")]). split; [|split; reflexivity].
    apply (nder_node _ _ 0); [apply plain_says; [plain|reflexivity]|]. apply Forall_cons; split; [apply leaf_derives|]. apply Forall_cons; split; [assumption|].
    apply Forall_cons; split; [apply leaf_derives|constructor]. }
  exists ox_rules, ox_text, ps. split; [assumption|]. split; [|split].
  - intros x Hx. apply rules_of_two in Hx as [->| ->]; [exists (lit "xa1"); exact Hsent|].
    exists (lit "a"), (NNode (lit "opt") [NLeaf (lit "a")]). split; [assumption|split; reflexivity].
  - exists (lit "x2"), 50%N, 1, (lit "1"), v1, (lit "a1"). split; [exact E1|]. split; [exact Hsent|].
    intros keys Hk. change (lit "1") with (SpecScript.joined (lit ";") (map member_text [MChar 49%N])) in Hk. apply C60_listing_readable in Hk as <-.
    intros Hin. apply elem_of_list_singleton in Hin. discriminate Hin.
  - exists (lit "xz"), 122%N, 1, (lit "2;a;1"), v2, [MChar 50%N; MChar 97%N; MChar 49%N], (MChar 50%N). split; [exact E2|]. split; [reflexivity|]. split; [left|].
    destruct (C57_errors _ plain_order Checked NullVm ox_rules ox_text ps Hread 100 (lit "x2") 0%N _ v1 E1) as (before & rest & Es & [Hl _] & Hno & _).
    destruct before as [|b [|b' before]]; try discriminate Hl. injection Es as <- <-. intros more Hm. apply (Hno more Hm).
Qed.
Print Assumptions C59_with_empty_texts_refuted.
End example.
(** The messages of [C59_example] and of a failure at the end of the script. *)
Example C60_example :
  show_parser_error (UnexpectedCharError 99 2 (lit "b;a")) = lit " ""c"" at pos 2 was not expected. Expected b;a" /\
  show_parser_error (EndOfCharsError 104) = lit "There was a char expected but there was none at pos 104" /\
  show_tree_error (NodeWasRemoved (mkNodeId 3 17)) = lit "ptr_in_arr:3, pk:17 was removed" /\
  show_grammar_error (MissingProduction 5) = lit " ""5"" not in productions".
Proof. split; [|split; [|split]]; vm_compute; reflexivity. Qed.
