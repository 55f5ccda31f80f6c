(** * Property theorems: which texts grammar texts can describe (C82) *)
From Verif Require Import Base Peekables Tree Errors Sets ParserData Vm SimpleStackVm StackVm RuleParsing FirstSets FollowSets SteuerMap ScriptParser
  SpecText SpecData SpecGrammar SpecParser SpecTree SpecScript SpecContract SpecWeave SpecRules SpecNames SpecLanguage SpecSyntax Grammar_proofs Construct_proofs Checks Tree_proofs Script_proofs Parse_proofs
  Weave_proofs Names_proofs RuleBuild_proofs RuleText_proofs Language_proofs Syntax_proofs Start_proofs
  Props_steuer Props_script Props_weave Props_rules Props_vm Props_names Props_language Samples.

Lemma body_app a b : quoted_body a -> quoted_body b -> quoted_body (a ++ b).
Proof. intros Ha Hb. induction Ha as [|c a H1 H2 _ IH|c a _ IH]; cbn [app]; [assumption|apply qb_plain; assumption|apply qb_esc; assumption]. Qed.
Section texts.
Context {U : Unicode} {I : Type} (reads : str -> str -> list I -> Prop).
Lemma element_body e t : element_text e t -> e.2 = Terminal -> quoted_body e.1.
Proof. intros [x _|b Hb] E; [discriminate|exact Hb]. Qed.
Lemma elements_body es t : elements_text es t -> forall b, (b, Terminal) ∈ es -> quoted_body b.
Proof.
  induction 1 as [e t He|e t l es t' He _ _ IH _]; intros b Hb.
  - apply elem_of_list_singleton in Hb as <-. apply (element_body _ _ He). reflexivity.
  - apply elem_of_cons in Hb as [<-|Hb]; [|auto]. apply (element_body _ _ He). reflexivity.
Qed.
Lemma alternatives_body alts t : alternatives_text alts t -> forall w b, w ∈ alts -> (b, Terminal) ∈ w -> quoted_body b.
Proof.
  assert (forall w t b, alternative_text w t -> (b, Terminal) ∈ w -> quoted_body b) as Ha.
  { intros w s b [|es s' He] Hb; [inversion Hb|]. eapply elements_body; eassumption. }
  induction 1 as [w t Hw|w t l l' rest t' Hw _ _ _ IH]; intros w' b Hin Hb; apply elem_of_cons in Hin as [->|Hin]; eauto. inversion Hin.
Qed.
Lemma rules_body rs t : grammar_text reads rs t -> forall r w b, r ∈ rs -> w ∈ ar_alts r -> (b, Terminal) ∈ w -> quoted_body b.
Proof.
  induction 1 as [|r tr l rs t' _ Hr _ IH]; intros q w b Hq Hw Hb; [inversion Hq|]. apply elem_of_cons in Hq as [->|Hq]; [|eauto].
  destruct Hr. eapply alternatives_body; eassumption.
Qed.
Lemma says_body rs t : grammar_text reads rs t -> forall x i w b, says rs x i w -> (b, Terminal) ∈ w -> quoted_body b.
Proof.
  intros Ht x i w b Hs Hb. assert (forall w0, alternatives_for rs x !! i = Some w0 -> (b, Terminal) ∈ w0 -> quoted_body b) as Hgo.
  { intros w0 Hw Hb0. apply elem_of_list_lookup_2 in Hw. unfold alternatives_for in Hw. apply elem_of_list_In, in_concat in Hw as (alts & Hin & Hw).
    apply elem_of_list_In, elem_of_list_fmap in Hin as (r & -> & Hr). apply elem_of_list_filter in Hr as [_ Hr]. apply elem_of_list_In in Hw.
    eapply rules_body; eassumption. }
  destruct Hs as [w Hw _|w y Hw _ _]; [eauto|]. apply interleave_elem in Hb as [Hb|Hb]; [eauto|discriminate].
Qed.
Lemma tree_body rs t : grammar_text reads rs t -> forall nt, nderivation rs nt -> nroot nt = (nyield nt, Terminal) \/ quoted_body (nyield nt).
Proof.
  intros Ht nt. induction nt as [b|x subs IH] using ntree_ind'; intros Hnt; [left; reflexivity|right]. inversion Hnt as [|? i ? Hs Hsubs]; subst. cbn [nyield].
  assert (forall l, (forall a, a ∈ l -> a ∈ subs) -> quoted_body (concat (map nyield l))) as Hgo; [|apply Hgo; auto].
  induction l as [|a l IHl]; intros Hin; [constructor|]. cbn [map concat]. apply body_app; [|apply IHl; intros z Hz; apply Hin; right; assumption].
  assert (a ∈ subs) as Ha by (apply Hin; left). rewrite Forall_forall in IH, Hsubs. destruct (IH a Ha (Hsubs a Ha)) as [E|Hb]; [|assumption].
  eapply (says_body rs t Ht x i); [exact Hs|]. rewrite <- E. apply elem_of_list_fmap_1. assumption.
Qed.
End texts.
(** In every text that a grammar text describes, each quote and each backslash belongs to an
    escape: the text is a sequence of chars other than quote and backslash, and of pairs of a
    backslash and any char. *)
Theorem C82_sentences_are_escaped : forall (U : Unicode) (H : HashOrder) m (vm : VM) rs t ps, read_from m vm rs t ps ->
  forall s, sentence rs s -> quoted_body s.
Proof.
  intros U H m vm rs t ps (reads & fl & _ & _ & Ht & _) s (nt & Hnt & Hroot & <-). destruct (tree_body reads rs t Ht nt Hnt) as [E|Hb]; [|assumption].
  rewrite Hroot in E. discriminate.
Qed.
Print Assumptions C82_sentences_are_escaped.
(** So a quote in it always follows a backslash, and it does not end in a single backslash. *)
Theorem C82_quotes : forall (U : Unicode) (H : HashOrder) m (vm : VM) rs t ps, read_from m vm rs t ps ->
  (forall u v, sentence rs (u ++ 34%N :: v) -> exists u', u = u' ++ [92%N]) /\
  (forall u c, sentence rs (u ++ [c; 92%N]) -> c = 92%N) /\ ~ sentence rs [92%N].
Proof.
  intros U H m vm rs t ps Hr. pose proof (C82_sentences_are_escaped U H m vm rs t ps Hr) as Hs. clear Hr.
  assert (forall s, quoted_body s -> forall u v, s = u ++ 34%N :: v -> exists u', u = u' ++ [92%N]) as H1.
  { induction 1 as [|c b H1 H2 _ IH|c b _ IH]; intros u v E.
    - destruct u; discriminate.
    - destruct u as [|c' u]; injection E as -> E; [congruence|]. destruct (IH u v E) as [u' ->]. exists (c' :: u'). reflexivity.
    - destruct u as [|c1 u]; [discriminate|]. injection E as <- E. destruct u as [|c2 u]; [exists []; reflexivity|]. injection E as -> E.
      destruct (IH u v E) as [u' ->]. exists (92%N :: c2 :: u'). reflexivity. }
  assert (forall s, quoted_body s -> forall u c, s = u ++ [c; 92%N] -> c = 92%N) as H2.
  { assert (forall s, quoted_body s -> s <> [92%N]) as Hno. { intros s Hb E. destruct Hb as [|c b Ha1 Ha2 _|c b _]; try discriminate. injection E as -> _. congruence. }
    induction 1 as [|c b Ha1 Ha2 Hb IH|c b Hb IH]; intros u d E.
    - destruct u; discriminate.
    - destruct u as [|c' u]; injection E as -> E; [destruct (Hno b Hb E)|eauto].
    - destruct u as [|c1 u]; injection E as E1 E2; [congruence|]. destruct u as [|c2 u]; [|injection E2 as -> E2; eauto]. injection E2 as _ E2. destruct (Hno b Hb E2). }
  split; [|split].
  - intros u v Hu. eapply H1; [apply Hs; exact Hu|reflexivity].
  - intros u c Hu. eapply H2; [apply Hs; exact Hu|reflexivity].
  - intros Hb. apply Hs in Hb. inversion Hb. congruence.
Qed.
Print Assumptions C82_quotes.

(** Conversely every such text is described by a grammar text, and parsed. *)
Definition says_only (s : str) : list (arule (vm_instr NullVm)) :=
  [mkARule (lit "start") OvAbsent [match s with [] => [] | _ => [(s, Terminal)] end] []].
Definition only_text (s : str) : str :=
  lit "start->" ++ match s with [] => lit "#" | _ => 34%N :: s ++ [34%N] end ++ lit ";".
Lemma says_only_inv s x i w : says (says_only s) x i w -> x = lit "start" /\ i = 0 /\ w = match s with [] => [] | _ => [(s, Terminal)] end.
Proof.
  assert (forall y, ~ ignores (says_only s) x y) as Hno.
  { intros y (r & m & E & Ho). assert (r ∈ rules_for x (says_only s)) as Hin by (rewrite E; left). apply elem_of_list_filter in Hin as [_ Hin]. apply elem_of_list_singleton in Hin as ->. discriminate. }
  intros [w0 Hw _|w0 y _ Hy _]; [|destruct (Hno y Hy)]. unfold alternatives_for, rules_for, says_only in Hw.
  destruct (decide (lit "start" = x)) as [<-|Hne].
  - rewrite filter_cons_True in Hw by reflexivity. cbn [filter list_filter map concat app ar_alts] in Hw. destruct i as [|i]; cbn in Hw; [injection Hw as <-; auto|discriminate].
  - rewrite filter_cons_False in Hw by exact Hne. discriminate.
Qed.
Lemma says_only_ok s : says (says_only s) (lit "start") 0 (match s with [] => [] | _ => [(s, Terminal)] end).
Proof. apply says_plain; [reflexivity|]. intros y (r & m & E & Ho). injection E as <- _. discriminate. Qed.
Lemma says_only_parsable s : parsable (says_only s).
Proof.
  assert (forall x y w, w ∈ alternatives_for (says_only s) x -> (y, NonTerminal) ∈ w -> False) as Hu.
  { intros x y w Hw Hy. unfold alternatives_for, rules_for, says_only in Hw. destruct (decide (lit "start" = x)) as [<-|Hne].
    - rewrite filter_cons_True in Hw by reflexivity. cbn [filter list_filter map concat app ar_alts] in Hw. apply elem_of_list_singleton in Hw as ->.
      destruct s; [inversion Hy|]. apply elem_of_list_singleton in Hy. discriminate.
    - rewrite filter_cons_False in Hw by exact Hne. inversion Hw. }
  split.
  - discriminate.
  - intros x y (w & Hw & Hy). destruct (Hu x y w Hw Hy).
  - intros x y (r & m & E & Ho). assert (r ∈ rules_for x (says_only s)) as Hin by (rewrite E; left). apply elem_of_list_filter in Hin as [_ Hin]. apply elem_of_list_singleton in Hin as ->. discriminate.
  - assert (forall x y, ~ nleft_calls (says_only s) x y) as Hno.
    { intros x y (i & u & v & Hs & _). apply says_only_inv in Hs as (_ & _ & E). destruct s; destruct u as [|? u]; try discriminate. destruct u; discriminate. }
    intros x Hx. destruct Hx; eapply Hno; eassumption.
  - intros x i w Hs. apply says_only_inv in Hs as (_ & _ & ->). destruct s; discriminate.
  - intros x i j w w' a Hs Hs' Hij. apply says_only_inv in Hs as (_ & -> & _), Hs' as (_ & -> & _). congruence.
Qed.
Theorem C82_escaped_texts_are_parsed : forall (U : Unicode) (H : HashOrder) m s, tables_disjoint -> (N.of_nat (length s) < 2 ^ 62)%N -> quoted_body s ->
  exists t, forall fl, enough_for_text fl t -> exists ps, new_from_text m NullVm fl t = Ok ps /\
  forall fuel v, (length s + 1) * length t <= fuel -> exists tr, parse NullVm ps fuel s v = (Ok tr, v).
Proof.
  intros U H m s Hd Hlen Hb. exists (only_text s). intros fl Hfl.
  assert (grammar_text null_reads (says_only s) (only_text s)) as Ht.
  { pose (ta := match s with [] => lit "#" | _ => 34%N :: s ++ [34%N] end).
    replace (only_text s) with ([] ++ (lit "start->" ++ ta ++ lit ";") ++ []) by (rewrite app_nil_r; reflexivity).
    apply gr_cons; [constructor| |apply gr_end; constructor].
    apply (rule_intro null_reads (mkARule (lit "start") OvAbsent [match s with [] => [] | _ => [(s, Terminal)] end] []) [] [] [] [] [] [] ta []); try (constructor; fail).
    - split; [apply ascii_alphabetic || reflexivity|repeat constructor; left; reflexivity].
    - subst ta. cbn [ar_alts]. apply alts_one. destruct s as [|c s]; [apply alt_empty|]. apply alt_elements, els_one, el_quoted. assumption. }
  assert (N.of_nat (length (only_text s)) < 2 ^ 63)%N as Hl.
  { unfold only_text. rewrite !app_length. assert (length (match s with [] => lit "#" | _ => 34%N :: s ++ [34%N] end) <= length s + 2) by (destruct s; cbn; [lia|rewrite app_length; cbn; lia]).
    change (length (lit "start->")) with 7. change (length (lit ";")) with 1. change (2 ^ 63)%N with (2 * 2 ^ 62)%N. assert (16 <= 2 ^ 62)%N by (vm_compute; discriminate). lia. }
  destruct (proj2 (C58_buildable_iff_parsable U H m NullVm null_reads (says_only s) (only_text s) fl ltac:(constructor) Hd Ht Hl Hfl) (says_only_parsable s)) as [ps Hps].
  exists ps. split; [assumption|]. intros fuel v Hfuel.
  assert (read_from m NullVm (says_only s) (only_text s) ps) as Hr. { exists null_reads, fl. split; [constructor|]. auto 10. }
  pose (nt := NNode (lit "start") (match s with [] => [] | _ => [NLeaf s] end)).
  assert (nderivation (says_only s) nt) as Hnt.
  { apply (nder_node _ _ 0); [|destruct s; repeat constructor]. pose proof (says_only_ok s) as Ho. destruct s; exact Ho. }
  assert (nyield nt = s) as Hy. { unfold nt. destruct s; [reflexivity|]. cbn. rewrite app_nil_r. reflexivity. }
  pose proof (C57_sentences_are_parsed U H m NullVm (says_only s) (only_text s) ps Hr nt v fuel Hnt eq_refl) as Hp. rewrite Hy in Hp. specialize (Hp Hfuel).
  assert (run_tree (says_only s) nt v = Ok v) as Hrun by (unfold nt, run_tree; destruct s; reflexivity).
  rewrite Hrun in Hp. destruct Hp as (tr & Hp & _). exists tr. exact Hp.
Qed.
Print Assumptions C82_escaped_texts_are_parsed.

(** A grammar built with the API has no such limit: this one has the single text that is one quote. *)
Section api.
Local Existing Instance plain_order.
Definition quote_data : ParserData (vm_instr NullVm) :=
  let '(s, pd) := get_or_add_non_terminal pd_new (lit "start") in
  let '(q, pd) := get_or_add_terminal pd [34%N] in
  add_production pd s [q].
Definition parses_quote : bool :=
  match new_from_parser_data Checked NullVm (mkFuels 10 100) quote_data 0 with
  | Ok ps => is_ok (fst (parse NullVm ps 10 [34%N] 0%N))
  | _ => false
  end.
Theorem C82_api_grammars_refuted : parses_quote = true.
Proof. vm_compute. reflexivity. Qed.
End api.
Print Assumptions C82_api_grammars_refuted.
(** ** Non-vacuity: an escaped text with a quote, and a grammar read from text. *)
Example C82_example : quoted_body (lit "a\""b") /\ (forall U : Unicode, grammar_text null_reads (says_only (lit "a")) (lit "start->""a"";")).
Proof.
  split.
  - apply qb_plain; [discriminate..|]. apply qb_esc. apply qb_plain; [discriminate..|]. constructor.
  - intros U. apply (gr_cons null_reads _ (lit "start->""a"";") [] _ []); [constructor| |apply gr_end; constructor].
    apply (rule_intro null_reads (mkARule (lit "start") OvAbsent [[(lit "a", Terminal)]] []) [] [] [] [] [] [] (lit """a""") []); try (constructor; fail).
    + split; [reflexivity|repeat constructor; left; reflexivity].
    + apply alts_one, alt_elements, els_one, (el_quoted (lit "a")). apply qb_plain; [discriminate..|constructor].
Qed.
