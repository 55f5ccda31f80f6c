(** * Proofs for C110: writing a grammar without overrides, repetitions and useless parts *)
From Verif Require Import Base Tree Sets ParserData Vm SpecText SpecData SpecGrammar SpecTree SpecWeave SpecRules SpecLanguage SpecFewer SpecClean
  Weave_proofs RuleText_proofs Language_proofs Start_proofs Naming_proofs NamingAll_proofs Fewer_proofs ExprText_proofs Alive_proofs.
Notation start := (lit "start").
Notation alts_of := (list (list (str * ElementType))).

(** ** Rules put together from a table *)
Section assembled.
Context {I : Type} (ins : str -> list I).
Definition assembled (l : list (str * alts_of)) : list (arule I) := map (fun p => mkARule p.1 OvAbsent p.2 (ins p.1)) l.
Lemma asm_names l : map ar_name (assembled l) = l.*1.
Proof. unfold assembled. rewrite map_map. reflexivity. Qed.
Lemma defined_names (rs : list (arule I)) x : defined rs x <-> x ∈ map ar_name rs.
Proof.
  unfold defined, rules_for. split.
  - intros Hd. destruct (filter _ rs) as [|r more] eqn:E; [congruence|]. assert (r ∈ filter (fun r => ar_name r = x) rs) as Hin by (rewrite E; left).
    apply elem_of_list_filter in Hin as [<- Hin]. apply elem_of_list_fmap. eauto.
  - intros Hx E. apply elem_of_list_fmap in Hx as (r & -> & Hr). assert (r ∈ filter (fun r' => ar_name r' = ar_name r) rs) as Hin by (apply elem_of_list_filter; auto).
    rewrite E in Hin. inversion Hin.
Qed.
Lemma asm_defined l x : defined (assembled l) x <-> x ∈ l.*1.
Proof. rewrite defined_names, asm_names. reflexivity. Qed.
Lemma asm_none l x : x ∉ l.*1 -> rules_for x (assembled l) = [].
Proof. rewrite <- asm_defined. unfold defined. destruct (rules_for x (assembled l)); [reflexivity|]. intros Hn. destruct Hn. discriminate. Qed.
Lemma asm_rules l x a : NoDup l.*1 -> (x, a) ∈ l -> rules_for x (assembled l) = [mkARule x OvAbsent a (ins x)].
Proof.
  induction l as [|[y b] l IH]; intros Hn Hin; [inversion Hin|]. cbn [fmap list_fmap fst] in Hn. apply NoDup_cons in Hn as [Hy Hn].
  change (assembled ((y, b) :: l)) with (mkARule y OvAbsent b (ins y) :: assembled l). unfold rules_for. apply elem_of_cons in Hin as [[= <- <-]|Hin].
  - rewrite filter_cons_True by reflexivity. f_equal. exact (asm_none l x Hy).
  - rewrite filter_cons_False; [exact (IH Hn Hin)|]. cbn. intros ->. apply Hy. apply elem_of_list_fmap. exists (x, a). auto.
Qed.
Lemma asm_no_ignore l x y : ~ ignores (assembled l) x y.
Proof. apply no_override_ignores. intros r z Hr. apply elem_of_list_fmap in Hr as (p & -> & _). discriminate. Qed.
Lemma asm_says l x i w : NoDup l.*1 -> says (assembled l) x i w <-> exists a, (x, a) ∈ l /\ a !! i = Some w.
Proof.
  intros Hn. rewrite (NamingAll_proofs.plain_says (assembled l) (asm_no_ignore l)). unfold alternatives_for. split.
  - intros Hw. destruct (decide (x ∈ l.*1)) as [Hx|Hx]; [|rewrite (asm_none l x Hx) in Hw; discriminate]. apply elem_of_list_fmap in Hx as ([y a] & -> & Hp). cbn [fst] in *.
    rewrite (asm_rules l y a Hn Hp) in Hw. cbn in Hw. rewrite app_nil_r in Hw. eauto.
  - intros (a & Hp & Hw). rewrite (asm_rules l x a Hn Hp). cbn. rewrite app_nil_r. exact Hw.
Qed.
Lemma asm_plainly l : NoDup l.*1 -> written_plainly (assembled l).
Proof. intros Hn. split; [rewrite asm_names; exact Hn|]. intros r Hr. apply elem_of_list_fmap in Hr as (p & -> & _). reflexivity. Qed.
Lemma asm_instr l x : NoDup l.*1 -> x ∈ l.*1 -> instructions_for (assembled l) x = ins x.
Proof. intros Hn Hx. apply elem_of_list_fmap in Hx as ([y a] & -> & Hp). cbn [fst]. unfold instructions_for. rewrite (asm_rules l y a Hn Hp). reflexivity. Qed.
End assembled.
Lemma table {A B} (P : A -> B -> Prop) names : (forall x, x ∈ names -> exists a, P x a) -> exists l, l.*1 = names /\ forall x a, (x, a) ∈ l -> P x a.
Proof.
  induction names as [|x names IH]; intros Hx; [exists []; split; [reflexivity|intros x a Hin; inversion Hin]|].
  destruct IH as (l & El & Hl); [intros y Hy; apply Hx; right; exact Hy|]. destruct (Hx x) as [a Ha]; [left|]. exists ((x, a) :: l). cbn. rewrite El. split; [reflexivity|].
  intros y b Hin. apply elem_of_cons in Hin as [[= -> ->]|Hin]; auto.
Qed.

(** ** Texts *)
Section texts.
Context {U : Unicode} {I : Type} (reads : str -> str -> list I -> Prop).
Lemma each_rule rs t : grammar_text reads rs t -> forall r, r ∈ rs -> exists tr, rule_text reads r tr.
Proof. induction 1 as [|r0 t0 l rs t' _ Hr _ IH]; intros r Hin; [inversion Hin|]. apply elem_of_cons in Hin as [->|Hin]; eauto. Qed.
Lemma element_good e t : element_text e t -> good_element valid_name e.
Proof. destruct 1; assumption. Qed.
Lemma elements_good w t : elements_text w t -> Forall (good_element valid_name) w.
Proof. induction 1 as [e t He|e t l es t' He _ _ IH _]; constructor; eauto using element_good, Forall_nil_2. Qed.
Lemma alternatives_good alts t : alternatives_text alts t -> alts <> [] /\ Forall (Forall (good_element valid_name)) alts.
Proof.
  assert (forall w t', alternative_text w t' -> Forall (good_element valid_name) w) as Hone by (destruct 1; [constructor|eapply elements_good; eassumption]).
  induction 1 as [a t Ha|a t l l' rest t' Ha _ _ _ [_ IH]]; (split; [discriminate|]); constructor; eauto using Forall_nil_2.
Qed.
Context (rs : list (arule I)) (t : str) (Ht : grammar_text reads rs t).
Lemma text_rule x r : r ∈ rules_for x rs -> r ∈ rs /\ ar_name r = x.
Proof. unfold rules_for. intros Hr. apply elem_of_list_filter in Hr. tauto. Qed.
Lemma text_section x : defined rs x -> valid_name x /\ exists ts, section_text reads x (instructions_for rs x) ts.
Proof.
  unfold defined, instructions_for. destruct (rules_for x rs) as [|r more] eqn:E; [congruence|]. intros _. destruct (text_rule x r) as [Hr <-]; [rewrite E; left|].
  destruct (each_rule rs t Ht r Hr) as [tr [l1 l2 l3 l4 l5 to ta ts Hv _ _ Hsec _ _ _ _ _]]. split; [assumption|]. eauto.
Qed.
Lemma text_alternatives x : (defined rs x -> alternatives_for rs x <> []) /\ Forall (Forall (good_element valid_name)) (alternatives_for rs x).
Proof.
  assert (forall r, r ∈ rules_for x rs -> ar_alts r <> [] /\ Forall (Forall (good_element valid_name)) (ar_alts r)) as Hall.
  { intros r Hr. apply text_rule in Hr as [Hr _]. destruct (each_rule rs t Ht r Hr) as [tr [l1 l2 l3 l4 l5 to ta ts Hv _ Ha _ _ _ _ _ _]]. eapply alternatives_good; eassumption. }
  unfold defined, alternatives_for. split.
  - destruct (rules_for x rs) as [|r more]; [congruence|]. intros _ E. cbn in E. apply app_eq_nil in E as [E _]. destruct (Hall r) as [H1 _]; [left|]. contradiction.
  - induction (rules_for x rs) as [|r more IH]; [constructor|]. cbn. apply Forall_app. split; [apply Hall; left|]. apply IH. intros r' Hr'. apply Hall. right. exact Hr'.
Qed.
Lemma text_ignored x y : ignores rs x y -> valid_name y.
Proof.
  intros (r & more & E & Ho). destruct (text_rule x r) as [Hr _]; [rewrite E; left|]. destruct (each_rule rs t Ht r Hr) as [tr [l1 l2 l3 l4 l5 to ta ts _ Hov _ _ _ _ _ _ _]].
  rewrite Ho in Hov. inversion Hov; subst; assumption.
Qed.
Lemma text_says x i w : says rs x i w -> Forall (good_element valid_name) w.
Proof.
  intros Hs. apply Forall_forall. intros e He. destruct (Naming_proofs.says_element rs x i w e Hs He) as [(w0 & Hw & He0)|(y & Hy & ->)].
  - destruct (text_alternatives x) as [_ Hall]. rewrite Forall_forall in Hall. specialize (Hall w0 Hw). rewrite Forall_forall in Hall. auto.
  - exact (text_ignored x y Hy).
Qed.
Lemma asm_text l : (forall x a, (x, a) ∈ l -> defined rs x /\ a <> [] /\ Forall (Forall (good_element valid_name)) a) ->
  exists t', grammar_text reads (assembled (instructions_for rs) l) t'.
Proof.
  induction l as [|[x a] l IH]; intros Hl; [exists []; constructor; constructor|]. destruct IH as [t1 Ht1]; [intros y b Hb; apply Hl; right; exact Hb|].
  destruct (Hl x a) as (Hd & Hne & Hg); [left|]. destruct (text_section x Hd) as (Hv & ts & Hts). destruct (alternatives_written a Hne Hg) as [ta Hta].
  eexists. eapply (gr_cons reads _ _ []); [constructor| |exact Ht1].
  apply (rule_intro reads (mkARule x OvAbsent a (instructions_for rs x)) [] [] [] [] [] [] ta ts); try (constructor; fail); assumption.
Qed.
End texts.

Lemma filter_sub {A} (P : A -> Prop) (HP : forall a, Decision (P a)) (l : list A) : filter P l `sublist_of` l.
Proof. induction l as [|a l IH]; [constructor|]. destruct (decide (P a)); [rewrite filter_cons_True by assumption|rewrite filter_cons_False by assumption]; constructor; exact IH. Qed.

(** ** Closing a set of names under a rule *)
Lemma least_closed (names : list str) (R : list str -> str -> Prop) (HR : forall L x, Decision (R L x)) :
  exists L, (forall x, x ∈ L -> x ∈ names) /\ (forall x, x ∈ names -> R L x -> x ∈ L) /\
  forall P : str -> Prop, (forall L' x, (forall y, y ∈ L' -> P y) -> R L' x -> P x) -> forall x, x ∈ L -> P x.
Proof.
  assert (forall n L, length names <= length L + n -> NoDup L -> (forall x, x ∈ L -> x ∈ names) ->
    (forall P : str -> Prop, (forall L' x, (forall y, y ∈ L' -> P y) -> R L' x -> P x) -> forall x, x ∈ L -> P x) ->
    exists L, (forall x, x ∈ L -> x ∈ names) /\ (forall x, x ∈ names -> R L x -> x ∈ L) /\
    forall P : str -> Prop, (forall L' x, (forall y, y ∈ L' -> P y) -> R L' x -> P x) -> forall x, x ∈ L -> P x) as Hgo.
  { induction n as [|n IH]; intros L Hlen Hnd Hsub Hgen.
    - exists L. split; [exact Hsub|]. split; [|exact Hgen]. intros x Hx _. destruct (decide (x ∈ L)) as [|Hn]; [assumption|]. exfalso.
      assert (x :: L ⊆+ names) as Hs. { apply NoDup_submseteq; [constructor; assumption|]. intros y Hy. apply elem_of_cons in Hy as [->|Hy]; auto. }
      apply submseteq_length in Hs. cbn in Hs. lia.
    - destruct (decide (Exists (fun x => x ∉ L /\ R L x) names)) as [Hex|Hno].
      + apply Exists_exists in Hex as (x & Hx & Hn & Hr). apply (IH (x :: L)).
        * cbn. lia.
        * constructor; assumption.
        * intros y Hy. apply elem_of_cons in Hy as [->|Hy]; auto.
        * intros P HP y Hy. apply elem_of_cons in Hy as [->|Hy]; [|exact (Hgen P HP y Hy)]. apply (HP L); [exact (Hgen P HP)|exact Hr].
      + exists L. split; [exact Hsub|]. split; [|exact Hgen]. intros x Hx Hr. destruct (decide (x ∈ L)) as [|Hn]; [assumption|]. destruct Hno. apply Exists_exists. eauto. }
  apply (Hgo (length names) []); [cbn; lia|constructor|intros x Hx; inversion Hx|intros P _ x Hx; inversion Hx].
Qed.

(** ** Leaving out what no sentence needs *)
Section reduced.
Context {I : Type} (rs : list (arule I)) (Hno : forall x y, ~ ignores rs x y).
Notation names := (map ar_name rs).
Notation alts := (alternatives_for rs).
Definition made_of (L : list str) (w : list (str * ElementType)) : Prop := Forall (fun e => e.2 = NonTerminal -> e.1 ∈ L) w.
Global Instance made_of_dec L w : Decision (made_of L w).
Proof. unfold made_of. apply Forall_dec. intros [y []]; cbn; [left; discriminate|]. destruct (decide (y ∈ L)); [left; auto|right; auto]. Defined.
Lemma made_of_names L w : made_of L w <-> forall y, (y, NonTerminal) ∈ w -> y ∈ L.
Proof.
  unfold made_of. rewrite Forall_forall. split; [intros Hw y Hy; exact (Hw _ Hy eq_refl)|]. intros Hw [y e] Hy E. cbn in *. subst. auto.
Qed.
Notation plain := (NamingAll_proofs.plain_says rs Hno).
Lemma productive_names : exists L : list str, forall x, x ∈ L <-> exists s, derives_text rs x s.
Proof.
  destruct (least_closed names (fun L x => Exists (made_of L) (alts x)) _) as (L & _ & Hc & Hg). exists L. intros x. split.
  - apply (Hg (fun x => exists s, derives_text rs x s)). clear -Hno. intros L' x Hy Hx. apply Exists_exists in Hx as (w & Hw & Hm). rewrite made_of_names in Hm.
    assert (exists subs, map nroot subs = w /\ Forall (nderivation rs) subs) as (subs & Es & Hs).
    { clear Hw. induction w as [|[y []] w IH]; [exists []; split; constructor| |].
      - destruct IH as (subs & <- & Hs); [intros z Hz; apply Hm; right; exact Hz|]. exists (NLeaf y :: subs). split; [reflexivity|]. constructor; [constructor|assumption].
      - destruct IH as (subs & <- & Hs); [intros z Hz; apply Hm; right; exact Hz|]. destruct (Hy y) as (s & d & D & R & _); [apply Hm; left|]. exists (d :: subs). cbn. rewrite R. split; [reflexivity|]. constructor; assumption. }
    apply elem_of_list_lookup in Hw as [i Hi]. exists (nyield (NNode x subs)), (NNode x subs). split; [|auto]. apply (nder_node rs x i); [|assumption]. rewrite Es. apply plain. exact Hi.
  - intros (s & nt & D & R & _). revert x R. induction nt as [b|y subs IH] using ntree_ind'; intros x R; [discriminate|]. cbn in R. injection R as ->.
    inversion D as [|? i ? Hs Hsubs]; subst. apply Hc; [apply defined_names; eapply Naming_proofs.says_defined; exact Hs|]. apply plain in Hs. apply Exists_exists. exists (map nroot subs).
    split; [eapply elem_of_list_lookup_2; exact Hs|]. apply made_of_names. intros y Hy. apply elem_of_list_fmap in Hy as (d & E & Hd). rewrite Forall_forall in IH, Hsubs. apply (IH d Hd (Hsubs d Hd)). auto.
Qed.
Theorem reduced_exists : (exists s, sentence rs s) ->
  exists l : list (str * alts_of), NoDup l.*1 /\ (forall x a, (x, a) ∈ l -> defined rs x /\ a <> [] /\ a `sublist_of` alts x) /\ start ∈ l.*1 /\
  (forall x a w y, (x, a) ∈ l -> w ∈ a -> (y, NonTerminal) ∈ w -> y ∈ l.*1) /\
  forall ins : str -> list I, every_part_used (assembled ins l) /\ forall nt x, nroot nt = (x, NonTerminal) -> x ∈ l.*1 -> nderivation rs nt -> nderivation (assembled ins l) nt.
Proof.
  intros Hsen. destruct productive_names as [LP HP]. assert (start ∈ LP) as HsP by (apply HP, Hsen).
  destruct (least_closed names (fun L x => x = start \/ Exists (fun y => Exists (fun w => made_of LP w /\ (x, NonTerminal) ∈ w) (alts y)) L) _) as (LR & Hsub & Hc & Hg).
  assert (forall x, x ∈ LP -> x ∈ names) as HPn. { intros x Hx. apply HP in Hx as (s & nt & D & R & _). destruct nt as [b|y subs]; [discriminate|]. cbn in R. injection R as ->. inversion D as [|? i ? Hs Hsubs]; subst. apply defined_names. eapply Naming_proofs.says_defined; exact Hs. }
  assert (forall x, x ∈ LR -> x ∈ LP) as HRP.
  { apply Hg. intros L' x _ [->|Hx]; [exact HsP|]. apply Exists_exists in Hx as (y & _ & Hy). apply Exists_exists in Hy as (w & _ & Hm & Hx). rewrite made_of_names in Hm. auto. }
  assert (start ∈ LR) as HsR by (apply Hc; [apply HPn, HsP|left; reflexivity]).
  set (entry := fun x => (x, filter (made_of LP) (alts x))). set (l := map entry (remove_dups LR)).
  assert (l.*1 = remove_dups LR) as El. { unfold l, entry. clear. induction (remove_dups LR) as [|x L IH]; [reflexivity|]. cbn. f_equal. exact IH. }
  assert (forall x, x ∈ l.*1 <-> x ∈ LR) as Hl by (intros x; rewrite El; apply elem_of_remove_dups).
  assert (forall x a, (x, a) ∈ l <-> x ∈ LR /\ a = filter (made_of LP) (alts x)) as Hla.
  { intros x a. unfold l, entry. split; [intros Hin; apply elem_of_list_fmap in Hin as (y & [= -> ->] & Hy); rewrite elem_of_remove_dups in Hy; auto|].
    intros [Hx ->]. apply elem_of_list_fmap. exists x. rewrite elem_of_remove_dups. auto. }
  assert (forall subs, Forall (nderivation rs) subs -> made_of LP (map nroot subs)) as Hmade.
  { intros subs Hs. apply made_of_names. intros y Hy. apply elem_of_list_fmap in Hy as (d & E & Hd). rewrite Forall_forall in Hs. apply HP. exists (nyield d), d. auto. }
  assert (forall x w y, x ∈ LR -> w ∈ filter (made_of LP) (alts x) -> (y, NonTerminal) ∈ w -> y ∈ LR) as Hclosed.
  { intros x w y Hx Hw Hy. apply elem_of_list_filter in Hw as [Hm Hw]. apply Hc; [apply HPn; rewrite made_of_names in Hm; auto|]. right. apply Exists_exists. exists x. split; [exact Hx|]. apply Exists_exists. exists w. auto. }
  assert (NoDup l.*1) as Hnd by (rewrite El; apply NoDup_remove_dups).
  exists l. split; [exact Hnd|]. split; [|split; [apply Hl, HsR|split]].
  - intros x a Hin. apply Hla in Hin as [Hx ->]. split; [apply defined_names, Hsub, Hx|]. split; [|apply filter_sub].
    apply HRP, HP in Hx as (s & nt & D & R & _). destruct nt as [b|y subs]; [discriminate|]. cbn in R. injection R as ->. inversion D as [|? i ? Hs Hsubs]; subst. apply plain in Hs.
    intros E. assert (map nroot subs ∈ filter (made_of LP) (alts x)) as Hin. { apply elem_of_list_filter. split; [auto|]. eapply elem_of_list_lookup_2; exact Hs. }
    rewrite E in Hin. inversion Hin.
  - intros x a w y Hin Hw Hy. apply Hla in Hin as [Hx ->]. apply Hl. eapply Hclosed; eassumption.
  - intros ins. pose proof (fun x i w => asm_says ins l x i w Hnd) as Hsay.
    assert (forall nt x, nroot nt = (x, NonTerminal) -> x ∈ l.*1 -> nderivation rs nt -> nderivation (assembled ins l) nt) as Hder.
    { induction nt as [b|y subs IH] using ntree_ind'; intros x R Hx D; [discriminate|]. cbn in R. injection R as ->. inversion D as [|? i ? Hs Hsubs]; subst. apply Hl in Hx. apply plain in Hs.
      assert (map nroot subs ∈ filter (made_of LP) (alts x)) as Hin. { apply elem_of_list_filter. split; [auto|]. eapply elem_of_list_lookup_2; exact Hs. }
      pose proof Hin as Hin'. apply elem_of_list_lookup in Hin' as [j Hj]. apply (nder_node _ x j); [apply Hsay; exists (filter (made_of LP) (alts x)); split; [apply Hla; auto|exact Hj]|].
      rewrite Forall_forall in IH, Hsubs |- *. intros d Hd. destruct d as [b|y ds] eqn:Ed; [constructor|]. rewrite <- Ed in *. apply (IH d Hd y); [rewrite Ed; reflexivity| |auto].
      apply Hl. apply (Hclosed x _ y Hx Hin). apply elem_of_list_fmap. exists d. rewrite Ed. split; [reflexivity|]. rewrite <- Ed. exact Hd. }
    split; [|exact Hder].
    assert (forall y, y ∈ LR -> exists d, nderivation (assembled ins l) d /\ nroot d = (y, NonTerminal)) as Htree.
    { intros y Hy. pose proof Hy as Hy'. apply HRP, HP in Hy' as (s & d & D & R & _). exists d. split; [|exact R]. apply (Hder d y R); [apply Hl, Hy|exact D]. }
    assert (forall w : list (str * ElementType), (forall y, (y, NonTerminal) ∈ w -> y ∈ LR) -> exists subs, map nroot subs = w /\ Forall (nderivation (assembled ins l)) subs) as Hsubs.
    { induction w as [|[y []] w IH]; intros Hw; [exists []; split; constructor| |]; (destruct IH as (subs & <- & Hs); [intros z Hz; apply Hw; right; exact Hz|]).
      - exists (NLeaf y :: subs). split; [reflexivity|]. constructor; [constructor|assumption].
      - destruct (Htree y) as (d & D & R); [apply Hw; left|]. exists (d :: subs). cbn. rewrite R. split; [reflexivity|]. constructor; assumption. }
    assert (forall x, x ∈ LR -> forall d, nderivation (assembled ins l) d -> nroot d = (x, NonTerminal) ->
      exists nt path, nderivation (assembled ins l) nt /\ nroot nt = (start, NonTerminal) /\ nsubtree nt path = Some d) as Hpath.
    { intros x Hx. refine (proj2 (_ : x ∈ LR /\ _)). revert x Hx. apply Hg. intros L' x HL' [->|Hx].
      - split; [exact HsR|]. intros d D R. exists d, []. auto.
      - apply Exists_exists in Hx as (y & Hy & Hx). apply Exists_exists in Hx as (w & Hw & Hm & Hx). destruct (HL' y Hy) as [HyR Hup].
        assert (w ∈ filter (made_of LP) (alts y)) as Hin by (apply elem_of_list_filter; auto). split; [exact (Hclosed y w x HyR Hin Hx)|]. intros d D R.
        pose proof Hx as Hk. apply elem_of_list_lookup in Hk as [k Hk]. destruct (Hsubs w) as (subs & Es & Hs); [intros z Hz; exact (Hclosed y w z HyR Hin Hz)|].
        assert (map nroot (<[k:=d]> subs) = w) as Es'. { change (nroot <$> (<[k:=d]> subs) = w). rewrite list_fmap_insert. change (map nroot subs) with (nroot <$> subs) in Es. rewrite Es, R. apply list_insert_id. exact Hk. }
        assert (nderivation (assembled ins l) (NNode y (<[k:=d]> subs))) as Dy.
        { pose proof Hin as Hin'. apply elem_of_list_lookup in Hin' as [j Hj]. apply (nder_node _ y j); [rewrite Es'; apply Hsay; exists (filter (made_of LP) (alts y)); split; [apply Hla; auto|exact Hj]|].
          apply Forall_insert; assumption. }
        destruct (Hup _ Dy eq_refl) as (nt & path & N1 & N2 & N3). exists nt, (path ++ [k]). split; [exact N1|]. split; [exact N2|]. rewrite nsubtree_app, N3. cbn [nsubtree].
        rewrite list_lookup_insert; [reflexivity|]. apply lookup_lt_Some in Hk. rewrite <- Es, map_length in Hk. exact Hk. }
    intros x i w Hs. apply Hsay in Hs as (a & Hin & Hw). pose proof Hin as Hin0. apply Hla in Hin as [Hx ->]. pose proof Hw as Hw0. apply elem_of_list_lookup_2 in Hw.
    destruct (Hsubs w) as (subs & Es & Hss); [intros z Hz; exact (Hclosed x w z Hx Hw Hz)|].
    destruct (Hpath x Hx (NNode x subs)) as (nt & path & N1 & N2 & N3); [apply (nder_node _ x i); [rewrite Es; apply Hsay; eauto|assumption]|reflexivity|]. exists nt, path, subs. auto.
Qed.
End reduced.
