(** * From parser data to names (C57, C58) *)
From Verif Require Import Base Peekables Tree Errors ParserData Vm RuleParsing
  SpecText SpecData SpecGrammar SpecWeave SpecRules SpecTree SpecScript SpecNames SpecLanguage RuleBuild_proofs Weave_proofs Names_proofs.

(** ** Trees *)
Section named.
Context {I : Type} (pd : ParserData I).
Fixpoint named (pt : ptree) : ntree :=
  match pt with
  | PLeaf t => NLeaf (text_of pd t)
  | PNode A subs => NNode (text_of pd A) (map named subs)
  end.
Fixpoint ptree_ind' (P : ptree -> Prop) (Hl : forall t, P (PLeaf t)) (Hn : forall A subs, Forall P subs -> P (PNode A subs)) (pt : ptree) : P pt :=
  match pt with
  | PLeaf t => Hl t
  | PNode A subs => Hn A subs ((fix all (l : list ptree) : Forall P l := match l with [] => Forall_nil_2 _ | p :: l' => Forall_cons_2 _ _ _ (ptree_ind' P Hl Hn p) (all l') end) subs)
  end.
Lemma map_ext_Forall' {A B} (f g : A -> B) l : Forall (fun x => f x = g x) l -> map f l = map g l.
Proof. induction 1; cbn; congruence. Qed.
Lemma named_yield pt : nyield (named pt) = yield pd pt.
Proof.
  induction pt as [t|A subs IH] using ptree_ind'; [reflexivity|]. cbn. rewrite map_map. f_equal. apply map_ext_Forall'. assumption.
Qed.
Lemma named_count pt : ncount (named pt) = nodes_count pt.
Proof.
  induction pt as [t|A subs IH] using ptree_ind'; [reflexivity|]. cbn. rewrite map_map. do 2 f_equal. apply map_ext_Forall'. assumption.
Qed.
Lemma named_history pt : forall n p, nhistory n p (named pt) = tree_history pd n p pt.
Proof.
  induction pt as [t|A subs IH] using ptree_ind'; intros n p; [reflexivity|]. cbn. f_equal. generalize (S n) as k.
  induction IH as [|s subs Hs _ IHs]; intros k; [reflexivity|]. cbn. rewrite Hs, named_count. f_equal. apply IHs.
Qed.
Lemma named_post pt : forall n, npost_order n (named pt) = map (fun '(i, A, k) => (i, text_of pd A, k)) (post_order n pt).
Proof.
  induction pt as [t|A subs IH] using ptree_ind'; intros n; [reflexivity|]. cbn [npost_order named post_order]. rewrite map_app. f_equal.
  - generalize (S n) as k. induction IH as [|s subs Hs _ IHs]; intros k; [reflexivity|]. cbn. rewrite map_app, Hs, named_count. f_equal. apply IHs.
  - change (NNode (text_of pd A) (map named subs)) with (named (PNode A subs)). rewrite named_count. reflexivity.
Qed.
Lemma named_subtree pt path : nsubtree (named pt) path = option_map named (subtree pt path).
Proof.
  revert pt. induction path as [|k path IH]; intros pt; [reflexivity|]. destruct pt as [t|A subs]; [reflexivity|]. cbn.
  change (map named subs) with (named <$> subs). rewrite list_lookup_fmap. destruct (subs !! k); [apply IH|reflexivity].
Qed.
Lemma named_shows t pt : tree_shows t (named pt) <-> shows pd t pt.
Proof.
  unfold tree_shows, shows. split; intros H path; specialize (H path); rewrite named_subtree in *; destruct (subtree pt path) as [[s|A subs]|]; exact H.
Qed.
End named.

(** ** Alternatives: [pd] describes [rs], [pd'] are the data after the overrides. *)
Section says.
Context {vm : VM} (pd pd' : ParserData (vm_instr vm)) (rs : list (arule (vm_instr vm))) (Hd : described pd rs) (Hed : edited_data pd pd').
Lemma ed_verbose A : get_element_verbose pd' A = get_element_verbose pd A.
Proof. unfold get_element_verbose. rewrite (edd_types _ _ Hed), (edd_names _ _ Hed). reflexivity. Qed.
Lemma ed_unique : names_unique pd'.
Proof. intros A B v HA HB. rewrite ed_verbose in *. apply (de_numbers pd rs Hd) in HA, HB. congruence. Qed.
Lemma has_rule_defined A x : get_element_verbose pd A = Some (x, NonTerminal) -> has_rule pd A <-> defined rs x.
Proof.
  intros HA. split.
  - intros [nr Hnr]. destruct (described_rule pd rs Hd A nr Hnr) as (r0 & more & HA' & Hrf & _). assert (x = ar_name r0) as -> by congruence.
    unfold defined. rewrite Hrf. discriminate.
  - unfold defined. destruct (rules_for x rs) as [|r0 more] eqn:E; [congruence|]. intros _. destruct (de_rule pd rs Hd x r0 more E) as (nr & Hnr & _).
    unfold get_rule_by_element_verbose in Hnr. rewrite (proj2 (de_numbers pd rs Hd _ A) HA) in Hnr. eexists. exact Hnr.
Qed.
Lemma defined_element x : defined rs x -> exists A, get_element_verbose pd A = Some (x, NonTerminal) /\ has_rule pd A.
Proof.
  unfold defined. destruct (rules_for x rs) as [|r0 more] eqn:E; [congruence|]. intros _. destruct (de_rule pd rs Hd x r0 more E) as (nr & Hnr & _).
  unfold get_rule_by_element_verbose in Hnr. destruct (get_element_index pd (x, NonTerminal)) as [A|] eqn:EA; [|discriminate].
  exists A. split; [apply (de_numbers pd rs Hd); assumption|]. eexists. exact Hnr.
Qed.
Lemma rule_alternatives A nr x : get_element_verbose pd A = Some (x, NonTerminal) -> pd_rules pd !! A = Some nr ->
  Forall2 (stands_for pd) (alternatives_for rs x) (possible_productions nr) /\
  (forall y, ignores rs x y <-> exists iy, ntr_ignore nr = Some iy /\ get_element_verbose pd iy = Some (y, NonTerminal)) /\
  instruction nr = instructions_for rs x.
Proof.
  intros HA Hnr. destruct (described_rule pd rs Hd A nr Hnr) as (r0 & more & HA' & Hrf & Hf & Hi & Hin). assert (x = ar_name r0) as -> by congruence.
  unfold alternatives_for, instructions_for, ignores. rewrite Hrf. split; [assumption|]. split; [|assumption].
  intros y. split.
  - intros (r0' & more' & E & Ho). injection E as <- <-. rewrite Ho in Hi. exact Hi.
  - intros (iy & Hig & Hy). exists r0, more. split; [reflexivity|]. destruct (ar_override r0) as [| |y'|y']; cbn in Hi; try congruence.
    destruct Hi as (ix & E & Hx). congruence.
Qed.
Lemma stands_right a p : stands_for pd a p -> Forall2 (fun e ix => get_element_verbose pd ix = Some e) a (right_side p).
Proof. intros (ixs & [[-> ->]|[_ ->]] & Hf); exact Hf. Qed.
Lemma uses_mentions a b x : get_element_verbose pd a = Some (x, NonTerminal) -> 
  (exists w, alternative pd a w /\ b ∈ w) -> forall y, get_element_verbose pd b = Some (y, NonTerminal) -> uses rs x y.
Proof.
  intros Ha (w & (nr & p & Hnr & Hp & ->) & Hb) y Hy. destruct (rule_alternatives a nr x Ha Hnr) as (Hf & _).
  apply elem_of_list_lookup in Hp as [j Hj]. destruct (Forall2_lookup_r _ _ _ _ _ Hf Hj) as (al & Hal & Hs). apply stands_right in Hs.
  exists al. split; [apply elem_of_list_lookup; eauto|]. apply elem_of_list_lookup in Hb as [i Hi]. destruct (Forall2_lookup_r _ _ _ _ _ Hs Hi) as (k & Hk & Hk').
  apply elem_of_list_lookup. exists i. congruence.
Qed.
Lemma mentions_uses a x y : get_element_verbose pd a = Some (x, NonTerminal) -> uses rs x y ->
  exists b, get_element_verbose pd b = Some (y, NonTerminal) /\ exists w, alternative pd a w /\ b ∈ w.
Proof.
  intros Ha (w & Hw & Hy). assert (defined rs x) as Hdef. { unfold defined. intros E. unfold alternatives_for in Hw. rewrite E in Hw. inversion Hw. }
  destruct (proj2 (has_rule_defined a x Ha) Hdef) as [nr Hnr]. destruct (rule_alternatives a nr x Ha Hnr) as (Hf & _).
  apply elem_of_list_lookup in Hw as [j Hj]. destruct (Forall2_lookup_l _ _ _ _ _ Hf Hj) as (p & Hp & Hs). apply stands_right in Hs.
  apply elem_of_list_lookup in Hy as [i Hi]. destruct (Forall2_lookup_l _ _ _ _ _ Hs Hi) as (b & Hb & Hv). exists b. split; [assumption|].
  exists (right_side p). split; [exists nr, p; split; [assumption|]; split; [apply elem_of_list_lookup; eauto|reflexivity]|apply elem_of_list_lookup; eauto].
Qed.
Lemma inside_derives a b y x : get_element_verbose pd a = Some (y, NonTerminal) -> get_element_verbose pd b = Some (x, NonTerminal) ->
  can_derive pd a b <-> inside rs y x.
Proof.
  intros Ha Hb. unfold can_derive, inside. rewrite (has_rule_defined a y Ha), <- (derives_iff (vm := vm) pd a b). apply and_iff_compat_l. split.
  - intros Hr. revert y Ha. induction Hr as [b|a c b Hm Hr IH]; intros y Ha; [assert (x = y) as -> by congruence; apply rtc_refl|].
    assert (is_nonterminal pd c) as [z Hz].
    { destruct Hr as [c|c d b Hm' _]; [eexists; exact Hb|]. apply mentions_alternative in Hm' as (w & (nr & p & Hnr & _) & _).
      apply (described_nonterminal pd rs Hd). eexists. exact Hnr. }
    eapply rtc_l; [|apply (IH Hb z Hz)]. apply mentions_alternative in Hm. eapply uses_mentions; eauto.
  - intros Hr. revert a Ha. induction Hr as [x|y z x Hu Hr IH]; intros a Ha.
    + assert (a = b) as -> by (apply (de_numbers pd rs Hd) in Ha, Hb; congruence). apply rtc_refl.
    + destruct (mentions_uses a y z Ha Hu) as (c & Hc & Hm). eapply rtc_l; [apply mentions_alternative; exact Hm|]. apply IH; assumption.
Qed.
Lemma ed_stands a p : stands_for pd a p -> stands_for pd' a p.
Proof. intros (ixs & Ha & Hf). exists ixs. split; [assumption|]. eapply Forall2_impl; [exact Hf|]. intros e ix He. rewrite ed_verbose. exact He. Qed.
Lemma interleave_stands a p y ig : get_element_verbose pd ig = Some (y, NonTerminal) -> stands_for pd a p -> stands_for pd (interleave (y, NonTerminal) a) (interleaved ig p).
Proof.
  intros Hy (ixs & Ha & Hf). exists (interleave ig ixs). split.
  - destruct Ha as [[-> ->]|[Hne ->]]; [left; auto|right]. split; [destruct ixs as [|? [|? ?]]; [congruence|discriminate..]|reflexivity].
  - clear Ha. induction Hf as [|e i a b He Hab IH]; [constructor|]. cbn [interleave].
    destruct Hab as [|e' i' a b He' Hab]; [repeat constructor; assumption|]. constructor; [assumption|]. constructor; assumption.
Qed.
Lemma says_rule A r' x i : get_element_verbose pd A = Some (x, NonTerminal) -> pd_rules pd' !! A = Some r' ->
  (forall w, says rs x i w -> exists p, possible_productions r' !! i = Some p /\ stands_for pd' w p) /\
  (forall p, possible_productions r' !! i = Some p -> exists w, says rs x i w /\ stands_for pd' w p) /\
  instruction r' = instructions_for rs x.
Proof.
  intros HA Hr'. apply (edd_rules _ _ Hed) in Hr' as (nr & Hnr & He). destruct (rule_alternatives A nr x HA Hnr) as (Hf & Hig & Hin).
  assert (forall w, alternatives_for rs x !! i = Some w -> exists p, possible_productions nr !! i = Some p /\ stands_for pd w p) as Hfwd
    by (intros w Hw; destruct (Forall2_lookup_l _ _ _ _ _ Hf Hw) as (p & Hp & Hs); eauto).
  assert (forall p, possible_productions nr !! i = Some p -> exists w, alternatives_for rs x !! i = Some w /\ stands_for pd w p) as Hbwd
    by (intros p Hp; destruct (Forall2_lookup_r _ _ _ _ _ Hf Hp) as (w & Hw & Hs); eauto).
  destruct He as [Hn|ig Hi Hc|ig Hi Hc]; cbn [possible_productions instruction].
  - split; [|split; [|assumption]].
    + intros w [w0 Hw _|w0 y Hw Hy _]; [destruct (Hfwd _ Hw) as (p & Hp & Hs); eauto using ed_stands|].
      apply Hig in Hy as (iy & E & _). congruence.
    + intros p Hp. destruct (Hbwd p Hp) as (w & Hw & Hs). exists w. split; [|apply ed_stands; assumption]. apply says_plain; [assumption|].
      intros y Hy. apply Hig in Hy as (iy & E & _). congruence.
  - destruct (proj2 (described_indices pd rs Hd) A nr ig Hnr Hi) as [v Hv].
    assert (exists y, v = (y, NonTerminal)) as [y ->].
    { destruct Hc as [Hc _]. apply (described_nonterminal pd rs Hd) in Hc as [y Hy]. exists y. congruence. }
    assert (inside rs y x) as Hins by (apply (inside_derives ig A); assumption).
    assert (forall z, ignores rs x z -> z = y) as Hz by (intros z Hz; apply Hig in Hz as (iy & E & Hz); congruence).
    split; [|split; [|assumption]].
    + intros w [w0 Hw _|w0 z Hw Hy Hno]; [destruct (Hfwd _ Hw) as (p & Hp & Hs); eauto using ed_stands|].
      apply Hz in Hy as ->. contradiction.
    + intros p Hp. destruct (Hbwd p Hp) as (w & Hw & Hs). exists w. split; [|apply ed_stands; assumption]. apply says_plain; [assumption|].
      intros z Hy. apply Hz in Hy as ->. assumption.
  - destruct (described_rule pd rs Hd A nr Hnr) as (r0 & more & HA' & Hrf & _ & Hi' & _). assert (x = ar_name r0) as -> by congruence.
    rewrite Hi in Hi'. destruct (ar_override r0) as [| |y|y] eqn:Ho; cbn in Hi'; try congruence. destruct Hi' as (ix & E & Hv). injection E as <-.
    assert (ignores rs (ar_name r0) y) as Hy by (exists r0, more; auto).
    assert (~ inside rs y (ar_name r0)) as Hno by (intros Hins; apply Hc; apply (inside_derives ig A) in Hins; assumption).
    assert (forall z, ignores rs (ar_name r0) z -> z = y) as Hz by (intros z Hz; apply Hig in Hz as (iy & E & Hz); congruence).
    split; [|split; [|assumption]].
    + intros w [w0 Hw Hall|w0 z Hw Hyz Hnoz]; [exfalso; apply Hno, Hall; assumption|]. apply Hz in Hyz as ->.
      destruct (Hfwd _ Hw) as (p & Hp & Hs). exists (interleaved ig p). split; [rewrite list_lookup_fmap, Hp; reflexivity|].
      apply ed_stands, interleave_stands; assumption.
    + intros p Hp. rewrite list_lookup_fmap in Hp. destruct (possible_productions nr !! i) as [q|] eqn:Hq; [|discriminate]. injection Hp as <-.
      destruct (Hbwd q eq_refl) as (w & Hw & Hs). exists (interleave (y, NonTerminal) w). split; [apply says_woven; assumption|].
      apply ed_stands, interleave_stands; assumption.
Qed.
(** the alternatives, as relation *)
Lemma says_alternative A x i w : get_element_verbose pd A = Some (x, NonTerminal) -> says rs x i w ->
  exists ixs, alternative pd' A ixs /\ called pd' w ixs.
Proof.
  intros HA Hs. assert (defined rs x) as Hdef. { unfold defined. intros E. assert (exists a, alternatives_for rs x !! i = Some a) as [a Ha] by (destruct Hs; eauto).
    unfold alternatives_for in Ha. rewrite E in Ha. discriminate. }
  destruct (proj2 (edd_domain _ _ Hed A) (proj2 (has_rule_defined A x HA) Hdef)) as [r' Hr'].
  destruct (proj1 (says_rule A r' x i HA Hr') w Hs) as (p & Hp & ixs & Hal & Hf). exists ixs. split; [|exact Hf].
  exists r', p. split; [assumption|]. split; [apply elem_of_list_lookup; eauto|]. destruct Hal as [[-> ->]|[_ ->]]; reflexivity.
Qed.
Lemma alternative_says A x ixs : get_element_verbose pd A = Some (x, NonTerminal) -> alternative pd' A ixs ->
  exists i w, says rs x i w /\ called pd' w ixs.
Proof.
  intros HA (r' & p & Hr' & Hp & ->). apply elem_of_list_lookup in Hp as [i Hp].
  destruct (proj1 (proj2 (says_rule A r' x i HA Hr')) p Hp) as (w & Hw & ixs & Hal & Hf). exists i, w. split; [assumption|].
  unfold called. destruct Hal as [[-> ->]|[_ ->]]; exact Hf.
Qed.
Lemma rule_element A : has_rule pd' A -> exists x, get_element_verbose pd A = Some (x, NonTerminal).
Proof. intros Hr. apply (edd_domain _ _ Hed) in Hr. apply (described_nonterminal pd rs Hd) in Hr. exact Hr. Qed.

Lemma text_of_verbose e v : get_element_verbose pd e = Some v -> text_of pd' e = v.1.
Proof. unfold text_of. rewrite ed_verbose. intros ->. destruct v. reflexivity. Qed.
(** derivation trees *)
Lemma named_derivation pt : derivation pd' pt -> nderivation rs (named pd' pt) /\ get_element_verbose pd (root pt) = Some (nroot (named pd' pt)).
Proof.
  induction pt as [t|A subs IH] using ptree_ind'; intros Hder; inversion Hder as [t0 s Hs|A0 subs0 Ha Hf]; subst.
  - unfold is_terminal in Hs. rewrite ed_verbose in Hs. split; [constructor|]. cbn [root named nroot]. rewrite (text_of_verbose _ _ Hs). exact Hs.
  - assert (has_rule pd' A) as HrA by (destruct Ha as (r & p & Hr & _); eexists; exact Hr).
    destruct (rule_element A HrA) as [x Hx]. cbn [root named nroot]. rewrite (text_of_verbose _ _ Hx). split; [|exact Hx].
    destruct (alternative_says A x _ Hx Ha) as (i & w & Hw & Hc).
    assert (Forall (fun s => nderivation rs (named pd' s) /\ get_element_verbose pd (root s) = Some (nroot (named pd' s))) subs) as Hall.
    { apply Forall_forall. intros s Hs. rewrite Forall_forall in IH, Hf. auto. }
    apply (nder_node rs x i); [|apply Forall_fmap; eapply Forall_impl; [exact Hall|intros s [? _]; assumption]].
    replace (map nroot (map (named pd') subs)) with w; [assumption|]. clear -Hc Hall Hed. revert w Hc.
    induction Hall as [|s subs [_ Hs] _ IHs]; intros w Hc; inversion Hc as [|v ? w' ? Hv Hc']; subst; [reflexivity|].
    cbn. f_equal; [|auto]. rewrite ed_verbose in Hv. congruence.
Qed.
Fixpoint ntree_ind' (P : ntree -> Prop) (Hl : forall b, P (NLeaf b)) (Hn : forall x subs, Forall P subs -> P (NNode x subs)) (t : ntree) : P t :=
  match t with
  | NLeaf b => Hl b
  | NNode x subs => Hn x subs ((fix all (l : list ntree) : Forall P l := match l with [] => Forall_nil_2 _ | p :: l' => Forall_cons_2 _ _ _ (ntree_ind' P Hl Hn p) (all l') end) subs)
  end.
Lemma derivation_named nt : nderivation rs nt -> forall e, get_element_verbose pd e = Some (nroot nt) ->
  exists pt, derivation pd' pt /\ root pt = e /\ named pd' pt = nt.
Proof.
  induction nt as [b|x subs IH] using ntree_ind'; intros Hder e He; inversion Hder as [|x0 i subs0 Hw Hf]; subst.
  - exists (PLeaf e). split; [apply (der_leaf pd' e b); unfold is_terminal; rewrite ed_verbose; exact He|]. split; [reflexivity|].
    cbn. f_equal. exact (text_of_verbose e _ He).
  - cbn [nroot] in He. destruct (says_alternative e x i _ He Hw) as (ixs & Ha & Hc).
    assert (exists pts, Forall (derivation pd') pts /\ map root pts = ixs /\ map (named pd') pts = subs) as (pts & H1 & H2 & H3).
    { clear Ha Hw He Hder. revert ixs Hc. induction IH as [|s subs Hs _ IHs]; intros ixs Hc; inversion Hc as [|? ix ? ixs' Hv Hc']; subst.
      - exists []. auto.
      - rewrite ed_verbose in Hv. apply Forall_cons in Hf as [Hs1 Hf]. destruct (Hs Hs1 ix Hv) as (pt & D1 & D2 & D3).
        destruct (IHs Hf ixs' Hc') as (pts & E1 & E2 & E3). exists (pt :: pts). cbn. split; [constructor; assumption|]. split; congruence. }
    exists (PNode e pts). split; [apply der_node; [rewrite H2; assumption|assumption]|]. split; [reflexivity|].
    cbn. rewrite H3. f_equal. exact (text_of_verbose e _ He).
Qed.
Lemma run_named t v : derivation pd' t -> run_tree rs (named pd' t) v = run_actions pd' (tree_history pd' 0 None t) (post_order 0 t) v.
Proof.
  intros Hder. unfold run_tree, run_actions. rewrite named_post, named_history.
  assert (forall n, Forall (fun '(i, A, k) => instructions_for rs (text_of pd' A) = instructions_of pd' A) (post_order n t)) as Hins.
  { induction t as [t|A subs IH] using ptree_ind'; intros n; [constructor|]. inversion Hder as [|? ? Ha Hf]; subst. cbn [post_order]. apply Forall_app. split.
    - clear -IH Hf. generalize (S n) as k. induction IH as [|s subs Hs _ IHs]; intros k; [constructor|]. apply Forall_cons in Hf as [Hs1 Hf].
      apply Forall_app. split; [apply Hs; assumption|apply IHs; assumption].
    - constructor; [|constructor]. destruct Ha as (r & p & Hr & _). destruct (rule_element A ltac:(eexists; exact Hr)) as [x Hx].
      destruct (says_rule A r x 0 Hx Hr) as (_ & _ & Hi). unfold instructions_of. rewrite Hr, (text_of_verbose _ _ Hx). cbn. congruence. }
  generalize (Hins 0). generalize (tree_history pd' 0 None t) as h. generalize (post_order 0 t) as l. clear. intros l h Hl. revert v.
  induction Hl as [|[[i A] k] l Hi _ IH]; intros v; [reflexivity|]. cbn [map ofold]. rewrite Hi. unfold run_list at 1.
  destruct (ofold _ v (instructions_of pd' A)) as [s|[]| |]; cbn; [apply IH|reflexivity..].
Qed.
End says.

(** ** The notions of SpecGrammar.v and those by name agree *)
From Verif Require Import Sets.
Section notions.
Context {vm : VM} (pd pd' : ParserData (vm_instr vm)) (rs : list (arule (vm_instr vm))) (Hd : described pd rs) (Hed : edited_data pd pd').
Notation R := (fun (e : str * ElementType) ix => get_element_verbose pd' ix = Some e).
Lemma nstep_fwd l k : nstep rs l k -> forall ixs, called pd' l ixs -> exists ixs', step pd' ixs ixs' /\ called pd' k ixs'.
Proof.
  intros [u x v i w Hw] ixs Hc. apply Forall2_app_inv_l in Hc as (u' & r' & Hu & Hr & ->). inversion Hr as [|? A ? v' HA Hv]; subst.
  rewrite (ed_verbose pd pd' Hed) in HA. destruct (says_alternative pd pd' rs Hd Hed A x i w HA Hw) as (w' & Ha & Hcw).
  exists (u' ++ w' ++ v'). split; [constructor; assumption|]. apply Forall2_app; [assumption|]. apply Forall2_app; assumption.
Qed.
Lemma nstep_bwd l k : step pd' l k -> forall n, called pd' n l -> exists n', nstep rs n n' /\ called pd' n' k.
Proof.
  intros [u A v w Ha] n Hc. apply Forall2_app_inv_r in Hc as (u' & r' & Hu & Hr & ->). inversion Hr as [|e ? v' ? HA Hv]; subst.
  destruct (rule_element pd pd' rs Hd Hed A) as [x Hx]; [destruct Ha as (r & p & Hr' & _); eexists; exact Hr'|].
  rewrite (ed_verbose pd pd' Hed) in HA. assert (e = (x, NonTerminal)) as -> by congruence.
  destruct (alternative_says pd pd' rs Hd Hed A x w Hx Ha) as (i & w' & Hw & Hcw).
  exists (u' ++ w' ++ v'). split; [econstructor; eassumption|]. apply Forall2_app; [assumption|]. apply Forall2_app; assumption.
Qed.
Lemma nderives_fwd l k : nderives rs l k -> forall ixs, called pd' l ixs -> exists ixs', derives pd' ixs ixs' /\ called pd' k ixs'.
Proof.
  induction 1 as [l|l k k2 Hs _ IH]; intros ixs Hc; [exists ixs; split; [apply rtc_refl|assumption]|].
  destruct (nstep_fwd l k Hs ixs Hc) as (i1 & H1 & Hc1). destruct (IH i1 Hc1) as (i2 & H2 & Hc2). exists i2. split; [eapply rtc_l; eassumption|assumption].
Qed.
Lemma nderives_bwd l k : derives pd' l k -> forall n, called pd' n l -> exists n', nderives rs n n' /\ called pd' n' k.
Proof.
  induction 1 as [l|l k k2 Hs _ IH]; intros n Hc; [exists n; split; [apply rtc_refl|assumption]|].
  destruct (nstep_bwd l k Hs n Hc) as (i1 & H1 & Hc1). destruct (IH i1 Hc1) as (i2 & H2 & Hc2). exists i2. split; [eapply rtc_l; eassumption|assumption].
Qed.
Lemma nerased_iff n l : called pd' n l -> nerased n <-> erased pd' l.
Proof.
  induction 1 as [|e ix n l He Hc IH]; [split; constructor|]. unfold nerased, erased, is_terminal in *. rewrite !Forall_cons, IH.
  apply and_iff_compat_r. cbn in He. rewrite He. split; [intros ->; reflexivity|congruence].
Qed.
Lemma nnullable_iff n l : called pd' n l -> nnullable rs n <-> NULLABLE pd' l.
Proof.
  intros Hc. split.
  - intros (x & Hx & He). destruct (nderives_fwd n x Hx l Hc) as (y & Hy & Hcy). exists y. split; [assumption|]. apply (nerased_iff x y Hcy); assumption.
  - intros (x & Hx & He). destruct (nderives_bwd l x Hx n Hc) as (y & Hy & Hcy). exists y. split; [assumption|]. apply (nerased_iff y x Hcy); assumption.
Qed.
Lemma nfirst_iff n l c : called pd' n l -> nfirst rs n c <-> FIRST pd' l c.
Proof.
  intros Hc. split.
  - intros (x & s & v & Hx & He). destruct (nderives_fwd n _ Hx l Hc) as (y & Hy & Hcy).
    apply Forall2_app_inv_l in Hcy as (x' & r' & Hx' & Hr & ->). inversion Hr as [|? t ? v' Ht Hv]; subst.
    exists x', t, v', s. split; [assumption|]. split; [apply (nerased_iff x x' Hx'); assumption|exact Ht].
  - intros (x & t & v & s & Hx & He & Ht). destruct (nderives_bwd l _ Hx n Hc) as (y & Hy & Hcy).
    apply Forall2_app_inv_r in Hcy as (x' & r' & Hx' & Hr & ->). inversion Hr as [|e ? v' ? Hte Hv]; subst.
    unfold is_terminal in Ht. assert (e = (c :: s, Terminal)) as -> by congruence.
    exists x', s, v'. split; [assumption|]. apply (nerased_iff x' x Hx'); assumption.
Qed.
Lemma called_unique_ix n l l' : called pd' n l -> called pd' n l' -> l = l'.
Proof.
  intros Hc. revert l'. induction Hc as [|e ix n l He Hc IH]; intros l' Hc'; inversion Hc' as [|? ix' ? l2 He' Hc2]; subst; [reflexivity|].
  f_equal; [eapply (ed_unique pd pd' rs Hd Hed); eassumption|auto].
Qed.
Lemma nfollow_iff start e ix a : get_element_verbose pd' start = Some (lit "start", NonTerminal) -> get_element_verbose pd' ix = Some e ->
  nfollow rs e a <-> FOLLOW pd' start ix a.
Proof.
  intros Hst He. destruct a as [c|]; cbn.
  - split.
    + intros (x & u & v & Hx & Hder & Hf). destruct (defined_element pd rs Hd x Hx) as (B & HB & HrB). rewrite <- (ed_verbose pd pd' Hed) in HB.
      destruct (nderives_fwd _ _ Hder [B]) as (y & Hy & Hcy); [constructor; [exact HB|constructor]|].
      apply Forall2_app_inv_l in Hcy as (u' & r' & Hu & Hr & ->). inversion Hr as [|? ix' ? v' Hix Hv]; subst.
      assert (ix' = ix) as -> by (eapply (ed_unique pd pd' rs Hd Hed); eassumption).
      exists B, u', v'. split; [apply (edd_domain _ _ Hed); assumption|]. split; [assumption|]. apply (nfirst_iff v v' c Hv). assumption.
    + intros (B & u & v & HB & Hder & Hf). destruct (rule_element pd pd' rs Hd Hed B HB) as [x Hx].
      destruct (nderives_bwd _ _ Hder [(x, NonTerminal)]) as (y & Hy & Hcy); [constructor; [rewrite (ed_verbose pd pd' Hed); exact Hx|constructor]|].
      apply Forall2_app_inv_r in Hcy as (u' & r' & Hu & Hr & ->). inversion Hr as [|e' ? v' ? He' Hv]; subst. assert (e' = e) as -> by congruence.
      exists x, u', v'. split; [|split; [assumption|apply (nfirst_iff v' v c Hv); assumption]].
      apply (has_rule_defined pd rs Hd B x Hx). apply (edd_domain _ _ Hed). assumption.
  - split.
    + intros (u & v & Hder & Hf). destruct (nderives_fwd _ _ Hder [start]) as (y & Hy & Hcy); [constructor; [exact Hst|constructor]|].
      apply Forall2_app_inv_l in Hcy as (u' & r' & Hu & Hr & ->). inversion Hr as [|? ix' ? v' Hix Hv]; subst.
      assert (ix' = ix) as -> by (eapply (ed_unique pd pd' rs Hd Hed); eassumption).
      exists u', v'. split; [assumption|]. apply (nnullable_iff v v' Hv). assumption.
    + intros (u & v & Hder & Hf). destruct (nderives_bwd _ _ Hder [(lit "start", NonTerminal)]) as (y & Hy & Hcy); [constructor; [exact Hst|constructor]|].
      apply Forall2_app_inv_r in Hcy as (u' & r' & Hu & Hr & ->). inversion Hr as [|e' ? v' ? He' Hv]; subst. assert (e' = e) as -> by congruence.
      exists u', v'. split; [assumption|]. apply (nnullable_iff v' v Hv). assumption.
Qed.
Lemma nchoose_iff start A x w p a : get_element_verbose pd' start = Some (lit "start", NonTerminal) -> get_element_verbose pd' A = Some (x, NonTerminal) ->
  stands_for pd' w p -> nchoose rs x w a <-> CHOOSE pd' start A p a.
Proof.
  intros Hst HA (ixs & Hal & Hf). destruct Hf as [|e ix w l He Hf].
  - destruct Hal as [[_ ->]|[? _]]; [|congruence]. apply nfollow_iff; assumption.
  - destruct Hal as [[? _]|[_ ->]]; [discriminate|]. cbn [nchoose CHOOSE].
    assert (called pd' [e] [ix]) as Hc by (constructor; [exact He|constructor]).
    rewrite (nnullable_iff [e] [ix] Hc), (nfollow_iff start e ix a Hst He). apply or_iff_compat_r.
    split; intros (c & -> & Hx); exists c; (split; [reflexivity|]); apply (nfirst_iff [e] [ix] c Hc); assumption.
Qed.
Lemma nleft_iff A B x y : get_element_verbose pd' A = Some (x, NonTerminal) -> get_element_verbose pd' B = Some (y, NonTerminal) ->
  nleft_calls rs x y <-> left_calls pd' A B.
Proof.
  intros HA HB. split.
  - intros (i & u & v & Hs & Hn). rewrite (ed_verbose pd pd' Hed) in HA. destruct (says_alternative pd pd' rs Hd Hed A x i _ HA Hs) as (ixs & Ha & Hc).
    apply Forall2_app_inv_l in Hc as (u' & r' & Hu & Hr & ->). inversion Hr as [|? ix' ? v' Hix Hv]; subst.
    assert (ix' = B) as -> by (eapply (ed_unique pd pd' rs Hd Hed); eassumption).
    exists u', v'. split; [assumption|]. split; [apply (nnullable_iff u u' Hu); assumption|]. eexists. exact HB.
  - intros (u & v & Ha & Hn & _). rewrite (ed_verbose pd pd' Hed) in HA. destruct (alternative_says pd pd' rs Hd Hed A x _ HA Ha) as (i & w & Hs & Hc).
    apply Forall2_app_inv_r in Hc as (u' & r' & Hu & Hr & ->). inversion Hr as [|e' ? v' ? He' Hv]; subst. assert (e' = (y, NonTerminal)) as -> by congruence.
    exists i, u', v'. split; [assumption|]. apply (nnullable_iff u' u Hu). assumption.
Qed.
Lemma nleft_recursive : ((exists x, tc (nleft_calls rs) x x) -> exists A, left_recursive pd' A) /\ ((exists A, left_recursive pd' A) -> exists x, tc (nleft_calls rs) x x).
Proof.
  assert (forall A B, tc (left_calls pd') A B -> exists x, get_element_verbose pd' A = Some (x, NonTerminal)) as Hleft.
  { intros A B Ht. assert (has_rule pd' A) as HA by (destruct Ht as [A B (u & v & (r & p & Hr & _) & _)|A B C (u & v & (r & p & Hr & _) & _) _]; eexists; exact Hr).
    destruct (rule_element pd pd' rs Hd Hed A HA) as [x Hx]. exists x. rewrite (ed_verbose pd pd' Hed). exact Hx. }
  assert (forall A B x y, get_element_verbose pd' A = Some (x, NonTerminal) -> get_element_verbose pd' B = Some (y, NonTerminal) ->
    tc (left_calls pd') A B -> tc (nleft_calls rs) x y) as Hb.
  { intros A B x y HA HB Ht. revert x HA. induction Ht as [A B Hl|A C B Hl Ht IH]; intros x HA; [apply tc_once, (nleft_iff A B); assumption|].
    destruct (Hleft C B Ht) as [z Hz]. eapply tc_l; [apply (nleft_iff A C); eassumption|]. apply IH; assumption. }
  assert (forall x y, nleft_calls rs x y -> defined rs x) as Hdx.
  { intros x y (i & u & v & Hs & _). unfold defined. intros E. assert (exists a, alternatives_for rs x !! i = Some a) as [a Ha] by (destruct Hs; eauto).
    unfold alternatives_for in Ha. rewrite E in Ha. discriminate. }
  assert (forall x y, tc (nleft_calls rs) x y -> forall A, get_element_verbose pd' A = Some (x, NonTerminal) ->
    exists B, get_element_verbose pd' B = Some (y, NonTerminal) /\ tc (left_calls pd') A B) as Hf.
  { assert (forall x y A, nleft_calls rs x y -> get_element_verbose pd' A = Some (x, NonTerminal) -> exists B, get_element_verbose pd' B = Some (y, NonTerminal) /\ left_calls pd' A B) as Hone.
    { intros x y A Hl HA. assert (exists B, get_element_verbose pd' B = Some (y, NonTerminal)) as [B HB].
      { destruct Hl as (i & u & v & Hs & _). rewrite (ed_verbose pd pd' Hed) in HA. destruct (says_alternative pd pd' rs Hd Hed A x i _ HA Hs) as (ixs & Ha & Hc).
        apply Forall2_app_inv_l in Hc as (u' & r' & _ & Hr & _). inversion Hr; subst. eauto. }
      exists B. split; [assumption|]. apply (nleft_iff A B x y HA HB). assumption. }
    intros x y Ht. induction Ht as [x y Hl|x z y Hl Ht IH]; intros A HA.
    - destruct (Hone x y A Hl HA) as (B & HB & Hl'). exists B. split; [assumption|]. apply tc_once. assumption.
    - destruct (Hone x z A Hl HA) as (C & HC & Hl'). destruct (IH C HC) as (B & HB & Ht'). exists B. split; [assumption|]. eapply tc_l; eassumption. }
  split.
  - intros [x Hx]. assert (forall a b, tc (nleft_calls rs) a b -> defined rs a) as Hdt by (intros a b []; eauto). pose proof (Hdt x x Hx) as Hdef. destruct (defined_element pd rs Hd x Hdef) as (A & EA & _).
    rewrite <- (ed_verbose pd pd' Hed) in EA. destruct (Hf x x Hx A EA) as (B & EB & Ht).
    assert (B = A) as -> by (eapply (ed_unique pd pd' rs Hd Hed); eassumption). exists A. exact Ht.
  - intros [A HA]. destruct (Hleft A A HA) as [x Ex]. exists x. eapply Hb; eassumption.
Qed.
Lemma nleft_recursion : (forall x, ~ tc (nleft_calls rs) x x) <-> (forall A, ~ left_recursive pd' A).
Proof.
  destruct nleft_recursive as [H1 H2]. split.
  - intros Hn A HA. destruct H2 as [x Hx]; [eauto|]. exact (Hn x Hx).
  - intros Hn x Hx. destruct H1 as [A HA]; [eauto|]. exact (Hn A HA).
Qed.

Lemma interleave_elem {X} (y e : X) w : e ∈ interleave y w -> e ∈ w \/ e = y.
Proof.
  induction w as [|a w IH]; [auto|]. destruct w as [|b w]; [auto|]. cbn [interleave]. intros He.
  apply elem_of_cons in He as [->|He]; [left; left|]. apply elem_of_cons in He as [->|He]; [auto|]. destruct (IH He); [left; right; assumption|auto].
Qed.
Lemma elem_interleave {X} (y e : X) w : e ∈ w -> e ∈ interleave y w.
Proof.
  induction w as [|a w IH]; [auto|]. destruct w as [|b w]; [auto|]. cbn [interleave]. intros He.
  apply elem_of_cons in He as [->|He]; [left|right; right; auto].
Qed.
Lemma says_elem x i w e : says rs x i w -> e ∈ w -> (exists w0, w0 ∈ alternatives_for rs x /\ e ∈ w0) \/ exists y, ignores rs x y /\ e = (y, NonTerminal).
Proof.
  intros [w0 Hw _|w0 y Hw Hy _] He; [left; exists w0; split; [apply elem_of_list_lookup; eauto|assumption]|].
  apply interleave_elem in He as [He| ->]; [left; exists w0; split; [apply elem_of_list_lookup; eauto|assumption]|right; eauto].
Qed.
Lemma alternatives_says x w : w ∈ alternatives_for rs x -> exists i w', says rs x i w' /\ forall e, e ∈ w -> e ∈ w'.
Proof.
  intros Hw. apply elem_of_list_lookup in Hw as [i Hi]. assert (defined rs x) as Hdef. { unfold defined. intros E. unfold alternatives_for in Hi. rewrite E in Hi. discriminate. }
  destruct (defined_element pd rs Hd x Hdef) as (A & HA & HrA). apply (edd_domain _ _ Hed) in HrA as [r' Hr'].
  pose proof (proj1 (edd_rules _ _ Hed A r') Hr') as (nr & Hnr & He).
  destruct (rule_alternatives pd rs Hd A nr x HA Hnr) as (Hf & _). destruct (Forall2_lookup_l _ _ _ _ _ Hf Hi) as (p & Hp & _).
  assert (exists p', possible_productions r' !! i = Some p') as [p' Hp'].
  { destruct He; cbn [possible_productions]; rewrite ?list_lookup_fmap, ?Hp; cbn; eauto. }
  destruct (proj1 (proj2 (says_rule pd pd' rs Hd Hed A r' x i HA Hr')) p' Hp') as (w' & Hw' & _). exists i, w'. split; [assumption|].
  destruct Hw' as [w0 Hw0 _|w0 y Hw0 _ _]; assert (w0 = w) as -> by congruence; auto using elem_interleave.
Qed.
Lemma uses_all_defined : (forall x y, uses rs x y -> defined rs y) -> (forall x y, ignores rs x y -> defined rs y) -> all_defined pd'.
Proof.
  intros P2 Hign. pose proof (ed_verbose pd pd' Hed) as Hv.
  assert (forall A x, get_element_verbose pd' A = Some (x, NonTerminal) -> has_rule pd' A <-> defined rs x) as Hrule.
  { intros A x HA. rewrite (edd_domain _ _ Hed). apply has_rule_defined; [assumption|]. rewrite <- Hv. assumption. }
  assert (forall A r, pd_rules pd' !! A = Some r -> exists x, get_element_verbose pd A = Some (x, NonTerminal)) as Hname.
  { intros A r Hr. apply (rule_element pd pd' rs Hd Hed). eexists. exact Hr. }
  split.
  - intros A r p Hr Hp. destruct (Hname A r Hr) as [x HA]. apply elem_of_list_lookup in Hp as [i Hp].
    destruct (proj1 (proj2 (says_rule pd pd' rs Hd Hed A r x i HA Hr)) p Hp) as (w & _ & ixs & [[_ ->]|[Hne ->]] & _); congruence.
  - intros A ixs B Ha HB. assert (has_rule pd' A) as HrA by (destruct Ha as (r & p & Hr & _); eexists; exact Hr).
    destruct (rule_element pd pd' rs Hd Hed A HrA) as [x HA]. destruct (alternative_says pd pd' rs Hd Hed A x ixs HA Ha) as (i & w & Hs & Hc).
    apply elem_of_list_lookup in HB as [j Hj]. destruct (Forall2_lookup_r _ _ _ _ _ Hc Hj) as ([y k] & Hk & HvB). destruct k; [left; exists y; exact HvB|right].
    split; [exists y; exact HvB|]. apply (Hrule B y HvB). destruct (says_elem x i w (y, NonTerminal) Hs) as [(w0 & Hw0 & Hy)|(z & Hz & E)]; [apply elem_of_list_lookup; eauto|..].
    + apply (P2 x y). exists w0. auto.
    + injection E as <-. eauto.
Qed.
Lemma constructible_parsable start : get_element_verbose pd' start = Some (lit "start", NonTerminal) ->
  (forall x y, ignores rs x y -> defined rs y) -> constructible pd' start <-> parsable rs.
Proof.
  intros Hst Hign. pose proof (ed_verbose pd pd' Hed) as Hv.
  assert (forall A x, get_element_verbose pd' A = Some (x, NonTerminal) -> has_rule pd' A <-> defined rs x) as Hrule.
  { intros A x HA. rewrite (edd_domain _ _ Hed). apply has_rule_defined; [assumption|]. rewrite <- Hv. assumption. }
  assert (forall A r, pd_rules pd' !! A = Some r -> exists x, get_element_verbose pd A = Some (x, NonTerminal)) as Hname.
  { intros A r Hr. apply (rule_element pd pd' rs Hd Hed). eexists. exact Hr. }
  split.
  - intros [[C1 C2] C3 C4 C5 C6]. split.
    + apply (Hrule start); assumption.
    + intros x y (w & Hw & Hy). destruct (alternatives_says x w Hw) as (i & w' & Hs & Hin).
      assert (defined rs x) as Hdx. { unfold defined. intros E. unfold alternatives_for in Hw. rewrite E in Hw. inversion Hw. }
      destruct (defined_element pd rs Hd x Hdx) as (A & HA & _). destruct (says_alternative pd pd' rs Hd Hed A x i w' HA Hs) as (ixs & Ha & Hc).
      apply Hin, elem_of_list_lookup in Hy as [j Hj]. destruct (Forall2_lookup_l _ _ _ _ _ Hc Hj) as (B & HB & HvB).
      destruct (C2 A ixs B Ha) as [[s Hs']|[_ HrB]]; [apply elem_of_list_lookup; eauto| |apply (Hrule B); assumption].
      unfold is_terminal in Hs'. congruence.
    + assumption.
    + apply nleft_recursion. assumption.
    + intros x i w Hs Hh. assert (defined rs x) as Hdx. { unfold defined. intros E. assert (exists a, alternatives_for rs x !! i = Some a) as [a Ha] by (destruct Hs; eauto). unfold alternatives_for in Ha. rewrite E in Ha. discriminate. }
      destruct (defined_element pd rs Hd x Hdx) as (A & HA & HrA). apply (edd_domain _ _ Hed) in HrA as [r Hr].
      destruct (proj1 (says_rule pd pd' rs Hd Hed A r x i HA Hr) w Hs) as (p & Hp & ixs & Hal & Hf).
      destruct Hf as [|e ix w l He Hf]; [discriminate|]. cbn in Hh. injection Hh as ->. destruct Hal as [[? _]|[_ ->]]; [discriminate|].
      apply (C5 A r (NotEmpty (ix :: l)) Hr); [apply elem_of_list_lookup; eauto|]. exists ix, l. split; [reflexivity|exact He].
    + intros x i j w w' a Hs Hs' Hij Hc Hc'. assert (defined rs x) as Hdx. { unfold defined. intros E. assert (exists a, alternatives_for rs x !! i = Some a) as [a' Ha] by (destruct Hs; eauto). unfold alternatives_for in Ha. rewrite E in Ha. discriminate. }
      destruct (defined_element pd rs Hd x Hdx) as (A & HA & HrA). apply (edd_domain _ _ Hed) in HrA as [r Hr].
      destruct (proj1 (says_rule pd pd' rs Hd Hed A r x i HA Hr) w Hs) as (p & Hp & Hst1).
      destruct (proj1 (says_rule pd pd' rs Hd Hed A r x j HA Hr) w' Hs') as (q & Hq & Hst2). rewrite <- Hv in HA.
      apply (C6 A r i j p q a Hr Hp Hq Hij); [apply (nchoose_iff start A x w)|apply (nchoose_iff start A x w')]; assumption.
  - intros [P1 P2 P3 P4 P5 P6]. split.
    + apply uses_all_defined; assumption.
    + apply nleft_recursion. assumption.
    + apply (Hrule start (lit "start")); assumption.
    + intros A r p Hr Hp (e & l & -> & He). destruct (Hname A r Hr) as [x HA]. apply elem_of_list_lookup in Hp as [i Hp].
      destruct (proj1 (proj2 (says_rule pd pd' rs Hd Hed A r x i HA Hr)) _ Hp) as (w & Hs & ixs & [[_ E]|[_ E]] & Hf); [discriminate|]. injection E as <-.
      inversion Hf as [|e' ? w' ? He' Hf']; subst. apply (P5 x i _ Hs). cbn. unfold is_terminal in He. congruence.
    + intros A r i j p q a Hr Hp Hq Hij Hc Hc'. destruct (Hname A r Hr) as [x HA].
      destruct (proj1 (proj2 (says_rule pd pd' rs Hd Hed A r x i HA Hr)) _ Hp) as (w & Hs & Hst1).
      destruct (proj1 (proj2 (says_rule pd pd' rs Hd Hed A r x j HA Hr)) _ Hq) as (w' & Hs' & Hst2). rewrite <- Hv in HA.
      apply (P6 x i j w w' a Hs Hs' Hij); [apply (nchoose_iff start A x w p)|apply (nchoose_iff start A x w' q)]; assumption.
Qed.
End notions.
