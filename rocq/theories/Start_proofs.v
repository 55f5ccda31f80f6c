(** * Proofs for C80: parsing from another nonterminal *)
From Verif Require Import Base Tree Sets ParserData Vm FirstSets SpecGrammar SpecTree SpecWeave SpecRules SpecNames SpecLanguage SpecSyntax SpecRename SpecStart
  Grammar_proofs First_proofs Weave_proofs RuleBuild_proofs Language_proofs Rename_proofs.

(** ** Every element has a first character or stands for the empty text *)
Section grammar.
Context {H : HashOrder} {I : Type} (pd : ParserData I) (Hwf : wf_grammar pd).
Context (Hd : all_defined pd) (Hlr : forall A, ~ left_recursive pd A) (Hne : no_empty_rule pd).
Lemma all_grounded A : has_rule pd A -> grounded pd A.
Proof.
  assert (left_defined pd) as Hld. { split; [apply Hd|]. intros B u e v Ha _. apply (proj2 Hd B _ e Ha). set_solver. }
  pose proof (get_first_sets_fine pd Hwf (size (pd_rules pd) + 2) Hld) as Hf.
  pose proof (get_first_sets_nodiv pd Hwf (size (pd_rules pd) + 2) Hlr (le_n _)) as Hn.
  destruct (get_first_sets pd (size (pd_rules pd) + 2)) as [fs| | |] eqn:E; [|destruct Hf..|congruence].
  apply (get_first_sets_exact pd Hwf _ fs E).
Qed.
Lemma grounded_starts e : grounded pd e -> nul pd e \/ exists c, fst_of pd e c.
Proof.
  induction 1 as [e s Ht|A r Hr Hp Hc IH].
  - destruct s as [|c s]; [left; apply nul_t; assumption|right; exists c; eapply fst_t; eassumption].
  - destruct (possible_productions r) as [|p ps] eqn:Ep; [destruct (Hne A r Hr Ep)|].
    assert (alternative pd A (right_side p)) as Ha by (exists r, p; rewrite Ep; repeat split; [assumption|left]).
    assert (forall u v, right_side p = u ++ v -> nuls pd u -> nuls pd v \/ exists c, fsts pd v c) as Hgo.
    { intros u v. revert u. induction v as [|e v IHv]; intros u E Hu; [left; constructor|]. rewrite E in Ha.
      destruct (IH u e v Ha Hu) as [Hn|[c Hfc]].
      - destruct (IHv (u ++ [e])) as [Hv|[c Hv]].
        + rewrite <- app_assoc. exact E.
        + apply (proj2 (nuls_app pd u [e])). split; [assumption|]. constructor; [assumption|constructor].
        + left. constructor; assumption.
        + right. exists c. apply fsts_cons. auto.
      - right. exists c. apply fsts_cons. auto. }
    destruct (Hgo [] (right_side p) eq_refl ltac:(constructor)) as [Hn|(c & u & e & v & E & Hu & Hfc)].
    + left. eapply nul_n; eassumption.
    + right. exists c. rewrite E in Ha. eapply fst_n; eassumption.
Qed.
Definition known (e : nat) : Prop := (exists s, is_terminal pd e s) \/ has_rule pd e.
Lemma known_starts e : known e -> nul pd e \/ exists c, fst_of pd e c.
Proof.
  intros [[s Hs]|Hr]; [|apply grounded_starts, all_grounded; assumption].
  destruct s as [|c s]; [left; apply nul_t; assumption|right; exists c; eapply fst_t; eassumption].
Qed.
Lemma known_form w : Forall known w -> nuls pd w \/ exists c, fsts pd w c.
Proof.
  induction 1 as [|e w He _ IH]; [left; constructor|]. destruct (known_starts e He) as [Hn|[c Hc]].
  - destruct IH as [Hw|[c Hc]]; [left; constructor; assumption|]. right. exists c. apply fsts_cons. auto.
  - right. exists c. apply fsts_cons. auto.
Qed.
Lemma step_known x y : step pd x y -> Forall known x -> Forall known y.
Proof.
  intros [u A v w Ha] Hx. apply Forall_app in Hx as [Hu Hv]. inversion Hv; subst. apply Forall_app. split; [assumption|]. apply Forall_app. split; [|assumption].
  apply Forall_forall. intros e He. destruct (proj2 Hd A w e Ha He) as [?|[_ ?]]; [left|right]; assumption.
Qed.
Lemma derives_known x y : derives pd x y -> Forall known x -> Forall known y.
Proof. induction 1; eauto using step_known. Qed.
(** something follows every nonterminal in use *)
Lemma reached_follow start D : has_rule pd start -> reached pd start D -> exists x, FOLLOW pd start D x.
Proof.
  intros Hs (u & v & Hder). pose proof (derives_known _ _ Hder) as Hk. assert (Forall known v) as Hv.
  { apply Forall_app in Hk as [_ Hk]; [inversion Hk; assumption|]. constructor; [right; assumption|constructor]. }
  destruct (known_form v Hv) as [Hn|[c Hc]].
  - exists MTerminate. exists u, v. split; [assumption|]. apply NULLABLE_nuls. assumption.
  - exists (MChar c). exists start, u, v. split; [assumption|]. split; [assumption|]. apply FIRST_fsts. assumption.
Qed.
(** what ends a [D] is followed by what follows [D] *)
Lemma follow_through start D X x : FOLLOW pd D X MTerminate -> FOLLOW pd start D x -> FOLLOW pd start X x.
Proof.
  intros (u & v & Hder & Hn) Hx. assert (forall u' v', derives pd (u' ++ D :: v') ((u' ++ u) ++ X :: v ++ v')) as Hin.
  { intros u' v'. rewrite <- app_assoc. apply derives_app; [apply rtc_refl|]. change (D :: v') with ([D] ++ v'). rewrite app_comm_cons, app_assoc.
    apply derives_app; [assumption|apply rtc_refl]. }
  destruct x as [c|].
  - destruct Hx as (B & u' & v' & HB & Hd' & Hf). exists B, (u' ++ u), (v ++ v'). split; [assumption|]. split; [eapply rtc_transitive; [exact Hd'|apply Hin]|].
    apply FIRST_fsts, fsts_app. right. split; [apply NULLABLE_nuls; assumption|apply FIRST_fsts; assumption].
  - destruct Hx as (u' & v' & Hd' & Hf). exists (u' ++ u), (v ++ v'). split; [eapply rtc_transitive; [exact Hd'|apply Hin]|].
    apply NULLABLE_nuls, nuls_app. split; apply NULLABLE_nuls; assumption.
Qed.
Lemma choose_char start D A p c : CHOOSE pd D A p (MChar c) -> CHOOSE pd start A p (MChar c).
Proof. destruct p as [[|e rest]|]; cbn; auto. Qed.
Lemma choose_through start D A p x : FOLLOW pd start D x -> CHOOSE pd D A p MTerminate -> CHOOSE pd start A p x.
Proof.
  intros Hx. destruct p as [[|e rest]|]; unfold CHOOSE; [tauto| |intros Hf; eapply follow_through; eassumption].
  intros [(c & E & _)|[Hn Hf]]; [discriminate|]. right. split; [assumption|]. eapply follow_through; eassumption.
Qed.
Lemma reached_disjoint start D : has_rule pd start -> reached pd start D -> choices_disjoint pd start -> choices_disjoint pd D.
Proof.
  intros Hs Hr Hc A r i j p q x HA Hi Hj Hij Hp Hq. destruct x as [c|].
  - apply (Hc A r i j p q (MChar c)); eauto using choose_char.
  - destruct (reached_follow start D Hs Hr) as [x Hx]. apply (Hc A r i j p q x); eauto using choose_through.
Qed.
Lemma reached_rule start D : has_rule pd start -> is_nonterminal pd D -> reached pd start D -> has_rule pd D.
Proof.
  intros Hs [s Hn] (u & v & Hder). pose proof (derives_known _ _ Hder) as Hk. apply Forall_app in Hk as [_ Hk].
  - inversion Hk as [|? ? [[s' Ht]|Hr] _]; subst; [|assumption]. unfold is_terminal in Ht. congruence.
  - constructor; [right; assumption|constructor].
Qed.
End grammar.
Lemma constructible_from {H : HashOrder} {I} (pd : ParserData I) start D : wf_grammar pd -> no_empty_rule pd -> constructible pd start ->
  is_nonterminal pd D -> reached pd start D -> constructible pd D.
Proof.
  intros Hwf Hne [C1 C2 C3 C4 C5] HD Hr. split; [assumption|assumption|eapply reached_rule; eassumption|assumption|]. eapply reached_disjoint; eassumption.
Qed.

(** ** Derivation trees and renaming *)
Section rename.
Context {I : Type} (f : str -> str) (Hf : injective f) (rs : list (arule I)).
Notation qs := (map (renamed f) rs).
Fixpoint rename_tree (t : ntree) : ntree := match t with NLeaf b => NLeaf b | NNode x subs => NNode (f x) (map rename_tree subs) end.
Section ind.
Context (P : ntree -> Prop) (H1 : forall b, P (NLeaf b)) (H2 : forall x subs, Forall P subs -> P (NNode x subs)).
Fixpoint ntree_ind' (t : ntree) : P t :=
  match t with
  | NLeaf b => H1 b
  | NNode x subs => H2 x subs ((fix go l : Forall P l := match l with [] => List.Forall_nil P | s :: l' => List.Forall_cons P s l' (ntree_ind' s) (go l') end) subs)
  end.
End ind.
Lemma rename_nroot t : nroot (rename_tree t) = rename_el f (nroot t).
Proof. destruct t; reflexivity. Qed.
Lemma rename_nyield t : nyield (rename_tree t) = nyield t.
Proof. induction t as [b|x subs IH] using ntree_ind'; [reflexivity|]. cbn. rewrite map_map. f_equal. apply map_ext_Forall'. exact IH. Qed.
Lemma rename_ncount t : ncount (rename_tree t) = ncount t.
Proof. induction t as [b|x subs IH] using ntree_ind'; [reflexivity|]. cbn. rewrite map_map. do 2 f_equal. apply map_ext_Forall'. exact IH. Qed.
Lemma rename_nhistory t : forall n p, nhistory n p (rename_tree t) = nhistory n p t.
Proof.
  induction t as [b|x subs IH] using ntree_ind'; intros n p; [reflexivity|]. cbn [rename_tree nhistory]. f_equal. generalize (S n). generalize (Some n).
  induction IH as [|s l Hs _ IHl]; intros q k; [reflexivity|]. cbn [map]. rewrite Hs, rename_ncount. f_equal. apply IHl.
Qed.
Lemma rename_npost t : forall n, npost_order n (rename_tree t) = map (fun '(i, x, k) => (i, f x, k)) (npost_order n t).
Proof.
  induction t as [b|x subs IH] using ntree_ind'; intros n; [reflexivity|]. cbn [rename_tree npost_order]. rewrite map_app.
  change (NNode (f x) (map rename_tree subs)) with (rename_tree (NNode x subs)). rewrite rename_ncount. f_equal. generalize (S n).
  induction IH as [|s l Hs _ IHl]; intros k; [reflexivity|]. cbn [map]. rewrite map_app, Hs, rename_ncount. f_equal. apply IHl.
Qed.
Lemma rename_nsubtree path : forall t, nsubtree (rename_tree t) path = option_map rename_tree (nsubtree t path).
Proof.
  induction path as [|k path IH]; intros t; [reflexivity|]. destruct t as [b|x subs]; [reflexivity|]. cbn [rename_tree nsubtree].
  rewrite list_lookup_fmap. destruct (subs !! k); [apply IH|reflexivity].
Qed.
Lemma rename_shows tr t : tree_shows tr (rename_tree t) <-> tree_shows tr t.
Proof.
  unfold tree_shows. split; intros Hs path; specialize (Hs path); rewrite rename_nsubtree in *; destruct (nsubtree t path) as [[]|]; exact Hs.
Qed.
Lemma ren_inside y x : inside qs (f y) (f x) <-> inside rs y x.
Proof.
  unfold inside. rewrite (ren_defined f Hf). assert (rtc (uses qs) (f y) (f x) <-> rtc (uses rs) y x) as ->; [|reflexivity]. split.
  - intros Hr. remember (f y) as y' eqn:Ey. remember (f x) as x' eqn:Ex. revert y Ey. induction Hr as [z|a b c Hab _ IH]; intros y ->.
    + apply Hf in Ex as ->. apply rtc_refl.
    + apply (ren_uses_inv f Hf) in Hab as (a0 & b0 & E & -> & Hab). apply Hf in E as <-. eapply rtc_l; [exact Hab|]. apply IH; auto.
  - induction 1 as [z|a b c Hab _ IH]; [apply rtc_refl|]. eapply rtc_l; [apply (ren_uses f Hf); exact Hab|exact IH].
Qed.
Lemma interleave_map {A B} (g : A -> B) y w : map g (interleave y w) = interleave (g y) (map g w).
Proof. induction w as [|a w IH]; [reflexivity|]. destruct w as [|b w]; [reflexivity|]. cbn [interleave map] in *. rewrite IH. reflexivity. Qed.
Lemma ren_says x i w : says rs x i w -> says qs (f x) i (map (rename_el f) w).
Proof.
  intros [w0 Hw Hall|w0 y Hw Hy Hno].
  - apply says_plain; [rewrite (ren_alternatives f Hf), list_lookup_fmap, Hw; reflexivity|]. intros y Hy.
    apply (ren_ignores_inv f Hf) in Hy as (x0 & y0 & E & -> & Hy). apply Hf in E as <-. apply ren_inside, Hall, Hy.
  - rewrite interleave_map. apply (says_woven qs (f x) i _ (f y)).
    + rewrite (ren_alternatives f Hf), list_lookup_fmap, Hw. reflexivity.
    + apply (ren_ignores f Hf). assumption.
    + intros Hi. apply Hno, ren_inside, Hi.
Qed.
Lemma ren_says_inv x i w : says qs (f x) i w -> exists w0, w = map (rename_el f) w0 /\ says rs x i w0.
Proof.
  assert (forall w, alternatives_for qs (f x) !! i = Some w -> exists w0, w = map (rename_el f) w0 /\ alternatives_for rs x !! i = Some w0) as Ha.
  { intros v Hv. rewrite (ren_alternatives f Hf), list_lookup_fmap in Hv. destruct (alternatives_for rs x !! i) as [v0|]; [|discriminate]. injection Hv as <-. eauto. }
  intros [v Hv Hall|v y' Hv Hy Hno]; destruct (Ha v Hv) as (v0 & -> & Hv0).
  - exists v0. split; [reflexivity|]. apply says_plain; [assumption|]. intros y Hy. apply ren_inside, Hall, (ren_ignores f Hf), Hy.
  - apply (ren_ignores_inv f Hf) in Hy as (x0 & y & E & -> & Hy). apply Hf in E as <-. exists (interleave (y, NonTerminal) v0).
    split; [rewrite interleave_map; reflexivity|]. apply says_woven; [assumption..|]. intros Hi. apply Hno, ren_inside, Hi.
Qed.
Lemma ren_nderivation t : nderivation rs t -> nderivation qs (rename_tree t).
Proof.
  induction t as [b|x subs IH] using ntree_ind'; intros Ht; [constructor|]. inversion Ht as [|? i ? Hs Hsubs]; subst. cbn [rename_tree].
  apply (nder_node qs (f x) i).
  - rewrite map_map. rewrite (map_ext _ (fun t => rename_el f (nroot t)) rename_nroot), <- (map_map nroot (rename_el f)). apply ren_says. assumption.
  - apply Forall_fmap. apply Forall_forall. intros s Hsin. rewrite Forall_forall in IH, Hsubs. apply IH; auto.
Qed.
Lemma ren_nderivation_inv t : nderivation qs t -> forall x, nroot t = (f x, NonTerminal) -> exists t0, t = rename_tree t0 /\ nderivation rs t0 /\ nroot t0 = (x, NonTerminal).
Proof.
  induction t as [b|x' subs IH] using ntree_ind'; intros Ht x Ex; [discriminate|]. inversion Ht as [|? i ? Hs Hsubs]; subst. injection Ex as ->.
  apply ren_says_inv in Hs as (w0 & Ew & Hs). assert (exists l0, subs = map rename_tree l0 /\ Forall (nderivation rs) l0 /\ map nroot l0 = w0) as (l0 & -> & Hl & <-).
  { clear Hs Ht. revert w0 Ew. induction IH as [|s l Hs0 _ IHl]; intros w0 Ew.
    - destruct w0; [|discriminate]. exists []. repeat constructor.
    - destruct w0 as [|e w0]; [discriminate|]. cbn in Ew. injection Ew as E1 E2. inversion Hsubs; subst. destruct (IHl ltac:(assumption) w0 E2) as (l0 & -> & Hl & <-).
      destruct e as [z []]; cbn in E1.
      + destruct s as [b|y u]; [|discriminate]. injection E1 as ->. exists (NLeaf z :: l0). split; [reflexivity|]. split; [constructor; [constructor|assumption]|reflexivity].
      + destruct (Hs0 ltac:(assumption) z E1) as (s0 & -> & Hd0 & Hr0). exists (s0 :: l0). split; [reflexivity|]. split; [constructor; assumption|]. cbn. rewrite Hr0. reflexivity. }
  exists (NNode x l0). split; [reflexivity|]. split; [econstructor; eassumption|reflexivity].
Qed.
Lemma ren_instructions x : instructions_for qs (f x) = instructions_for rs x.
Proof. unfold instructions_for. rewrite (ren_rules_for f Hf). destruct (rules_for x rs); reflexivity. Qed.
End rename.
Lemma ren_run_tree {vm : VM} f (Hf : injective f) (rs : list (arule (vm_instr vm))) t v :
  run_tree (map (renamed f) rs) (rename_tree f t) v = run_tree rs t v.
Proof.
  unfold run_tree. rewrite rename_npost, rename_nhistory. generalize (npost_order 0 t) as l. intros l. revert v. induction l as [|[[i x] k] l IH]; intros v; [reflexivity|].
  cbn [map ofold]. rewrite (ren_instructions f Hf). destruct (ofold _ v (instructions_for rs x)); cbn; [apply IH|reflexivity..].
Qed.

(** ** Parts of a sentence *)
Lemma nstep_ctx {I} (rs : list (arule I)) x y u v : nderives rs x y -> nderives rs (u ++ x ++ v) (u ++ y ++ v).
Proof.
  induction 1 as [x|x y z Hs _ IH]; [apply rtc_refl|]. eapply rtc_l; [|exact IH]. destruct Hs as [u0 a v0 i w Hw].
  pose proof (nstep_intro rs (u ++ u0) a (v0 ++ v) i w Hw) as Hst. rewrite <- !app_assoc in *. exact Hst.
Qed.
Lemma subtree_reached {I} (rs : list (arule I)) path : forall nt s, nderivation rs nt -> nsubtree nt path = Some s ->
  nderivation rs s /\ exists u v, nderives rs [nroot nt] (u ++ nroot s :: v).
Proof.
  induction path as [|k path IH]; intros nt s Hnt Hs; cbn [nsubtree] in Hs.
  - injection Hs as <-. split; [assumption|]. exists [], []. apply rtc_refl.
  - destruct nt as [b|x subs]; [discriminate|]. destruct (subs !! k) as [s0|] eqn:Ek; [|discriminate]. inversion Hnt as [|? i ? Hsay Hsubs]; subst.
    pose proof (proj1 (Forall_lookup _ subs) Hsubs k s0 Ek) as Hs0. destruct (IH s0 s Hs0 Hs) as (Hds & u & v & Hder). split; [assumption|].
    rewrite <- (take_drop_middle subs k s0 Ek), map_app in Hsay. cbn [map] in Hsay.
    exists (map nroot (take k subs) ++ u), (v ++ map nroot (drop (S k) subs)). eapply rtc_l.
    + apply (nstep_intro rs [] x [] i _ Hsay).
    + cbn [app]. rewrite app_nil_r. pose proof (nstep_ctx rs _ _ (map nroot (take k subs)) (map nroot (drop (S k) subs)) Hder) as Hc.
      rewrite <- !app_assoc in *. exact Hc.
Qed.
