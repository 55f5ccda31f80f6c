(** * What a parse that fails has done (C113) *)
From Verif Require Import Base Peekables Tree Errors Sets ParserData Vm SteuerMap ScriptParser
  SpecGrammar SpecParser SpecTree SpecScript SpecWeave SpecRules SpecNames SpecLanguage SpecEffect SpecFailed Grammar_proofs First_proofs Tree_proofs Script_proofs Parse_proofs
  Weave_proofs Names_proofs RuleBuild_proofs RuleText_proofs Language_proofs Attr_proofs Effect_proofs Walk_proofs.

Section failed.
Context {vm : VM} (pd pd' : ParserData (vm_instr vm)) (rs : list (arule (vm_instr vm))) (Hd : described pd rs) (Hed : edited_data pd pd') (Hv : looks_down vm).
Notation th := (tree_history pd').
Notation fh := (forest_history pd').
Section hist.
Context (hist : history str) (Hg : SpecTree.grown hist).
Definition act (s : vm_state vm) '((i, A, k) : nat * nat * nat) : outcome Empty_set (vm_state vm) :=
  run_list (tree_of (take k hist)) (id_of i) (instructions_of pd' A) s.
Lemma act_node A subs a par b v : derivation pd' (PNode A subs) -> hist = a ++ th (length a) par (PNode A subs) ++ b ->
  act v (length a, A, length a + nodes_count (PNode A subs)) = own_instructions rs (named pd' (PNode A subs)) v.
Proof.
  intros Hder Hh. unfold act. cbn [named own_instructions]. inversion Hder as [|? ? Ha Hf]; subst A0 subs0.
  assert (instructions_for rs (text_of pd' A) = instructions_of pd' A) as ->.
  { destruct Ha as (r & p & Hr & _). destruct (rule_element pd pd' rs Hd Hed A ltac:(eexists; exact Hr)) as [x Hx].
    destruct (says_rule pd pd' rs Hd Hed A r x 0 Hx Hr) as (_ & _ & Hi). unfold instructions_of. rewrite Hr, (text_of_verbose pd pd' Hed _ _ Hx). cbn. congruence. }
  unfold run_list. apply (down_instr Hv). intros path. change (NNode (text_of pd' A) (map (named pd') subs)) with (named pd' (PNode A subs)).
  rewrite own_seen.
  assert (take (length a + nodes_count (PNode A subs)) hist = a ++ th (length a) par (PNode A subs)) as ->.
  { rewrite Hh, app_assoc. rewrite take_app_alt; [reflexivity|]. rewrite app_length, tree_history_length. reflexivity. }
  apply located_seen.
  - rewrite Hh, app_assoc in Hg. exact (grown_prefix _ _ Hg).
  - exists a, [], par. rewrite app_nil_r, named_history. split; [reflexivity|]. split; [reflexivity|]. intros k q d Hk. rewrite lookup_nil in Hk. discriminate.
Qed.
Definition acts_well (pt : ptree) : Prop := derivation pd' pt -> forall a par b v, hist = a ++ th (length a) par pt ++ b ->
  ofold act v (post_order (length a) pt) = effect rs (named pd' pt) v.
Lemma act_forest subs : Forall acts_well subs -> Forall (derivation pd') subs -> forall a par b v, hist = a ++ fh (length a) par subs ++ b ->
  ofold act v (forest_post (length a) subs) = effect_all rs (map (named pd') subs) v.
Proof.
  induction 1 as [|t subs Ht _ IHs]; intros Hds a par b v Hh; [reflexivity|]. apply Forall_cons in Hds as [Hd1 Hd2].
  cbn [forest_post forest_history] in *. rewrite <- app_assoc in Hh.
  rewrite ofold_app, (Ht Hd1 a par _ v Hh). unfold effect_all. cbn [map ofold]. destruct (effect rs (named pd' t) v) as [v1|[]| |]; cbn [obind]; try reflexivity.
  fold (effect_all rs (map (named pd') subs) v1). rewrite <- (IHs Hd2 (a ++ th (length a) par t) par b v1); rewrite app_length, tree_history_length; [reflexivity|].
  rewrite Hh, <- app_assoc. reflexivity.
Qed.
Lemma act_tree pt : acts_well pt.
Proof.
  induction pt as [c|A subs IH] using ptree_rect'; intros Hder a par b v Hh; [reflexivity|]. rewrite post_order_node. cbn [named]. rewrite effect_node.
  inversion Hder as [|? ? Ha Hf]; subst. rewrite ofold_app. pose proof Hh as Hh0. rewrite tree_history_node in Hh0.
  pose proof (act_forest subs IH Hf (a ++ [(par, [])]) (Some (length a)) b v) as Hx. rewrite app_length in Hx. cbn [length] in Hx. rewrite Nat.add_1_r in Hx.
  rewrite Hx by (rewrite Hh0, <- app_assoc; reflexivity). unfold effect_all, effects. destruct (ofold _ v (map (named pd') subs)) as [v1|[]| |]; cbn [obind]; try reflexivity.
  cbn [ofold]. pose proof (act_node A subs a par b v1 Hder Hh) as Hy. rewrite nodes_count_node in Hy. rewrite Hy. cbn [named].
  destruct (own_instructions rs (NNode (text_of pd' A) (map (named pd') subs)) v1) as [v2|[]| |]; reflexivity.
Qed.
Fixpoint parts_of (s : stuck) : list ptree := match s with StuckIn _ completed s' _ => completed ++ parts_of s' | _ => [] end.
Lemma act_stuck stk : failed_derivation pd' stk -> forall a par b v, hist = a ++ stuck_history pd' (length a) par stk ++ b ->
  ofold act v (stuck_post_order (length a) stk) = effect_all rs (map (named pd') (parts_of stk)) v.
Proof.
  induction 1 as [B HB|t s j Ht Hj|B subs s after Ha Hf Hs IH]; intros a par b v Hh; [reflexivity..|].
  rewrite stuck_post_in. rewrite stuck_history_in in Hh. cbn [parts_of]. rewrite ofold_app, map_app. unfold effect_all. rewrite ofold_app.
  pose proof (act_forest subs ltac:(apply Forall_forall; intros x _; apply act_tree) Hf (a ++ [(par, [])]) (Some (length a)) (stuck_history pd' (S (length a) + forest_count subs) (Some (length a)) s ++ b) v) as Hx.
  rewrite app_length in Hx. cbn [length] in Hx. rewrite Nat.add_1_r in Hx. rewrite Hx by (rewrite Hh; rewrite <- !app_assoc; cbn [app]; rewrite <- !app_assoc; reflexivity).
  unfold effect_all. destruct (ofold _ v (map (named pd') subs)) as [v1|[]| |]; cbn [obind]; try reflexivity.
  pose proof (IH ((a ++ [(par, [])]) ++ fh (S (length a)) (Some (length a)) subs) (Some (length a)) b v1) as Hy.
  rewrite !app_length, forest_history_length in Hy. cbn [length] in Hy. rewrite Nat.add_1_r in Hy. apply Hy.
  rewrite Hh; rewrite <- !app_assoc; cbn [app]; rewrite <- !app_assoc; reflexivity.
Qed.
End hist.
Lemma stuck_effect stk v : failed_derivation pd' stk ->
  run_actions pd' (stuck_history pd' 0 None stk) (stuck_post_order 0 stk) v = effect_all rs (map (named pd') (parts_of stk)) v.
Proof.
  intros Hf. apply (act_stuck (stuck_history pd' 0 None stk)) with (a := []) (par := None) (b := []); [|assumption|rewrite app_nil_r; reflexivity].
  apply (grown_stuck pd' stk [] None); [intros j p d Hj; rewrite lookup_nil in Hj; discriminate|discriminate].
Qed.
(** the same by names *)
Lemma called_names w : forall pts ixs, called pd' w (map root pts ++ ixs) -> Forall (derivation pd') pts ->
  exists w', w = map nroot (map (named pd') pts) ++ w' /\ called pd' w' ixs.
Proof.
  induction w as [|e w IH]; intros pts ixs Hc Hf.
  - destruct pts as [|p pts]; [|inversion Hc]. exists []. auto.
  - destruct pts as [|p pts]; [exists (e :: w); auto|]. cbn [map app] in Hc. inversion Hc as [|? ? ? ? He Hc']; subst. apply Forall_cons in Hf as [H1 H2].
    destruct (IH pts ixs Hc' H2) as (w' & -> & Hw'). exists w'. split; [|assumption]. cbn [map app]. f_equal.
    destruct (named_derivation pd pd' rs Hd Hed p H1) as [_ Hn]. rewrite (ed_verbose pd pd' Hed) in He. congruence.
Qed.
Fixpoint piece_of (s : stuck) : str := match s with StuckChoice _ => [] | StuckTerm t k => take k (text_of pd' t) | StuckIn _ _ s' _ => piece_of s' end.
Lemma consumed_parts s : consumed pd' s = concat (map nyield (map (named pd') (parts_of s))) ++ piece_of s.
Proof.
  induction s as [A|t k|A subs s IH after]; cbn [consumed parts_of piece_of]; [reflexivity..|]. rewrite IH, !map_app, concat_app, <- app_assoc. f_equal.
  rewrite map_map. f_equal. apply map_ext. intros p. symmetry. apply named_yield.
Qed.
Lemma stuck_unfinished s : failed_derivation pd' s -> forall x, get_element_verbose pd (stuck_root s) = Some (x, NonTerminal) ->
  unfinished rs x (map (named pd') (parts_of s)) (piece_of s).
Proof.
  induction 1 as [A HA|t b k Ht Hk|A subs s after Ha Hf Hs IH]; intros x Hx; cbn [stuck_root parts_of piece_of] in *.
  - constructor. apply (has_rule_defined pd rs Hd A x Hx). apply (edd_domain _ _ Hed). assumption.
  - unfold is_terminal in Ht. rewrite (ed_verbose pd pd' Hed) in Ht. congruence.
  - destruct (alternative_says pd pd' rs Hd Hed A x _ Hx Ha) as (i & w & Hw & Hc). destruct (called_names w subs _ Hc Hf) as (w' & -> & Hc').
    inversion Hc' as [|[y ty] ? w2 ? He Hc2]; subst. rewrite (ed_verbose pd pd' Hed) in He.
    assert (Forall (nderivation rs) (map (named pd') subs)) as Hn.
    { apply Forall_fmap. eapply Forall_impl; [exact Hf|]. intros p Hp. apply (named_derivation pd pd' rs Hd Hed p Hp). }
    rewrite map_app. destruct ty.
    + destruct Hs as [B HB|t b k Ht Hk|B subs' s' after' Ha' Hf' Hs']; cbn [stuck_root] in He.
      * destruct (rule_element pd pd' rs Hd Hed B HB) as [z Hz]. congruence.
      * unfold is_terminal in Ht. rewrite (ed_verbose pd pd' Hed) in Ht. assert (b = y) as -> by congruence.
        cbn [parts_of map piece_of]. rewrite app_nil_r, (text_of_verbose pd pd' Hed _ _ Ht). apply (un_text rs x i _ y w2 k Hw Hn Hk).
      * destruct Ha' as (r & p & Hr & _). destruct (rule_element pd pd' rs Hd Hed B ltac:(eexists; exact Hr)) as [z Hz]. congruence.
    + apply (un_inside rs x i _ y w2); auto.
Qed.
End failed.
