(** * What the tree shows to instructions and callers (C105) *)
From Verif Require Import Base Peekables Tree Errors Sets ParserData Vm SteuerMap ScriptParser
  SpecGrammar SpecParser SpecTree SpecScript SpecRules SpecLanguage SpecSim SpecSyntax SpecWalk Grammar_proofs First_proofs Tree_proofs Script_proofs Parse_proofs Sim_proofs Language_proofs.

Section walk.
Context {I : Type} (pd : ParserData I).
Notation th := (tree_history pd).
Notation fh := (forest_history pd).

Lemma located_looks h s : grown h -> forall i, located pd h i s -> looks_like (tree_of h) (id_of i) (named pd s).
Proof.
  intros Hg. pose proof (tree_of_repr h Hg) as Hr. induction s as [t|A subs IH] using ptree_rect'; intros i Hl.
  - destruct (located_label pd h i _ Hl) as [p Hp]. destruct (repr_node _ h i p _ Hr Hp) as (n & Hn & _ & Hd & _).
    apply (looks_intro _ _ _ n []); [apply (get_node_repr _ h i n Hr Hn)|exact Hd| |constructor].
    rewrite (children_repr _ h i Hr) by (eapply lookup_lt_Some; exact Hp). rewrite (located_kids_leaf pd h i t Hg Hl). reflexivity.
  - destruct (located_label pd h i _ Hl) as [p Hp]. destruct (repr_node _ h i p _ Hr Hp) as (n & Hn & _ & Hd & _).
    apply (looks_intro _ _ _ n (map id_of (starts (S i) subs))); [apply (get_node_repr _ h i n Hr Hn)|exact Hd| |].
    + rewrite (children_repr _ h i Hr) by (eapply lookup_lt_Some; exact Hp). rewrite (located_kids pd h i A subs Hg Hl). reflexivity.
    + cbn [named parts_of]. apply Forall2_same_length_lookup_2; [rewrite !map_length; apply starts_length|]. intros k x y Hx Hy.
      apply list_lookup_fmap_Some in Hx as (j & Hj & ->). apply list_lookup_fmap_Some in Hy as (s & Hs & ->).
      destruct (located_child pd h i A subs k Hl j Hj) as (s' & Hs' & Hj'). assert (s' = s) as -> by congruence.
      exact (proj1 (Forall_lookup _ subs) IH k s Hs j Hj').
Qed.

(** a node is complete: it is the last thing added *)
Definition done (h : history str) (n A k : nat) (text : str) : Prop :=
  exists a par subs, take k h = a ++ th (length a) par (PNode A subs) /\ n = length a /\ derivation pd (PNode A subs) /\
    exists u w, text = u ++ yield pd (PNode A subs) ++ w.
Lemma done_more h n A k text u w : done h n A k text -> done h n A k (u ++ text ++ w).
Proof.
  intros (a & par & subs & E & En & D & u' & w' & ->). exists a, par, subs. split; [assumption|]. split; [assumption|]. split; [assumption|].
  exists (u ++ u'), (w' ++ w). rewrite <- !app_assoc. reflexivity.
Qed.
Definition all_done (pt : ptree) : Prop := derivation pd pt -> forall a par tail n A k, (n, A, k) ∈ post_order (length a) pt ->
  done (a ++ th (length a) par pt ++ tail) n A k (yield pd pt).
Lemma forest_done subs : Forall all_done subs -> Forall (derivation pd) subs -> forall a par tail n A k, (n, A, k) ∈ forest_post (length a) subs ->
  done (a ++ fh (length a) par subs ++ tail) n A k (concat (map (yield pd) subs)).
Proof.
  induction 1 as [|s subs Hs _ IH]; intros Hd a par tail n A k Hin; [inversion Hin|]. apply Forall_cons in Hd as [Hd1 Hd2].
  cbn [forest_post] in Hin. cbn [forest_history map concat]. apply elem_of_app in Hin as [Hin|Hin].
  - rewrite <- app_assoc. apply (done_more _ _ _ _ _ []), Hs; assumption.
  - rewrite <- app_assoc, app_assoc. rewrite <- (app_nil_r (concat _)). apply done_more.
    specialize (IH Hd2 (a ++ th (length a) par s) par tail n A k). rewrite app_length, tree_history_length in IH. apply IH. exact Hin.
Qed.
Lemma tree_done pt : all_done pt.
Proof.
  induction pt as [t|B subs IH] using ptree_rect'; intros Hd a par tail n A k Hin; [inversion Hin|]. rewrite post_order_node in Hin. apply elem_of_app in Hin as [Hin|Hin].
  - inversion Hd as [|? ? _ Hf]; subst. pose proof (forest_done subs IH Hf (a ++ [(par, [])]) (Some (length a)) tail n A k) as Hx.
    rewrite app_length in Hx. cbn [length] in Hx. replace (length a + 1) with (S (length a)) in Hx by lia. specialize (Hx Hin).
    rewrite tree_history_node. cbn [app]. rewrite <- app_assoc in Hx. exact Hx.
  - apply elem_of_list_singleton in Hin as [= -> -> ->]. exists a, par, subs. split; [|split; [reflexivity|split; [assumption|exists [], []; rewrite app_nil_r; reflexivity]]].
    rewrite app_assoc. rewrite take_app_alt; [reflexivity|]. rewrite app_length, tree_history_length, nodes_count_node. reflexivity.
Qed.
Lemma stuck_done stk : failed_derivation pd stk -> forall a par tail n A k, (n, A, k) ∈ stuck_post_order (length a) stk ->
  done (a ++ stuck_history pd (length a) par stk ++ tail) n A k (consumed pd stk).
Proof.
  induction 1 as [B HB|t s j Ht Hj|B subs s after Ha Hf Hs IH]; intros a par tail n A k Hin; [inversion Hin..|].
  rewrite stuck_post_in in Hin. rewrite stuck_history_in. cbn [consumed app]. apply elem_of_app in Hin as [Hin|Hin].
  - pose proof (forest_done subs ltac:(apply Forall_forall; intros x _; apply tree_done) Hf (a ++ [(par, [])]) (Some (length a)) (stuck_history pd (S (length a) + forest_count subs) (Some (length a)) s ++ tail) n A k) as Hx.
    rewrite app_length in Hx. cbn [length] in Hx. replace (length a + 1) with (S (length a)) in Hx by lia. specialize (Hx Hin).
    apply (done_more _ _ _ _ _ [] (consumed pd s)) in Hx. rewrite <- !app_assoc in Hx |- *. exact Hx.
  - specialize (IH ((a ++ [(par, [])]) ++ fh (S (length a)) (Some (length a)) subs) (Some (length a)) tail n A k).
    rewrite !app_length, forest_history_length in IH. cbn [length] in IH. replace (length a + 1 + forest_count subs) with (S (length a) + forest_count subs) in IH by lia.
    specialize (IH Hin). rewrite <- !app_assoc in IH |- *. apply (done_more _ _ _ _ _ (concat (map (yield pd) subs)) []) in IH. rewrite app_nil_r in IH. rewrite <- (app_assoc a) in IH. exact IH.
Qed.
Lemma grown_stuck stk : forall h par, grown h -> (forall q, par = Some q -> q < length h) -> grown (h ++ stuck_history pd (length h) par stk).
Proof.
  induction stk as [B|t k|B subs s IH after]; intros h par Hg Hp; [rewrite app_nil_r; assumption..|]. rewrite stuck_history_in.
  assert (grown (h ++ [(par, @nil N)])) as Hg1 by (apply grown_app; assumption).
  assert (length (h ++ [(par, @nil N)]) = S (length h)) as Hl1 by (rewrite app_length; simpl; lia).
  assert (grown ((h ++ [(par, @nil N)]) ++ fh (S (length h)) (Some (length h)) subs)) as Hg2 by (rewrite <- Hl1; apply grown_forest; [assumption|]; intros q [= <-]; lia).
  specialize (IH _ (Some (length h)) Hg2). rewrite (app_length (h ++ _)), Hl1, forest_history_length in IH. rewrite <- !app_assoc in IH. apply IH. intros q [= <-]. lia.
Qed.
Lemma done_looks h n A k text : grown h -> done h n A k text ->
  exists s, derivation pd s /\ (root s = A /\ has_rule pd A) /\ looks_like (tree_of (take k h)) (id_of n) (named pd s) /\ exists u w, text = u ++ yield pd s ++ w.
Proof.
  intros Hg (a & par & subs & E & -> & D & Ht). exists (PNode A subs). split; [assumption|].
  split; [split; [reflexivity|inversion D as [|? ? (r & p & Hrr & _) _]; subst; eexists; exact Hrr]|]. split; [|assumption].
  apply located_looks; [apply (grown_prefix _ (drop k h)); rewrite take_drop; assumption|]. exists a, [], par. rewrite app_nil_r. split; [assumption|]. split; [reflexivity|].
  intros j q d Hj. rewrite lookup_nil in Hj. discriminate.
Qed.
End walk.

(** ** reading the tree back *)
Lemma looks_text t id nt : looks_like t id nt -> text_under t id (nyield nt).
Proof.
  revert id. induction nt as [b|x subs IH] using ntree_ind'; intros id Hl; inversion Hl as [? ? n ids H1 H2 H3 H4]; subst; cbn [parts_of nlabel] in *.
  - inversion H4; subst. cbn [nyield]. rewrite <- (app_nil_r (n_data n)). apply (under_intro t id n [] []); [assumption..|constructor].
  - cbn [nyield]. change (concat (map nyield subs)) with ([] ++ concat (map nyield subs)). rewrite <- H2. apply (under_intro t id n ids); [assumption..|].
    clear -IH H4. revert ids H4. induction IH as [|s subs Hs _ IHs]; intros ids H4; inversion H4; subst; cbn; constructor; auto.
Qed.
Lemma text_under_unique t : forall id s, text_under t id s -> forall s', text_under t id s' -> s' = s.
Proof.
  fix IH 3. intros id s [id0 n ids ss H1 H2 H3] s' Hs'. inversion Hs' as [? n' ids' ss' E1 E2 E3]; subst. assert (n' = n) as -> by congruence. assert (ids' = ids) as -> by congruence.
  f_equal. f_equal. clear -IH H3 E3. revert ss' E3. induction H3 as [|x y ids ss Hx Hxs IHs]; intros ss' E3; inversion E3 as [|? y' ? ss1 Hy Hys]; subst; [reflexivity|].
  f_equal; [exact (IH x y Hx y' Hy)|apply IHs; assumption].
Qed.

(** ** the spy *)
Section spy.
Context (vm : VM).
Notation svm := (spied vm).
Notation call := (Tree str * NodeId * vm_instr vm)%type.
Lemma spied_follows : vm_follows vm svm eq (fun s s' => fst s' = s).
Proof.
  intros t id i i' s s' t1 s1 <- Hs E. destruct s' as [v lg]. cbn in Hs. subst s. cbn. rewrite E. eexists. split; reflexivity.
Qed.
Lemma spied_fails : vm_fails_too vm svm eq (fun s s' => fst s' = s).
Proof. intros t id i i' s s' <- Hs. destruct s' as [v lg]. cbn in Hs. subst s. cbn. split; intros E; rewrite E; reflexivity. Qed.
Lemma spied_keeps : keeps_tree vm -> keeps_tree svm.
Proof. intros Hk t id i s t' s' E. cbn in E. destruct (vm_execute vm t id i (fst s)) as [[t1 v1]|[]| |] eqn:Ev; try discriminate. injection E as <- _. eapply Hk, Ev. Qed.
Lemma spied_list t id l : forall s lg s' lg', run_list (vm := svm) t id l (s, lg) = Ok (s', lg') -> lg' = lg ++ map (fun i => (t, id, i)) l.
Proof.
  induction l as [|i l IH]; intros s lg s' lg' E; cbn in E |- *; [injection E as _ <-; rewrite app_nil_r; reflexivity|].
  destruct (vm_execute vm t id i s) as [[t1 v1]|[]| |]; cbn in E; try discriminate. apply IH in E. rewrite E, <- app_assoc. reflexivity.
Qed.
Lemma spied_actions pd h l : forall s lg s' lg', run_actions (vm := svm) pd h l (s, lg) = Ok (s', lg') ->
  forall c, c ∈ lg' -> c ∈ lg \/ exists n A k i, (n, A, k) ∈ l /\ i ∈ instructions_of pd A /\ c = (tree_of (take k h), id_of n, i).
Proof.
  induction l as [|[[n A] k] l IH]; intros s lg s' lg' E c Hc; unfold run_actions in E; cbn [ofold] in E; [injection E as _ <-; auto|].
  unfold obind in E at 1. destruct (run_list (vm := svm) (do_adds (take k h) tree_new).2 (id_of n) (instructions_of pd A) (s, lg)) as [[s1 lg1]|[]| |] eqn:E1; try discriminate E.
  destruct (IH _ _ _ _ E c Hc) as [Hin|(n' & A' & k' & i & H1 & H2 & H3)]; [|right; exists n', A', k', i; split; [right; assumption|auto]].
  apply spied_list in E1. subst lg1. apply elem_of_app in Hin as [Hin|Hin]; [auto|]. apply elem_of_list_fmap in Hin as (i & -> & Hi).
  right. exists n, A, k, i. split; [left|auto].
Qed.
End spy.
