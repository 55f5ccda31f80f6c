(** * Trees under arbitrary interleavings of add_node and remove_branch *)
From Verif Require Import Base Tree SpecTree Tree_proofs Prune_proofs.

Section hist.
Context {T : Type}.
Implicit Types (t : Tree T) (nodes : list (Node T)) (cr : list (NodeId * T)).

Definition node_in (L : nat) (n : Node T) : Prop :=
  forall y, (n_parent n = Some y \/ n_prev n = Some y \/ n_next n = Some y \/ n_first n = Some y \/ n_last n = Some y) -> y < L.
Definition ranged (L : nat) nodes : Prop := forall i n, nodes !! i = Some n -> node_in L n.
Definition known cr nodes : Prop := forall i n, nodes !! i = Some n -> (mkNodeId i (n_pk n), n_data n) ∈ cr.
Record inv t cr : Prop := {
  i_free : forall x, x ∈ t_free t -> x < length (t_nodes t);
  i_range : ranged (length (t_nodes t)) (t_nodes t);
  i_pk : forall x d, (x, d) ∈ cr -> node_pk x < t_counter t;
  i_nodup : NoDup (map (fun c => node_pk (fst c)) cr);
  i_known : known cr (t_nodes t);
}.
Lemma ranged_mono L L' nodes : L <= L' -> ranged L nodes -> ranged L' nodes.
Proof. intros Hl Hr i n Hn y Hy. specialize (Hr i n Hn y Hy). lia. Qed.
Lemma ranged_insert L nodes i n : ranged L nodes -> node_in L n -> ranged L (<[i := n]> nodes).
Proof. intros Hr Hn j m Hm. apply list_lookup_insert_Some in Hm as [(_ & <- & _)|[_ Hm]]; eauto. Qed.
Lemma ranged_app L nodes n : ranged L nodes -> node_in L n -> ranged L (nodes ++ [n]).
Proof. intros Hr Hn j m Hm. apply lookup_app_Some in Hm as [Hm|[_ Hm]]; [eauto|]. apply list_lookup_singleton_Some in Hm as [_ <-]. assumption. Qed.
Lemma known_insert cr nodes i n : known cr nodes -> (mkNodeId i (n_pk n), n_data n) ∈ cr -> known cr (<[i := n]> nodes).
Proof. intros Hk Hn j m Hm. apply list_lookup_insert_Some in Hm as [(<- & <- & _)|[_ Hm]]; eauto. Qed.
Lemma known_app cr nodes n : known cr nodes -> (mkNodeId (length nodes) (n_pk n), n_data n) ∈ cr -> known cr (nodes ++ [n]).
Proof.
  intros Hk Hn j m Hm. apply lookup_app_Some in Hm as [Hm|[Hge Hm]]; [eauto|]. apply list_lookup_singleton_Some in Hm as [Hj <-].
  assert (j = length nodes) as -> by lia. assumption.
Qed.
Lemma known_mono cr cr' nodes : (forall c, c ∈ cr -> c ∈ cr') -> known cr nodes -> known cr' nodes.
Proof. intros Hs Hk i n Hn. auto. Qed.

Lemma inv_new : inv tree_new [].
Proof.
  split; cbn.
  - intros x Hx. apply elem_of_nil in Hx. contradiction.
  - intros i n Hn. rewrite lookup_nil in Hn. discriminate.
  - intros x d Hx. apply elem_of_nil in Hx. contradiction.
  - constructor.
  - intros i n Hn. rewrite lookup_nil in Hn. discriminate.
Qed.
Lemma get_node_slot t x n : get_node t x = Ok n -> t_nodes t !! node_ptr x = Some n /\ n_pk n = node_pk x.
Proof.
  unfold get_node. destruct (length (t_nodes t) <=? node_ptr x); [discriminate|]. destruct (contains _ _); [discriminate|].
  destruct (t_nodes t !! node_ptr x) as [m|]; [|discriminate]. destruct (n_pk m =? node_pk x) eqn:E; [|discriminate]. intros [= ->].
  apply Nat.eqb_eq in E. auto.
Qed.
Lemma get_node_mut_slot t x n : get_node_mut t x = Ok n -> t_nodes t !! node_ptr x = Some n /\ n_pk n = node_pk x.
Proof.
  unfold get_node_mut. destruct (length (t_nodes t) <=? node_ptr x); [discriminate|]. destruct (contains _ _); [discriminate|].
  destruct (t_nodes t !! node_ptr x) as [m|]; [|discriminate]. destruct (n_pk m =? node_pk x) eqn:E; [|discriminate]. intros [= ->].
  apply Nat.eqb_eq in E. auto.
Qed.
Lemma get_node_total t x : (exists n, get_node t x = Ok n) \/ (exists e, get_node t x = Err e).
Proof.
  unfold get_node. destruct (length (t_nodes t) <=? node_ptr x) eqn:E; [eauto|]. destruct (contains _ _); [eauto|].
  apply Nat.leb_gt in E. destruct (lookup_lt_is_Some_2 _ _ E) as [n ->]. destruct (n_pk n =? node_pk x); eauto.
Qed.
Lemma get_node_mut_total t x : (exists n, get_node_mut t x = Ok n) \/ (exists e, get_node_mut t x = Err e).
Proof.
  unfold get_node_mut. destruct (length (t_nodes t) <=? node_ptr x) eqn:E; [eauto|]. destruct (contains _ _); [eauto|].
  apply Nat.leb_gt in E. destruct (lookup_lt_is_Some_2 _ _ E) as [n ->]. destruct (n_pk n =? node_pk x); eauto.
Qed.
Lemma pop_last_spec l : match pop_last l with None => l = [] | Some (x, f) => l = f ++ [x] end.
Proof.
  unfold pop_last. destruct l as [|a l'] using rev_ind; [reflexivity|]. rewrite last_snoc, removelast_last. reflexivity.
Qed.
Lemma inv_counter t cr free c : inv t cr -> (forall x, x ∈ free -> x ∈ t_free t) -> t_counter t <= c -> inv (mkTree (t_nodes t) free c) cr.
Proof.
  intros [H1 H2 H3 H4 H5] Hf Hc. split; cbn; auto. intros x d Hx. specialize (H3 x d Hx). lia.
Qed.

(** The new id is on top of the created ones. *)
Lemma inv_add t cr d p : inv t cr ->
  match add_node d p t with
  | (Ok x, t') => inv t' (cr ++ [(x, d)]) /\ node_pk x = t_counter t
  | (Err e, t') => inv t' cr
  | _ => False
  end.
Proof.
  intros Hi. unfold add_node. pose proof (pop_last_spec (t_free t)) as Hpop.
  set (pr := match pop_last (t_free t) with None => (length (t_nodes t), false, t_free t) | Some (i, f) => (i, true, f) end).
  assert (exists i b f, pr = (i, b, f) /\ (if b : bool then i < length (t_nodes t) else i = length (t_nodes t)) /\ forall x, x ∈ f -> x ∈ t_free t) as (i & b & f & -> & Hib & Hf).
  { unfold pr. destruct (pop_last (t_free t)) as [[i f]|].
    - exists i, true, f. split; [reflexivity|]. split; [apply (i_free t cr Hi); rewrite Hpop; apply elem_of_app; right; left|].
      intros x Hx. rewrite Hpop. apply elem_of_app. auto.
    - exists (length (t_nodes t)), false, (t_free t). auto. }
  set (L := if b then length (t_nodes t) else S (length (t_nodes t))). cbn [t_nodes t_counter].
  assert (length (t_nodes t) <= L /\ i < L) as [HL HiL] by (unfold L; destruct b; lia).
  (* placing the new node *)
  assert (forall nodes n, length nodes = length (t_nodes t) -> ranged L nodes -> known cr nodes -> node_in L n -> n_data n = d -> n_pk n = t_counter t ->
    exists nodes', place nodes b i n = Ok nodes' /\ inv (mkTree nodes' f (t_counter t + 1)) (cr ++ [(mkNodeId i (t_counter t), d)])) as Hplace.
  { intros nodes n Hlen Hr Hk Hn Hd Hpk.
    assert ((mkNodeId i (n_pk n), n_data n) ∈ cr ++ [(mkNodeId i (t_counter t), d)]) as Hin.
    { rewrite Hd, Hpk. apply elem_of_app. right. left. }
    assert (exists nodes', place nodes b i n = Ok nodes' /\ length nodes' = L /\ ranged L nodes' /\ known (cr ++ [(mkNodeId i (t_counter t), d)]) nodes') as (nodes' & Hp & Hlen' & Hr' & Hk').
    { assert (known (cr ++ [(mkNodeId i (t_counter t), d)]) nodes) as Hk1 by (eapply known_mono; [|exact Hk]; intros c Hc; apply elem_of_app; auto).
      unfold place, L in *. destruct b.
      - assert (i <? length nodes = true) as -> by (apply Nat.ltb_lt; lia). eexists. split; [reflexivity|]. split; [rewrite insert_length; assumption|].
        split; [apply ranged_insert; assumption|apply known_insert; assumption].
      - eexists. split; [reflexivity|]. split; [rewrite app_length; simpl; lia|]. split; [apply ranged_app; assumption|].
        apply known_app; [assumption|]. rewrite Hlen, <- Hib. assumption. }
    exists nodes'. split; [assumption|]. split; cbn.
    - intros x Hx. rewrite Hlen'. apply Hf, (i_free t cr Hi) in Hx. lia.
    - rewrite Hlen'. assumption.
    - intros x e Hx. apply elem_of_app in Hx as [Hx|Hx]; [apply (i_pk t cr Hi) in Hx; lia|]. apply elem_of_list_singleton in Hx as [= -> _]. simpl. lia.
    - rewrite map_app. apply NoDup_app. split; [apply Hi|]. split; [|apply NoDup_singleton]. intros x Hx Hx'. apply elem_of_list_singleton in Hx'.
      apply elem_of_list_In, in_map_iff in Hx as ([y e] & Hy & Hin'). apply elem_of_list_In in Hin'. apply (i_pk t cr Hi) in Hin'. simpl in *. lia.
    - assumption. }
  pose proof (ranged_mono _ _ _ HL (i_range t cr Hi)) as Hr0. pose proof (i_known t cr Hi) as Hk0.
  destruct p as [pid|].
  - destruct (node_exists _ pid) eqn:Ee; cbn [negb]; [|apply inv_counter; auto].
    set (t2 := mkTree (t_nodes t) f (t_counter t + 1)).
    destruct (get_node_mut_total t2 pid) as [[pn Hpn]|[e He]].
    + rewrite Hpn. pose proof (get_node_mut_slot _ _ _ Hpn) as [Hs Hpk]. cbn [t2 t_nodes] in Hs.
      set (np := with_last match n_first pn with None => with_first pn (Some i) | Some _ => pn end (Some i)).
      pose proof (Hr0 _ _ Hs) as Hpr.
      assert (node_in L np) as Hnp.
      { intros y Hy. unfold np in Hy. destruct (n_first pn) as [z|] eqn:Ez; cbn in Hy; destruct Hy as [Hy|[Hy|[Hy|[Hy|Hy]]]]; try (injection Hy as <-; assumption); apply Hpr; auto. }
      assert (n_pk np = n_pk pn /\ n_data np = n_data pn) as [Np Nd] by (unfold np; destruct (n_first pn); auto).
      set (nodes1 := <[node_ptr pid := np]> (t_nodes t)).
      assert (length nodes1 = length (t_nodes t)) as Hl1 by apply insert_length.
      assert (ranged L nodes1) as Hr1 by (apply ranged_insert; assumption).
      assert (known cr nodes1) as Hk1 by (apply known_insert; [assumption|]; rewrite Np, Nd; apply Hk0; assumption).
      assert (exists nodes2, match n_last pn with None => Some nodes1 | Some lci => match nodes1 !! lci with None => None | Some ln => Some (<[lci := with_next ln (Some i)]> nodes1) end end = Some nodes2
        /\ length nodes2 = length (t_nodes t) /\ ranged L nodes2 /\ known cr nodes2) as (nodes2 & Hn2 & Hl2 & Hr2 & Hk2).
      { destruct (n_last pn) as [lci|] eqn:El; [|exists nodes1; auto].
        assert (lci < length (t_nodes t)) as Hlt by (eapply (i_range t cr Hi); [exact Hs|]; auto).
        destruct (lookup_lt_is_Some_2 nodes1 lci) as [ln Hln]; [lia|]. rewrite Hln. eexists. split; [reflexivity|].
        split; [rewrite insert_length; assumption|]. split.
        - apply ranged_insert; [assumption|]. intros y Hy. cbn in Hy. destruct Hy as [Hy|[Hy|[Hy|[Hy|Hy]]]]; try (injection Hy as <-; assumption); eapply Hr1; eauto.
        - apply known_insert; [assumption|]. cbn. apply Hk1. assumption. }
      cbn [t2 t_nodes]. fold np. fold nodes1. rewrite Hn2.
      destruct (Hplace nodes2 (node_new (Some (node_ptr pid)) d (t_counter t) (n_last pn)) Hl2 Hr2 Hk2) as (nodes' & -> & Hinv); [|reflexivity|reflexivity|split; [assumption|reflexivity]].
      intros y Hy. cbn in Hy. destruct Hy as [Hy|[Hy|[Hy|[Hy|Hy]]]]; try discriminate.
      * injection Hy as <-. apply lookup_lt_Some in Hs. lia.
      * apply Hpr. auto.
    + rewrite He. apply inv_counter; auto. lia.
  - destruct (Hplace (t_nodes t) (node_new None d (t_counter t) None) eq_refl Hr0 Hk0) as (nodes' & -> & Hinv); [|reflexivity|reflexivity|split; [assumption|reflexivity]].
    intros y Hy. cbn in Hy. destruct Hy as [Hy|[Hy|[Hy|[Hy|Hy]]]]; discriminate.
Qed.

(** ** removal *)
Lemma sibling_range nodes f : ranged (length nodes) nodes -> forall cur, (forall y, cur = Some y -> y < length nodes) ->
  match sibling_loop f nodes cur with
  | Ok l => forall x, x ∈ l -> node_ptr x < length nodes
  | Err _ | Panic => False
  | Diverge => True
  end.
Proof.
  intros Hr. induction f as [|f IH]; intros cur Hc; destruct cur as [i|]; cbn; try (intros x Hx; apply elem_of_nil in Hx; contradiction); [trivial|].
  pose proof (Hc i eq_refl) as Hi. destruct (lookup_lt_is_Some_2 nodes i Hi) as [n Hn]. rewrite Hn.
  specialize (IH (n_next n)). destruct (sibling_loop f nodes (n_next n)); cbn.
  - intros x Hx. apply elem_of_cons in Hx as [->|Hx]; [assumption|]. apply IH; [|assumption]. intros y Hy. eapply Hr; eauto.
  - apply IH. intros y Hy. eapply Hr; eauto.
  - apply IH. intros y Hy. eapply Hr; eauto.
  - trivial.
Qed.
Lemma children_range t cr x : inv t cr -> node_ptr x < length (t_nodes t) ->
  match get_children t x with
  | Ok l => forall y, y ∈ l -> node_ptr y < length (t_nodes t)
  | Err _ | Panic => False
  | Diverge => True
  end.
Proof.
  intros Hi Hx. unfold get_children. destruct (lookup_lt_is_Some_2 _ _ Hx) as [n Hn]. rewrite Hn. apply sibling_range; [apply Hi|].
  intros y Hy. eapply (i_range t cr Hi); eauto.
Qed.
Lemma descendants_range t cr : inv t cr -> forall f x, node_ptr x < length (t_nodes t) ->
  match descendants_rec f t x with
  | Ok l => forall y, y ∈ l -> node_ptr y < length (t_nodes t)
  | Err _ | Panic => False
  | Diverge => True
  end.
Proof.
  intros Hi. induction f as [|f IH]; intros x Hx; [exact I|]. cbn [descendants_rec]. pose proof (children_range t cr x Hi Hx) as Hc.
  destruct (get_children t x) as [l| | |]; cbn [obind]; [|contradiction..|exact I].
  assert (forall ks acc, (forall y, y ∈ ks -> node_ptr y < length (t_nodes t)) -> (forall y, y ∈ acc -> node_ptr y < length (t_nodes t)) ->
    match ofold (fun acc child => let* ds := descendants_rec f t child in Ok (acc ++ ds)) acc ks with
    | Ok l => forall y, y ∈ l -> node_ptr y < length (t_nodes t)
    | Err _ | Panic => False | Diverge => True end) as Hloop.
  { induction ks as [|k ks IHk]; intros acc Hks Hacc; cbn [ofold]; [assumption|].
    pose proof (IH k (Hks k (elem_of_list_here _ _))) as Hk. destruct (descendants_rec f t k) as [ds| | |]; cbn [obind]; [|contradiction..|exact I].
    apply IHk; [intros y Hy; apply Hks; right; assumption|]. intros y Hy. apply elem_of_app in Hy as [Hy|Hy]; auto. }
  apply Hloop; assumption.
Qed.
Lemma update_inv cr nodes i (g : Node T -> Node T) : i < length nodes -> ranged (length nodes) nodes -> known cr nodes ->
  (forall n, node_in (length nodes) n -> node_in (length nodes) (g n)) -> (forall n, n_pk (g n) = n_pk n /\ n_data (g n) = n_data n) ->
  exists nodes', update_at nodes i g = Ok nodes' /\ length nodes' = length nodes /\ ranged (length nodes) nodes' /\ known cr nodes'.
Proof.
  intros Hi Hr Hk Hg Hgd. unfold update_at. destruct (lookup_lt_is_Some_2 _ _ Hi) as [n Hn]. rewrite Hn. eexists. split; [reflexivity|].
  split; [apply insert_length|]. split; [apply ranged_insert; [assumption|]; apply Hg; eapply Hr; eauto|].
  apply known_insert; [assumption|]. destruct (Hgd n) as [-> ->]. apply Hk. assumption.
Qed.
Lemma inv_remove t cr x : inv t cr ->
  match remove_branch x t with
  | (Ok _, t') => inv t' cr
  | (Err _, t') => t' = t
  | (Panic, _) => False
  | (Diverge, t') => t' = t
  end.
Proof.
  intros Hi. unfold remove_branch. destruct (get_node_total t x) as [[n Hn]|[e He]]; [|rewrite He; reflexivity]. rewrite Hn. cbn [obind].
  destruct (get_node_slot _ _ _ Hn) as [Hs Hpk]. pose proof (lookup_lt_Some _ _ _ Hs) as Hlt.
  pose proof (descendants_range t cr Hi (S (length (t_nodes t))) x Hlt) as Hd. unfold get_descendants.
  destruct (descendants_rec (S (length (t_nodes t))) t x) as [ds| | |]; cbn [obind]; [|contradiction..|reflexivity].
  pose proof (i_range t cr Hi) as Hr. pose proof (i_known t cr Hi) as Hk. pose proof (Hr _ _ Hs) as Hnr.
  set (nx := n_next n). set (pv := n_prev n).
  assert (forall y, nx = Some y -> y < length (t_nodes t)) as Hnx by (intros y Hy; apply Hnr; auto).
  assert (forall y, pv = Some y -> y < length (t_nodes t)) as Hpv by (intros y Hy; apply Hnr; auto).
  assert (exists nodes1, match n_parent n with None => Ok (t_nodes t) | Some p => update_at (t_nodes t) p (fun pn => detach pn (node_ptr x) nx pv) end = Ok nodes1 /\
    length nodes1 = length (t_nodes t) /\ ranged (length (t_nodes t)) nodes1 /\ known cr nodes1) as (nodes1 & H1 & Hl1 & Hr1 & Hk1).
  { destruct (n_parent n) as [p|] eqn:Ep; [|exists (t_nodes t); auto]. apply update_inv; [apply Hnr; auto|assumption|assumption| |].
    - intros m Hm y Hy. destruct (detach_fields m (node_ptr x) nx pv) as (F1 & F2 & F3 & F4 & F5 & F6 & F7). rewrite F1, F4, F5, F6, F7 in Hy.
      destruct Hy as [Hy|[Hy|[Hy|[Hy|Hy]]]]; try (apply Hm; auto; fail); destruct (decide _); auto; apply Hm; auto.
    - intros m. destruct (detach_fields m (node_ptr x) nx pv) as (F1 & F2 & F3 & F4 & F5 & F6 & F7). auto. }
  match goal with |- context[obind ?m _] => change m with (match n_parent n with None => Ok (t_nodes t) | Some p => update_at (t_nodes t) p (fun pn => detach pn (node_ptr x) nx pv) end) end.
  rewrite H1. cbn [obind].
  assert (exists nodes2, match pv with None => Ok nodes1 | Some i => update_at nodes1 i (fun m => with_next m nx) end = Ok nodes2 /\
    length nodes2 = length (t_nodes t) /\ ranged (length (t_nodes t)) nodes2 /\ known cr nodes2) as (nodes2 & H2 & Hl2 & Hr2 & Hk2).
  { destruct pv as [i|]; [|exists nodes1; auto]. rewrite <- Hl1 in *. apply update_inv; auto.
    intros m Hm y Hy. cbn in Hy. destruct Hy as [Hy|[Hy|[Hy|[Hy|Hy]]]]; auto; apply Hm; auto. }
  rewrite H2. cbn [obind].
  assert (exists nodes3, match nx with None => Ok nodes2 | Some i => update_at nodes2 i (fun m => with_prev m pv) end = Ok nodes3 /\
    length nodes3 = length (t_nodes t) /\ ranged (length (t_nodes t)) nodes3 /\ known cr nodes3) as (nodes3 & H3 & Hl3 & Hr3 & Hk3).
  { destruct nx as [i|]; [|exists nodes2; auto]. rewrite <- Hl2 in *. apply update_inv; auto.
    intros m Hm y Hy. cbn in Hy. destruct Hy as [Hy|[Hy|[Hy|[Hy|Hy]]]]; auto; apply Hm; auto. }
  rewrite H3. cbn [obind]. split; cbn; [|rewrite Hl3; assumption|apply Hi|apply Hi|assumption].
  intros y Hy. rewrite Hl3. apply elem_of_app in Hy as [Hy|Hy]; [apply (i_free t cr Hi); assumption|]. apply elem_of_app in Hy as [Hy|Hy].
  - apply elem_of_list_In, in_map_iff in Hy as (z & <- & Hz). apply Hd. apply elem_of_list_In. assumption.
  - apply elem_of_cons in Hy as [->|Hy]; [assumption|]. apply elem_of_list_singleton in Hy as ->. assumption.
Qed.

Definition no_trouble (a : tanswer) : Prop := a <> AAdd Panic /\ a <> AAdd Diverge /\ a <> ARemove Panic.
Lemma do_calls_inv cs : forall t cr rs t', inv t cr -> do_calls cs t = (rs, t') -> inv t' (cr ++ created cs rs) /\ Forall no_trouble rs.
Proof.
  induction cs as [|c cs IH]; intros t cr rs t' Hi Hd; cbn [do_calls] in Hd.
  - injection Hd as <- <-. cbn. rewrite app_nil_r. auto.
  - destruct c as [d p|x]; cbn [do_call] in Hd.
    + pose proof (inv_add t cr d p Hi) as Ha. destruct (add_node d p t) as [[y|e| |] t1]; try contradiction; cbn [came_back] in Hd;
      destruct (do_calls cs t1) as [rs1 t2] eqn:E; injection Hd as <- <-; cbn [created].
      * destruct Ha as [Ha _]. destruct (IH _ _ _ _ Ha E) as [Hi' Hf]. rewrite <- app_assoc in Hi'. split; [exact Hi'|].
        constructor; [repeat split; discriminate|assumption].
      * destruct (IH _ _ _ _ Ha E) as [Hi' Hf]. split; [exact Hi'|]. constructor; [repeat split; discriminate|assumption].
    + pose proof (inv_remove t cr x Hi) as Ha. destruct (remove_branch x t) as [[y|e| |] t1]; try contradiction; cbn [came_back] in Hd;
      [destruct (do_calls cs t1) as [rs1 t2] eqn:E; injection Hd as <- <-..|injection Hd as <- <-]; cbn [created].
      * destruct (IH _ _ _ _ Ha E) as [Hi' Hf]. split; [exact Hi'|]. constructor; [repeat split; discriminate|assumption].
      * subst t1. destruct (IH _ _ _ _ Hi E) as [Hi' Hf]. split; [exact Hi'|]. constructor; [repeat split; discriminate|assumption].
      * subst t1. assert (created cs [] = []) as -> by (destruct cs as [|[]]; reflexivity). rewrite app_nil_r. split; [assumption|]. constructor; [repeat split; discriminate|constructor].
Qed.
End hist.
