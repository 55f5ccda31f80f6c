(** * Property theorems, the syntax tree: C40-C43.  The specification is SpecTree.v: a
    history [h] lists, for every successful add_node call, the number of the call that
    created the parent and the data; [is_forest t h gone lk] says that every query on [t]
    is answered as by the ordered forest [h] without the nodes in [gone]. *)
From Verif Require Import Base Tree SpecTree Graph_proofs Tree_proofs Prune_proofs TreeHistory_proofs.

Lemma id_dec (x : NodeId) L : (exists q, q < L /\ x = id_of q) \/ ~ (exists q, q < L /\ x = id_of q).
Proof.
  destruct x as [a b]. destruct (decide (a = b /\ a < L)) as [[-> H]|Hn]; [left; exists b; auto|].
  right. intros (q & Hq & [= -> ->]). auto.
Qed.
Lemma walk_ext {T} (h : history T) lk lk' : (forall i, lk i = lk' i) -> forall path i, walk lk i path = walk lk' i path.
Proof. intros He. induction path as [|k path IH]; intros i; [reflexivity|]. cbn [walk]. rewrite He. destruct (lk' i !! k); auto. Qed.
Lemma is_forest_ext {T} (t : Tree T) h gone lk lk' : (forall i, lk i = lk' i) -> is_forest t h gone lk -> is_forest t h gone lk'.
Proof.
  intros He [H1 H2 H3 H4 H5 H6 H7 H8 H9]. split; [exact H1|exact H2|exact H3| | | |exact H7| |].
  - intros i k. rewrite <- He. apply H4.
  - intros i. rewrite <- He. apply H5.
  - intros i. rewrite <- He. apply H6.
  - intros i k n Hn. rewrite <- He. apply (H8 i k n Hn).
  - intros i path Hi Hg. rewrite <- (walk_ext h lk lk' He). apply (H9 i path Hi Hg).
Qed.
Lemma repr_forest {T} (t : Tree T) h : repr t h -> is_forest t h (fun _ => False) (kids h).
Proof.
  intros Hr. pose proof (r_free t h Hr) as Hf. apply (is_forest_ext t h _ (lkids h (t_free t))).
  - intros i. unfold lkids. rewrite Hf. apply filter_all. intros x _ Hx. apply elem_of_nil in Hx. assumption.
  - apply pruned_forest; [apply repr_pruned; assumption|]. intros x. rewrite Hf, elem_of_nil. reflexivity.
Qed.

(** ** C40.  Any sequence of add_node calls, with any parent ids: the calls answer as the
    specification says (ids in order; NodeDoesNotExist exactly for a parent id never handed
    out) and the tree is the ordered forest of the successful calls. *)
Theorem C40_add_only_forest : forall (T : Type) (cs : list (tcall T)),
  (forall c, c ∈ cs -> exists d p, c = TAdd d p) ->
  exists rs h t, do_calls cs tree_new = (rs, t) /\ add_only [] cs rs h /\ grown h /\
    is_forest t h (fun _ => False) (kids h).
Proof.
  intros T cs Hcs.
  assert (forall cs, (forall c, c ∈ cs -> exists d p, c = TAdd d p) -> forall t (h0 : history T), repr t h0 ->
    exists rs h t', do_calls cs t = (rs, t') /\ add_only h0 cs rs h /\ repr t' h) as Hgen.
  { clear. induction cs as [|c cs IH]; intros Hcs t h0 Hr; [exists [], h0, t; split; [reflexivity|]; split; [apply ao_nil|assumption]|].
    destruct (Hcs c (elem_of_list_here _ _)) as (d & p & ->).
    assert (forall q, (forall q', q = Some q' -> q' < length h0) -> exists t1, add_node d (option_map id_of q) t = (Ok (id_of (length h0)), t1) /\ repr t1 (h0 ++ [(q, d)])) as Hadd.
    { intros q Hq. apply add_repr; assumption. }
    cbn [do_calls do_call].
    destruct p as [x|].
    - destruct (id_dec x (length h0)) as [(q & Hq & ->)|Hno].
      + destruct (Hadd (Some q)) as (t1 & Ha & Hr1); [intros q' [= <-]; assumption|]. cbn [option_map] in Ha. rewrite Ha. cbn [came_back].
        destruct (IH (fun c Hc => Hcs c (elem_of_list_further _ _ _ Hc)) t1 _ Hr1) as (rs & h & t' & Hd & Hao & Hr'). rewrite Hd.
        eexists _, h, t'. split; [reflexivity|]. split; [apply ao_child; assumption|assumption].
      + assert (add_node d (Some x) t = (Err (NodeDoesNotExist x), t)) as Ha.
        { unfold add_node. rewrite (r_free t h0 Hr). cbn [pop_last last].
          destruct t as [nodes free cnt]. pose proof (r_free _ _ Hr) as Hf. cbn in Hf. subst free. cbn.
          rewrite (exists_false _ h0 x Hr); [reflexivity|]. intros i Hi Hx. apply Hno. eauto. }
        rewrite Ha. cbn [came_back]. destruct (IH (fun c Hc => Hcs c (elem_of_list_further _ _ _ Hc)) t h0 Hr) as (rs & h & t' & Hd & Hao & Hr'). rewrite Hd.
        eexists _, h, t'. split; [reflexivity|]. split; [|assumption]. apply ao_stranger; [|assumption]. intros q Hq Hx. apply Hno. eauto.
    - destruct (Hadd None) as (t1 & Ha & Hr1); [discriminate|]. cbn [option_map] in Ha. rewrite Ha. cbn [came_back].
      destruct (IH (fun c Hc => Hcs c (elem_of_list_further _ _ _ Hc)) t1 _ Hr1) as (rs & h & t' & Hd & Hao & Hr'). rewrite Hd.
      eexists _, h, t'. split; [reflexivity|]. split; [apply ao_root; assumption|assumption]. }
  destruct (Hgen cs Hcs tree_new [] repr_new) as (rs & h & t & Hd & Hao & Hr). exists rs, h, t.
  split; [assumption|]. split; [assumption|]. split; [apply Hr|apply repr_forest; assumption].
Qed.
Print Assumptions C40_add_only_forest.
(** A refused call changes nothing. *)
Theorem C40_refused_add_changes_nothing : forall (T : Type) (cs : list (tcall T)) rs t d x e t',
  (forall c, c ∈ cs -> exists d p, c = TAdd d p) -> do_calls cs tree_new = (rs, t) ->
  add_node d (Some x) t = (Err e, t') -> t' = t.
Proof.
  intros T cs rs t d x e t' Hcs Hd He.
  assert (t_free t = []) as Hf.
  { assert (forall cs, (forall c, c ∈ cs -> exists d p, c = TAdd d p) -> forall (t0 : Tree T) rs t, t_free t0 = [] -> do_calls cs t0 = (rs, t) -> t_free t = []) as Hg; [|apply (Hg cs Hcs tree_new rs t eq_refl Hd)].
    clear. induction cs as [|c cs IH]; intros Hcs t0 rs t H0 Hd; cbn [do_calls] in Hd; [injection Hd as _ <-; assumption|].
    destruct (Hcs c (elem_of_list_here _ _)) as (d & p & ->). cbn [do_call] in Hd.
    assert (t_free (snd (add_node d p t0)) = []) as Hf.
    { unfold add_node. rewrite H0. cbn [pop_last last].
      destruct p as [x|]; [|reflexivity]. cbn. destruct (negb _); [reflexivity|]. destruct (get_node_mut _ x) as [n| | |]; try reflexivity.
      cbv zeta. cbn [t_nodes]. destruct (match n_last n with None => _ | Some _ => _ end); reflexivity. }
    destruct (add_node d p t0) as [r t1]. cbn in Hf. destruct (came_back (AAdd r)).
    - destruct (do_calls cs t1) as [rs1 t2] eqn:E. injection Hd as _ <-. apply (IH (fun c Hc => Hcs c (elem_of_list_further _ _ _ Hc)) t1 rs1 t2 Hf E).
    - injection Hd as _ <-. assumption. }
  destruct t as [nodes free cnt]. cbn in Hf. subst free. unfold add_node in He. cbn in He.
  destruct (node_exists (mkTree nodes [] cnt) x) eqn:Ee; cbn in He.
  - exfalso. unfold node_exists in Ee. cbn in Ee. unfold get_node_mut in He. cbn in He. destruct (length nodes <=? node_ptr x); [discriminate|].
    destruct (nodes !! node_ptr x) as [n|]; [|discriminate]. rewrite Ee in He. destruct (match n_last n with None => _ | Some _ => _ end) in He; discriminate.
  - injection He as _ <-. reflexivity.
Qed.
Print Assumptions C40_refused_add_changes_nothing.

(** Two roots, children of the first one, a grandchild, and a refused call in between. *)
Definition sample_calls : list (tcall nat) :=
  [TAdd 10 None; TAdd 11 (Some (id_of 0)); TAdd 12 (Some (mkNodeId 0 7)); TAdd 13 (Some (id_of 0)); TAdd 14 None; TAdd 15 (Some (id_of 1))].
Example C40_not_vacuous :
  (forall c, c ∈ sample_calls -> exists d p, c = TAdd d p) /\
  fst (do_calls sample_calls tree_new) =
    [AAdd (Ok (id_of 0)); AAdd (Ok (id_of 1)); AAdd (Err (NodeDoesNotExist (mkNodeId 0 7))); AAdd (Ok (id_of 2)); AAdd (Ok (id_of 3)); AAdd (Ok (id_of 4))] /\
  get_children (snd (do_calls sample_calls tree_new)) (id_of 0) = Ok [id_of 1; id_of 2] /\
  get_descendants (snd (do_calls sample_calls tree_new)) (id_of 0) = Ok [id_of 1; id_of 2; id_of 4].
Proof.
  split; [|repeat split]. intros c Hc. unfold sample_calls in Hc. repeat (apply elem_of_cons in Hc as [->|Hc]; [eauto|]). apply elem_of_nil in Hc. contradiction.
Qed.

(** ** C41.  Cutting off branches: after any add-only history and any number of removals of
    nodes that are still there, the tree is the ordered forest without the removed branches. *)
Theorem C41_removed_branches : forall (T : Type) (h : history T) (js : list nat), grown h -> removable h [] js ->
  exists ids t0 t lk, do_adds h tree_new = (Ok ids, t0) /\ do_removes js t0 = (Ok tt, t) /\
    is_forest t h (removed h js) lk.
Proof.
  intros T h js Hg Hr. destruct (do_adds_ok h Hg) as [I1 I2]. unfold tree_of in I2. destruct (do_adds h tree_new) as [o t0]. cbn in I1, I2. subst o.
  destruct (do_removes_ok h js t0 [] (repr_pruned _ _ I2)) as (t & Hd & Hp & Hf & _); [|assumption|].
  - intros x. rewrite (r_free _ _ I2). split; [intros Hx; apply elem_of_nil in Hx; contradiction|]. intros (j & Hj & _). apply elem_of_nil in Hj. contradiction.
  - eexists _, t0, t, (lkids h (t_free t)). split; [reflexivity|]. split; [assumption|]. apply pruned_forest; assumption.
Qed.
Print Assumptions C41_removed_branches.
(** A removed node or an unknown id cannot be removed, and trying changes nothing. *)
Theorem C41_remove_twice : forall (T : Type) (h : history T) (js : list nat) t0 t x, grown h -> removable h [] js ->
  do_adds h tree_new = (Ok (map id_of (seq 0 (length h))), t0) -> do_removes js t0 = (Ok tt, t) ->
  (forall i, x = id_of i -> i < length h -> removed h js i) ->
  exists e, remove_branch x t = (Err e, t).
Proof.
  intros T h js t0 t x Hg Hr Ha Hd Hx. destruct (C41_removed_branches T h js Hg Hr) as (ids & t0' & t' & lk & Ha' & Hd' & [H1 H2 H3 H4 H5 H6 H7 H8 H9]).
  rewrite Ha in Ha'. injection Ha' as _ <-. rewrite Hd in Hd'. injection Hd' as <-. unfold remove_branch.
  assert (exists e, get_node t x = Err e) as [e He]; [|rewrite He; eauto].
  destruct (id_dec x (length h)) as [(i & Hi & ->)|Hno].
  - destruct (H2 i Hi (Hx i eq_refl Hi)) as (He & _). eauto.
  - destruct (H3 x) as (_ & He & _); [|assumption]. intros i Hi ->. apply Hno. eauto.
Qed.
Print Assumptions C41_remove_twice.

Definition sample_history : history nat :=
  [(None, 10); (Some 0, 11); (Some 0, 12); (Some 0, 13); (Some 2, 14); (Some 4, 15)].
Lemma sample_grown : grown sample_history.
Proof. intros i p d Hi. do 6 (destruct i as [|i]; [cbn in Hi; first [discriminate|injection Hi as <- _; lia]|]). discriminate. Qed.
Lemma sample_removable : removable sample_history [] [2; 3].
Proof.
  cbn. split; [lia|]. split; [intros (j & Hj & _); apply elem_of_nil in Hj; contradiction|]. split; [lia|]. split; [|trivial].
  intros (j & Hj & Hb). apply elem_of_list_singleton in Hj as ->. destruct Hb as [Hb|Hb]; [discriminate|].
  apply descendant_last in Hb as (b & [d Hb] & Hd). cbn in Hb. injection Hb as <- _. destruct Hd as [Hd|Hd]; [discriminate|].
  apply (descendant_gt _ _ _ sample_grown) in Hd. lia.
Qed.
(** The middle child with a two-level branch is removed, then the last one. *)
Example C41_not_vacuous :
  grown sample_history /\ removable sample_history [] [2; 3] /\
  let t := snd (do_removes [2; 3] (snd (do_adds sample_history tree_new))) in
  get_children t (id_of 0) = Ok [id_of 1] /\ node_exists t (id_of 5) = false /\ node_exists t (id_of 1) = true.
Proof. split; [apply sample_grown|]. split; [apply sample_removable|]. repeat split. Qed.

(** ** C42 is false.  remove_branch puts the freed slot twice on the free list.  After any
    add-only history and any removals (at least one), the very next two added nodes - roots
    or children of any live nodes - get the same slot: the first one is found by get_node but
    get_node_mut says it was removed; after the second add it is lost. *)
Lemma add_reuse {T} (t : Tree T) cr l j d p : inv t cr -> t_free t = l ++ [j] ->
  match p with None => True | Some x => exists n, get_node_mut (mkTree (t_nodes t) l (t_counter t)) x = Ok n /\ node_pk x ∉ l end ->
  exists t', add_node d p t = (Ok (mkNodeId j (t_counter t)), t') /\ t_free t' = l /\ t_counter t' = S (t_counter t) /\
    (exists n, t_nodes t' !! j = Some n /\ n_pk n = t_counter t /\ n_data n = d) /\ length (t_nodes t') = length (t_nodes t) /\
    (forall q n, q <> j -> t_nodes t !! q = Some n -> exists n', t_nodes t' !! q = Some n' /\ n_pk n' = n_pk n).
Proof.
  intros Hi Hf Hp. unfold add_node. pose proof (pop_last_spec (t_free t)) as Hpop. destruct (pop_last (t_free t)) as [[i f]|].
  2:{ rewrite Hf in Hpop. destruct l; discriminate. }
  rewrite Hf in Hpop. apply app_inj_tail in Hpop as [<- <-]. cbn [t_nodes t_counter].
  assert (j < length (t_nodes t)) as Hj by (apply (i_free t cr Hi); rewrite Hf; apply elem_of_app; right; left).
  assert (forall (bad : Tree T) nodes n, length nodes = length (t_nodes t) -> n_pk n = t_counter t -> n_data n = d ->
    (forall q m, q <> j -> t_nodes t !! q = Some m -> exists m', nodes !! q = Some m' /\ n_pk m' = n_pk m) ->
    exists t', match place nodes true j n with Ok nodes3 => (Ok (mkNodeId j (t_counter t)), mkTree nodes3 l (t_counter t + 1)) | _ => (Panic, bad) end
      = (Ok (mkNodeId j (t_counter t)) : outcome TreeError NodeId, t') /\ t_free t' = l /\ t_counter t' = S (t_counter t) /\
    (exists n, t_nodes t' !! j = Some n /\ n_pk n = t_counter t /\ n_data n = d) /\ length (t_nodes t') = length (t_nodes t) /\
    (forall q n, q <> j -> t_nodes t !! q = Some n -> exists n', t_nodes t' !! q = Some n' /\ n_pk n' = n_pk n)) as Hplace.
  { intros bad nodes n Hlen Hpk Hd Hq. unfold place. assert (j <? length nodes = true) as -> by (apply Nat.ltb_lt; lia).
    eexists. split; [reflexivity|]. cbn. split; [reflexivity|]. split; [lia|]. split; [exists n; rewrite list_lookup_insert by lia; auto|].
    split; [rewrite insert_length; assumption|]. intros q m Hne Hm. rewrite list_lookup_insert_ne by congruence. auto. }
  destruct p as [x|].
  - destruct Hp as (n & Hn & Hx). pose proof (get_node_mut_slot _ _ _ Hn) as [Hs Hpk]. cbn in Hs.
    assert (node_exists (mkTree (t_nodes t) l (t_counter t)) x = true) as ->.
    { unfold node_exists. cbn [t_nodes t_free]. assert (length (t_nodes t) <=? node_ptr x = false) as -> by (apply Nat.leb_gt; eapply lookup_lt_Some; eauto).
      rewrite (contains_false _ _ Hx), Hs, Hpk. apply Nat.eqb_refl. }
    cbn [negb]. assert (get_node_mut (mkTree (t_nodes t) l (t_counter t + 1)) x = Ok n) as -> by exact Hn.
    set (np := with_last match n_first n with None => with_first n (Some j) | Some _ => n end (Some j)).
    assert (n_pk np = n_pk n) as Np by (unfold np; destruct (n_first n); reflexivity).
    assert (exists nodes2, match n_last n with None => Some (<[node_ptr x := np]> (t_nodes t)) | Some lci => match <[node_ptr x := np]> (t_nodes t) !! lci with None => None | Some ln => Some (<[lci := with_next ln (Some j)]> (<[node_ptr x := np]> (t_nodes t))) end end = Some nodes2 /\
      length nodes2 = length (t_nodes t) /\ forall q m, t_nodes t !! q = Some m -> exists m', nodes2 !! q = Some m' /\ n_pk m' = n_pk m) as (nodes2 & H2 & Hl2 & Hq2).
    { assert (forall q m, t_nodes t !! q = Some m -> exists m', <[node_ptr x := np]> (t_nodes t) !! q = Some m' /\ n_pk m' = n_pk m) as H1.
      { intros q m Hm. destruct (decide (node_ptr x = q)) as [<-|Hne].
        - rewrite list_lookup_insert by (eapply lookup_lt_Some; eauto). exists np. split; [reflexivity|]. congruence.
        - rewrite list_lookup_insert_ne by assumption. eauto. }
      destruct (n_last n) as [lci|] eqn:El; [|eexists; split; [reflexivity|]; split; [apply insert_length|exact H1]].
      assert (lci < length (t_nodes t)) as Hlt by (eapply (i_range t cr Hi); [exact Hs|]; auto).
      destruct (lookup_lt_is_Some_2 (<[node_ptr x := np]> (t_nodes t)) lci) as [ln Hln]; [rewrite insert_length; assumption|]. rewrite Hln.
      eexists. split; [reflexivity|]. split; [rewrite !insert_length; reflexivity|]. intros q m Hm. destruct (H1 q m Hm) as (m' & Hm' & Hp').
      destruct (decide (lci = q)) as [<-|Hne].
      - rewrite list_lookup_insert by (rewrite insert_length; assumption). eexists. split; [reflexivity|]. cbn. congruence.
      - rewrite list_lookup_insert_ne by assumption. eauto. }
    cbn [t_nodes]. fold np. rewrite H2. apply Hplace; auto.
  - apply (Hplace _ (t_nodes t) (node_new None d (t_counter t) None)); [reflexivity..|]. intros q m _ Hm. eauto.
Qed.
Lemma do_adds_inv {T} (h : history T) : forall t cr r t', inv t cr -> do_adds h t = (r, t') -> exists cr', inv t' cr'.
Proof.
  induction h as [|[p d] h IH]; intros t cr r t' Hi Hd; cbn [do_adds] in Hd; [injection Hd as _ <-; eauto|].
  pose proof (inv_add t cr d (option_map id_of p) Hi) as Ha. destruct (add_node d (option_map id_of p) t) as [[x| | |] t1]; try contradiction.
  - destruct Ha as [Ha _]. destruct (do_adds h t1) as [r1 t2] eqn:E. destruct (IH _ _ _ _ Ha E) as [cr' Hcr]. destruct r1; injection Hd as _ <-; eauto.
  - injection Hd as _ <-. eauto.
Qed.
Lemma do_removes_inv {T} js : forall (t : Tree T) cr t', inv t cr -> do_removes js t = (Ok tt, t') -> inv t' cr.
Proof.
  induction js as [|j js IH]; intros t cr t' Hi Hd; cbn [do_removes] in Hd; [injection Hd as <-; assumption|].
  pose proof (inv_remove t cr (id_of j) Hi) as Hr. destruct (remove_branch (id_of j) t) as [[[]| | |] t1]; try discriminate. eauto.
Qed.
Lemma do_removes_app {T} js js' (t : Tree T) : do_removes (js ++ js') t = match do_removes js t with (Ok _, t1) => do_removes js' t1 | e => e end.
Proof.
  revert t. induction js as [|j js IH]; intros t; cbn [app do_removes]; [destruct (do_removes js' t) as [[[]| | |] ?]; reflexivity|].
  destruct (remove_branch (id_of j) t) as [[[]| | |] t1]; [apply IH|reflexivity..].
Qed.
Theorem C42_add_after_remove_refuted : forall (T : Type) (h : history T) (js : list nat) (j : nat) t0 t d1 d2 p1 p2,
  grown h -> removable h [] (js ++ [j]) ->
  do_adds h tree_new = (Ok (map id_of (seq 0 (length h))), t0) -> do_removes (js ++ [j]) t0 = (Ok tt, t) ->
  (forall q, p1 = Some q \/ p2 = Some q -> q < length h /\ ~ removed h (js ++ [j]) q) ->
  exists x1 x2 t1 t2,
    add_node d1 (option_map id_of p1) t = (Ok x1, t1) /\
    (exists n, get_node t1 x1 = Ok n /\ n_data n = d1) /\ node_exists t1 x1 = true /\
    get_node_mut t1 x1 = Err (NodeWasRemoved x1) /\
    add_node d2 (option_map id_of p2) t1 = (Ok x2, t2) /\
    x1 <> x2 /\ node_ptr x1 = node_ptr x2 /\
    node_exists t2 x1 = false /\ get_node t2 x1 = Err (NodeDoesNotExist x1).
Proof.
  intros T h js j t0 t d1 d2 p1 p2 Hg Hr Ha Hd Hpar.
  destruct (do_adds_inv h _ _ _ _ inv_new Ha) as [cr Hi0]. pose proof (do_removes_inv _ _ _ _ Hi0 Hd) as Hi.
  destruct (do_adds_ok h Hg) as [_ I2]. unfold tree_of in I2. rewrite Ha in I2. cbn in I2.
  destruct (do_removes_ok h (js ++ [j]) t0 [] (repr_pruned _ _ I2)) as (t' & Hd' & Hp & Hf & Hc); [|assumption|].
  { intros x. rewrite (r_free _ _ I2). split; [intros Hx; apply elem_of_nil in Hx; contradiction|]. intros (k & Hk & _). apply elem_of_nil in Hk. contradiction. }
  rewrite Hd in Hd'. injection Hd' as <-. cbn [app] in Hf. rewrite (r_counter _ _ I2) in Hc.
  rewrite do_removes_app in Hd. destruct (do_removes js t0) as [[[]| | |] tm] eqn:Em; try discriminate. cbn [do_removes] in Hd.
  destruct (remove_branch (id_of j) tm) as [[[]| | |] t''] eqn:Er; try discriminate. injection Hd as ->.
  destruct (free_tail tm j t Er) as [l Hl].
  assert (forall x, x ∈ t_free t -> x < length h) as Hlt by apply Hp.
  assert (forall q, p1 = Some q \/ p2 = Some q -> q ∉ t_free t) as Hlive by (intros q Hq; rewrite Hf; apply Hpar; assumption).
  assert (j ∈ t_free t) as Hjf by (rewrite Hl; apply elem_of_app; right; left).
  assert (forall x, x ∈ l ++ [j] -> x ∈ t_free t) as Hsub1.
  { intros x Hx. rewrite Hl. apply elem_of_app in Hx as [Hx|Hx]; apply elem_of_app; [auto|]. right. apply elem_of_list_singleton in Hx as ->. left. }
  assert (forall x, x ∈ l -> x ∈ t_free t) as Hsub2 by (intros x Hx; apply Hsub1, elem_of_app; auto).
  (* first add *)
  destruct (add_reuse t cr (l ++ [j]) j d1 (option_map id_of p1) Hi) as (t1 & H1 & F1 & C1 & (n1 & N1 & N2 & N3) & L1 & K1).
  { rewrite Hl, <- app_assoc. reflexivity. }
  { destruct p1 as [q|]; cbn; [|trivial]. destruct (Hpar q) as [Hq _]; [auto|]. destruct (live_node t h q Hp Hq) as [n Hn]. exists n.
    assert (q ∉ l ++ [j]) as Hq' by (intros Hx; apply (Hlive q); auto). split; [|assumption].
    unfold get_node_mut. cbn [id_of node_ptr node_pk t_nodes t_free]. assert (length (t_nodes t) <=? q = false) as -> by (apply Nat.leb_gt; eapply lookup_lt_Some; eauto).
    rewrite (contains_false _ _ Hq'), Hn, (p_pk t h Hp q n Hn), Nat.eqb_refl. reflexivity. }
  pose proof (inv_add t cr d1 (option_map id_of p1) Hi) as Hi1. rewrite H1 in Hi1. destruct Hi1 as [Hi1 _].
  rewrite Hc in *.
  (* second add *)
  destruct (add_reuse t1 _ l j d2 (option_map id_of p2) Hi1 F1) as (t2 & H2 & F2 & C2 & (n2 & M1 & M2 & M3) & L2 & K2).
  { destruct p2 as [q|]; cbn; [|trivial]. destruct (Hpar q) as [Hq _]; [auto|]. destruct (live_node t h q Hp Hq) as [n Hn].
    assert (q <> j) as Hqj by (intros ->; apply (Hlive j); auto). destruct (K1 q n Hqj Hn) as (n' & Hn' & Hpk'). exists n'.
    assert (q ∉ l) as Hq' by (intros Hx; apply (Hlive q); auto). split; [|assumption].
    unfold get_node_mut. cbn [id_of node_ptr node_pk t_nodes t_free]. assert (length (t_nodes t1) <=? q = false) as -> by (apply Nat.leb_gt; eapply lookup_lt_Some; eauto).
    rewrite (contains_false _ _ Hq'), Hn', Hpk', (p_pk t h Hp q n Hn), Nat.eqb_refl. reflexivity. }
  eexists _, _, t1, t2. split; [exact H1|].
  assert (length h ∉ l ++ [j]) as Hnl by (intros Hx; apply Hsub1, Hlt in Hx; lia).
  assert (length h ∉ l) as Hnl2 by (intros Hx; apply Hsub2, Hlt in Hx; lia).
  assert (length (t_nodes t1) <=? j = false) as E1 by (apply Nat.leb_gt; eapply lookup_lt_Some; eauto).
  assert (length (t_nodes t2) <=? j = false) as E2 by (apply Nat.leb_gt; eapply lookup_lt_Some; eauto).
  unfold get_node, get_node_mut, node_exists. cbn [node_ptr node_pk]. rewrite E1, E2, F1, F2, N1, M1, N2, M2, C1.
  rewrite (contains_false _ _ Hnl), (contains_false _ _ Hnl2), !Nat.eqb_refl.
  assert (contains j (l ++ [j]) = true) as -> by (apply contains_spec, elem_of_app; right; left).
  assert (S (length h) =? length h = false) as -> by (apply Nat.eqb_neq; lia).
  split; [eauto|]. split; [reflexivity|]. split; [reflexivity|]. split; [exact H2|]. rewrite C1.
  split; [intros [= Hx]; lia|]. auto.
Qed.
Print Assumptions C42_add_after_remove_refuted.
Example C42_refuted_not_vacuous :
  grown sample_history /\ removable sample_history [] ([2] ++ [3]) /\
  (exists t0, do_adds sample_history tree_new = (Ok (map id_of (seq 0 (length sample_history))), t0) /\
     fst (do_removes ([2] ++ [3]) t0) = Ok tt) /\
  (forall q, Some 1 = Some q \/ None = Some q -> q < length sample_history /\ ~ removed sample_history ([2] ++ [3]) q).
Proof.
  split; [apply sample_grown|]. split; [apply sample_removable|]. split; [exists (snd (do_adds sample_history tree_new)); split; vm_compute; reflexivity|].
  intros q [[= <-]|?]; [|discriminate]. split; [cbn; lia|]. intros (j & Hj & Hb).
  assert (j = 2 \/ j = 3) as Hj' by (repeat (apply elem_of_cons in Hj as [->|Hj]; [auto|]); apply elem_of_nil in Hj; contradiction).
  destruct Hb as [Hb|Hb]; [lia|]. apply (descendant_gt _ _ _ sample_grown) in Hb. lia.
Qed.
(** The links can even become a cycle: after these ten calls, which all return Ok,
    get_children of the root follows a sibling link from slot 1 to itself for ever. *)
Definition cycle_calls : list (tcall nat) :=
  [TAdd 0 None; TAdd 1 (Some (mkNodeId 0 0)); TAdd 2 None; TRemove (mkNodeId 1 1); TAdd 3 (Some (mkNodeId 0 0)); TRemove (mkNodeId 2 2);
   TAdd 4 None; TAdd 5 (Some (mkNodeId 0 0)); TAdd 6 (Some (mkNodeId 0 0)); TRemove (mkNodeId 2 5)].
Theorem C42_endless_children_refuted : exists rs t n,
  do_calls cycle_calls tree_new = (rs, t) /\
  Forall (fun a => match a with AAdd (Ok _) | ARemove (Ok _) => True | _ => False end) rs /\
  get_node t (mkNodeId 0 0) = Ok n /\
  (forall fuel, sibling_loop fuel (t_nodes t) (n_first n) = Diverge) /\
  get_children t (mkNodeId 0 0) = Diverge.
Proof.
  exists (fst (do_calls cycle_calls tree_new)), (mkTree
    [mkNode None None None (Some 1) (Some 1) 0 0; mkNode (Some 0) (Some 1) (Some 1) None None 6 6; mkNode (Some 0) (Some 1) (Some 1) None None 5 5]
    [2; 2] 7), (mkNode None None None (Some 1) (Some 1) 0 0).
  split; [vm_compute; reflexivity|]. split.
  { assert (fst (do_calls cycle_calls tree_new) = [AAdd (Ok (mkNodeId 0 0)); AAdd (Ok (mkNodeId 1 1)); AAdd (Ok (mkNodeId 2 2)); ARemove (Ok tt);
      AAdd (Ok (mkNodeId 1 3)); ARemove (Ok tt); AAdd (Ok (mkNodeId 2 4)); AAdd (Ok (mkNodeId 2 5)); AAdd (Ok (mkNodeId 1 6)); ARemove (Ok tt)]) as -> by (vm_compute; reflexivity).
    repeat constructor. }
  split; [reflexivity|]. split; [|reflexivity].
  intros fuel. cbn [n_first t_nodes]. induction fuel as [|fuel IH]; [reflexivity|]. cbn [sibling_loop].
  match goal with |- context[match ?x with Some _ => _ | None => _ end] => change x with (Some (mkNode (Some 0) (Some 1) (Some 1) None None 6 6)) end.
  cbn [n_next]. rewrite IH. reflexivity.
Qed.
Print Assumptions C42_endless_children_refuted.

(** ** C43.  Any calls with any ids, in any order: the ids handed out are pairwise distinct
    (even their keys are), an id that resolves does so to the data it was created with, and
    only remove_branch can fail to return (see C42), never by a panic. *)
Theorem C43_ids_never_reused : forall (T : Type) (cs : list (tcall T)) rs t, do_calls cs tree_new = (rs, t) ->
  NoDup (map (fun c => node_pk (fst c)) (created cs rs)) /\
  (forall x n, get_node t x = Ok n \/ get_node_mut t x = Ok n -> (x, n_data n) ∈ created cs rs) /\
  (forall x, node_exists t x = true -> exists d, (x, d) ∈ created cs rs) /\
  (forall a, a ∈ rs -> a <> AAdd Panic /\ a <> AAdd Diverge /\ a <> ARemove Panic).
Proof.
  intros T cs rs t Hd. destruct (do_calls_inv cs _ _ _ _ inv_new Hd) as [Hi Hf]. cbn [app] in Hi. split; [apply Hi|].
  assert (forall x n, get_node t x = Ok n \/ get_node_mut t x = Ok n -> (x, n_data n) ∈ created cs rs) as Hg.
  { intros x n Hn. assert (t_nodes t !! node_ptr x = Some n /\ n_pk n = node_pk x) as [Hs Hpk] by (destruct Hn as [Hn|Hn]; [apply get_node_slot|apply get_node_mut_slot]; assumption).
    pose proof (i_known _ _ Hi _ _ Hs) as Hk. rewrite Hpk in Hk. destruct x. exact Hk. }
  split; [exact Hg|]. split.
  - intros x Hx. destruct (get_node_total t x) as [[n Hn]|[e He]]; [eauto|]. exfalso. unfold node_exists in Hx. unfold get_node in He.
    destruct (length (t_nodes t) <=? node_ptr x); [discriminate|]. destruct (contains _ _); [discriminate|]. destruct (t_nodes t !! node_ptr x) as [n|]; [|discriminate].
    rewrite Hx in He. discriminate.
  - intros a Ha. rewrite Forall_forall in Hf. apply (Hf a Ha).
Qed.
Print Assumptions C43_ids_never_reused.
(** Stated for the data: two creations with the same id are the same creation. *)
Theorem C43_id_determines_data : forall (T : Type) (cs : list (tcall T)) rs t i j x d e, do_calls cs tree_new = (rs, t) ->
  created cs rs !! i = Some (x, d) -> created cs rs !! j = Some (x, e) -> i = j.
Proof.
  intros T cs rs t i j x d e Hd Hi Hj. destruct (C43_ids_never_reused T cs rs t Hd) as [Hn _].
  eapply (NoDup_lookup _ i j (node_pk x) Hn); rewrite map_lookup; [rewrite Hi|rewrite Hj]; reflexivity.
Qed.
Print Assumptions C43_id_determines_data.
(** A history with slot reuse: slot 1 holds three nodes one after the other. *)
Example C43_not_vacuous : created cycle_calls (fst (do_calls cycle_calls tree_new)) =
  [(mkNodeId 0 0, 0); (mkNodeId 1 1, 1); (mkNodeId 2 2, 2); (mkNodeId 1 3, 3); (mkNodeId 2 4, 4); (mkNodeId 2 5, 5); (mkNodeId 1 6, 6)].
Proof. vm_compute. reflexivity. Qed.
