(** * Proofs about simple_graph.rs *)
From Verif Require Import Base SimpleGraph SpecGraph.

(** [chain edges cur l]: starting at [cur] and following next_outgoing_edge, one meets
    exactly the edges [l]: (index, (id, target)). *)
Fixpoint chain (edges : list EdgeData) (cur : option nat) (l : list (nat * (N * nat))) : Prop :=
  match l with
  | [] => cur = None
  | (i, (id, t)) :: l' =>
      cur = Some i /\ exists nx, edges !! i = Some (mkEdgeData t id nx) /\ chain edges nx l'
  end.
Definition decreasing (l : list (nat * (N * nat))) : Prop :=
  StronglySorted (fun p q => q.2.1 < p.2.1)%N l.

Lemma chain_lt edges l : forall cur, chain edges cur l -> Forall (fun x => x.1 < length edges) l.
Proof.
  induction l as [|[i [id t]] l IH]; intros cur H; [constructor|].
  destruct H as (-> & nx & He & H). constructor; [eapply lookup_lt_Some; exact He|eauto].
Qed.
Lemma chain_app edges more l : forall cur, chain edges cur l -> chain (edges ++ more) cur l.
Proof.
  induction l as [|[i [id t]] l IH]; intros cur H; [exact H|].
  destruct H as (-> & nx & He & H). split; [reflexivity|]. exists nx. split; [|auto].
  apply lookup_app_l_Some. assumption.
Qed.
Lemma chain_insert edges j e l : forall cur, j ∉ l.*1 -> chain edges cur l -> chain (<[j:=e]> edges) cur l.
Proof.
  induction l as [|[i [id t]] l IH]; intros cur Hj H; [exact H|].
  destruct H as (-> & nx & He & H). simpl in Hj. apply not_elem_of_cons in Hj as [Hij Hj].
  split; [reflexivity|]. exists nx. split; [|auto]. rewrite list_lookup_insert_ne; auto.
Qed.

Lemma nodup_bounded_length (l : list nat) n : NoDup l -> Forall (fun x => x < n) l -> length l <= n.
Proof.
  intros Hn Hl. rewrite <- (seq_length n 0). apply NoDup_incl_length; [apply NoDup_ListNoDup; assumption|].
  intros x Hx. apply in_seq. rewrite Forall_forall in Hl. apply elem_of_list_In, Hl in Hx. lia.
Qed.

Lemma edge_chain_ok {E} edges l : forall cur fuel, chain edges cur l -> length l <= fuel ->
  @edge_chain E fuel edges cur = Ok l.*1.
Proof.
  induction l as [|[i [id t]] l IH]; intros cur fuel H Hf; simpl in H.
  - subst. destruct fuel; reflexivity.
  - destruct H as (-> & nx & He & H). destruct fuel as [|f]; simpl in Hf; [lia|]. simpl.
    rewrite He. simpl. rewrite (IH nx f H) by lia. reflexivity.
Qed.
Lemma target_chain_ok {E} edges l : forall cur fuel, chain edges cur l -> length l <= fuel ->
  @target_chain E fuel edges cur = Ok (l.*2).*2.
Proof.
  induction l as [|[i [id t]] l IH]; intros cur fuel H Hf; simpl in H.
  - subst. destruct fuel; reflexivity.
  - destruct H as (-> & nx & He & H). destruct fuel as [|f]; simpl in Hf; [lia|]. simpl.
    rewrite He. simpl. rewrite (IH nx f H) by lia. reflexivity.
Qed.

(** assoc-list lookup *)
Fixpoint assoc (l : list (nat * (N * nat))) (id : N) : option nat :=
  match l with
  | [] => None
  | (_, (k, t)) :: l' => if N.eqb k id then Some t else assoc l' id
  end.
Lemma assoc_none_below l id : Forall (fun p => p.2.1 < id)%N l -> assoc l id = None.
Proof.
  induction 1 as [|[i [k t]] l Hk Hl IH]; [reflexivity|]. simpl in *.
  destruct (N.eqb_spec k id); [lia|assumption].
Qed.
Lemma find_loop_ok {E} edges id l : forall cur fuel, chain edges cur l -> decreasing l -> length l <= fuel ->
  @find_loop E fuel edges cur id = Ok (assoc l id).
Proof.
  induction l as [|[i [k t]] l IH]; intros cur fuel H Hd Hf; simpl in H.
  - subst. destruct fuel; reflexivity.
  - destruct H as (-> & nx & He & H). destruct fuel as [|f]; simpl in Hf; [lia|]. simpl.
    rewrite He. simpl. apply StronglySorted_inv in Hd as [Hd Hall].
    destruct (N.eqb_spec k id) as [->|Hne]; [reflexivity|].
    destruct (N.ltb_spec k id) as [Hlt|Hge].
    + rewrite assoc_none_below; [reflexivity|]. eapply Forall_impl; [exact Hall|]. simpl. intros; lia.
    + apply IH; [assumption|assumption|lia].
Qed.

(** Position found by the insertion loop: [l = l1 ++ l2], ids of [l1] above, of [l2]
    below the new one. *)
Lemma insert_loop_ok {E} edges id l : forall cur fuel prev, chain edges cur l -> decreasing l -> length l <= fuel ->
  (assoc l id <> None /\ @insert_loop E fuel edges cur id prev cur = Ok None) \/
  (assoc l id = None /\ exists l1 l2 nx, l = l1 ++ l2 /\
     Forall (fun p => id < p.2.1)%N l1 /\ Forall (fun p => p.2.1 < id)%N l2 /\
     chain edges nx l2 /\
     @insert_loop E fuel edges cur id prev cur =
       Ok (Some (match last l1 with None => prev | Some p => TEdge p.1 end, nx))).
Proof.
  induction l as [|[i [k t]] l IH]; intros cur fuel prev H Hd Hf; simpl in H.
  - subst. right. split; [reflexivity|]. exists [], [], None. repeat split; auto.
    destruct fuel; reflexivity.
  - destruct H as (-> & nx & He & H). destruct fuel as [|f]; simpl in Hf; [lia|]. simpl.
    rewrite He. simpl. apply StronglySorted_inv in Hd as [Hd Hall].
    destruct (N.eqb_spec k id) as [->|Hne]; [left; split; [discriminate|reflexivity]|].
    destruct (N.ltb_spec id k) as [Hlt|Hge].
    + destruct (IH nx f (TEdge i) H Hd ltac:(lia)) as [[Ha Hi]|(Ha & l1 & l2 & nx' & -> & H1 & H2 & H3 & Hi)].
      * left. auto.
      * right. split; [assumption|]. exists ((i, (k, t)) :: l1), l2, nx'. repeat split; auto.
        rewrite Hi. rewrite last_cons. destruct (last l1); reflexivity.
    + assert (Forall (fun p => p.2.1 < id)%N l) as Hb.
      { eapply Forall_impl; [exact Hall|]. simpl. intros; lia. }
      right. split; [apply assoc_none_below; assumption|].
      exists [], ((i, (k, t)) :: l), (Some i). repeat split; auto.
      * constructor; [simpl; lia|assumption].
      * exists nx. auto.
Qed.

Lemma elem_of_concat {A} (ls : list (list A)) x : x ∈ concat ls <-> exists l, x ∈ l /\ l ∈ ls.
Proof.
  rewrite elem_of_list_In, in_concat. split; intros (l & H1 & H2); exists l;
    rewrite !elem_of_list_In in *; auto.
Qed.

Section inv.
Context {T : Type}.
Implicit Types (g : Graph T) (chs : list (list (nat * (N * nat)))).

Definition ginv g chs : Prop :=
  length chs = length (gr_nodes g) /\
  (forall s n ch, gr_nodes g !! s = Some n -> chs !! s = Some ch ->
     chain (gr_edges g) (nd_first n) ch) /\
  NoDup (concat chs).*1.

Lemma concat_lookup {A} (ls : list (list A)) s l x : ls !! s = Some l -> x ∈ l -> x ∈ concat ls.
Proof. intros H Hx. apply elem_of_concat. exists l. split; [assumption|]. eapply elem_of_list_lookup_2; eauto. Qed.

Lemma nodup_inner chs s ch : NoDup (concat chs).*1 -> chs !! s = Some ch -> NoDup ch.*1.
Proof.
  intros Hn Hs. apply elem_of_list_split_length in Hs as (a & b & -> & _).
  rewrite concat_app in Hn. simpl in Hn. rewrite !fmap_app in Hn.
  apply NoDup_app in Hn as (_ & _ & Hn). apply NoDup_app in Hn as (Hn & _). exact Hn.
Qed.
Lemma disjoint_inner chs s s' ch ch' i : NoDup (concat chs).*1 -> chs !! s = Some ch -> chs !! s' = Some ch' ->
  s <> s' -> i ∈ ch.*1 -> i ∉ ch'.*1.
Proof.
  assert (forall chs s s' ch ch' i, NoDup (concat chs).*1 -> chs !! s = Some ch -> chs !! s' = Some ch' ->
    s < s' -> i ∈ ch.*1 -> i ∈ ch'.*1 -> False) as Hlt.
  { intros cs a b ch1 ch2 j Hn Ha Hb Hab H1 H2.
    apply elem_of_list_split_length in Ha as (x & y & -> & Hx).
    rewrite concat_app in Hn. simpl in Hn. rewrite !fmap_app in Hn.
    apply NoDup_app in Hn as (_ & _ & Hn). apply NoDup_app in Hn as (_ & Hn & _).
    apply (Hn j H1). rewrite lookup_app_r in Hb by lia.
    destruct (b - length x) as [|q] eqn:E; [lia|]. simpl in Hb.
    apply elem_of_list_fmap in H2 as ([j' e] & -> & H2). apply elem_of_list_fmap.
    exists (j', e). split; [reflexivity|]. eapply concat_lookup; eauto. }
  intros Hn Hs Hs' Hne H1 H2. destruct (Nat.lt_total s s') as [?|[?|?]]; [|congruence|]; eauto.
Qed.

Lemma ginv_chain_length g chs s n ch : ginv g chs -> gr_nodes g !! s = Some n -> chs !! s = Some ch ->
  length ch <= length (gr_edges g).
Proof.
  intros (_ & Hc & Hn) Hs Hch. rewrite <- (fmap_length fst). apply nodup_bounded_length.
  - eapply nodup_inner; eauto.
  - apply Forall_fmap. eapply chain_lt. eapply Hc; eauto.
Qed.

Lemma ginv_new : ginv graph_new [].
Proof. split; [reflexivity|]. split; [intros s n ch H; discriminate|constructor]. Qed.

Lemma ginv_add_node g chs d : ginv g chs -> ginv (graph_add_node g d).2 (chs ++ [[]]).
Proof.
  intros (Hl & Hc & Hn). split; [|split]; simpl.
  - rewrite !app_length, Hl. reflexivity.
  - intros s n ch Hs Hch. apply lookup_app_Some in Hs as [Hs|[Hge Hs]].
    + rewrite lookup_app_l in Hch by (apply lookup_lt_Some in Hs; lia). eauto.
    + apply list_lookup_singleton_Some in Hs as [Hz <-]. rewrite lookup_app_r in Hch by lia.
      apply list_lookup_singleton_Some in Hch as [_ <-]. reflexivity.
  - rewrite concat_app. simpl. rewrite !app_nil_r. assumption.
Qed.

Lemma set_first_edge_eq (nodes : list (NodeData T)) i e n : nodes !! i = Some n ->
  set_first_edge nodes i e = <[i := mkNodeData e (nd_data n)]> nodes.
Proof. intros H. unfold set_first_edge. rewrite H. reflexivity. Qed.

(** what graph_add_edge does to the chains *)
Lemma chains_insert_perm chs s ch x : chs !! s = Some ch ->
  forall ch', ch' ≡ₚ x :: ch -> concat (<[s := ch']> chs) ≡ₚ x :: concat chs.
Proof.
  intros Hs ch' Hp. pose proof (lookup_lt_Some _ _ _ Hs) as Hlt.
  rewrite insert_take_drop by assumption. rewrite <- (take_drop_middle chs s ch Hs) at 3.
  rewrite !concat_app. simpl. rewrite Hp. simpl. symmetry. apply Permutation_middle.
Qed.

Lemma ginv_fresh g chs : ginv g chs -> length (gr_edges g) ∉ (concat chs).*1.
Proof.
  intros (Hl & Hc & Hn) ([i e] & Hi & Hin)%elem_of_list_fmap. simpl in Hi. subst i.
  apply elem_of_concat in Hin as (ch & He & [s Hs]%elem_of_list_lookup).
  destruct (lookup_lt_is_Some_2 (gr_nodes g) s) as [n Hn']; [apply lookup_lt_Some in Hs; lia|].
  pose proof (chain_lt _ _ _ (Hc s n ch Hn' Hs)) as Hlt. rewrite Forall_forall in Hlt.
  apply Hlt in He. simpl in He. lia.
Qed.

Lemma ginv_add_edge {E} m g chs s t n ch id : ginv g chs ->
  gr_nodes g !! s = Some n -> chs !! s = Some ch ->
  match ch with [] => id = 0%N | p :: _ => id = (p.2.1 + 1)%N end -> (id < 2 ^ 64)%N ->
  exists g', @graph_add_edge T E m g s t = Ok g' /\
    gr_nodes g' = <[s := mkNodeData (Some (length (gr_edges g))) (nd_data n)]> (gr_nodes g) /\
    ginv g' (<[s := (length (gr_edges g), (id, t)) :: ch]> chs).
Proof.
  intros Hinv Hs Hch Hid Hb. pose proof (ginv_fresh _ _ Hinv) as Hfresh.
  destruct Hinv as (Hl & Hc & Hn). pose proof (Hc s n ch Hs Hch) as Hchain.
  unfold graph_add_edge. rewrite Hs.
  assert ((match nd_first n with
        | None => Ok 0%N
        | Some index =>
            match gr_edges g !! index with
            | None => Panic
            | Some e => usize_result m (Z.of_N (ed_id e) + 1)
            end
        end : outcome E N) = Ok id) as ->.
  { destruct ch as [|[i [k t']] ch]; simpl in Hchain.
    - rewrite Hchain. congruence.
    - destruct Hchain as (-> & nx & -> & _). simpl in Hid. unfold usize_result. simpl ed_id.
      rewrite (proj2 (Z.leb_le _ _)), (proj2 (Z.ltb_lt _ _)) by lia. simpl. f_equal. lia. }
  simpl. eexists. split; [reflexivity|]. simpl. rewrite (set_first_edge_eq _ _ _ n Hs).
  split; [reflexivity|]. split; [|split]; simpl.
  - rewrite !insert_length. assumption.
  - intros s' n' ch' Hs' Hch'. destruct (decide (s = s')) as [<-|Hne].
    + rewrite list_lookup_insert in Hs' by (eapply lookup_lt_Some; eauto).
      rewrite list_lookup_insert in Hch' by (eapply lookup_lt_Some; eauto).
      injection Hs' as <-. injection Hch' as <-. simpl. split; [reflexivity|].
      exists (nd_first n). split.
      * rewrite lookup_app_r, Nat.sub_diag by lia. reflexivity.
      * apply chain_app. assumption.
    + rewrite list_lookup_insert_ne in Hs' by assumption.
      rewrite list_lookup_insert_ne in Hch' by assumption. apply chain_app. eauto.
  - rewrite (fmap_Permutation fst _ _ (chains_insert_perm chs s ch _ Hch _ (Permutation_refl _))). simpl.
    constructor; assumption.
Qed.

Lemma last_in {A} (l : list A) x : last l = Some x -> exists l0, l = l0 ++ [x].
Proof.
  destruct (list_eq_nil_dec l) as [->|]; [discriminate|]. 
  induction l as [|y l _] using rev_ind; [congruence|]. rewrite last_snoc. intros [= ->]. eauto.
Qed.

Lemma chain_split edges l1 l2 : forall cur, chain edges cur (l1 ++ l2) ->
  exists mid, chain edges mid l2 /\
   match last l1 with None => cur = mid | Some p => exists e, edges !! p.1 = Some e /\ ed_next e = mid end.
Proof.
  induction l1 as [|[i [k t]] l1 IH]; intros cur H; simpl app in H.
  - exists cur. split; [assumption|reflexivity].
  - destruct H as (-> & nx & He & H). apply IH in H as (mid & Hm & Hl). exists mid. split; [assumption|].
    rewrite last_cons. destruct (last l1); [assumption|]. simpl. subst. eauto.
Qed.
Lemma chain_fun edges l : forall c1 c2, chain edges c1 l -> chain edges c2 l -> c1 = c2.
Proof. destruct l as [|[i [k t]] l]; simpl; [congruence|]. intros c1 c2 [-> _] [-> _]. reflexivity. Qed.

(** relinking the last edge of [l1] *)
Lemma chain_relink edges l1 i k t new rest : forall cur nx,
  NoDup ((l1 ++ [(i, (k, t))]).*1) -> chain edges cur (l1 ++ (i, (k, t)) :: rest) ->
  edges !! i = Some (mkEdgeData t k nx) ->
  forall l2, chain (<[i := mkEdgeData t k new]> edges) new l2 ->
  chain (<[i := mkEdgeData t k new]> edges) cur (l1 ++ (i, (k, t)) :: l2).
Proof.
  induction l1 as [|[j [k' t']] l1 IH]; intros cur nx Hnd H Hi l2 Hl2; simpl app in *.
  - destruct H as (-> & _). split; [reflexivity|]. exists new. split; [|assumption].
    apply list_lookup_insert. eapply lookup_lt_Some; eauto.
  - destruct H as (-> & nx' & He & H). split; [reflexivity|]. simpl in Hnd. apply NoDup_cons in Hnd as [Hj Hnd].
    exists nx'. split.
    + rewrite list_lookup_insert_ne; [assumption|]. intros <-. apply Hj. rewrite fmap_app. apply elem_of_app. right. left.
    + eapply IH; eauto.
Qed.

Lemma ginv_try_add {E} g chs s t n ch id : ginv g chs ->
  gr_nodes g !! s = Some n -> chs !! s = Some ch -> decreasing ch ->
  (assoc ch id <> None /\ @try_add_edge_with_id T E g s t id = Ok (false, g)) \/
  (assoc ch id = None /\ exists g' l1 l2, ch = l1 ++ l2 /\
     Forall (fun p => id < p.2.1)%N l1 /\ Forall (fun p => p.2.1 < id)%N l2 /\
     @try_add_edge_with_id T E g s t id = Ok (true, g') /\
     map nd_data (gr_nodes g') = map nd_data (gr_nodes g) /\
     ginv g' (<[s := l1 ++ (length (gr_edges g), (id, t)) :: l2]> chs)).
Proof.
  intros Hinv Hs Hch Hdec. pose proof (ginv_fresh _ _ Hinv) as Hfresh.
  pose proof (ginv_chain_length _ _ _ _ _ Hinv Hs Hch) as Hlen.
  destruct Hinv as (Hl & Hc & Hn). pose proof (Hc s n ch Hs Hch) as Hchain.
  unfold try_add_edge_with_id. rewrite Hs.
  destruct (@insert_loop_ok E _ id ch _ _ (TNode s) Hchain Hdec Hlen)
    as [[Ha ->]|(Ha & l1 & l2 & nx & -> & H1 & H2 & Hnx & ->)]; [left; auto|right].
  split; [assumption|]. simpl.
  destruct (last l1) as [[i [k t']]|] eqn:Hlast; simpl.
  - apply last_in in Hlast as [l0 ->].
    pose proof Hchain as Hchain'. rewrite <- app_assoc in Hchain'. simpl in Hchain'.
    destruct (chain_split _ l0 ((i, (k, t')) :: l2) _ Hchain') as (mid & (-> & nx' & Hi & Hl2) & _).
    pose proof (chain_fun _ _ _ _ Hl2 Hnx) as ->. rewrite Hi. simpl.
    eexists _, (l0 ++ [(i, (k, t'))]), l2. split; [reflexivity|]. split; [assumption|]. split; [assumption|].
    split; [reflexivity|]. split; [reflexivity|].
    assert (NoDup ((l0 ++ [(i, (k, t'))]) ++ l2).*1) as Hnd by (eapply nodup_inner; eauto).
    split; [|split]; simpl.
    + rewrite insert_length. assumption.
    + intros s' n' ch' Hs' Hch'. destruct (decide (s = s')) as [<-|Hne].
      * rewrite list_lookup_insert in Hch' by (eapply lookup_lt_Some; eauto).
        injection Hch' as <-. assert (n' = n) as -> by congruence.
        rewrite <- app_assoc. simpl.
        rewrite <- insert_app_l by (eapply lookup_lt_Some; eauto).
        eapply chain_relink.
        -- rewrite fmap_app in Hnd. apply NoDup_app in Hnd as (Hnd & _). exact Hnd.
        -- apply chain_app. exact Hchain'.
        -- rewrite lookup_app_l by (eapply lookup_lt_Some; eauto). exact Hi.
        -- simpl. split; [reflexivity|]. exists nx. split.
           ++ rewrite list_lookup_insert_ne by (apply lookup_lt_Some in Hi; lia).
              rewrite lookup_app_r, Nat.sub_diag by lia. reflexivity.
           ++ apply chain_insert; [|apply chain_app; assumption].
              rewrite fmap_app in Hnd. apply NoDup_app in Hnd as (_ & Hnd & _). apply Hnd.
              rewrite fmap_app. apply elem_of_app. right. left.
      * rewrite list_lookup_insert_ne in Hch' by assumption.
        rewrite <- insert_app_l by (eapply lookup_lt_Some; eauto).
        apply chain_insert; [|apply chain_app; eauto].
        eapply (disjoint_inner chs s s'); eauto.
        rewrite !fmap_app. apply elem_of_app. left. apply elem_of_app. right. left.
    + rewrite (fmap_Permutation fst _ ((length (gr_edges g), (id, t)) :: concat chs)).
      * simpl. constructor; assumption.
      * eapply chains_insert_perm; [exact Hch|]. rewrite <- Permutation_middle. reflexivity.
  - apply last_None in Hlast as ->. simpl in Hchain.
    pose proof (chain_fun _ _ _ _ Hchain Hnx) as <-.
    eexists _, [], l2. split; [reflexivity|]. split; [assumption|]. split; [assumption|].
    split; [reflexivity|]. simpl. rewrite (set_first_edge_eq _ _ _ n Hs).
    split.
    { change (nd_data <$> <[s:=mkNodeData (Some (length (gr_edges g))) (nd_data n)]> (gr_nodes g) = nd_data <$> gr_nodes g).
      rewrite list_fmap_insert. simpl. apply list_insert_id. rewrite list_lookup_fmap, Hs. reflexivity. }
    split; [|split]; simpl.
    + rewrite !insert_length. assumption.
    + intros s' n' ch' Hs' Hch'. destruct (decide (s = s')) as [<-|Hne].
      * rewrite list_lookup_insert in Hs' by (eapply lookup_lt_Some; eauto).
        rewrite list_lookup_insert in Hch' by (eapply lookup_lt_Some; eauto).
        injection Hs' as <-. injection Hch' as <-. simpl. split; [reflexivity|].
        exists (nd_first n). split.
        -- rewrite lookup_app_r, Nat.sub_diag by lia. reflexivity.
        -- apply chain_app. assumption.
      * rewrite list_lookup_insert_ne in Hs' by assumption.
        rewrite list_lookup_insert_ne in Hch' by assumption. apply chain_app. eauto.
    + rewrite (fmap_Permutation fst _ _ (chains_insert_perm chs s l2 _ Hch _ (Permutation_refl _))). simpl.
      constructor; assumption.
Qed.

(** ** Refinement of the abstract graph *)
Definition chain_map (ch : list (nat * (N * nat))) (es : gmap N nat) : Prop :=
  decreasing ch /\ forall id, es !! id = assoc ch id.

Definition grel g (a : agraph T) chs : Prop :=
  ginv g chs /\ map nd_data (gr_nodes g) = a.*1 /\ Forall2 chain_map chs a.*2.

Lemma assoc_elem ch id t : decreasing ch -> (assoc ch id = Some t <-> (id, t) ∈ ch.*2).
Proof.
  induction 1 as [|[i [k t']] l Hd IH Hall]; simpl.
  - split; [discriminate|intros H; apply elem_of_nil in H; contradiction].
  - rewrite elem_of_cons. destruct (N.eqb_spec k id) as [->|Hne].
    + split; [intros [= ->]; auto|]. intros [[= ->]|Hin]; [reflexivity|].
      apply elem_of_list_fmap in Hin as ([j [k2 t2]] & [= -> ->] & Hin). rewrite Forall_forall in Hall.
      apply Hall in Hin. simpl in Hin. lia.
    + rewrite IH. split; [auto|]. intros [[= -> ->]|Hin]; [congruence|assumption].
Qed.

Lemma grel_answers g a chs : grel g a chs -> answers_like g a.
Proof.
  intros (Hinv & Hd & Hm).
  assert (length (gr_nodes g) = length a) as Hlen.
  { apply (f_equal length) in Hd. rewrite map_length, fmap_length in Hd. assumption. }
  split; [assumption|]. intros s d es Hs.
  destruct (lookup_lt_is_Some_2 (gr_nodes g) s) as [n Hn]; [apply lookup_lt_Some in Hs; lia|].
  assert (a.*2 !! s = Some es) as Hs2 by (rewrite list_lookup_fmap, Hs; reflexivity).
  destruct (Forall2_lookup_r _ _ _ _ _ Hm Hs2) as (ch & Hch & Hdec & Hes).
  pose proof (ginv_chain_length _ _ _ _ _ Hinv Hn Hch) as Hl.
  pose proof (proj1 (proj2 Hinv) s n ch Hn Hch) as Hc.
  split; [|split].
  - exists n. split; [assumption|]. assert (map nd_data (gr_nodes g) !! s = a.*1 !! s) as H by (rewrite Hd; reflexivity).
    change (map nd_data (gr_nodes g)) with (nd_data <$> gr_nodes g) in H.
    rewrite !list_lookup_fmap, Hs, Hn in H. simpl in H. congruence.
  - intros id. unfold find_node_index. rewrite Hn, Hes. apply find_loop_ok; assumption.
  - exists ch.*1, ch.*2. unfold connected_edges, successors. rewrite Hn.
    rewrite (edge_chain_ok _ _ _ _ Hc Hl), (target_chain_ok _ _ _ _ Hc Hl).
    split; [reflexivity|]. split; [|split; [reflexivity|]].
    + clear -Hc. revert Hc. generalize (nd_first n).
      induction ch as [|[i [k t]] ch IH]; intros cur Hc; simpl; constructor.
      * destruct Hc as (_ & nx & He & _). eauto.
      * destruct Hc as (_ & nx & _ & Hc). eauto.
    + split.
      * clear -Hdec. induction Hdec as [|p l Hd IH Hall]; simpl; constructor; [assumption|].
        apply Forall_fmap. exact Hall.
      * intros id t. rewrite Hes. symmetry. apply assoc_elem. assumption.
Qed.

Lemma chain_map_next ch es id : chain_map ch es -> next_edge_id es id ->
  match ch with [] => id = 0%N | p :: _ => id = (p.2.1 + 1)%N end.
Proof.
  intros [Hd He] [[-> ->]|(k & [t Hk] & Hmax & ->)].
  - destruct ch as [|[i [k t]] ch]; [reflexivity|]. specialize (He k). simpl in He.
    rewrite N.eqb_refl, lookup_empty in He. discriminate.
  - destruct ch as [|[i [k' t']] ch].
    + rewrite He in Hk. discriminate.
    + simpl. f_equal. rewrite He in Hk. apply N.le_antisymm.
      * pose proof (StronglySorted_inv Hd) as [Hd' Hall].
        simpl in Hk. destruct (N.eqb_spec k' k) as [->|Hne]; [lia|].
        apply assoc_elem in Hk; [|assumption]. apply elem_of_list_fmap in Hk as ([j [k2 t2]] & [= <- <-] & Hin).
        rewrite Forall_forall in Hall. apply Hall in Hin. simpl in Hin. lia.
      * apply Hmax. rewrite He. simpl. rewrite N.eqb_refl. eauto.
Qed.

Lemma assoc_app l1 l2 id : assoc (l1 ++ l2) id = match assoc l1 id with Some t => Some t | None => assoc l2 id end.
Proof. induction l1 as [|[i [k t]] l1 IH]; simpl; [reflexivity|]. destruct (N.eqb k id); auto. Qed.
Lemma assoc_none_above l id : Forall (fun p => id < p.2.1)%N l -> assoc l id = None.
Proof.
  induction 1 as [|[i [k t]] l Hk Hl IH]; [reflexivity|]. simpl in *.
  destruct (N.eqb_spec k id); [lia|assumption].
Qed.

Lemma decreasing_insert l1 l2 x : decreasing (l1 ++ l2) ->
  Forall (fun p => x.2.1 < p.2.1)%N l1 -> Forall (fun p => p.2.1 < x.2.1)%N l2 -> decreasing (l1 ++ x :: l2).
Proof.
  unfold decreasing. induction l1 as [|p l1 IH]; intros Hd H1 H2; simpl in *.
  - constructor; assumption.
  - apply StronglySorted_inv in Hd as [Hd Hall]. inversion H1; subst. constructor; [auto|].
    apply Forall_app in Hall as [? ?]. apply Forall_app. split; [assumption|]. constructor; assumption.
Qed.

Lemma chain_map_insert l1 l2 es i id t : chain_map (l1 ++ l2) es ->
  Forall (fun p => id < p.2.1)%N l1 -> Forall (fun p => p.2.1 < id)%N l2 ->
  chain_map (l1 ++ (i, (id, t)) :: l2) (<[id := t]> es).
Proof.
  intros [Hd He] H1 H2. split; [apply decreasing_insert; assumption|].
  intros k. rewrite assoc_app. simpl. destruct (N.eqb_spec id k) as [<-|Hne].
  - rewrite lookup_insert, assoc_none_above by assumption. reflexivity.
  - rewrite lookup_insert_ne by assumption. rewrite He, assoc_app. reflexivity.
Qed.

Lemma data_lookup g (a : agraph T) s d es : map nd_data (gr_nodes g) = a.*1 -> a !! s = Some (d, es) ->
  exists n, gr_nodes g !! s = Some n /\ nd_data n = d.
Proof.
  intros Hd Hs. assert (map nd_data (gr_nodes g) !! s = a.*1 !! s) as H by (rewrite Hd; reflexivity).
  change (map nd_data (gr_nodes g)) with (nd_data <$> gr_nodes g) in H.
  rewrite !list_lookup_fmap, Hs in H. simpl in H.
  destruct (gr_nodes g !! s) as [n|]; [|discriminate]. exists n. split; [reflexivity|]. simpl in H. congruence.
Qed.

Lemma grel_step m g a chs c r a' : grel g a chs -> gspec a c r a' ->
  exists g' chs', gcall_do m g c = Ok (r, g') /\ grel g' a' chs'.
Proof.
  intros Hrel Hs. pose proof Hrel as (Hinv & Hd & Hm). destruct Hs as [a d|a s t d es id Hs Hid Hb|a s t d es id Hs Hnone|a s t d es id Hs Hsome].
  - exists (graph_add_node g d).2, (chs ++ [[]]). simpl. split.
    + apply (f_equal length) in Hd. rewrite map_length, fmap_length in Hd. rewrite Hd. reflexivity.
    + split; [apply ginv_add_node; assumption|]. split.
      * simpl. rewrite map_app, Hd, fmap_app. reflexivity.
      * rewrite fmap_app. apply Forall2_app; [assumption|]. constructor; [|constructor].
        split; [constructor|]. intros id. simpl. apply lookup_empty.
  - destruct (data_lookup _ _ _ _ _ Hd Hs) as (n & Hn & Hnd).
    assert (a.*2 !! s = Some es) as Hs2 by (rewrite list_lookup_fmap, Hs; reflexivity).
    destruct (Forall2_lookup_r _ _ _ _ _ Hm Hs2) as (ch & Hch & Hcm).
    pose proof (chain_map_next _ _ _ Hcm Hid) as Hhead.
    destruct (@ginv_add_edge Empty_set m g chs s t n ch id Hinv Hn Hch Hhead Hb) as (g' & Hg & Hnodes & Hinv').
    exists g', (<[s := (length (gr_edges g), (id, t)) :: ch]> chs). simpl. rewrite Hg. split; [reflexivity|].
    split; [assumption|]. split.
    + rewrite Hnodes. change (nd_data <$> <[s:=mkNodeData (Some (length (gr_edges g))) (nd_data n)]> (gr_nodes g) = (<[s:=(d, <[id:=t]> es)]> a).*1).
      rewrite !list_fmap_insert. simpl. rewrite <- Hd, Hnd. reflexivity.
    + rewrite list_fmap_insert. simpl. apply Forall2_insert; [assumption|].
      apply (chain_map_insert [] ch); [assumption|constructor|].
      destruct ch as [|p ch]; [constructor|]. destruct Hcm as [Hdec _]. apply StronglySorted_inv in Hdec as [_ Hall].
      constructor; [lia|]. eapply Forall_impl; [exact Hall|]. simpl. intros; lia.
  - destruct (data_lookup _ _ _ _ _ Hd Hs) as (n & Hn & Hnd).
    assert (a.*2 !! s = Some es) as Hs2 by (rewrite list_lookup_fmap, Hs; reflexivity).
    destruct (Forall2_lookup_r _ _ _ _ _ Hm Hs2) as (ch & Hch & Hcm).
    pose proof Hcm as [Hdec He].
    destruct (@ginv_try_add Empty_set g chs s t n ch id Hinv Hn Hch Hdec)
      as [[Ha _]|(Ha & g' & l1 & l2 & -> & H1 & H2 & Hg & Hdata & Hinv')]; [rewrite <- He in Ha; congruence|].
    exists g', (<[s := l1 ++ (length (gr_edges g), (id, t)) :: l2]> chs). simpl. rewrite Hg. split; [reflexivity|].
    split; [assumption|]. split.
    + rewrite Hdata, Hd, list_fmap_insert. simpl. symmetry. apply list_insert_id.
      rewrite list_lookup_fmap, Hs. reflexivity.
    + rewrite list_fmap_insert. simpl. apply Forall2_insert; [assumption|].
      apply chain_map_insert; assumption.
  - destruct (data_lookup _ _ _ _ _ Hd Hs) as (n & Hn & Hnd).
    assert (a.*2 !! s = Some es) as Hs2 by (rewrite list_lookup_fmap, Hs; reflexivity).
    destruct (Forall2_lookup_r _ _ _ _ _ Hm Hs2) as (ch & Hch & Hcm).
    pose proof Hcm as [Hdec He].
    destruct (@ginv_try_add Empty_set g chs s t n ch id Hinv Hn Hch Hdec)
      as [[_ Hg]|(Ha & _)]; [|rewrite He, Ha in Hsome; destruct Hsome; discriminate].
    exists g, chs. simpl. rewrite Hg. auto.
Qed.

Lemma grel_run m l : forall g a chs rs a', grel g a chs -> gspec_run a l rs a' ->
  exists g' chs', gcalls_do m g l = Ok (rs, g') /\ grel g' a' chs'.
Proof.
  induction l as [|c l IH]; intros g a chs rs a' Hr Hs; inversion Hs; subst.
  - exists g, chs. auto.
  - destruct (grel_step m _ _ _ _ _ _ Hr H2) as (g1 & chs1 & H1 & Hr1).
    destruct (IH _ _ _ _ _ Hr1 H5) as (g2 & chs2 & Hg2 & Hr2).
    exists g2, chs2. simpl. rewrite H1. simpl. rewrite Hg2. auto.
Qed.
Lemma grel_new : grel graph_new [] [].
Proof. split; [apply ginv_new|]. split; [reflexivity|constructor]. Qed.
End inv.

Lemma map_lookup {A B} (f : A -> B) (l : list A) i : map f l !! i = f <$> l !! i.
Proof. apply (list_lookup_fmap f). Qed.

(** ** Paths and grafting *)
Section graft.
Context {T : Type}.
Implicit Types (g : Graph T) (a b : agraph T).

Lemma path_ok g a : answers_like g a -> closed a -> forall ids s, s < length a ->
  find_node_index_by_path (E := Empty_set) g s ids = Ok (apath a s ids).
Proof.
  intros Ha Hc ids. unfold find_node_index_by_path.
  induction ids as [|id ids IH]; intros s Hs; [reflexivity|]. simpl.
  destruct (lookup_lt_is_Some_2 a s Hs) as [[d es] Hl]. rewrite Hl.
  destruct Ha as [Hlen Ha]. destruct (Ha s d es Hl) as (_ & Hf & _). rewrite Hf. simpl.
  destruct (es !! id) as [t|] eqn:Ht.
  - apply IH. eapply Hc; eauto.
  - destruct ids; reflexivity.
Qed.
Lemma path_node_ok g a : answers_like g a -> closed a -> forall ids s, s < length a ->
  exists o, find_node_by_path (E := Empty_set) g s ids = Ok o /\
            nd_data <$> o = apath a s ids ≫= (fun i => fst <$> a !! i).
Proof.
  intros Ha Hc ids s Hs. unfold find_node_by_path. rewrite (path_ok g a Ha Hc ids s Hs). simpl.
  assert (forall i, apath a s ids = Some i -> i < length a) as Hb.
  { revert s Hs. induction ids as [|id ids IH]; intros s Hs i; simpl; [intros [= <-]; assumption|].
    destruct (a !! s) as [[d es]|] eqn:Hl; [|discriminate].
    destruct (es !! id) as [t|] eqn:Ht; [|discriminate]. apply IH. eapply Hc; eauto. }
  unfold node_at. destruct (apath a s ids) as [i|] eqn:E; simpl; [|exists None; auto].
  destruct (lookup_lt_is_Some_2 a i (Hb i eq_refl)) as [[d es] Hl].
  destruct (proj2 Ha i d es Hl) as ((n & Hn & Hd) & _). rewrite Hn, Hl. exists (Some n). simpl. rewrite Hd. auto.
Qed.

Definition shift_chain (no eo : nat) (x : nat * (N * nat)) : nat * (N * nat) :=
  (eo + x.1, (x.2.1, no + x.2.2)).
Lemma chain_shift edges pre no l : forall cur, chain edges cur l ->
  chain (pre ++ map (shift_edge no (length pre)) edges)
        (option_map (fun ei => length pre + ei) cur) (map (shift_chain no (length pre)) l).
Proof.
  induction l as [|[i [k t]] l IH]; intros cur H; simpl in *; [subst; reflexivity|].
  destruct H as (-> & nx & He & H). split; [reflexivity|].
  exists (option_map (fun ei => length pre + ei) nx). split; [|auto].
  rewrite lookup_app_r by lia. replace (length pre + i - length pre) with i by lia.
  change (map (shift_edge no (length pre)) edges) with (shift_edge no (length pre) <$> edges).
  rewrite list_lookup_fmap, He. reflexivity.
Qed.

Lemma assoc_shift no eo l id : assoc (map (shift_chain no eo) l) id = (fun t => no + t) <$> assoc l id.
Proof. induction l as [|[i [k t]] l IH]; simpl; [reflexivity|]. destruct (N.eqb k id); auto. Qed.

Definition union_graph g (o : Graph T) : Graph T :=
  mkGraph (gr_nodes g ++ map (shift_node (length (gr_edges g))) (gr_nodes o))
          (gr_edges g ++ map (shift_edge (length (gr_nodes g)) (length (gr_edges g))) (gr_edges o)).

Lemma grel_union g o a b chs chs' : grel g a chs -> grel o b chs' ->
  grel (union_graph g o) (a ++ shifted (length a) b)
       (chs ++ map (map (shift_chain (length (gr_nodes g)) (length (gr_edges g)))) chs').
Proof.
  intros ((Hl & Hc & Hn) & Hd & Hm) ((Hl' & Hc' & Hn') & Hd' & Hm').
  assert (length (gr_nodes g) = length a) as Hlen.
  { apply (f_equal length) in Hd. rewrite map_length, fmap_length in Hd. assumption. }
  split; [split; [|split]|split]; simpl.
  - rewrite !app_length, !map_length. lia.
  - intros s n ch Hs Hch. destruct (decide (s < length (gr_nodes g))) as [Hlt|Hge].
    + rewrite lookup_app_l in Hs by lia. rewrite lookup_app_l in Hch by lia.
      apply chain_app. eauto.
    + rewrite lookup_app_r in Hs by lia. rewrite lookup_app_r in Hch by lia.
      rewrite Hl in Hch.
      rewrite map_lookup in Hs. rewrite map_lookup in Hch.
      destruct (gr_nodes o !! (s - length (gr_nodes g))) as [n'|] eqn:Hn1; [|discriminate].
      destruct (chs' !! (s - length (gr_nodes g))) as [ch'|] eqn:Hch1; [|discriminate].
      simpl in Hs, Hch. injection Hs as <-. injection Hch as <-. simpl.
      apply chain_shift. eauto.
  - rewrite concat_app, fmap_app. apply NoDup_app. split; [assumption|].
    assert (forall l : list (list (nat * (N * nat))), (concat (map (map (shift_chain (length (gr_nodes g)) (length (gr_edges g)))) l)).*1
              = map (fun i => length (gr_edges g) + i) (concat l).*1) as Hshift.
    { intros l. induction l as [|x l IH]; simpl; [reflexivity|].
      rewrite !fmap_app, IH. rewrite <- (fmap_app (fun i => length (gr_edges g) + i)) || rewrite map_app. f_equal. clear. induction x as [|y x IH]; simpl; [reflexivity|]. f_equal. exact IH. }
    rewrite Hshift. split.
    + intros i Hi Hi'. apply elem_of_list_In, in_map_iff in Hi' as (j & <- & _).
      apply elem_of_list_fmap in Hi as ([i e] & Hi & Hin). simpl in Hi. subst i.
      apply elem_of_concat in Hin as (ch & He & [s Hs]%elem_of_list_lookup).
      destruct (lookup_lt_is_Some_2 (gr_nodes g) s) as [n Hn1]; [apply lookup_lt_Some in Hs; lia|].
      pose proof (chain_lt _ _ _ (Hc s n ch Hn1 Hs)) as Hlt. rewrite Forall_forall in Hlt.
      apply Hlt in He. simpl in He. lia.
    + refine (@NoDup_fmap_2 _ _ (fun i => length (gr_edges g) + i) _ _ _); [|assumption]. intros x y Hxy. lia.
  - rewrite map_app, Hd, map_map, fmap_app. f_equal. unfold shifted.
    transitivity (map nd_data (gr_nodes o)); [reflexivity|]. rewrite Hd'. clear. induction b as [|[d es] b IH]; simpl; [reflexivity|]. f_equal. exact IH.
  - rewrite fmap_app. apply Forall2_app; [assumption|].
    assert ((shifted (length a) b).*2 = (fun es : gmap N nat => (fun t => length a + t) <$> es) <$> b.*2) as ->.
    { clear. induction b as [|[d es] b IH]; simpl; [reflexivity|]. f_equal. exact IH. }
    clear -Hm' Hlen. rewrite Hlen. remember b.*2 as q. clear Heqq. induction Hm' as [|ch es l l' [Hdec He] H IH]; simpl; constructor; [|assumption].
    split.
    + clear -Hdec. induction Hdec as [|p l Hd IH Hall]; simpl; constructor; [assumption|].
      apply Forall_fmap. exact Hall.
    + intros id. rewrite lookup_fmap, He, assoc_shift. reflexivity.
Qed.

Lemma add_graph_ok m g o a b chs chs' this other a' :
  grel g a chs -> grel o b chs' ->
  gspec (a ++ shifted (length a) b) (GAddEdge this (length a + other)) ADone a' ->
  exists g' chs'', add_graph_at_node (E := Empty_set) m g o this other = Ok g' /\ grel g' a' chs''.
Proof.
  intros H1 H2 Hs. pose proof (grel_union _ _ _ _ _ _ H1 H2) as Hu.
  destruct (grel_step m _ _ _ _ _ _ Hu Hs) as (g' & chs'' & Hg & Hr).
  exists g', chs''. split; [|assumption]. simpl in Hg. unfold add_graph_at_node.
  assert (length (gr_nodes g) = length a) as Hlen.
  { destruct H1 as (_ & Hd & _). apply (f_equal length) in Hd. rewrite map_length, fmap_length in Hd. assumption. }
  fold (union_graph g o). rewrite Hlen, (Nat.add_comm other).
  destruct (graph_add_edge m (union_graph g o) this (length a + other)); simpl in Hg; try discriminate.
  injection Hg as <-. reflexivity.
Qed.

(** the panic conditions *)
Lemma next_edge_id_total (es : gmap N nat) : exists id, next_edge_id es id.
Proof.
  assert (es = ∅ \/ exists k, is_Some (es !! k) /\ forall k', is_Some (es !! k') -> (k' <= k)%N) as [->|(k & Hk & Hm)].
  - induction es as [|k x es Hk IH] using map_ind; [auto|]. right. destruct IH as [->|(k' & Hs & Hm)].
    + exists k. rewrite lookup_insert. split; [eauto|]. intros k' [y Hy].
      apply lookup_insert_Some in Hy as [[<- _]|[_ Hy]]; [lia|]. rewrite lookup_empty in Hy. discriminate.
    + exists (N.max k k'). split.
      * destruct (N.max_spec k k') as [[_ ->]|[_ ->]].
        -- destruct (decide (k = k')) as [<-|]; [rewrite lookup_insert; eauto|]. rewrite lookup_insert_ne by assumption. assumption.
        -- rewrite lookup_insert. eauto.
      * intros j [y Hy]. apply lookup_insert_Some in Hy as [[<- _]|[_ Hy]]; [lia|].
        assert (j <= k')%N by (apply Hm; eauto). lia.
  - exists 0%N. left. auto.
  - exists (k + 1)%N. right. eauto.
Qed.
End graft.
