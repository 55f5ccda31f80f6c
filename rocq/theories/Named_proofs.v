(** * Proofs about named_graph.rs *)
From Verif Require Import Base Errors SimpleGraph NamedGraph SpecGraph Graph_proofs.

Section named.
Context {T : Type}.
Implicit Types (g : GraphNamedNodes T) (a : gmap nat (T * list nat)) (chs : list (list (nat * (N * nat)))).

Notation targets ch := ((ch.*2).*2).

Definition next_id (ch : list (nat * (N * nat))) : Prop :=
  match ch with [] => True | p :: _ => (p.2.1 + 1)%N = N.of_nat (length ch) end.

Definition node_rep g chs (ix : nat) (d : T) (ss : list nat) : Prop :=
  exists n ch, gr_nodes (ng_graph g) !! ix = Some n /\ nd_data n = d /\ chs !! ix = Some ch /\
    next_id ch /\ Forall2 (fun s t => ng_names g !! s = Some t) ss (targets ch).

Record nrel g a chs : Prop := mk_nrel {
  nr_inv : ginv (ng_graph g) chs;
  nr_dom : forall x, is_Some (ng_names g !! x) <-> is_Some (a !! x);
  nr_inj : forall x y i, ng_names g !! x = Some i -> ng_names g !! y = Some i -> x = y;
  nr_rep : forall x i d ss, ng_names g !! x = Some i -> a !! x = Some (d, ss) -> node_rep g chs i d ss;
}.

Lemma nr_bound g a chs x i : nrel g a chs -> ng_names g !! x = Some i -> i < length (gr_nodes (ng_graph g)).
Proof.
  intros Hr Hx. destruct (proj1 (nr_dom _ _ _ Hr x)) as [[d ss] Ha]; [eauto|].
  destruct (nr_rep _ _ _ Hr _ _ _ _ Hx Ha) as (n & ch & Hn & _). eapply lookup_lt_Some; eauto.
Qed.

Lemma nrel_new : nrel named_new ∅ [].
Proof.
  constructor.
  - apply ginv_new.
  - intros x. simpl. rewrite !lookup_empty. split; intros [? ?]; discriminate.
  - intros x y i H. simpl in H. rewrite lookup_empty in H. discriminate.
  - intros x i d ss H. simpl in H. rewrite lookup_empty in H. discriminate.
Qed.

Lemma nrel_none g a chs x : nrel g a chs -> a !! x = None -> ng_names g !! x = None.
Proof.
  intros Hr Hx. destruct (ng_names g !! x) eqn:E; [|reflexivity].
  destruct (proj1 (nr_dom _ _ _ Hr x)); [eauto|congruence].
Qed.
Lemma nrel_some g a chs x d ss : nrel g a chs -> a !! x = Some (d, ss) -> exists i, ng_names g !! x = Some i.
Proof. intros Hr Hx. destruct (proj2 (nr_dom _ _ _ Hr x)); eauto. Qed.

Lemma nrel_add_node g a chs x d : nrel g a chs -> a !! x = None ->
  exists g', named_add_node x d g = Ok (length (gr_nodes (ng_graph g)), g') /\ nrel g' (<[x := (d, [])]> a) (chs ++ [[]])
    /\ ng_names g' = <[x := length (gr_nodes (ng_graph g))]> (ng_names g).
Proof.
  intros Hr Hx. pose proof (nrel_none _ _ _ _ Hr Hx) as Hn. unfold named_add_node. rewrite Hn. simpl.
  eexists. split; [reflexivity|]. split; [|reflexivity]. constructor; simpl.
  - apply (ginv_add_node (ng_graph g) chs d). apply Hr.
  - intros y. destruct (decide (x = y)) as [<-|Hne].
    + rewrite !lookup_insert. split; eauto.
    + rewrite !lookup_insert_ne by assumption. apply Hr.
  - intros y z i Hy Hz. apply lookup_insert_Some in Hy, Hz.
    destruct Hy as [[<- <-]|[Hne Hy]], Hz as [[<- Hi]|[Hne' Hz]]; [reflexivity| | |].
    + apply (nr_bound _ _ _ _ _ Hr) in Hz. lia.
    + subst. apply (nr_bound _ _ _ _ _ Hr) in Hy. lia.
    + eapply nr_inj; eauto.
  - intros y i d' ss Hy Ha. apply lookup_insert_Some in Hy. destruct Hy as [[<- <-]|[Hne Hy]].
    + rewrite lookup_insert in Ha. injection Ha as <- <-.
      exists (mkNodeData None d), []. simpl. repeat split.
      * rewrite lookup_app_r, Nat.sub_diag by lia. reflexivity.
      * pose proof (proj1 (nr_inv _ _ _ Hr)) as Hl. rewrite <- Hl. rewrite lookup_app_r, Nat.sub_diag by lia. reflexivity.
      * constructor.
    + rewrite lookup_insert_ne in Ha by assumption.
      destruct (nr_rep _ _ _ Hr _ _ _ _ Hy Ha) as (n & ch & Hn' & Hd & Hch & Hid & Hf).
      exists n, ch. simpl. split; [apply lookup_app_l_Some; assumption|]. split; [assumption|].
      split; [apply lookup_app_l_Some; assumption|]. split; [assumption|].
      eapply Forall2_impl; [exact Hf|]. simpl. intros s t Hs.
      rewrite lookup_insert_ne; [assumption|]. intros <-. congruence.
Qed.

Lemma nrel_add_edge m g a chs s t d ss : nrel g a chs -> a !! s = Some (d, ss) -> is_Some (a !! t) ->
  (N.of_nat (length ss) < 2 ^ 64)%N ->
  exists g' chs', named_add_edge m g s t = Ok g' /\ nrel g' (<[s := (d, t :: ss)]> a) chs' /\
    ng_names g' = ng_names g.
Proof.
  intros Hr Hs [[dt sst] Ht] Hb. destruct (nrel_some _ _ _ _ _ _ Hr Hs) as [i Hi].
  destruct (nrel_some _ _ _ _ _ _ Hr Ht) as [j Hj].
  unfold named_add_edge, get_index_of_node. rewrite Hi, Hj. simpl.
  destruct (nr_rep _ _ _ Hr _ _ _ _ Hi Hs) as (n & ch & Hn & Hd & Hch & Hid & Hf).
  assert (length ss = length ch) as Hlen by (apply Forall2_length in Hf; rewrite !fmap_length in Hf; assumption).
  destruct (@ginv_add_edge T GrammarError m (ng_graph g) chs i j n ch (N.of_nat (length ch))) as (g' & Hg & Hnodes & Hinv).
  - apply Hr.
  - assumption.
  - assumption.
  - destruct ch as [|p ch]; [reflexivity|]. symmetry. exact Hid.
  - rewrite <- Hlen. assumption.
  - rewrite Hg. simpl. eexists _, _. split; [reflexivity|]. split; [|reflexivity]. constructor; simpl.
    + exact Hinv.
    + intros x. rewrite (nr_dom _ _ _ Hr). destruct (decide (s = x)) as [<-|Hne].
      * rewrite lookup_insert, Hs. split; eauto.
      * rewrite lookup_insert_ne by assumption. reflexivity.
    + apply Hr.
    + intros x k d' ss' Hx Ha. unfold node_rep. simpl. rewrite Hnodes. destruct (decide (s = x)) as [<-|Hne].
      * rewrite lookup_insert in Ha. injection Ha as <- <-. assert (k = i) as -> by congruence.
        exists (mkNodeData (Some (length (gr_edges (ng_graph g)))) (nd_data n)),
               ((length (gr_edges (ng_graph g)), (N.of_nat (length ch), j)) :: ch).
        split; [apply list_lookup_insert; eapply lookup_lt_Some; eauto|]. split; [assumption|].
        split; [apply list_lookup_insert; eapply lookup_lt_Some; eauto|]. split.
        -- simpl. lia.
        -- simpl. constructor; assumption.
      * rewrite lookup_insert_ne in Ha by assumption.
        destruct (nr_rep _ _ _ Hr _ _ _ _ Hx Ha) as (n' & ch' & Hn' & Hd' & Hch' & Hid' & Hf').
        assert (i <> k) by (intros <-; apply Hne; eapply nr_inj; eauto).
        exists n', ch'. rewrite !list_lookup_insert_ne by assumption. auto.
Qed.

Lemma nrel_modify g a chs x f d ss : nrel g a chs -> a !! x = Some (d, ss) ->
  exists g', modify_node g x f = Ok g' /\ nrel g' (<[x := (f d, ss)]> a) chs /\ ng_names g' = ng_names g /\
    (forall i, ng_names g !! x = Some i -> g' = update_node_data g i f).
Proof.
  intros Hr Hx. destruct (nrel_some _ _ _ _ _ _ Hr Hx) as [i Hi].
  unfold modify_node, get_index_of_node. rewrite Hi. simpl.
  destruct (nr_rep _ _ _ Hr _ _ _ _ Hi Hx) as (n & ch & Hn & Hd & Hch & Hid & Hf). rewrite Hn.
  eexists. split; [reflexivity|]. split; [|split].
  2:{ unfold update_node_data. rewrite Hn. reflexivity. }
  2:{ intros j Hj. congruence. }
  unfold update_node_data. rewrite Hn. constructor; simpl.
  - destruct (nr_inv _ _ _ Hr) as (Hl & Hc & Hnd). split; [|split]; simpl.
    + rewrite insert_length. assumption.
    + intros s n' ch' Hs Hch'. apply list_lookup_insert_Some in Hs as [(-> & <- & _)|[Hne Hs]].
      * simpl. eapply Hc; eauto.
      * eapply Hc; eauto.
    + assumption.
  - intros y. rewrite (nr_dom _ _ _ Hr). destruct (decide (x = y)) as [<-|Hne].
    + rewrite lookup_insert, Hx. split; eauto.
    + rewrite lookup_insert_ne by assumption. reflexivity.
  - apply Hr.
  - intros y k d' ss' Hy Ha. unfold node_rep. simpl. destruct (decide (x = y)) as [<-|Hne].
    + rewrite lookup_insert in Ha. injection Ha as <- <-. assert (k = i) as -> by congruence.
      exists (mkNodeData (nd_first n) (f (nd_data n))), ch.
      split; [apply list_lookup_insert; eapply lookup_lt_Some; eauto|]. subst d. auto.
    + rewrite lookup_insert_ne in Ha by assumption.
      destruct (nr_rep _ _ _ Hr _ _ _ _ Hy Ha) as (n' & ch' & Hn' & Hd' & Hch' & Hid' & Hf').
      assert (i <> k) by (intros <-; apply Hne; eapply nr_inj; eauto).
      exists n', ch'. rewrite !list_lookup_insert_ne by assumption. auto.
Qed.

Lemma get_by_index_ok m g i n : gr_nodes (ng_graph g) !! i = Some n -> (N.of_nat (length (gr_nodes (ng_graph g))) <= 2 ^ 64)%N ->
  get_node_by_index m g i = Ok n.
Proof.
  intros Hi Hb. pose proof (lookup_lt_Some _ _ _ Hi) as Hlt. unfold get_node_by_index, usize_result.
  rewrite (proj2 (Z.leb_le _ _)), (proj2 (Z.ltb_lt _ _)) by lia. simpl.
  rewrite (proj2 (N.ltb_ge _ _)) by lia. rewrite Hi. reflexivity.
Qed.
Lemma get_by_index_big m g i n : gr_nodes (ng_graph g) !! i = Some n ->
  get_node_by_index m g i = Ok n \/ (2 ^ 64 < N.of_nat (length (gr_nodes (ng_graph g))))%N.
Proof.
  intros Hi. destruct (N.le_gt_cases (N.of_nat (length (gr_nodes (ng_graph g)))) (2 ^ 64)); [left|auto].
  apply get_by_index_ok; assumption.
Qed.

Lemma with_nodes_ok g l : Forall (fun i => i < length (gr_nodes (ng_graph g))) l ->
  exists r, with_nodes g l = Ok r /\ Forall2 (fun i p => p.1 = i /\ gr_nodes (ng_graph g) !! i = Some p.2) l r.
Proof.
  induction 1 as [|i l Hi Hl IH]; simpl; [exists []; auto|].
  destruct (lookup_lt_is_Some_2 _ _ Hi) as [n Hn]. rewrite Hn. destruct IH as (r & -> & Hr). simpl.
  exists ((i, n) :: r). split; [reflexivity|]. constructor; auto.
Qed.

Lemma nrel_successors g a chs x i d ss : nrel g a chs -> a !! x = Some (d, ss) -> ng_names g !! x = Some i ->
  exists succ, named_successors g x = Ok succ /\
    Forall2 (fun y p => ng_names g !! y = Some p.1 /\ gr_nodes (ng_graph g) !! p.1 = Some p.2) ss succ.
Proof.
  intros Hr Hx Hi. unfold named_successors, successor_indices, get_index_of_node. rewrite Hi. simpl.
  destruct (nr_rep _ _ _ Hr _ _ _ _ Hi Hx) as (n & ch & Hn & Hd & Hch & Hid & Hf).
  unfold successors. rewrite Hn.
  pose proof (ginv_chain_length _ _ _ _ _ (nr_inv _ _ _ Hr) Hn Hch) as Hlen.
  pose proof (proj1 (proj2 (nr_inv _ _ _ Hr)) _ _ _ Hn Hch) as Hc.
  rewrite (target_chain_ok _ _ _ _ Hc Hlen). simpl.
  destruct (with_nodes_ok g (targets ch)) as (r & -> & Hr').
  - apply Forall_forall. intros t [q Hq]%elem_of_list_lookup. destruct (Forall2_lookup_r _ _ _ _ _ Hf Hq) as (y & _ & Hy).
    eapply nr_bound; eauto.
  - exists r. split; [reflexivity|]. clear -Hf Hr'. revert r Hr'.
    induction Hf as [|y t ss ts Hy Hf IH]; intros r Hr'; inversion Hr' as [|? ? ? ? [H1 H2]]; subst; constructor; auto.
Qed.

Lemma nrel_answers g a chs : nrel g a chs -> (N.of_nat (length (gr_nodes (ng_graph g))) <= 2 ^ 64)%N ->
  named_answers_like g a.
Proof.
  intros Hr Hb. split; [|split].
  - intros x Hx. pose proof (nrel_none _ _ _ _ Hr Hx) as Hn.
    unfold named_get_node, named_successors, successor_indices, get_index_of_node. rewrite Hn. auto.
  - intros x d ss Hx. destruct (nrel_some _ _ _ _ _ _ Hr Hx) as [i Hi]. split.
    + destruct (nr_rep _ _ _ Hr _ _ _ _ Hi Hx) as (n & ch & Hn & Hd & _).
      exists i, n. unfold named_get_node, get_index_of_node. rewrite Hi. simpl. rewrite Hn.
      repeat split; auto. intros m. apply get_by_index_ok; assumption.
    + destruct (nrel_successors _ _ _ _ _ _ _ Hr Hx Hi) as (succ & Hs & Hf). exists succ. split; [assumption|].
      eapply Forall2_impl; [exact Hf|]. intros y [j n] [H1 H2]. simpl in *.
      unfold named_get_node, get_index_of_node. rewrite H1. simpl. rewrite H2. auto.
  - intros x y i. unfold get_index_of_node. intros Hx Hy.
    destruct (ng_names g !! x) as [ix|] eqn:Ex; [|discriminate].
    destruct (ng_names g !! y) as [iy|] eqn:Ey; [|discriminate].
    eapply nr_inj; [exact Hr|exact Ex|]. congruence.
Qed.

Lemma nrel_step m g a chs c r a' : nrel g a chs -> nspec a c r a' ->
  match r with
  | None => exists g' chs', ncall_do m g c = Ok g' /\ nrel g' a' chs'
  | Some e => ncall_do m g c = Err e /\ a' = a
  end.
Proof.
  intros Hr Hs. destruct Hs; simpl.
  - destruct (nrel_add_node _ _ _ x d Hr H) as (g' & Hg & Hr' & _). rewrite Hg. simpl. eauto.
  - unfold named_add_node. destruct (proj2 (nr_dom _ _ _ Hr x) H) as [i Hi]. rewrite Hi. auto.
  - destruct (nrel_add_edge m _ _ _ _ _ _ _ Hr H H0 H1) as (g' & chs' & Hg & Hr' & _). eauto.
  - unfold named_add_edge, get_index_of_node. rewrite (nrel_none _ _ _ _ Hr H). auto.
  - unfold named_add_edge, get_index_of_node. destruct (proj2 (nr_dom _ _ _ Hr s) H) as [i Hi]. rewrite Hi. simpl.
    rewrite (nrel_none _ _ _ _ Hr H0). auto.
  - destruct (nrel_modify _ _ _ _ f _ _ Hr H) as (g' & Hg & Hr' & _). eauto.
  - unfold modify_node, get_index_of_node. rewrite (nrel_none _ _ _ _ Hr H). auto.
Qed.
Lemma nrel_run m l : forall g a chs rs a', nrel g a chs -> nspec_run a l rs a' ->
  exists g' chs', ncalls_do m g l = Some (rs, g') /\ nrel g' a' chs'.
Proof.
  induction l as [|c l IH]; intros g a chs rs a' Hr Hs; inversion Hs; subst; [eexists _, _; split; [reflexivity|eassumption]|].
  pose proof (nrel_step m _ _ _ _ _ _ Hr H2) as Hstep. destruct r as [e|].
  - destruct Hstep as [He ->]. destruct (IH _ _ _ _ _ Hr H5) as (g' & chs' & Hg & Hr').
    exists g', chs'. simpl. rewrite He, Hg. auto.
  - destruct Hstep as (g1 & chs1 & Hg1 & Hr1). destruct (IH _ _ _ _ _ Hr1 H5) as (g' & chs' & Hg & Hr').
    exists g', chs'. simpl. rewrite Hg1, Hg. auto.
Qed.

Lemma nspec_total a c : (exists r a', nspec a c r a') \/
  exists s t d ss, c = NAddEdge s t /\ a !! s = Some (d, ss) /\ (2 ^ 64 <= N.of_nat (length ss))%N.
Proof.
  destruct c as [x d|s t|x f].
  - left. destruct (a !! x) eqn:E; eexists _, _; [eapply nspec_node_dup|apply nspec_node]; eauto.
  - destruct (a !! s) as [[d ss]|] eqn:E.
    + destruct (a !! t) eqn:Et.
      * destruct (N.ltb_spec (N.of_nat (length ss)) (2 ^ 64)).
        -- left. eexists _, _. eapply nspec_edge; eauto.
        -- right. exists s, t, d, ss. auto.
      * left. eexists _, _. apply nspec_edge_target; eauto.
    + left. eexists _, _. apply nspec_edge_source; auto.
  - left. destruct (a !! x) as [[d ss]|] eqn:E; eexists _, _; [eapply nspec_write|apply nspec_write_none]; eauto.
Qed.

(** number of nodes = number of names *)
Lemma named_count l : forall m g rs g', ncalls_do (T := T) m g l = Some (rs, g') ->
  length (gr_nodes (ng_graph g)) = size (ng_names g) ->
  length (gr_nodes (ng_graph g')) = size (ng_names g').
Proof.
  induction l as [|c l IH]; intros m g rs g' H Hs; simpl in H; [injection H as <- <-; assumption|].
  assert (forall g1, ncall_do m g c = Ok g1 -> length (gr_nodes (ng_graph g1)) = size (ng_names g1)) as Hstep.
  { intros g1 H1. destruct c as [x d|s t|x f]; simpl in H1.
    - unfold named_add_node in H1. destruct (ng_names g !! x) eqn:E; [discriminate|]. simpl in H1. injection H1 as <-.
      simpl. rewrite map_size_insert_None by assumption. rewrite app_length. simpl. lia.
    - unfold named_add_edge, get_index_of_node in H1. destruct (ng_names g !! s); [|discriminate]. simpl in H1.
      destruct (ng_names g !! t); [|discriminate]. simpl in H1. unfold graph_add_edge in H1.
      destruct (gr_nodes (ng_graph g) !! n) eqn:En; [|discriminate]. simpl in H1.
      destruct (match nd_first n1 with Some _ => _ | None => _ end); simpl in H1; try discriminate.
      injection H1 as <-. simpl. unfold set_first_edge. rewrite En, insert_length. assumption.
    - unfold modify_node, get_index_of_node in H1. destruct (ng_names g !! x); [|discriminate]. simpl in H1.
      destruct (gr_nodes (ng_graph g) !! n) eqn:En; [|discriminate]. injection H1 as <-.
      unfold update_node_data. rewrite En. simpl. rewrite insert_length. assumption. }
  destruct (ncall_do m g c) as [g1|e| |]; try discriminate;
    destruct (ncalls_do m _ l) as [[rs' g'']|] eqn:E; try discriminate; injection H as <- <-; eapply IH; eauto.
Qed.
End named.
