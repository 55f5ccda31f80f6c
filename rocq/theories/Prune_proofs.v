(** * Trees after add-only histories followed by removals *)
From Verif Require Import Base Tree SpecTree Tree_proofs.

Section prune.
Context {T : Type}.
Implicit Types (t : Tree T) (h : history T).

Definition lkids h (D : list nat) (i : nat) : list nat := filter (fun k => k ∉ D) (kids h i).
Lemma lkids_elem h D i k : k ∈ lkids h D i <-> child_of h i k /\ k ∉ D.
Proof. unfold lkids. rewrite elem_of_list_filter, kids_elem. tauto. Qed.
Lemma lkids_nodup h D i : NoDup (lkids h D i).
Proof. apply NoDup_filter, kids_nodup. Qed.
Record pruned t h : Prop := {
  p_len : length (t_nodes t) = length h;
  p_grown : grown h;
  p_free : forall x, x ∈ t_free t -> x < length h;
  p_closed : forall i k, i ∈ t_free t -> child_of h i k -> k ∈ t_free t;
  p_pk : forall i n, t_nodes t !! i = Some n -> n_pk n = i;
  p_nodes : forall i n, i ∉ t_free t -> t_nodes t !! i = Some n ->
    exists p, h !! i = Some (p, n_data n) /\ n_parent n = p /\ n_pk n = i /\
      n_first n = head (lkids h (t_free t) i) /\ n_last n = last (lkids h (t_free t) i) /\
      match p with
      | None => n_prev n = None /\ n_next n = None
      | Some q => exists l r, lkids h (t_free t) q = l ++ i :: r /\ n_prev n = last l /\ n_next n = head r
      end;
}.
Lemma filter_all {A} (P : A -> Prop) `{!forall x, Decision (P x)} (l : list A) : (forall x, x ∈ l -> P x) -> filter P l = l.
Proof.
  induction l as [|x l IH]; intros Hx; [reflexivity|]. rewrite filter_cons, decide_True by (apply Hx; left). rewrite IH; [reflexivity|].
  intros y Hy. apply Hx. right. assumption.
Qed.
Lemma repr_pruned t h : repr t h -> pruned t h.
Proof.
  intros Hr. assert (forall i, lkids h (t_free t) i = kids h i) as Hk.
  { intros i. unfold lkids. rewrite (r_free t h Hr). apply filter_all. intros x _ Hx. apply elem_of_nil in Hx. assumption. }
  split; [apply Hr|apply Hr| | | |].
  - intros x Hx. rewrite (r_free t h Hr) in Hx. apply elem_of_nil in Hx. contradiction.
  - intros i k Hi. rewrite (r_free t h Hr) in Hi. apply elem_of_nil in Hi. contradiction.
  - intros i n Hi. destruct (r_nodes t h Hr i n Hi) as (p & _ & _ & Q3 & _). assumption.
  - intros i n _ Hi. destruct (r_nodes t h Hr i n Hi) as (p & Q1 & Q2 & Q3 & Q4 & Q5 & Q6). exists p. rewrite Hk.
    split; [assumption|]. do 4 (split; [assumption|]). destruct p as [q|]; [|assumption]. rewrite Hk. assumption.
Qed.
Lemma live_node t h i : pruned t h -> i < length h -> exists n, t_nodes t !! i = Some n.
Proof. intros Hp Hi. apply lookup_lt_is_Some_2. rewrite (p_len t h Hp). assumption. Qed.
Lemma contains_spec x l : contains x l = true <-> x ∈ l.
Proof.
  unfold contains. rewrite existsb_exists. split.
  - intros (y & Hy & He). apply Nat.eqb_eq in He as ->. apply elem_of_list_In. assumption.
  - intros Hx. exists x. split; [apply elem_of_list_In; assumption|apply Nat.eqb_refl].
Qed.
Lemma contains_false x l : x ∉ l -> contains x l = false.
Proof. intros Hx. destruct (contains x l) eqn:E; [|reflexivity]. apply contains_spec in E. contradiction. Qed.

(** lookups *)
Lemma pruned_get t h i n : pruned t h -> i ∉ t_free t -> t_nodes t !! i = Some n ->
  get_node t (id_of i) = Ok n /\ get_node_mut t (id_of i) = Ok n /\ node_exists t (id_of i) = true.
Proof.
  intros Hp Hi Hn. unfold get_node, get_node_mut, node_exists. cbn [id_of node_ptr node_pk]. rewrite (contains_false _ _ Hi), Hn.
  destruct (p_nodes t h Hp i n Hi Hn) as (p & _ & _ & -> & _). rewrite Nat.eqb_refl.
  assert (length (t_nodes t) <=? i = false) as -> by (apply Nat.leb_gt; eapply lookup_lt_Some; eauto). auto.
Qed.
Lemma pruned_gone t h i : pruned t h -> i ∈ t_free t ->
  get_node t (id_of i) = Err (NodeWasRemoved (id_of i)) /\ get_node_mut t (id_of i) = Err (NodeWasRemoved (id_of i)) /\ node_exists t (id_of i) = false.
Proof.
  intros Hp Hi. unfold get_node, get_node_mut, node_exists. cbn [id_of node_ptr node_pk].
  assert (length (t_nodes t) <=? i = false) as -> by (apply Nat.leb_gt; rewrite (p_len t h Hp); eapply p_free; eauto).
  assert (contains i (t_free t) = true) as -> by (apply contains_spec; assumption). auto.
Qed.

(** children *)
Lemma pruned_next t h q l i r : pruned t h -> lkids h (t_free t) q = l ++ i :: r ->
  exists n, t_nodes t !! i = Some n /\ n_pk n = i /\ n_next n = head r /\ n_prev n = last l.
Proof.
  intros Hp Hk. assert (i ∈ lkids h (t_free t) q) as Hi by (rewrite Hk; apply elem_of_app; right; left).
  apply lkids_elem in Hi as [[d Hd] Hi]. destruct (live_node t h i Hp ltac:(eapply lookup_lt_Some; eauto)) as [n Hn].
  destruct (p_nodes t h Hp i n Hi Hn) as (p & Q1 & Q2 & Q3 & Q4 & Q5 & Q6). exists n. split; [assumption|]. split; [assumption|].
  rewrite Hd in Q1. injection Q1 as <- _. destruct Q6 as (l' & r' & Hk' & Hpr & Hnx). rewrite Hnx, Hpr. rewrite Hk in Hk'.
  pose proof (lkids_nodup h (t_free t) q) as Hnd. rewrite Hk in Hnd.
  assert (r = r' /\ l = l') as [-> ->]; [|auto].
  clear -Hk' Hnd. revert l' Hk'. induction l as [|a l IH]; intros [|b l'] Hk'; simpl in *.
  - injection Hk' as ->. auto.
  - injection Hk' as -> Hr. apply NoDup_cons in Hnd as [Hnd _]. exfalso. apply Hnd. rewrite Hr. apply elem_of_app. right. left.
  - injection Hk' as -> Hr. apply NoDup_cons in Hnd as [Hnd _]. exfalso. apply Hnd. apply elem_of_app. right. left.
  - injection Hk' as -> Hr. apply NoDup_cons in Hnd as [_ Hnd]. destruct (IH Hnd l' Hr) as [-> ->]. auto.
Qed.
Lemma pruned_siblings t h q r : pruned t h -> forall l fuel, lkids h (t_free t) q = l ++ r -> length r <= fuel ->
  sibling_loop fuel (t_nodes t) (head r) = Ok (map id_of r).
Proof.
  intros Hr. induction r as [|i r IH]; intros l fuel Hk Hf; [destruct fuel; reflexivity|].
  destruct fuel as [|f]; simpl in Hf; [lia|]. simpl.
  destruct (pruned_next t h q l i r Hr Hk) as (n & Hn & Hpk & Hnx & _). rewrite Hn, Hnx, (IH (l ++ [i])), Hpk.
  - reflexivity.
  - rewrite <- app_assoc. assumption.
  - lia.
Qed.
Lemma pruned_children t h i : pruned t h -> i < length h -> i ∉ t_free t -> get_children t (id_of i) = Ok (map id_of (lkids h (t_free t) i)).
Proof.
  intros Hr Hi Hl. destruct (live_node t h i Hr Hi) as [n Hn]. destruct (p_nodes t h Hr i n Hl Hn) as (p & _ & _ & _ & Hf & _).
  unfold get_children. simpl. rewrite Hn, Hf. apply (pruned_siblings t h i _ Hr []); [reflexivity|]. rewrite (p_len t h Hr).
  unfold lkids. etransitivity; [apply filter_length|apply kids_length].
Qed.

(** descendants *)
Lemma pruned_desc_live t h i j : pruned t h -> descendant h i j -> i ∈ t_free t -> j ∈ t_free t.
Proof. intros Hp Hd. induction Hd as [i j Hc|i k j Hc Hd IH]; intros Hi; [eapply p_closed; eauto|]. apply IH. eapply p_closed; eauto. Qed.
Lemma pruned_descendants t h : pruned t h -> forall f i, i < length h -> i ∉ t_free t -> length h - i <= f ->
  exists ds, descendants_rec f t (id_of i) = Ok (map id_of ds) /\ NoDup ds /\ forall j, j ∈ ds <-> descendant h i j /\ j ∉ t_free t.
Proof.
  intros Hr. pose proof (p_grown t h Hr) as Hg. set (D := t_free t).
  induction f as [|f IH]; intros i Hi Hil Hf; [lia|]. cbn [descendants_rec]. rewrite (pruned_children t h i Hr Hi Hil). cbn [obind]. fold D.
  assert (forall ks acc, (forall k, k ∈ ks -> child_of h i k /\ k ∉ D) ->
    NoDup ks -> exists dss, ofold (fun acc child => let* ds := descendants_rec f t child in Ok (acc ++ ds)) (map id_of acc) (map id_of ks)
      = Ok (map id_of (acc ++ dss)) /\ NoDup dss /\ (forall j, j ∈ dss <-> exists k, k ∈ ks /\ descendant h k j /\ j ∉ D)) as Hloop.
  { induction ks as [|k ks IHk]; intros acc Hks Hnd.
    - exists []. simpl. rewrite app_nil_r. split; [reflexivity|]. split; [constructor|]. intros j. split.
      + intros Hj. apply elem_of_nil in Hj. contradiction.
      + intros (k & Hk & _). apply elem_of_nil in Hk. contradiction.
    - pose proof (Hks k (elem_of_list_here _ _)) as [Hk HkD]. pose proof (child_gt h i k Hg Hk) as Hgt.
      assert (k < length h) as Hlt by (destruct Hk as [d Hd]; apply lookup_lt_Some in Hd; assumption).
      destruct (IH k Hlt HkD) as (ds & Hds & Hdn & Hdd); [lia|]. cbn [ofold map]. rewrite Hds. cbn [obind].
      apply NoDup_cons in Hnd as [Hkn Hnd]. rewrite <- map_app.
      destruct (IHk (acc ++ ds)) as (dss & Hss & Hsn & Hsd); [intros k' Hk'; apply Hks; right; assumption|assumption|].
      exists (ds ++ dss). rewrite Hss, app_assoc. split; [reflexivity|]. split.
      + apply NoDup_app. split; [assumption|]. split; [|assumption]. intros j Hj Hj'. apply Hdd in Hj as [Hj _]. apply Hsd in Hj' as (k' & Hk' & Hj' & _).
        eapply (siblings_disjoint h i k k' j); eauto. { apply Hks. right. assumption. } intros ->. contradiction.
      + intros j. rewrite elem_of_app, Hdd, Hsd. split.
        * intros [Hj|(k' & Hk' & Hj)]; [exists k; split; [left|assumption]|exists k'; split; [right; assumption|assumption]].
        * intros (k' & Hk' & Hj). apply elem_of_cons in Hk' as [->|Hk']; [auto|eauto]. }
  destruct (Hloop (lkids h D i) (lkids h D i)) as (dss & Hss & Hsn & Hsd).
  { intros k Hk. apply lkids_elem. assumption. } { apply lkids_nodup. }
  exists (lkids h D i ++ dss). split; [assumption|]. split.
  - apply NoDup_app. split; [apply lkids_nodup|]. split; [|assumption]. intros j Hj Hj'. apply lkids_elem in Hj as [Hj _]. apply Hsd in Hj' as (k & Hk & Hj' & _).
    apply lkids_elem in Hk as [Hk _]. destruct (decide (j = k)) as [->|Hne].
    + apply descendant_gt in Hj'; [lia|assumption].
    + eapply (siblings_disjoint h i j k j); eauto.
  - intros j. rewrite elem_of_app, Hsd, lkids_elem. split.
    + intros [[Hj HjD]|(k & Hk & Hj & HjD)]; [split; [apply tc_once; assumption|assumption]|]. apply lkids_elem in Hk as [Hk _]. split; [eapply tc_l; eauto|assumption].
    + intros [Hd HjD]. inversion Hd as [? ? Hc|? k ? Hc Hd']; subst; [auto|]. right. exists k. split; [|auto]. apply lkids_elem. split; [assumption|].
      intros HkD. apply HjD. eapply pruned_desc_live; eauto.
Qed.

(** ** one removal *)
Lemma update_at_spec (nodes : list (Node T)) i f : i < length nodes -> exists nodes', update_at nodes i f = Ok nodes' /\ length nodes' = length nodes /\
  forall x n', nodes' !! x = Some n' -> exists n, nodes !! x = Some n /\ n' = (if decide (x = i) then f n else n).
Proof.
  intros Hi. unfold update_at. destruct (lookup_lt_is_Some_2 nodes i Hi) as [n Hn]. rewrite Hn. eexists. split; [reflexivity|].
  split; [apply insert_length|]. intros x n' Hx. destruct (decide (x = i)) as [->|Hne].
  - rewrite list_lookup_insert in Hx by assumption. injection Hx as <-. eauto.
  - rewrite list_lookup_insert_ne in Hx by congruence. eauto.
Qed.
Lemma opt_eqb_spec a b : opt_eqb a b = true <-> a = Some b.
Proof. destruct a as [x|]; simpl; [rewrite Nat.eqb_eq; split; congruence|split; discriminate]. Qed.

Lemma filter_filter_lkids h D D' i : (forall x, x ∈ D -> x ∈ D') -> lkids h D' i = filter (fun k => k ∉ D') (lkids h D i).
Proof.
  intros Hsub. unfold lkids. induction (kids h i) as [|k ks IH]; [reflexivity|]. rewrite !filter_cons.
  destruct (decide (k ∉ D')) as [H1|H1], (decide (k ∉ D)) as [H2|H2].
  - rewrite filter_cons, decide_True by assumption. rewrite IH. reflexivity.
  - exfalso. apply H2. intros Hx. apply H1. auto.
  - rewrite filter_cons, decide_False by assumption. assumption.
  - assumption.
Qed.
Lemma last_app_tail {A} (l : list A) x r : last (l ++ x :: r) = last (x :: r).
Proof. induction l as [|a l IH]; [reflexivity|]. simpl app. destruct (l ++ x :: r) eqn:E; [destruct l; discriminate|]. rewrite <- IH. reflexivity. Qed.

Definition detach (pn : Node T) j nx pv : Node T :=
  let pn1 := if opt_eqb (n_first pn) j then with_first pn nx else pn in
  if opt_eqb (n_last pn1) j then with_last pn1 pv else pn1.
Lemma detach_fields pn j nx pv :
  n_parent (detach pn j nx pv) = n_parent pn /\ n_pk (detach pn j nx pv) = n_pk pn /\ n_data (detach pn j nx pv) = n_data pn /\
  n_first (detach pn j nx pv) = (if decide (n_first pn = Some j) then nx else n_first pn) /\
  n_last (detach pn j nx pv) = (if decide (n_last pn = Some j) then pv else n_last pn) /\
  n_next (detach pn j nx pv) = n_next pn /\ n_prev (detach pn j nx pv) = n_prev pn.
Proof.
  unfold detach.
  assert (forall o, opt_eqb o j = if decide (o = Some j) then true else false) as He.
  { intros o. destruct (decide (o = Some j)) as [H|H]; [apply opt_eqb_spec; assumption|]. destruct (opt_eqb o j) eqn:E; [|reflexivity]. apply opt_eqb_spec in E. contradiction. }
  rewrite !He. destruct (decide (n_first pn = Some j)); cbn [with_first n_last]; destruct (decide (n_last pn = Some j)); auto 12.
Qed.

Lemma remove_ok t h j : pruned t h -> j < length h -> j ∉ t_free t ->
  exists t', remove_branch (id_of j) t = (Ok tt, t') /\ pruned t' h /\
    (forall x, x ∈ t_free t' <-> x ∈ t_free t \/ in_branch h j x).
Proof.
  intros Hp Hj Hl. destruct (live_node t h j Hp Hj) as [n Hn]. destruct (pruned_get t h j n Hp Hl Hn) as (Hget & _).
  destruct (pruned_descendants t h Hp (S (length (t_nodes t))) j Hj Hl) as (ds & Hds & Hdn & Hdd); [rewrite (p_len t h Hp); lia|].
  unfold remove_branch, get_descendants. rewrite Hget. cbn [obind]. rewrite Hds. cbn [obind].
  destruct (p_nodes t h Hp j n Hl Hn) as (p & Q1 & Q2 & Q3 & Q4 & Q5 & Q6).
  set (D := t_free t) in *. set (D' := D ++ map node_ptr (map id_of ds) ++ [node_ptr (id_of j); node_ptr (id_of j)]).
  assert (forall x, x ∈ D' <-> x ∈ D \/ in_branch h j x) as HD'.
  { intros x. unfold D'. rewrite !elem_of_app, !elem_of_cons. unfold in_branch.
    assert (x ∈ map node_ptr (map id_of ds) <-> x ∈ ds) as ->.
    { rewrite map_map. simpl. rewrite map_id. reflexivity. }
    rewrite Hdd. cbn [id_of node_ptr]. split.
    - intros [?|[[? _]|[?|[?|Hx]]]]; auto. apply elem_of_nil in Hx. contradiction.
    - intros [?|[->|?]]; auto. destruct (decide (x ∈ D)); auto. }
  (* the live children lists after the removal *)
  assert (forall i, i ∉ D' -> lkids h D' i = filter (fun k => k <> j) (lkids h D i)) as Hlk.
  { intros i Hi. rewrite (filter_filter_lkids h D D') by (intros x Hx; apply HD'; auto). apply filter_ext_in. intros k Hk. apply lkids_elem in Hk as [Hk HkD].
    rewrite HD'. split.
    - intros Hn' ->. apply Hn'. right. left. reflexivity.
    - intros Hne [?|[?|Hd]]; [contradiction|contradiction|]. apply Hi. apply HD'. right.
      apply descendant_last in Hd as (b & Hb & Hd). pose proof (child_unique h b i k Hb Hk) as ->. destruct Hd as [->|Hd]; [left; reflexivity|right; assumption]. }
  (* closing: a tree whose nodes are the old ones up to three link fields *)
  assert (forall nodes', length nodes' = length (t_nodes t) ->
    (forall x n', nodes' !! x = Some n' -> exists n0, t_nodes t !! x = Some n0 /\
       n_parent n' = n_parent n0 /\ n_pk n' = n_pk n0 /\ n_data n' = n_data n0 /\
       n_first n' = (if decide (p = Some x) then (if decide (n_first n0 = Some j) then n_next n else n_first n0) else n_first n0) /\
       n_last n' = (if decide (p = Some x) then (if decide (n_last n0 = Some j) then n_prev n else n_last n0) else n_last n0) /\
       n_next n' = (if decide (n_prev n = Some x) then n_next n else n_next n0) /\
       n_prev n' = (if decide (n_next n = Some x) then n_prev n else n_prev n0)) ->
    pruned (mkTree nodes' D' (t_counter t)) h) as Hclose.
  { intros nodes' Hlen Hnodes. split; cbn [t_nodes t_free].
    - rewrite Hlen. apply Hp.
    - apply Hp.
    - intros x Hx. apply HD' in Hx as [Hx|[->|Hx]]; [eapply p_free; eauto|assumption|].
      apply descendant_last in Hx as (b & [d Hb] & _). eapply lookup_lt_Some; eauto.
    - intros i k Hi Hk. apply HD' in Hi as [Hi|[->|Hi]]; apply HD'.
      + left. eapply p_closed; eauto.
      + right. right. apply tc_once. assumption.
      + right. right. eapply tc_r; eauto.
    - intros i n' Hn'. destruct (Hnodes i n' Hn') as (n0 & Hn0 & _ & -> & _). eapply p_pk; eauto.
    - intros i n' Hi Hn'. destruct (Hnodes i n' Hn') as (n0 & Hn0 & M1 & M2 & M3 & M4 & M5 & M6 & M7).
      assert (i ∉ D) as HiD by (intros Hx; apply Hi; apply HD'; auto).
      assert (i <> j) as Hij by (intros ->; apply Hi; apply HD'; right; left; reflexivity).
      destruct (p_nodes t h Hp i n0 HiD Hn0) as (pi & R1 & R2 & R3 & R4 & R5 & R6). fold D in R4, R5, R6.
      exists pi. rewrite M1, M2, M3. split; [assumption|]. split; [assumption|]. split; [assumption|].
      rewrite (Hlk i Hi).
      assert (forall q, lkids h D q = [] \/ lkids h D q <> []) as _ by (intros q; destruct (lkids h D q); [left; reflexivity|right; discriminate]).
      split; [|split].
      + (* first child *)
        rewrite M4. destruct (decide (p = Some i)) as [Hpi|Hpi].
        * rewrite Hpi in Q6. destruct Q6 as (l & r & Hk & Hpr & Hnx). rewrite R4, Hnx, Hk. rewrite filter_app, filter_cons_False by auto.
          pose proof (lkids_nodup h D i) as Hnd. rewrite Hk in Hnd. apply NoDup_app in Hnd as (_ & Hnl & Hnr). apply NoDup_cons in Hnr as [Hnr _].
          rewrite (filter_all _ r) by (intros x Hx ->; contradiction).
          rewrite (filter_all _ l) by (intros x Hx ->; apply (Hnl j Hx); left).
          destruct l as [|a l]; simpl; [rewrite decide_True by reflexivity; reflexivity|]. rewrite decide_False; [reflexivity|].
          intros [= ->]. apply (Hnl j); left.
        * rewrite R4, filter_all; [reflexivity|]. intros x Hx ->. apply lkids_elem in Hx as [[d Hx] _]. congruence.
      + rewrite M5. destruct (decide (p = Some i)) as [Hpi|Hpi].
        * rewrite Hpi in Q6. destruct Q6 as (l & r & Hk & Hpr & Hnx). rewrite R5, Hpr, Hk. rewrite filter_app, filter_cons_False by auto.
          pose proof (lkids_nodup h D i) as Hnd. rewrite Hk in Hnd. apply NoDup_app in Hnd as (_ & Hnl & Hnr). apply NoDup_cons in Hnr as [Hnr _].
          rewrite (filter_all _ r) by (intros x Hx ->; contradiction).
          rewrite (filter_all _ l) by (intros x Hx ->; apply (Hnl j Hx); left).
          rewrite last_app_tail. destruct r as [|b r].
          -- simpl. rewrite decide_True by reflexivity. rewrite app_nil_r. reflexivity.
          -- rewrite last_app_tail. change (last (j :: b :: r)) with (last (b :: r)). rewrite decide_False; [reflexivity|].
             intros Hx. apply last_Some_elem_of in Hx. contradiction.
        * rewrite R5, filter_all; [reflexivity|]. intros x Hx ->. apply lkids_elem in Hx as [[d Hx] _]. congruence.
      + destruct pi as [q|].
        * destruct R6 as (l & r & Hk & Hpr & Hnx).
          assert (q ∉ D') as HqD'.
          { intros Hq. apply Hi. apply HD' in Hq. apply HD'. destruct Hq as [Hq|[->|Hq]].
            - left. eapply p_closed; eauto. exists (n_data n0). assumption.
            - right. right. apply tc_once. exists (n_data n0). assumption.
            - right. right. eapply tc_r; [exact Hq|]. exists (n_data n0). assumption. }
          rewrite (Hlk q HqD'), M6, M7. exists (filter (fun k => k <> j) l), (filter (fun k => k <> j) r).
          pose proof (lkids_nodup h D q) as Hnd.
          split; [rewrite Hk, filter_app, filter_cons_True by assumption; reflexivity|].
          destruct (decide (p = Some q)) as [Hpq|Hpq].
          -- (* a sibling of j *)
             rewrite Hpq in Q6. destruct Q6 as (lj & rj & Hkj & Hprj & Hnxj). rewrite Hprj, Hnxj, Hpr, Hnx.
             rewrite Hkj in Hk, Hnd.
             assert ((exists m, lj = l ++ i :: m /\ r = m ++ j :: rj) \/ (exists m, l = lj ++ j :: m /\ rj = m ++ i :: r)) as [(m & -> & ->)|(m & -> & ->)].
             { clear -Hk Hij. revert l Hk. induction lj as [|a lj IH]; intros l Hk.
               - destruct l as [|b l]; simpl in Hk; [injection Hk as -> _; contradiction|]. injection Hk as <- ->. right. exists l. auto.
               - destruct l as [|b l]; simpl in Hk.
                 + injection Hk as -> <-. left. exists lj. auto.
                 + injection Hk as <- Hk. destruct (IH l Hk) as [(m & -> & ->)|(m & -> & ->)]; [left; exists m; auto|right; exists m; auto]. }
             ++ (* i before j *)
                rewrite <- !app_assoc in Hnd. simpl in Hnd. apply NoDup_app in Hnd as (_ & Hnl & Hnd). apply NoDup_cons in Hnd as [Hni Hnd].
                apply NoDup_app in Hnd as (_ & Hnm & Hnd). apply NoDup_cons in Hnd as [Hnj _].
                rewrite (filter_all _ l) by (intros x Hx ->; eapply Hnl; [exact Hx|]; right; apply elem_of_app; right; left).
                rewrite filter_app, filter_cons_False by auto.
                rewrite (filter_all _ m) by (intros x Hx ->; eapply Hnm; [exact Hx|]; left).
                rewrite (filter_all _ rj) by (intros x Hx ->; contradiction).
                split.
                ** match goal with |- context[decide ?P] => destruct (decide P) as [Hd|_] end; [|reflexivity].
                   exfalso. apply Hni. destruct rj as [|b rj]; [discriminate|]. injection Hd as ->. apply elem_of_app. right. right. left.
                ** rewrite last_app_tail. destruct m as [|b m].
                   --- simpl. rewrite decide_True by reflexivity. reflexivity.
                   --- rewrite decide_False; [reflexivity|]. change (last (i :: b :: m)) with (last (b :: m)). intros Hx. apply last_Some_elem_of in Hx.
                       apply Hni. apply elem_of_app. left. assumption.
             ++ (* i behind j *)
                apply NoDup_app in Hnd as (_ & Hnl & Hnd). apply NoDup_cons in Hnd as [Hnj Hnd].
                apply NoDup_app in Hnd as (_ & Hnm & Hnd). apply NoDup_cons in Hnd as [Hni _].
                rewrite filter_app, filter_cons_False by auto.
                rewrite (filter_all _ m) by (intros x Hx ->; apply Hnj; apply elem_of_app; left; assumption).
                rewrite (filter_all _ lj) by (intros x Hx ->; apply (Hnl j Hx); left).
                rewrite (filter_all _ r) by (intros x Hx ->; apply Hnj; apply elem_of_app; right; right; assumption).
                split.
                ** destruct m as [|b m].
                   --- simpl. rewrite decide_True by reflexivity. rewrite app_nil_r. reflexivity.
                   --- simpl. rewrite decide_False.
                       +++ rewrite !last_app_tail. reflexivity.
                       +++ intros [= ->]. apply (Hnm i); left.
                ** match goal with |- context[decide ?P] => destruct (decide P) as [Hd|_] end; [|reflexivity].
                   exfalso. apply last_Some_elem_of in Hd. apply (Hnl i Hd). right. apply elem_of_app. right. left.
          -- (* not a sibling *)
             assert (forall x, x ∈ lkids h D q -> x <> j) as Hx.
             { intros x Hx ->. apply lkids_elem in Hx as [[d Hx] _]. congruence. }
             rewrite Hk in Hx. rewrite (filter_all _ l) by (intros x Hx'; apply Hx; apply elem_of_app; left; assumption).
             rewrite (filter_all _ r) by (intros x Hx'; apply Hx; apply elem_of_app; right; right; assumption).
             assert (forall o, (exists lj rj q', p = Some q' /\ lkids h D q' = lj ++ j :: rj /\ (o = last lj \/ o = head rj)) \/ o = None -> o <> Some i) as Hno.
             { intros o Ho ->. destruct Ho as [(lj & rj & q' & Hq' & Hkj & Ho)|?]; [|discriminate].
               assert (i ∈ lkids h D q') as Hin.
               { rewrite Hkj. apply elem_of_app. destruct Ho as [Ho|Ho]; [left; apply last_Some_elem_of; auto|right; right; destruct rj; [discriminate|]; injection Ho as ->; left]. }
               apply lkids_elem in Hin as [[d Hin] _]. congruence. }
             assert (n_next n <> Some i /\ n_prev n <> Some i) as [Hn1 Hn2].
             { destruct p as [q'|].
               - destruct Q6 as (lj & rj & Hkj & Hprj & Hnxj). rewrite Hprj, Hnxj. split; apply Hno; left; exists lj, rj, q'; auto.
               - destruct Q6 as [-> ->]. split; discriminate. }
             rewrite !decide_False by assumption. auto.
        * destruct R6 as [R6 R7]. rewrite M6, M7, R6, R7.
          assert (n_next n <> Some i /\ n_prev n <> Some i) as [Hn1 Hn2].
          { destruct p as [q'|].
            - destruct Q6 as (lj & rj & Hkj & Hprj & Hnxj). rewrite Hprj, Hnxj.
              split; intros Hx.
              + assert (i ∈ lkids h D q') as Hin by (rewrite Hkj; apply elem_of_app; right; right; destruct rj; [discriminate|]; injection Hx as ->; left).
                apply lkids_elem in Hin as [[d Hin] _]. congruence.
              + assert (i ∈ lkids h D q') as Hin by (rewrite Hkj; apply elem_of_app; left; apply last_Some_elem_of; auto).
                apply lkids_elem in Hin as [[d Hin] _]. congruence.
            - destruct Q6 as [-> ->]. split; discriminate. }
          rewrite !decide_False by assumption. auto. }
  (* the updates *)
  rewrite Q2. destruct p as [q|].
  - assert (forall x, n_next n = Some x \/ n_prev n = Some x -> x < length (t_nodes t)) as Hrange.
    { destruct Q6 as (lj & rj & Hkj & Hprj & Hnxj). rewrite Hprj, Hnxj. intros x Hx. rewrite (p_len t h Hp).
      assert (x ∈ lkids h D q) as Hin.
      { rewrite Hkj. apply elem_of_app. destruct Hx as [Hx|Hx]; [right; right; destruct rj; [discriminate|]; injection Hx as ->; left|left; apply last_Some_elem_of; auto]. }
      apply lkids_elem in Hin as [Hin _]. destruct Hin as [d Hin]. eapply lookup_lt_Some; eauto. }
    assert (q < length (t_nodes t)) as Hq.
    { rewrite (p_len t h Hp). pose proof (p_grown t h Hp j q _ Q1). lia. }
    match goal with |- context[update_at (t_nodes t) q ?f] => destruct (update_at_spec (t_nodes t) q f Hq) as (nodes1 & -> & Hl1 & H1) end.
    cbn [obind].
    assert (exists nodes2, match n_prev n with None => Ok nodes1 | Some i => update_at nodes1 i (fun n0 => with_next n0 (n_next n)) end = Ok nodes2 /\
      length nodes2 = length nodes1 /\ forall x n', nodes2 !! x = Some n' -> exists n0, nodes1 !! x = Some n0 /\ n' = (if decide (n_prev n = Some x) then with_next n0 (n_next n) else n0)) as (nodes2 & -> & Hl2 & H2).
    { destruct (n_prev n) as [i|] eqn:E.
      - destruct (update_at_spec nodes1 i (fun n0 => with_next n0 (n_next n))) as (nodes2 & -> & Hl2 & H2); [rewrite Hl1; apply Hrange; auto|].
        exists nodes2. split; [reflexivity|]. split; [assumption|]. intros x n' Hx. destruct (H2 x n' Hx) as (n0 & Hn0 & ->). exists n0. split; [assumption|].
        destruct (decide (x = i)) as [->|Hne]; [rewrite decide_True by reflexivity; reflexivity|rewrite decide_False by congruence; reflexivity].
      - exists nodes1. split; [reflexivity|]. split; [reflexivity|]. intros x n' Hx. exists n'. rewrite decide_False by discriminate. auto. }
    cbn [obind].
    assert (exists nodes3, match n_next n with None => Ok nodes2 | Some i => update_at nodes2 i (fun n0 => with_prev n0 (n_prev n)) end = Ok nodes3 /\
      length nodes3 = length nodes2 /\ forall x n', nodes3 !! x = Some n' -> exists n0, nodes2 !! x = Some n0 /\ n' = (if decide (n_next n = Some x) then with_prev n0 (n_prev n) else n0)) as (nodes3 & -> & Hl3 & H3).
    { destruct (n_next n) as [i|] eqn:E.
      - destruct (update_at_spec nodes2 i (fun n0 => with_prev n0 (n_prev n))) as (nodes3 & -> & Hl3 & H3); [rewrite Hl2, Hl1; apply Hrange; auto|].
        exists nodes3. split; [reflexivity|]. split; [assumption|]. intros x n' Hx. destruct (H3 x n' Hx) as (n0 & Hn0 & ->). exists n0. split; [assumption|].
        destruct (decide (x = i)) as [->|Hne]; [rewrite decide_True by reflexivity; reflexivity|rewrite decide_False by congruence; reflexivity].
      - exists nodes2. split; [reflexivity|]. split; [reflexivity|]. intros x n' Hx. exists n'. rewrite decide_False by discriminate. auto. }
    cbn [obind]. eexists. split; [reflexivity|]. split; [|exact HD'].
    apply Hclose; [congruence|]. intros x n' Hx. destruct (H3 x n' Hx) as (n2 & Hx2 & ->). destruct (H2 x n2 Hx2) as (n1 & Hx1 & ->). destruct (H1 x n1 Hx1) as (n0 & Hx0 & ->).
    exists n0. split; [assumption|].
    change (node_ptr (id_of j)) with j. fold (detach n0 j (n_next n) (n_prev n)).
    destruct (detach_fields n0 j (n_next n) (n_prev n)) as (F1 & F2 & F3 & F4 & F5 & F6 & F7).
    destruct (decide (Some q = Some x)) as [[= <-]|Hqx].
    + rewrite (decide_True (P := q = q)) by reflexivity.
      destruct (decide (n_next n = Some q)), (decide (n_prev n = Some q)); cbn [with_next with_prev n_parent n_pk n_data n_first n_last n_next n_prev]; auto 12.
    + rewrite (decide_False (P := x = q)) by congruence.
      destruct (decide (n_next n = Some x)), (decide (n_prev n = Some x)); cbn [with_next with_prev n_parent n_pk n_data n_first n_last n_next n_prev]; auto 12.
  - destruct Q6 as [Hpr Hnx]. rewrite Hpr, Hnx. cbn [obind]. eexists. split; [reflexivity|]. split; [|exact HD'].
    apply Hclose; [reflexivity|]. intros x n' Hx. exists n'. split; [assumption|]. rewrite Hpr, Hnx. rewrite !decide_False by discriminate. auto 12.
Qed.

(** ** the queries *)
Lemma pruned_nth t h q r : pruned t h -> forall l k, lkids h (t_free t) q = l ++ r ->
  nth_child_loop (t_nodes t) (head r) k = Ok (r !! k ≫= fun i => t_nodes t !! i).
Proof.
  intros Hr. induction r as [|i r IH]; intros l k Hk; [destruct k; reflexivity|].
  destruct (pruned_next t h q l i r Hr Hk) as (n & Hn & _ & Hnx & _). destruct k as [|k]; cbn [head nth_child_loop]; rewrite Hn; [symmetry; exact (f_equal Ok Hn)|].
  rewrite Hnx. apply (IH (l ++ [i])). rewrite <- app_assoc. assumption.
Qed.
Lemma pruned_nth_child t h i n k : pruned t h -> i ∉ t_free t -> t_nodes t !! i = Some n ->
  match lkids h (t_free t) i !! k with
  | Some j => exists c, get_nth_child t n k = Ok c /\ get_nth_child_or_none t n k = Ok (Some c) /\ get_node t (id_of j) = Ok c /\
                        t_nodes t !! j = Some c /\ j ∉ t_free t
  | None => get_nth_child t n k = Err (ChildDoesNotExists k) /\ get_nth_child_or_none t n k = Ok None
  end.
Proof.
  intros Hp Hi Hn. destruct (p_nodes t h Hp i n Hi Hn) as (p & _ & _ & _ & Hf & _). unfold get_nth_child, get_nth_child_or_none.
  rewrite Hf, (pruned_nth t h i _ Hp [] k eq_refl). cbn [obind].
  destruct (lkids h (t_free t) i !! k) as [j|] eqn:E; cbn; [|auto].
  assert (j ∈ lkids h (t_free t) i) as Hj by (eapply elem_of_list_lookup_2; eauto). apply lkids_elem in Hj as [[d Hd] Hj].
  destruct (live_node t h j Hp ltac:(eapply lookup_lt_Some; eauto)) as [c Hc]. exists c. rewrite Hc. destruct (pruned_get t h j c Hp Hj Hc) as (Hg & _). auto.
Qed.
Lemma pruned_path t h path : pruned t h -> forall i n, i ∉ t_free t -> t_nodes t !! i = Some n ->
  match walk (lkids h (t_free t)) i path with
  | Some j => exists c, path_loop t n path = Ok (Some c) /\ get_node t (id_of j) = Ok c
  | None => path_loop t n path = Ok None
  end.
Proof.
  intros Hp. induction path as [|k path IH]; intros i n Hi Hn; cbn [walk path_loop].
  - exists n. split; [reflexivity|]. apply (pruned_get t h i n Hp Hi Hn).
  - pose proof (pruned_nth_child t h i n k Hp Hi Hn) as Hk. destruct (lkids h (t_free t) i !! k) as [j|].
    + destruct Hk as (c & _ & -> & _ & Hc & Hj). cbn [obind]. apply (IH j c Hj Hc).
    + destruct Hk as [_ ->]. reflexivity.
Qed.
Lemma filter_sublist {A} (P : A -> Prop) `{!forall x, Decision (P x)} (l : list A) : filter P l `sublist_of` l.
Proof. induction l as [|x l IH]; [constructor|]. rewrite filter_cons. destruct (decide (P x)); constructor; assumption. Qed.
Lemma pruned_forest t h (gone : nat -> Prop) : pruned t h -> (forall x, x ∈ t_free t <-> gone x) -> is_forest t h gone (lkids h (t_free t)).
Proof.
  intros Hp Hx. split.
  - intros i p d Hi Hg. assert (i ∉ t_free t) as Hl by (rewrite Hx; assumption).
    destruct (live_node t h i Hp ltac:(eapply lookup_lt_Some; eauto)) as [n Hn]. exists n. destruct (pruned_get t h i n Hp Hl Hn) as (-> & -> & ->).
    do 3 (split; [reflexivity|]). destruct (p_nodes t h Hp i n Hl Hn) as (p' & Q1 & _). congruence.
  - intros i Hi Hg. apply (pruned_gone t h i Hp). apply Hx. assumption.
  - intros x Hs. unfold node_exists, get_node, get_node_mut.
    destruct (length (t_nodes t) <=? node_ptr x) eqn:El; [eauto|]. apply Nat.leb_gt in El.
    destruct (lookup_lt_is_Some_2 _ _ El) as [n Hn]. rewrite Hn, (p_pk t h Hp _ _ Hn).
    destruct (node_ptr x =? node_pk x) eqn:E; [|destruct (contains (node_pk x) (t_free t)), (contains (node_ptr x) (t_free t)); eauto].
    exfalso. apply Nat.eqb_eq in E. apply (Hs (node_ptr x)); [rewrite <- (p_len t h Hp); assumption|]. destruct x as [a b]. simpl in *. subst. reflexivity.
  - intros i k. rewrite lkids_elem, Hx. reflexivity.
  - intros i. apply filter_sublist.
  - intros i Hi Hg. apply pruned_children; auto. rewrite Hx. assumption.
  - intros i Hi Hg. destruct (pruned_descendants t h Hp (S (length (t_nodes t))) i Hi) as (ds & Hds & Hdn & Hdd); [rewrite Hx; assumption|rewrite (p_len t h Hp); lia|].
    exists ds. split; [assumption|]. split; [assumption|]. intros j. rewrite Hdd, Hx. reflexivity.
  - intros i k n Hn. unfold get_node in Hn. cbn [id_of node_ptr node_pk] in Hn. destruct (length (t_nodes t) <=? i); [discriminate|].
    destruct (contains i (t_free t)) eqn:Ec; [discriminate|]. destruct (t_nodes t !! i) as [n'|] eqn:E; [|discriminate]. destruct (n_pk n' =? i); [|discriminate]. injection Hn as ->.
    assert (i ∉ t_free t) as Hl by (intros Hl; apply contains_spec in Hl; congruence).
    pose proof (pruned_nth_child t h i n k Hp Hl E) as Hk. destruct (lkids h (t_free t) i !! k) as [j|]; [|assumption].
    destruct Hk as (c & H1 & H2 & H3 & _). eauto.
  - intros i path Hi Hg. assert (i ∉ t_free t) as Hl by (rewrite Hx; assumption). destruct (live_node t h i Hp Hi) as [n Hn].
    unfold get_by_path_or_none. destruct (pruned_get t h i n Hp Hl Hn) as (-> & _). cbn [obind]. apply pruned_path; assumption.
Qed.

(** ** any number of removals *)
Lemma remove_counter x t : t_counter (snd (remove_branch x t)) = t_counter t.
Proof.
  unfold remove_branch. match goal with |- context[match ?r with Ok _ => _ | _ => _ end] => set (z := r) end.
  assert (forall t', z = Ok t' -> t_counter t' = t_counter t) as Hz; [|destruct z; simpl; auto].
  intros t' Hz. subst z. repeat match goal with H : obind ?m _ = Ok _ |- _ => destruct m; cbn [obind] in H; [|discriminate..] end. injection Hz as <-. reflexivity.
Qed.
Lemma do_removes_ok h js : forall t before, pruned t h -> (forall x, x ∈ t_free t <-> removed h before x) -> removable h before js ->
  exists t', do_removes js t = (Ok tt, t') /\ pruned t' h /\ (forall x, x ∈ t_free t' <-> removed h (before ++ js) x) /\ t_counter t' = t_counter t.
Proof.
  induction js as [|j js IH]; intros t before Hp Hf Hr; cbn [do_removes removable] in *.
  - exists t. rewrite app_nil_r. auto.
  - destruct Hr as (Hj & Hn & Hr). destruct (remove_ok t h j Hp Hj) as (t1 & H1 & Hp1 & Hf1); [rewrite Hf; assumption|].
    rewrite H1. destruct (IH t1 (before ++ [j]) Hp1) as (t2 & H2 & Hp2 & Hf2 & Hc2).
    + intros x. rewrite Hf1, Hf. unfold removed. split.
      * intros [(k & Hk & Hb)|Hb]; [exists k|exists j]; (split; [|assumption]); apply elem_of_app; [left; assumption|right; left].
      * intros (k & Hk & Hb). apply elem_of_app in Hk as [Hk|Hk]; [left; eauto|]. apply elem_of_list_singleton in Hk as ->. auto.
    + assumption.
    + exists t2. split; [assumption|]. split; [assumption|]. split; [rewrite <- app_assoc in Hf2; exact Hf2|].
      rewrite Hc2. pose proof (remove_counter (id_of j) t) as Hc. rewrite H1 in Hc. exact Hc.
Qed.
Lemma free_tail t j t' : remove_branch (id_of j) t = (Ok tt, t') -> exists l, t_free t' = l ++ [j; j].
Proof.
  unfold remove_branch. match goal with |- context[match ?r with Ok _ => _ | _ => _ end] => set (z := r) end.
  assert (forall t', z = Ok t' -> exists l, t_free t' = l ++ [j; j]) as Hz; [|destruct z; intros [= <-]; auto].
  intros t1 Hz. subst z. repeat match goal with H : obind ?m _ = Ok _ |- _ => destruct m; cbn [obind] in H; [|discriminate..] end. injection Hz as <-. cbn [t_free].
  eexists. rewrite app_assoc. reflexivity.
Qed.
End prune.
