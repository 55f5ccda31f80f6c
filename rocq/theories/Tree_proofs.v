(** * Proofs about tree.rs: add-only histories *)
From Verif Require Import Base Tree SpecTree.

Section proofs.
Context {T : Type}.
Implicit Types (h : history T) (t : Tree T).

Lemma kids_elem h j i : i ∈ kids h j <-> child_of h j i.
Proof.
  unfold kids, child_of. rewrite elem_of_list_filter, elem_of_seq. split.
  - intros [Hp Hi]. destruct (h !! i) as [[p d]|]; simpl in Hp; [|discriminate]. subst. eauto.
  - intros [d Hd]. rewrite Hd. split; [reflexivity|]. apply lookup_lt_Some in Hd. lia.
Qed.
Lemma kids_nodup h j : NoDup (kids h j).
Proof. apply NoDup_filter, NoDup_ListNoDup, seq_NoDup. Qed.
Lemma filter_ext_in {A} (P Q : A -> Prop) `{!forall x, Decision (P x), !forall x, Decision (Q x)} (l : list A) :
  (forall x, x ∈ l -> P x <-> Q x) -> filter P l = filter Q l.
Proof.
  induction l as [|x l IH]; intros Hx; [reflexivity|]. rewrite !filter_cons, IH by (intros y Hy; apply Hx; right; assumption).
  destruct (decide (P x)) as [Hp|Hp], (decide (Q x)) as [Hq|Hq]; try reflexivity; exfalso;
  [apply Hq, (Hx x)|apply Hp, (Hx x)]; try assumption; left.
Qed.
Lemma kids_app h p d j : kids (h ++ [(p, d)]) j = kids h j ++ (if decide (p = Some j) then [length h] else []).
Proof.
  unfold kids. rewrite app_length. simpl. rewrite seq_app, filter_app. f_equal.
  - apply filter_ext_in. intros i Hi. apply elem_of_seq in Hi. cbv beta. rewrite lookup_app_l by lia. reflexivity.
  - simpl. rewrite filter_cons. rewrite lookup_app_r by lia. replace (length h - length h) with 0 by lia. simpl.
    destruct (decide (p = Some j)); reflexivity.
Qed.
Lemma kids_lt h j i : i ∈ kids h j -> i < length h.
Proof. intros Hi. apply kids_elem in Hi as [d Hd]. apply lookup_lt_Some in Hd. assumption. Qed.
Lemma kids_gt h j i : grown h -> i ∈ kids h j -> j < i.
Proof. intros Hg Hi. apply kids_elem in Hi as [d Hd]. eauto. Qed.
Lemma kids_none h j : grown h -> length h <= j -> kids h j = [].
Proof.
  intros Hg Hj. destruct (kids h j) as [|i l] eqn:E; [reflexivity|]. assert (i ∈ kids h j) as Hi by (rewrite E; left).
  pose proof (kids_gt h j i Hg Hi). pose proof (kids_lt h j i Hi). lia.
Qed.
Lemma grown_app h p d : grown h -> (forall q, p = Some q -> q < length h) -> grown (h ++ [(p, d)]).
Proof.
  intros Hg Hp i q e Hi. apply lookup_app_Some in Hi as [Hi|[Hl Hi]]; [eauto|].
  apply list_lookup_singleton_Some in Hi as [Hi [= -> ->]]. specialize (Hp q eq_refl). lia.
Qed.

(** ** the arena that represents a history *)
Definition siblings_ok h (p : option nat) (i : nat) (n : Node T) : Prop :=
  match p with
  | None => n_prev n = None /\ n_next n = None
  | Some q => exists l r, kids h q = l ++ i :: r /\ n_prev n = last l /\ n_next n = head r
  end.
Definition node_ok h (i : nat) (n : Node T) : Prop :=
  exists p, h !! i = Some (p, n_data n) /\ n_parent n = p /\ n_pk n = i /\
    n_first n = head (kids h i) /\ n_last n = last (kids h i) /\ siblings_ok h p i n.
Record repr t h : Prop := {
  r_free : t_free t = [];
  r_counter : t_counter t = length h;
  r_len : length (t_nodes t) = length h;
  r_grown : grown h;
  r_nodes : forall i n, t_nodes t !! i = Some n -> node_ok h i n;
}.

Lemma repr_new : repr tree_new [].
Proof.
  split; try reflexivity.
  - intros i p d Hi. rewrite lookup_nil in Hi. discriminate.
  - intros i n Hi. simpl in Hi. rewrite lookup_nil in Hi. discriminate.
Qed.

Lemma repr_node t h i p d : repr t h -> h !! i = Some (p, d) -> exists n, t_nodes t !! i = Some n /\ node_ok h i n /\ n_data n = d /\ n_parent n = p.
Proof.
  intros Hr Hi. destruct (lookup_lt_is_Some_2 (t_nodes t) i) as [n Hn].
  { rewrite (r_len t h Hr). eapply lookup_lt_Some; eauto. }
  exists n. split; [assumption|]. pose proof (r_nodes t h Hr i n Hn) as Ho. split; [assumption|].
  destruct Ho as (q & Hq & Hp & _). rewrite Hi in Hq. injection Hq as -> ->. auto.
Qed.

Lemma exists_repr t h x : repr t h -> (node_exists t x = true <-> exists i, i < length h /\ x = id_of i).
Proof.
  intros Hr. unfold node_exists. rewrite (r_free t h Hr). simpl.
  destruct (length (t_nodes t) <=? node_ptr x) eqn:E.
  - split; [discriminate|]. intros (i & Hi & ->). apply Nat.leb_le in E. rewrite (r_len t h Hr) in E. simpl in E. lia.
  - apply Nat.leb_gt in E. destruct (lookup_lt_is_Some_2 _ _ E) as [n Hn]. rewrite Hn.
    destruct (r_nodes t h Hr _ _ Hn) as (p & _ & _ & Hpk & _). rewrite Nat.eqb_eq. split.
    + intros Hx. exists (node_ptr x). split; [rewrite <- (r_len t h Hr); assumption|]. destruct x as [a b]. simpl in *. unfold id_of. congruence.
    + intros (i & _ & ->). simpl in *. congruence.
Qed.
Lemma exists_false t h x : repr t h -> (forall i, i < length h -> x <> id_of i) -> node_exists t x = false.
Proof.
  intros Hr Hx. destruct (node_exists t x) eqn:E; [|reflexivity]. apply (exists_repr t h x Hr) in E as (i & Hi & ->). exfalso. eapply Hx; eauto.
Qed.
Lemma get_node_mut_same t h x : repr t h -> get_node t x = get_node_mut t x.
Proof. intros Hr. unfold get_node, get_node_mut. rewrite (r_free t h Hr). reflexivity. Qed.
Lemma get_node_repr t h i n : repr t h -> t_nodes t !! i = Some n -> get_node t (id_of i) = Ok n.
Proof.
  intros Hr Hn. unfold get_node. rewrite (r_free t h Hr). simpl. pose proof (lookup_lt_Some _ _ _ Hn) as Hlt.
  destruct (length (t_nodes t) <=? i) eqn:E; [apply Nat.leb_le in E; lia|]. rewrite Hn.
  destruct (r_nodes t h Hr i n Hn) as (p & _ & _ & Hpk & _). rewrite Hpk, Nat.eqb_refl. reflexivity.
Qed.

Lemma head_app_cons {A} (l : list A) x : head (l ++ [x]) = match head l with None => Some x | s => s end.
Proof. destruct l; reflexivity. Qed.

Lemma add_repr t h d p : repr t h -> (forall q, p = Some q -> q < length h) ->
  exists t', add_node d (option_map id_of p) t = (Ok (id_of (length h)), t') /\ repr t' (h ++ [(p, d)]).
Proof.
  intros Hr Hp. destruct t as [nodes free cnt]. destruct Hr as [Hf Hc Hl Hg Hn]. simpl in *. subst free cnt.
  unfold add_node. simpl. destruct p as [q|]; simpl.
  - specialize (Hp q eq_refl).
    assert (repr (mkTree nodes [] (length h)) h) as Hr0 by (split; auto).
    pose proof (exists_repr (mkTree nodes [] (length h)) h (id_of q) Hr0) as He.
    assert (node_exists (mkTree nodes [] (length h)) (id_of q) = true) as Ee by (apply He; exists q; auto).
    rewrite Ee. simpl. unfold get_node_mut. simpl.
    destruct (length nodes <=? q) eqn:El; [apply Nat.leb_le in El; lia|].
    destruct (lookup_lt_is_Some_2 nodes q) as [pn Hpn]; [lia|]. rewrite Hpn.
    destruct (Hn q pn Hpn) as (pp & Hq & Hpp & Hpk & Hfirst & Hlast & Hsib).
    rewrite Hpk, Nat.eqb_refl.
    set (np := with_last match n_first pn with
                         | Some _ => pn
                         | None => with_first pn (Some (length nodes)) end (Some (length nodes))).
    assert (n_parent np = n_parent pn /\ n_prev np = n_prev pn /\ n_next np = n_next pn /\ n_pk np = n_pk pn /\ n_data np = n_data pn /\
      n_last np = Some (length nodes) /\ n_first np = match n_first pn with None => Some (length nodes) | s => s end) as (N1 & N2 & N3 & N4 & N5 & N6 & N7).
    { unfold np. destruct (n_first pn) eqn:Efp; simpl; auto 10. }
    (* the shape of the sibling update *)
    assert (exists nodes2, match n_last pn with
              | Some lci => match <[q := np]> nodes !! lci with
                            | Some ln => Some (<[lci := with_next ln (Some (length nodes))]> (<[q := np]> nodes))
                            | None => None end
              | None => Some (<[q := np]> nodes) end = Some nodes2 /\ length nodes2 = length nodes /\
        forall i n, nodes2 !! i = Some n -> exists n0, nodes !! i = Some n0 /\
          n_parent n = n_parent n0 /\ n_prev n = n_prev n0 /\ n_pk n = n_pk n0 /\ n_data n = n_data n0 /\
          n_first n = (if decide (i = q) then match n_first n0 with None => Some (length nodes) | s => s end else n_first n0) /\
          n_last n = (if decide (i = q) then Some (length nodes) else n_last n0) /\
          n_next n = (if decide (last (kids h q) = Some i) then Some (length nodes) else n_next n0)) as (nodes2 & -> & Hlen2 & Hn2).
    { rewrite Hlast. destruct (last (kids h q)) as [lci|] eqn:Elast.
      - assert (lci ∈ kids h q) as Hin. { apply last_Some_elem_of. assumption. }
        pose proof (kids_lt _ _ _ Hin) as Hlt. pose proof (kids_gt _ _ _ Hg Hin) as Hgt.
        rewrite list_lookup_insert_ne by lia. destruct (lookup_lt_is_Some_2 nodes lci) as [ln Hln]; [lia|]. rewrite Hln.
        eexists. split; [reflexivity|]. split; [rewrite !insert_length; reflexivity|].
        intros i n Hi. destruct (decide (lci = i)) as [<-|Hne].
        + rewrite list_lookup_insert in Hi by (rewrite insert_length; lia). injection Hi as <-. exists ln. split; [assumption|].
          simpl. destruct (decide (lci = q)); [lia|]. destruct (decide (Some lci = Some lci)); [auto 10|congruence].
        + rewrite list_lookup_insert_ne in Hi by assumption. destruct (decide (Some lci = Some i)) as [[= ?]|_]; [congruence|].
          destruct (decide (i = q)) as [->|Hq2].
          * rewrite list_lookup_insert in Hi by lia. injection Hi as <-. exists pn. split; [assumption|]. auto 10.
          * rewrite list_lookup_insert_ne in Hi by congruence. exists n. auto 10.
      - eexists. split; [reflexivity|]. split; [rewrite insert_length; reflexivity|].
        intros i n Hi. destruct (decide (None = Some i)); [discriminate|]. destruct (decide (i = q)) as [->|Hq2].
        + rewrite list_lookup_insert in Hi by lia. injection Hi as <-. exists pn. split; [assumption|]. auto 10.
        + rewrite list_lookup_insert_ne in Hi by congruence. exists n. auto 10. }
    simpl. rewrite Hl. eexists. split; [reflexivity|].
    split; simpl; [reflexivity|rewrite app_length; simpl; lia|rewrite !app_length; simpl; lia| |].
    + apply grown_app; [assumption|]. intros q' [= <-]. assumption.
    + intros i n Hi. apply lookup_app_Some in Hi as [Hi|[Hge Hi]].
      * destruct (Hn2 i n Hi) as (n0 & Hn0 & M1 & M2 & M3 & M4 & M5 & M6 & M7).
        pose proof (lookup_lt_Some _ _ _ Hi) as Hlt. rewrite Hlen2 in Hlt.
        destruct (Hn i n0 Hn0) as (p & Q1 & Q2 & Q3 & Q4 & Q5 & Q6).
        exists p. rewrite M1, M3, M4, M5, M6, !kids_app. split; [apply lookup_app_l_Some; assumption|]. split; [assumption|]. split; [assumption|].
        assert (n_next n = match decide (last (kids h q) = Some i) with left _ => Some (length h) | right _ => n_next n0 end) as M7'.
        { rewrite M7, Hl. reflexivity. }
        rewrite Q4, Q5. split; [|split].
        -- destruct (decide (i = q)) as [->|Hne].
           ++ destruct (decide (Some q = Some q)); [|congruence]. rewrite head_app_cons, Hl. reflexivity.
           ++ destruct (decide (Some q = Some i)); [congruence|]. rewrite app_nil_r. reflexivity.
        -- destruct (decide (i = q)) as [->|Hne].
           ++ destruct (decide (Some q = Some q)); [|congruence]. rewrite last_snoc, Hl. reflexivity.
           ++ destruct (decide (Some q = Some i)); [congruence|]. rewrite app_nil_r. reflexivity.
        -- destruct p as [p|]; simpl in Q6 |- *.
           ++ destruct Q6 as (l & r & Hk & Hpr & Hnx). rewrite kids_app, M2, M7'. destruct (decide (Some q = Some p)) as [[= <-]|Hne].
              ** exists l, (r ++ [length h]). split; [rewrite Hk, <- app_assoc; reflexivity|]. split; [assumption|].
                 rewrite Hk. pose proof (kids_nodup h q) as Hnd. rewrite Hk in Hnd.
                 destruct r as [|r0 r']; simpl.
                 --- rewrite last_snoc. destruct (decide (Some i = Some i)); [reflexivity|congruence].
                 --- match goal with |- context[decide ?P] => destruct (decide P) as [Hd|_] end; [|assumption]. exfalso.
                     apply NoDup_app in Hnd as (_ & _ & Hnd). apply NoDup_cons in Hnd as [Hnd _]. apply Hnd.
                     rewrite last_app_cons in Hd. rewrite last_cons in Hd. destruct (last (r0 :: r')) as [z|] eqn:Ez; [|destruct r'; simpl in Ez; [discriminate|]; apply last_None in Ez; discriminate].
                     injection Hd as ->. apply last_Some_elem_of. assumption.
              ** exists l, r. rewrite app_nil_r. split; [assumption|]. split; [assumption|].
                 match goal with |- context[decide ?P] => destruct (decide P) as [Hd|_] end; [|assumption]. exfalso. apply last_Some_elem_of, kids_elem in Hd as [? Hd]. congruence.
           ++ rewrite M2, M7'. destruct Q6 as [S1 S2]. split; [assumption|]. match goal with |- context[decide ?P] => destruct (decide P) as [Hd|_] end; [|assumption].
              exfalso. apply last_Some_elem_of, kids_elem in Hd as [? Hd]. congruence.
      * apply list_lookup_singleton_Some in Hi as [Hi <-]. rewrite Hlen2, Hl in *. assert (i = length h) as -> by lia.
        exists (Some q). simpl. split; [rewrite lookup_app_r, Nat.sub_diag by lia; reflexivity|]. split; [reflexivity|]. split; [reflexivity|].
        rewrite kids_app. destruct (decide (Some q = Some (length h))) as [[= ?]|_]; [lia|].
        rewrite kids_none by (auto; lia). split; [reflexivity|]. split; [reflexivity|].
        exists (kids h q), []. rewrite kids_app. destruct (decide (Some q = Some q)); [|congruence]. auto.
  - rewrite Hl. eexists. split; [reflexivity|].
    split; simpl; [reflexivity|rewrite app_length; simpl; lia|rewrite !app_length; simpl; lia| |].
    + apply grown_app; [assumption|]. discriminate.
    + intros i n Hi. apply lookup_app_Some in Hi as [Hi|[Hge Hi]].
      * destruct (Hn i n Hi) as (p & Q1 & Q2 & Q3 & Q4 & Q5 & Q6).
        exists p. rewrite !kids_app. destruct (decide (None = Some i)); [discriminate|]. rewrite app_nil_r.
        split; [apply lookup_app_l_Some; assumption|]. do 4 (split; [assumption|]).
        destruct p as [p|]; simpl in *; [|assumption]. rewrite kids_app. destruct (decide (None = Some p)); [discriminate|]. rewrite app_nil_r. assumption.
      * apply list_lookup_singleton_Some in Hi as [Hi <-]. assert (i = length h) as -> by lia.
        exists None. simpl. split; [rewrite lookup_app_r, Nat.sub_diag by lia; reflexivity|]. split; [reflexivity|]. split; [reflexivity|].
        rewrite kids_app, kids_none by (auto; lia). auto.
Qed.

(** ** reading *)
Lemma next_repr t h q l i r : repr t h -> kids h q = l ++ i :: r -> exists n, t_nodes t !! i = Some n /\ node_ok h i n /\ n_next n = head r.
Proof.
  intros Hr Hk. assert (i ∈ kids h q) as Hi by (rewrite Hk; apply elem_of_app; right; left).
  pose proof Hi as Hi'. apply kids_elem in Hi' as [d Hd]. destruct (repr_node t h i _ d Hr Hd) as (n & Hn & Ho & _ & Hp).
  exists n. split; [assumption|]. split; [assumption|]. destruct Ho as (p & _ & Hp' & _ & _ & _ & Hs). rewrite Hp' in Hp. subst p. rewrite Hp in Hs.
  destruct Hs as (l' & r' & Hk' & _ & Hnx). rewrite Hnx. rewrite Hk in Hk'.
  pose proof (kids_nodup h q) as Hnd. rewrite Hk in Hnd.
  assert (r = r') as ->; [|reflexivity].
  clear -Hk' Hnd. revert l' Hk'. induction l as [|a l IH]; intros [|b l'] Hk'; simpl in *.
  - injection Hk' as ->. reflexivity.
  - injection Hk' as -> Hr. apply NoDup_cons in Hnd as [Hnd _]. exfalso. apply Hnd. rewrite Hr. apply elem_of_app. right. left.
  - injection Hk' as -> Hr. apply NoDup_cons in Hnd as [Hnd _]. exfalso. apply Hnd. apply elem_of_app. right. left.
  - injection Hk' as -> Hr. apply NoDup_cons in Hnd as [_ Hnd]. eauto.
Qed.
Lemma sibling_repr t h q r : repr t h -> forall l fuel, kids h q = l ++ r -> length r <= fuel ->
  sibling_loop fuel (t_nodes t) (head r) = Ok (map id_of r).
Proof.
  intros Hr. induction r as [|i r IH]; intros l fuel Hk Hf; [destruct fuel; reflexivity|].
  destruct fuel as [|f]; simpl in Hf; [lia|]. simpl.
  destruct (next_repr t h q l i r Hr Hk) as (n & Hn & (p & _ & _ & Hpk & _) & Hnx). rewrite Hn, Hnx, (IH (l ++ [i])), Hpk.
  - reflexivity.
  - rewrite <- app_assoc. assumption.
  - lia.
Qed.
Lemma kids_length h j : length (kids h j) <= length h.
Proof.
  unfold kids. pose proof (filter_length (fun i => h !! i ≫= fst = Some j) (seq 0 (length h))) as Hx. rewrite seq_length in Hx. exact Hx.
Qed.
Lemma children_repr t h i : repr t h -> i < length h -> get_children t (id_of i) = Ok (map id_of (kids h i)).
Proof.
  intros Hr Hi. destruct (lookup_lt_is_Some_2 h i Hi) as [[p d] Hpd]. destruct (repr_node t h i p d Hr Hpd) as (n & Hn & (p' & _ & _ & _ & Hf & _) & _).
  unfold get_children. simpl. rewrite Hn, Hf. apply (sibling_repr t h i (kids h i) Hr []); [reflexivity|]. rewrite (r_len t h Hr). apply kids_length.
Qed.
Lemma nth_repr t h q r : repr t h -> forall l k, kids h q = l ++ r ->
  nth_child_loop (t_nodes t) (head r) k = Ok (r !! k ≫= fun i => t_nodes t !! i).
Proof.
  intros Hr. induction r as [|i r IH]; intros l k Hk; [destruct k; reflexivity|]. simpl.
  destruct (next_repr t h q l i r Hr Hk) as (n & Hn & _ & Hnx).
  destruct k as [|k]; simpl; rewrite Hn; [reflexivity|]. rewrite Hnx. apply (IH (l ++ [i])). rewrite <- app_assoc. assumption.
Qed.
Lemma nth_child_repr t h i n k : repr t h -> t_nodes t !! i = Some n ->
  get_nth_child_or_none t n k = Ok (kids h i !! k ≫= fun j => t_nodes t !! j).
Proof.
  intros Hr Hn. destruct (r_nodes t h Hr i n Hn) as (p & _ & _ & _ & Hf & _). unfold get_nth_child_or_none. rewrite Hf.
  apply (nth_repr t h i (kids h i) Hr []). reflexivity.
Qed.

(** descendants *)
Lemma child_gt h i j : grown h -> child_of h i j -> i < j.
Proof. intros Hg [d Hd]. eauto. Qed.
Lemma descendant_gt h i j : grown h -> descendant h i j -> i < j.
Proof. intros Hg Hd. induction Hd as [i j Hc|i k j Hc Hd IH]; [eapply child_gt; eauto|]. apply child_gt in Hc; [lia|assumption]. Qed.
Lemma child_unique h a b j : child_of h a j -> child_of h b j -> a = b.
Proof. intros [d Hd] [e He]. congruence. Qed.
Lemma descendant_last h a j : descendant h a j -> exists b, child_of h b j /\ (a = b \/ descendant h a b).
Proof.
  intros Hd. induction Hd as [i j Hc|i k j Hc Hd IH]; [eauto|]. destruct IH as (b & Hb & [->|IH]).
  - exists b. split; [assumption|]. right. apply tc_once. assumption.
  - exists b. split; [assumption|]. right. eapply tc_l; eauto.
Qed.
Lemma descendant_chain h a b j : grown h -> descendant h a j -> descendant h b j -> a = b \/ descendant h a b \/ descendant h b a.
Proof.
  intros Hg. induction j as [j IH] using lt_wf_ind. intros Ha Hb.
  apply descendant_last in Ha as (p & Hp & Ha), Hb as (q & Hq & Hb). pose proof (child_unique h p q j Hp Hq) as <-.
  destruct Ha as [->|Ha], Hb as [->|Hb]; auto. apply (IH p); auto. eapply child_gt; eauto.
Qed.
Lemma siblings_disjoint h i a b j : grown h -> child_of h i a -> child_of h i b -> a <> b ->
  (a = j \/ descendant h a j) -> (b = j \/ descendant h b j) -> False.
Proof.
  intros Hg Ha Hb Hne Hj Hj'.
  assert (descendant h a b \/ descendant h b a) as Hd.
  { destruct Hj as [->|Hj], Hj' as [->|Hj']; auto; [congruence|]. destruct (descendant_chain h a b j Hg Hj Hj') as [?|[?|?]]; [congruence|auto|auto]. }
  assert (forall x y, child_of h i x -> child_of h i y -> descendant h x y -> False) as Hx.
  { intros x y Hcx Hcy Hxy. apply descendant_last in Hxy as (p & Hp & Hxp). pose proof (child_unique h _ _ _ Hp Hcy) as ->.
    apply child_gt in Hcx; [|assumption]. destruct Hxp as [->|Hxp]; [lia|]. apply descendant_gt in Hxp; [lia|assumption]. }
  destruct Hd; eauto.
Qed.

Lemma descendants_repr t h : repr t h -> forall f i, i < length h -> length h - i <= f ->
  exists ds, descendants_rec f t (id_of i) = Ok (map id_of ds) /\ NoDup ds /\ forall j, j ∈ ds <-> descendant h i j.
Proof.
  intros Hr. pose proof (r_grown t h Hr) as Hg.
  induction f as [|f IH]; intros i Hi Hf; [lia|]. cbn [descendants_rec]. rewrite (children_repr t h i Hr Hi). cbn [obind].
  (* the loop over the children *)
  assert (forall ks acc, (forall k, k ∈ ks -> child_of h i k) ->
    NoDup ks -> exists dss, ofold (fun acc child => let* ds := descendants_rec f t child in Ok (acc ++ ds)) (map id_of acc) (map id_of ks)
      = Ok (map id_of (acc ++ dss)) /\ NoDup dss /\ (forall j, j ∈ dss <-> exists k, k ∈ ks /\ descendant h k j)) as Hloop.
  { induction ks as [|k ks IHk]; intros acc Hks Hnd.
    - exists []. simpl. rewrite app_nil_r. split; [reflexivity|]. split; [constructor|]. intros j. split.
      + intros Hj. apply elem_of_nil in Hj. contradiction.
      + intros (k & Hk & _). apply elem_of_nil in Hk. contradiction.
    - pose proof (Hks k (elem_of_list_here _ _)) as Hk. pose proof (child_gt h i k Hg Hk) as Hgt.
      assert (k < length h) as Hlt by (destruct Hk as [d Hd]; apply lookup_lt_Some in Hd; assumption).
      destruct (IH k Hlt) as (ds & Hds & Hdn & Hdd); [lia|]. cbn [ofold map]. rewrite Hds. cbn [obind].
      apply NoDup_cons in Hnd as [Hkn Hnd]. rewrite <- map_app.
      destruct (IHk (acc ++ ds)) as (dss & Hss & Hsn & Hsd); [intros k' Hk'; apply Hks; right; assumption|assumption|].
      exists (ds ++ dss). rewrite Hss, app_assoc. split; [reflexivity|]. split.
      + apply NoDup_app. split; [assumption|]. split; [|assumption]. intros j Hj Hj'. apply Hdd in Hj. apply Hsd in Hj' as (k' & Hk' & Hj').
        eapply (siblings_disjoint h i k k' j); eauto. { apply Hks. right. assumption. } intros ->. contradiction.
      + intros j. rewrite elem_of_app, Hdd, Hsd. split.
        * intros [Hj|(k' & Hk' & Hj)]; [exists k; split; [left|assumption]|exists k'; split; [right; assumption|assumption]].
        * intros (k' & Hk' & Hj). apply elem_of_cons in Hk' as [->|Hk']; [auto|eauto]. }
  destruct (Hloop (kids h i) (kids h i)) as (dss & Hss & Hsn & Hsd).
  { intros k Hk. apply kids_elem. assumption. } { apply kids_nodup. }
  exists (kids h i ++ dss). split; [assumption|]. split.
  - apply NoDup_app. split; [apply kids_nodup|]. split; [|assumption]. intros j Hj Hj'. apply kids_elem in Hj. apply Hsd in Hj' as (k & Hk & Hj').
    apply kids_elem in Hk. destruct (decide (j = k)) as [->|Hne].
    + apply descendant_gt in Hj'; [lia|assumption].
    + eapply (siblings_disjoint h i j k j); eauto.
  - intros j. rewrite elem_of_app, Hsd, kids_elem. split.
    + intros [Hj|(k & Hk & Hj)]; [apply tc_once; assumption|]. apply kids_elem in Hk. eapply tc_l; eauto.
    + intros Hd. inversion Hd as [? ? Hc|? k ? Hc Hd']; subst; [auto|]. right. exists k. split; [apply kids_elem; assumption|assumption].
Qed.

(** ** the tree of a history *)
Definition tree_of h : Tree T := snd (do_adds h tree_new).
Lemma do_adds_app h : forall t h', do_adds (h ++ h') t =
  match do_adds h t with
  | (Ok xs, t1) => match do_adds h' t1 with (Ok ys, t2) => (Ok (xs ++ ys), t2) | (e, t2) => (e, t2) end
  | (e, t1) => (e, t1)
  end.
Proof.
  induction h as [|[p d] h IH]; intros t h'; cbn [app do_adds].
  - destruct (do_adds h' t) as [[| | |] ?]; reflexivity.
  - destruct (add_node d (option_map id_of p) t) as [[x| | |] t1]; [|reflexivity..]. rewrite IH.
    destruct (do_adds h t1) as [[xs| | |] t2]; [|reflexivity..]. destruct (do_adds h' t2) as [[ys| | |] t3]; reflexivity.
Qed.
Lemma grown_prefix h h' : grown (h ++ h') -> grown h.
Proof. intros Hg i p d Hi. eapply Hg. apply lookup_app_l_Some. exact Hi. Qed.
Lemma do_adds_ok h : grown h -> fst (do_adds h tree_new) = Ok (map id_of (seq 0 (length h))) /\ repr (tree_of h) h.
Proof.
  induction h as [|[p d] h IH] using rev_ind; intros Hg.
  - split; [reflexivity|]. apply repr_new.
  - destruct (IH (grown_prefix _ _ Hg)) as [I1 I2]. unfold tree_of in *. rewrite do_adds_app.
    destruct (do_adds h tree_new) as [o t1]. simpl in I1, I2. subst o. cbn [do_adds].
    destruct (add_repr t1 h d p I2) as (t' & Ha & Hr).
    { intros q ->. apply (Hg (length h) q d). rewrite lookup_app_r, Nat.sub_diag by lia. reflexivity. }
    rewrite Ha. cbn. split; [|assumption]. f_equal. rewrite app_length, seq_app, map_app. reflexivity.
Qed.
Lemma tree_of_repr h : grown h -> repr (tree_of h) h.
Proof. intros Hg. apply do_adds_ok. assumption. Qed.
Lemma tree_of_snoc h p d : grown (h ++ [(p, d)]) ->
  add_node d (option_map id_of p) (tree_of h) = (Ok (id_of (length h)), tree_of (h ++ [(p, d)])).
Proof.
  intros Hg. pose proof (grown_prefix _ _ Hg) as Hg0. destruct (do_adds_ok h Hg0) as [I1 I2].
  destruct (add_repr (tree_of h) h d p I2) as (t' & Ha & Hr).
  { intros q ->. apply (Hg (length h) q d). rewrite lookup_app_r, Nat.sub_diag by lia. reflexivity. }
  rewrite Ha. f_equal. unfold tree_of in *. rewrite do_adds_app. destruct (do_adds h tree_new) as [o t1]. simpl in *. subst o.
  rewrite Ha. reflexivity.
Qed.
End proofs.
