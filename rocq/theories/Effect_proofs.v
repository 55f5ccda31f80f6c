(** * Proofs for C88 *)
From Verif Require Import Base Tree ParserData Vm SpecTree SpecRules SpecLanguage SpecNaming SpecIgnore SpecEffect Tree_proofs Script_proofs Parse_proofs Attr_proofs Ignore_proofs Language_proofs SimpleStackVm StackVm.

(** ** A subtree inside a history *)
Notation nh := nhistory.
Lemma nforest_lower subs : forall n par k p d, nforest n par subs !! k = Some (p, d) -> p = par \/ exists q, p = Some q /\ n <= q < n + list_sum (map ncount subs).
Proof.
  induction subs as [|s subs IH]; intros n par k p d Hk; cbn [nforest] in Hk; [rewrite lookup_nil in Hk; discriminate|].
  change (list_sum (map ncount (s :: subs))) with (ncount s + list_sum (map ncount subs)). apply lookup_app_Some in Hk as [Hk|[Hl Hk]].
  - pose proof (lookup_lt_Some _ _ _ Hk) as Hlt. rewrite nhistory_length in Hlt. apply nhistory_lower in Hk as [[_ ->]|(q & -> & Hq)]; [auto|]. right. exists q. split; [reflexivity|lia].
  - apply IH in Hk as [->|(q & -> & Hq)]; [auto|]. right. exists q. split; [reflexivity|lia].
Qed.
Definition nlocated (h : history str) (i : nat) (s : ntree) : Prop :=
  exists a b par, h = a ++ nh (length a) par s ++ b /\ i = length a /\
    forall k q d, b !! k = Some (Some q, d) -> q < i \/ i + ncount s <= q.
Lemma nlocated_label h i s : nlocated h i s -> exists p, h !! i = Some (p, nlabel s).
Proof.
  intros (a & b & par & -> & -> & _). exists par. rewrite lookup_app_r, Nat.sub_diag by lia.
  destruct s as [t|A subs]; [reflexivity|]. rewrite nhistory_node. reflexivity.
Qed.
Lemma nlocated_kids h i x subs : grown h -> nlocated h i (NNode x subs) -> kids h i = nstarts (S i) subs.
Proof.
  intros Hg (a & b & par & -> & -> & Hb). rewrite kids_positions, !positions_app, nhistory_length, nhistory_node. cbn [positions plus].
  rewrite (positions_none a).
  2:{ intros k p d Hk Hp. subst p. assert (length a < k) as Hlt by (eapply (Hg k); apply lookup_app_l_Some; exact Hk). apply lookup_lt_Some in Hk. lia. }
  rewrite (positions_none b).
  2:{ intros k p d Hk Hp. subst p. apply Hb in Hk. rewrite ncount_node in Hk. lia. }
  rewrite app_nil_r. simpl. destruct (decide (par = Some (length a))) as [->|_]; [|apply nforest_positions; lia].
  exfalso. assert (length a < length a); [|lia]. eapply (Hg (length a)). rewrite lookup_app_r, Nat.sub_diag by lia. rewrite nhistory_node. reflexivity.
Qed.
Lemma nlocated_kids_leaf h i t : grown h -> nlocated h i (NLeaf t) -> kids h i = [].
Proof.
  intros Hg (a & b & par & -> & -> & Hb). rewrite kids_positions, !positions_app. cbn [nhistory positions plus].
  rewrite (positions_none a).
  2:{ intros k p d Hk Hp. subst p. assert (length a < k) as Hlt by (eapply (Hg k); apply lookup_app_l_Some; exact Hk). apply lookup_lt_Some in Hk. lia. }
  rewrite (positions_none b).
  2:{ intros k p d Hk Hp. subst p. apply Hb in Hk. simpl in Hk. lia. }
  simpl. destruct (decide (par = Some (length a))) as [->|_]; [|reflexivity].
  exfalso. assert (length a < length a); [|lia]. eapply (Hg (length a)). rewrite lookup_app_r, Nat.sub_diag by lia. reflexivity.
Qed.
Lemma nlocated_child h i x subs k : nlocated h i (NNode x subs) -> forall j, nstarts (S i) subs !! k = Some j -> exists s, subs !! k = Some s /\ nlocated h j s.
Proof.
  intros (a & b & par & -> & -> & Hb). rewrite nhistory_node. set (fc := fun l : list ntree => list_sum (map ncount l)).
  assert (forall post pre k j, subs = pre ++ post -> nstarts (S (length a) + fc pre) post !! k = Some j ->
    exists s, post !! k = Some s /\ nlocated (a ++ ((par, []) :: nforest (S (length a)) (Some (length a)) subs) ++ b) j s) as Hgen.
  2:{ intros j Hj. apply (Hgen subs [] k j eq_refl). change (fc []) with 0. rewrite Nat.add_0_r. exact Hj. }
  induction post as [|s post IH]; intros pre k' j Hs Hj; [cbn [nstarts] in Hj; rewrite lookup_nil in Hj; discriminate|]. destruct k' as [|k']; cbn [nstarts] in Hj.
  - injection Hj as <-. exists s. split; [reflexivity|].
    assert (forall pre n, nforest n (Some (length a)) (pre ++ s :: post)
      = nforest n (Some (length a)) pre ++ nh (n + fc pre) (Some (length a)) s ++ nforest (n + fc pre + ncount s) (Some (length a)) post) as Hsplit.
    { clear. induction pre as [|x pre IH]; intros n; cbn [app nforest].
      - change (fc []) with 0. rewrite !Nat.add_0_r. reflexivity.
      - rewrite IH. change (fc (x :: pre)) with (ncount x + fc pre). rewrite !Nat.add_assoc, <- !app_assoc. reflexivity. }
    exists (a ++ (par, []) :: nforest (S (length a)) (Some (length a)) pre), (nforest (S (length a) + fc pre + ncount s) (Some (length a)) post ++ b), (Some (length a)).
    assert (length (a ++ (par, []) :: nforest (S (length a)) (Some (length a)) pre) = S (length a) + fc pre) as Hlen.
    { rewrite app_length. cbn [length]. rewrite nforest_length. unfold fc. lia. }
    rewrite Hlen. split; [|split; [reflexivity|]].
    + rewrite Hs, Hsplit. cbn [app]. rewrite <- !app_assoc. cbn [app]. rewrite <- ?app_assoc. reflexivity.
    + intros m q d Hm. apply lookup_app_Some in Hm as [Hm|[_ Hm]].
      * apply nforest_lower in Hm as [[= ->]|(q' & [= ->] & Hq)]; lia.
      * apply Hb in Hm. rewrite ncount_node in Hm. rewrite Hs, map_app, list_sum_app in Hm. simpl in Hm. unfold fc. lia.
  - apply (IH (pre ++ [s]) k' j); [rewrite <- app_assoc; exact Hs|].
    assert (S (length a) + fc (pre ++ [s]) = S (length a) + fc pre + ncount s) as ->; [|exact Hj].
    unfold fc. rewrite map_app, list_sum_app. simpl. lia.
Qed.
Lemma nstarts_length subs : forall n, length (nstarts n subs) = length subs.
Proof. induction subs as [|s subs IH]; intros n; simpl; [reflexivity|]. rewrite IH. reflexivity. Qed.
Lemma npath_located h : grown h -> forall path s i n, nlocated h i s -> t_nodes (tree_of h) !! i = Some n ->
  match nsubtree s path with
  | Some s' => exists j n', path_loop (tree_of h) n path = Ok (Some n') /\ nlocated h j s' /\ t_nodes (tree_of h) !! j = Some n'
  | None => path_loop (tree_of h) n path = Ok None
  end.
Proof.
  intros Hg. pose proof (tree_of_repr h Hg) as Hr. induction path as [|k path IH]; intros s i n Hs Hn.
  - simpl. eauto.
  - cbn [path_loop nsubtree]. rewrite (nth_child_repr (tree_of h) h i n k Hr Hn). cbn [obind].
    destruct s as [t|x subs].
    + rewrite (nlocated_kids_leaf h i t Hg Hs), lookup_nil. simpl. reflexivity.
    + rewrite (nlocated_kids h i x subs Hg Hs). destruct (nstarts (S i) subs !! k) as [j|] eqn:Ej.
      * destruct (nlocated_child h i x subs k Hs j Ej) as (s' & Hk & Hj). rewrite Hk. cbn [mbind option_bind].
        destruct (nlocated_label h j s' Hj) as [p Hp]. destruct (repr_node (tree_of h) h j p _ Hr Hp) as (n' & Hn' & _).
        rewrite Hn'. apply (IH s' j n' Hj Hn').
      * apply lookup_ge_None in Ej. rewrite nstarts_length in Ej. apply lookup_ge_None in Ej. rewrite Ej. reflexivity.
Qed.
(** What is seen from a node is the subtree there. *)
Lemma located_seen h i s path : grown h -> nlocated h i s -> seen (tree_of h) (id_of i) path = Ok (option_map nlabel (nsubtree s path)).
Proof.
  intros Hg Hl. pose proof (tree_of_repr h Hg) as Hr. destruct (nlocated_label h i s Hl) as [p Hp]. destruct (repr_node (tree_of h) h i p _ Hr Hp) as (n & Hn & _).
  unfold seen, get_by_path_or_none. rewrite (get_node_repr _ h i n Hr Hn). cbn [obind].
  pose proof (npath_located h Hg path s i n Hl Hn) as Hpath. destruct (nsubtree s path) as [s'|]; [|rewrite Hpath; reflexivity].
  destruct Hpath as (j & n' & -> & Hj & Hn'). cbn. do 2 f_equal.
  destruct (nlocated_label h j s' Hj) as [q Hq]. destruct (repr_node (tree_of h) h j q _ Hr Hq) as (n2 & Hn2 & _ & Hd2 & _). congruence.
Qed.
Lemma own_seen nt path : seen (own_tree nt) (mkNodeId 0 0) path = Ok (option_map nlabel (nsubtree nt path)).
Proof.
  apply (located_seen (nh 0 None nt) 0 nt path (nhistory_grown nt)). exists [], [], None. rewrite app_nil_r. split; [reflexivity|]. split; [reflexivity|].
  intros k q d Hk. rewrite lookup_nil in Hk. discriminate.
Qed.

(** ** The effect *)
Section effect.
Context {vm : VM} (Hv : looks_down vm) (rs : list (arule (vm_instr vm))).
Definition effects (subs : list ntree) (v : vm_state vm) : outcome Empty_set (vm_state vm) := ofold (fun v s => effect rs s v) v subs.
Lemma effect_node x subs v : effect rs (NNode x subs) v = let* v1 := effects subs v in own_instructions rs (NNode x subs) v1.
Proof.
  cbn [effect]. match goal with |- obind (?f subs v) _ = _ => assert (f subs v = effects subs v) as ->; [|reflexivity] end.
  unfold effects. revert v. induction subs as [|s subs IH]; intros v; [reflexivity|]. cbn [ofold]. destruct (effect rs s v) as [v'|[]| |]; cbn; [apply IH|reflexivity..].
Qed.
Lemma effect_leaf b v : effect rs (NLeaf b) v = Ok v.
Proof. reflexivity. Qed.
Lemma down_instr t t' id id' l : (forall path, seen t id path = seen t' id' path) -> forall v,
  ofold (fun s ins => let* '(_t, s') := vm_execute vm t id ins s in Ok s') v l = ofold (fun s ins => let* '(_t, s') := vm_execute vm t' id' ins s in Ok s') v l.
Proof.
  intros Hs. induction l as [|ins l IH]; intros v; [reflexivity|]. cbn [ofold]. pose proof (Hv t t' id id' ins v Hs) as Hi.
  destruct (vm_execute vm t id ins v) as [[t1 s1]|[]| |], (vm_execute vm t' id' ins v) as [[t2 s2]|[]| |]; cbn; try contradiction; try reflexivity. subst s2. apply IH.
Qed.
Section tree.
Context (nt : ntree).
Notation hist := (nh 0 None nt).
Definition run_node (s : vm_state vm) '((i, x, k) : nat * str * nat) : outcome Empty_set (vm_state vm) :=
  ofold (fun s ins => let* '(_t, s') := vm_execute vm (snd (do_adds (take k hist) tree_new)) (id_of i) ins s in Ok s') s (instructions_for rs x).
Lemma run_node_own a par x subs b v : hist = a ++ nh (length a) par (NNode x subs) ++ b ->
  run_node v (length a, x, length a + ncount (NNode x subs)) = own_instructions rs (NNode x subs) v.
Proof.
  intros Hh. unfold run_node, own_instructions. apply down_instr. intros path. rewrite own_seen.
  assert (take (length a + ncount (NNode x subs)) hist = a ++ nh (length a) par (NNode x subs)) as ->.
  { rewrite Hh, app_assoc. rewrite take_app_alt; [reflexivity|]. rewrite app_length, nhistory_length. reflexivity. }
  apply located_seen.
  - pose proof (nhistory_grown nt) as Hg. rewrite Hh, app_assoc in Hg. exact (grown_prefix _ _ Hg).
  - exists a, [], par. rewrite app_nil_r. split; [reflexivity|]. split; [reflexivity|]. intros k q d Hk. rewrite lookup_nil in Hk. discriminate.
Qed.
Lemma run_effect t : forall a par b v, hist = a ++ nh (length a) par t ++ b -> ofold run_node v (npost_order (length a) t) = effect rs t v.
Proof.
  induction t as [c|x subs IH] using ntree_ind'; intros a par b v Hh; [reflexivity|]. rewrite npost_node, effect_node.
  assert (forall a0 v0, hist = a0 ++ nforest (length a0) (Some (length a)) subs ++ b -> ofold run_node v0 (npost_forest (length a0) subs) = effects subs v0) as Hgen.
  { clear Hh v. induction IH as [|t subs Ht _ IHs]; intros a0 v0 Hh; [reflexivity|]. cbn [npost_forest nforest] in *. rewrite <- app_assoc in Hh.
    rewrite ofold_app, (Ht a0 (Some (length a)) _ v0 Hh). unfold effects. cbn [ofold]. destruct (effect rs t v0) as [v1|[]| |]; cbn [obind]; try reflexivity.
    fold (effects subs v1). rewrite <- (IHs (a0 ++ nh (length a0) (Some (length a)) t) v1); rewrite app_length, nhistory_length; [reflexivity|].
    rewrite Hh, <- app_assoc. reflexivity. }
  rewrite ofold_app. pose proof Hh as Hh0. rewrite nhistory_node in Hh0. pose proof (Hgen (a ++ [(par, [])]) v) as Hg. rewrite app_length in Hg. cbn [length] in Hg. rewrite Nat.add_1_r in Hg.
  rewrite Hg by (rewrite Hh0, <- app_assoc; reflexivity). destruct (effects subs v) as [v1|[]| |]; cbn [obind]; try reflexivity.
  cbn [ofold]. rewrite (run_node_own a par x subs b v1 Hh). destruct (own_instructions rs (NNode x subs) v1) as [v2|[]| |]; reflexivity.
Qed.
End tree.
Lemma run_tree_effect nt v : run_tree rs nt v = effect rs nt v.
Proof. unfold run_tree. apply (run_effect nt nt [] None [] v). rewrite app_nil_r. reflexivity. Qed.
End effect.

(** ** The VMs of the crate *)
Lemma blind_looks_down vm : tree_blind vm -> looks_down vm.
Proof. intros Hb t t' id id' i s _. apply Hb. Qed.
Lemma first_child_seen t id : first_child_data t id = match seen t id [0] with Ok o => Ok o | Err _ => Ok None | Panic => Panic | Diverge => Diverge end.
Proof. unfold first_child_data, seen. destruct (get_by_path_or_none t id [0]) as [[n|]|e| |]; reflexivity. Qed.
Lemma child_looks_down vm : looks_at_first_child vm -> looks_down vm.
Proof. intros Hc t t' id id' i s Hs. apply Hc, Hs. Qed.
Lemma blind_looks vm : tree_blind vm -> looks_at_first_child vm.
Proof. intros Hb t t' id id' i s _. apply Hb. Qed.
Lemma simple_looks m : looks_at_first_child (SimpleStackVm m).
Proof.
  intros t t' id id' i s Hs. assert (first_child_data t id = first_child_data t' id') as E by (rewrite !first_child_seen, Hs; reflexivity).
  cbn [SimpleStackVm vm_execute]. unfold simple_execute. assert (simple_exec m t id i s = simple_exec m t' id' i s) as -> by (destruct i; cbn [simple_exec]; rewrite ?E; reflexivity).
  destruct (simple_exec m t' id' i s) as [s'|[]| |]; reflexivity || exact Logic.I.
Qed.
Lemma stack_looks {U : Unicode} m : looks_at_first_child (StackVm m).
Proof.
  intros t t' id id' i s Hs. assert (first_child_data t id = first_child_data t' id') as E by (rewrite !first_child_seen, Hs; reflexivity).
  cbn [StackVm vm_execute]. unfold stack_execute. assert (stack_exec m t id i s = stack_exec m t' id' i s) as -> by (destruct i; cbn [stack_exec]; rewrite ?E; reflexivity).
  destruct (stack_exec m t' id' i s) as [s'|[]| |]; reflexivity || exact Logic.I.
Qed.

(** ** VMs that look at the first child *)
Section first_child.
Context {vm : VM} (Hc : looks_at_first_child vm).
Lemma child_instr t t' id id' l : seen t id [0] = seen t' id' [0] -> forall v,
  ofold (fun s ins => let* '(_t, s') := vm_execute vm t id ins s in Ok s') v l = ofold (fun s ins => let* '(_t, s') := vm_execute vm t' id' ins s in Ok s') v l.
Proof.
  intros Hs. induction l as [|ins l IH]; intros v; [reflexivity|]. cbn [ofold]. pose proof (Hc t t' id id' ins v Hs) as Hi.
  destruct (vm_execute vm t id ins v) as [[t1 s1]|[]| |], (vm_execute vm t' id' ins v) as [[t2 s2]|[]| |]; cbn; try contradiction; try reflexivity. subst s2. apply IH.
Qed.
Lemma own_first (rs rs' : list (arule (vm_instr vm))) x subs subs' v : instructions_for rs' x = instructions_for rs x -> option_map nlabel (head subs') = option_map nlabel (head subs) ->
  own_instructions rs' (NNode x subs') v = own_instructions rs (NNode x subs) v.
Proof.
  intros Hi Hh. unfold own_instructions. rewrite Hi. apply child_instr. rewrite !own_seen. f_equal. cbn [nsubtree].
  destruct subs, subs'; cbn in *; congruence.
Qed.
Lemma effects_app (rs : list (arule (vm_instr vm))) l l' v : effects rs (l ++ l') v = let* v1 := effects rs l v in effects rs l' v1.
Proof. unfold effects. rewrite ofold_app. reflexivity. Qed.
Lemma root_label s s' : nroot s' = nroot s -> nlabel s' = nlabel s.
Proof. destruct s, s'; cbn; congruence. Qed.
Lemma replaced_effect (rs : list (arule (vm_instr vm))) path : forall t s s', nsubtree t path = Some s -> nroot s' = nroot s -> (forall v, effect rs s' v = effect rs s v) ->
  nroot (replaced t path s') = nroot t /\ forall v, effect rs (replaced t path s') v = effect rs t v.
Proof.
  induction path as [|k path IH]; intros t s s' Hs Hroot He; [injection Hs as ->; auto|]. destruct t as [b|x subs]; [discriminate|].
  cbn [nsubtree] in Hs. destruct (subs !! k) as [a|] eqn:Ek; [|discriminate]. rewrite (replaced_node x subs k path s' a Ek). split; [reflexivity|]. intros v.
  destruct (IH a s s' Hs Hroot He) as [Hr Hv]. rewrite !effect_node. pose proof (take_drop_middle subs k a Ek) as Es. revert Es. generalize (take k subs) (drop (S k) subs). intros l1 l2 <-.
  assert (effects rs (l1 ++ replaced a path s' :: l2) v = effects rs (l1 ++ a :: l2) v) as ->.
  { rewrite !effects_app. destruct (effects rs l1 v) as [v1|[]| |]; cbn [obind]; try reflexivity. unfold effects. cbn [ofold]. rewrite Hv. reflexivity. }
  destruct (effects rs _ v) as [v1|[]| |]; cbn [obind]; try reflexivity. apply own_first; [reflexivity|].
  destruct l1; cbn; [|reflexivity]. rewrite (root_label _ _ Hr). reflexivity.
Qed.
End first_child.

(** ** Ignored text *)
Lemma says_uses {I} (rs : list (arule I)) x i w y : says rs x i w -> (y, NonTerminal) ∈ w -> uses rs x y \/ ignores rs x y.
Proof.
  intros [w0 Hw _|w0 z Hw Hz _] Hy.
  - left. exists w0. split; [eapply elem_of_list_lookup_2; eassumption|assumption].
  - apply interleave_elem in Hy as [Hy|Hy]; [|right; congruence]. left. exists w0. split; [eapply elem_of_list_lookup_2; eassumption|assumption].
Qed.
Section ignored.
Context {vm : VM} (Hc : looks_at_first_child vm) (rs : list (arule (vm_instr vm))) (Hq : ignored_silent rs).
Lemma quiet_effect t : forall x y, ignores rs x y -> nderivation rs t -> (forall z, nroot t = (z, NonTerminal) -> rtc (fun a b => uses rs a b \/ ignores rs a b) y z) ->
  forall v, effect rs t v = Ok v.
Proof.
  induction t as [b|z subs IH] using ntree_ind'; intros x y Hi Hd Hz v; [reflexivity|]. specialize (Hz z eq_refl). inversion Hd as [|? i ? Hs Hsubs]; subst. rewrite effect_node.
  assert (forall v, effects rs subs v = Ok v) as ->.
  { assert (forall u, u ∈ subs -> forall v, effect rs u v = Ok v) as Hu.
    { intros u Hu. apply (proj1 (Forall_forall _ _) IH u Hu x y Hi); [apply (proj1 (Forall_forall _ _) Hsubs u Hu)|]. intros z' Hz'. eapply rtc_r; [exact Hz|].
      apply (says_uses rs z i _ z' Hs). rewrite <- Hz'. apply elem_of_list_fmap. eauto. }
    clear -Hu. unfold effects. induction subs as [|u subs IHs]; intros v; [reflexivity|]. cbn [ofold]. rewrite Hu by left. cbn. apply IHs. intros u' Hu'. apply Hu. right. assumption. }
  cbn [obind own_instructions]. rewrite (Hq x y z Hi Hz). reflexivity.
Qed.
Lemma un_instructions x : instructions_for (unignored rs) x = instructions_for rs x.
Proof. unfold instructions_for. rewrite un_rules_for. destruct (rules_for x rs); reflexivity. Qed.
Lemma gapped_effect x y l l' : ignores rs x y -> gapped rs y l l' -> forall v, effects rs l' v = effects rs l v.
Proof.
  intros Hi Hg. induction Hg as [|s|s g s' l l' Hd Hr _ IH]; intros v; [reflexivity..|]. unfold effects in *. cbn [ofold]. destruct (effect rs s v) as [v1|[]| |]; cbn [obind]; try reflexivity.
  rewrite (quiet_effect g x y Hi Hd); [cbn [obind]; apply IH|]. intros z Hz. rewrite Hz in Hr. injection Hr as ->. apply rtc_refl.
Qed.
Lemma gapped_head y (l l' : list ntree) : gapped rs y l l' -> head l' = head l.
Proof. intros []; reflexivity. Qed.
Lemma padded_effect t0 : forall t, padded rs t0 t -> forall v, effect rs t v = effect (unignored rs) t0 v.
Proof.
  induction t0 as [b|x subs0 IH] using ntree_ind'; intros t Hp v; [inversion Hp; reflexivity|].
  assert (forall subs, Forall2 (padded rs) subs0 subs -> (forall v, effects rs subs v = effects (unignored rs) subs0 v) /\ option_map nlabel (head subs) = option_map nlabel (head subs0)) as Hall.
  { clear t Hp v. intros subs Hf. split.
    - induction Hf as [|a b l0 l Hab _ IHf]; intros w; [reflexivity|]. apply Forall_cons in IH as [Ha IH]. unfold effects in *. cbn [ofold]. rewrite (Ha b Hab).
      destruct (effect (unignored rs) a w) as [v1|[]| |]; cbn [obind]; try reflexivity. apply IHf. assumption.
    - destruct Hf as [|a b l0 l Hab _]; [reflexivity|]. cbn. f_equal. apply root_label. eapply padded_root; eassumption. }
  inversion Hp as [|? ? subs Hin Hf|? y ? subs1 subs Hi Hni Hf Hg]; subst; rewrite !effect_node; destruct (Hall _ Hf) as [He Hl].
  - rewrite He. destruct (effects (unignored rs) subs0 v) as [v1|[]| |]; cbn [obind]; try reflexivity. apply (own_first Hc); [symmetry; apply un_instructions|assumption].
  - rewrite (gapped_effect x y subs1 subs Hi Hg), He. destruct (effects (unignored rs) subs0 v) as [v1|[]| |]; cbn [obind]; try reflexivity.
    apply (own_first Hc); [symmetry; apply un_instructions|]. rewrite (gapped_head _ _ _ Hg). assumption.
Qed.
End ignored.
