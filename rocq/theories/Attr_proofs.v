(** * Proofs about values computed bottom up (C76) *)
From Verif Require Import Base Peekables Tree Errors ParserData Vm RuleParsing ScriptParser
  SpecText SpecTree SpecScript SpecRules SpecContract SpecLanguage SpecAttr Tree_proofs Script_proofs Parse_proofs Props_tree Props_custom.

(** ** The numbers of nodes *)
Fixpoint nforest (n : nat) (par : option nat) (subs : list ntree) : history str :=
  match subs with
  | [] => []
  | s :: subs' => nhistory n par s ++ nforest (n + ncount s) par subs'
  end.
Lemma nhistory_node n par x subs : nhistory n par (NNode x subs) = (par, []) :: nforest (S n) (Some n) subs.
Proof. cbn [nhistory]. f_equal. generalize (S n). induction subs as [|s subs IH]; intros m; [reflexivity|]. cbn [nforest]. f_equal. apply IH. Qed.
Fixpoint npost_forest (n : nat) (subs : list ntree) : list (nat * str * nat) :=
  match subs with
  | [] => []
  | s :: subs' => npost_order n s ++ npost_forest (n + ncount s) subs'
  end.
Lemma npost_node n x subs : npost_order n (NNode x subs) = npost_forest (S n) subs ++ [(n, x, n + ncount (NNode x subs))].
Proof. cbn [npost_order]. apply (f_equal (fun l => l ++ _)). generalize (S n). induction subs as [|s subs IH]; intros m; [reflexivity|]. cbn [npost_forest]. f_equal; try apply IH. Qed.
Lemma ncount_node x subs : ncount (NNode x subs) = S (list_sum (map ncount subs)).
Proof. reflexivity. Qed.
Lemma ncount_pos t : 0 < ncount t.
Proof. destruct t; cbn; lia. Qed.
Section ntree_ind.
Context (P : ntree -> Prop) (Hl : forall b, P (NLeaf b)) (Hn : forall x subs, Forall P subs -> P (NNode x subs)).
Fixpoint ntree_ind' (t : ntree) : P t :=
  match t with
  | NLeaf b => Hl b
  | NNode x subs => Hn x subs ((fix go (l : list ntree) : Forall P l :=
      match l with [] => @List.Forall_nil _ P | s :: l' => @List.Forall_cons _ P s l' (ntree_ind' s) (go l') end) subs)
  end.
End ntree_ind.
Lemma nhistory_length t : forall n par, length (nhistory n par t) = ncount t.
Proof.
  induction t as [b|x subs IH] using ntree_ind'; intros n par; [reflexivity|]. rewrite nhistory_node, ncount_node. cbn [length]. f_equal.
  generalize (S n), (Some n). induction IH as [|s subs Hs _ IH]; intros m q; [reflexivity|]. cbn [nforest map]. rewrite app_length, Hs, IH. reflexivity.
Qed.
Lemma nforest_length subs : forall n par, length (nforest n par subs) = list_sum (map ncount subs).
Proof. induction subs as [|s subs IH]; intros n par; [reflexivity|]. cbn [nforest map]. rewrite app_length, nhistory_length, IH. reflexivity. Qed.
(** Parents inside a tree's own history. *)
Lemma nhistory_lower t : forall n par k p d, nhistory n par t !! k = Some (p, d) ->
  (k = 0 /\ p = par) \/ (exists q, p = Some q /\ n <= q < n + k).
Proof.
  induction t as [b|x subs IH] using ntree_ind'; intros n par k p d Hk.
  - apply list_lookup_singleton_Some in Hk as [-> Hk]. injection Hk as -> _. auto.
  - rewrite nhistory_node in Hk. destruct k as [|k]; [injection Hk as -> _; auto|]. right. cbn in Hk.
    assert (forall m, m > n -> forall k, nforest m (Some n) subs !! k = Some (p, d) -> exists q, p = Some q /\ (q = n \/ m <= q < m + k)) as Hgen.
    { clear k Hk. induction IH as [|s subs Hs _ IH]; intros m Hm k Hk; cbn [nforest] in Hk; [rewrite lookup_nil in Hk; discriminate|].
      apply lookup_app_Some in Hk as [Hk|[Hl Hk]].
      - apply Hs in Hk as [[_ ->]|(q & -> & Hq)]; [eauto|]. exists q. split; [reflexivity|]. lia.
      - rewrite nhistory_length in *. apply IH in Hk as (q & -> & Hq); [|lia]. exists q. split; [reflexivity|]. lia. }
    destruct (Hgen (S n) ltac:(lia) k Hk) as (q & -> & Hq). exists q. split; [reflexivity|]. lia.
Qed.
Lemma nhistory_grown t : grown (nhistory 0 None t).
Proof. intros i p d Hi. apply nhistory_lower in Hi as [[_ E]|(q & [= ->] & Hq)]; [discriminate|lia]. Qed.
Fixpoint nstarts (n : nat) (subs : list ntree) : list nat :=
  match subs with [] => [] | s :: subs' => n :: nstarts (n + ncount s) subs' end.
Lemma nforest_positions subs : forall n j, j < n -> positions n (nforest n (Some j) subs) j = nstarts n subs.
Proof.
  induction subs as [|s subs IH]; intros n j Hj; [reflexivity|]. cbn [nforest nstarts]. rewrite positions_app, nhistory_length, IH by lia.
  assert (positions n (nhistory n (Some j) s) j = [n]) as ->; [|reflexivity].
  assert (exists d l, nhistory n (Some j) s = (Some j, d) :: l) as (d & l & E) by (destruct s; [|rewrite nhistory_node]; eauto).
  assert (forall k p d, l !! k = Some (p, d) -> p <> Some j) as Hl.
  { intros k p d' Hk. assert (nhistory n (Some j) s !! S k = Some (p, d')) as Hk' by (rewrite E; exact Hk).
    apply nhistory_lower in Hk' as [[? _]|(q & -> & Hq)]; [lia|]. intros [= ->]. lia. }
  rewrite E. cbn [positions]. rewrite decide_True by reflexivity. rewrite positions_none; auto.
Qed.
Lemma kids_of_node a par x subs : grown (a ++ nhistory (length a) par (NNode x subs)) ->
  kids (a ++ nhistory (length a) par (NNode x subs)) (length a) = nstarts (S (length a)) subs.
Proof.
  intros Hg. rewrite kids_positions, positions_app. rewrite (positions_none a).
  2:{ intros k p d Hk Hp. subst p. assert (length a < k) as Hlt by (eapply (Hg k); apply lookup_app_l_Some; exact Hk). apply lookup_lt_Some in Hk. lia. }
  rewrite nhistory_node. cbn [positions plus app]. rewrite decide_False; [apply nforest_positions; lia|].
  intros ->. assert (length a < length a); [|lia]. eapply (Hg (length a)). rewrite lookup_app_r, Nat.sub_diag by lia. rewrite nhistory_node. reflexivity.
Qed.

(** ** The VM: it keeps a table of values by node, and computes the value of a node from those
    of its children.  [get_children] is unwrapped. *)
Section vm.
Context {V : Type} (alg : str -> str -> list (str + V) -> V).
Definition value_table : Type := NodeId -> option V.
Definition no_values : value_table := fun _ => None.
Definition child_value (t : Tree str) (s : value_table) (c : NodeId) : str + V :=
  match s c with
  | Some v => inr v
  | None => match get_node t c with Ok n => inl (n_data n) | _ => inl [] end
  end.
Definition value_execute (t : Tree str) (id : NodeId) (i : str * str) (s : value_table) : outcome Empty_set value_table :=
  match get_children t id with
  | Ok ids => Ok (fun j => if decide (j = id) then Some (alg i.1 i.2 (map (child_value t s) ids)) else s j)
  | Diverge => Diverge
  | _ => Panic
  end.
Definition value_vm : VM := collecting_vm (fun name body => [(name, body)]) value_execute no_values.

Lemma value_vm_meets {U : Unicode} : meets_contract value_vm noted.
Proof.
  assert (meets_contract (collecting_vm (fun name body => [(name, body)]) (fun _ _ _ s => Ok s) no_values) noted) as ((H1 & H2) & _ & _)
    by (apply C63_collecting_vm; discriminate).
  split; [split|split].
  - exact H1.
  - exact H2.
  - intros t id i s t' s'. cbn. destruct (value_execute t id i s); cbn; congruence.
  - intros h n i s Hg Hn. cbn. unfold value_execute.
    destruct (do_adds_ok h Hg) as [_ Hr]. unfold tree_of in Hr. rewrite (children_repr _ _ _ Hr Hn). cbn. discriminate.
Qed.

Context (rs : list (arule (str * str))).
Hypothesis one_note : forall x, match instructions_for rs x with [] => True | [(name, _)] => name = x | _ => False end.
Notation mean := (meaning alg rs).
Notation own_value := (value_of alg rs).

Section tree.
Context (nt : ntree).
Notation hist := (nhistory 0 None nt).
Definition at_node (s : value_table) '((i, x, k) : nat * str * nat) : outcome Empty_set value_table :=
  ofold (fun s ins => let* '(_t, s') := vm_execute value_vm (snd (do_adds (take k hist) tree_new)) (id_of i) ins s in Ok s')
    s (instructions_for rs x).

Lemma at_node_spec s a par x subs b : hist = a ++ nhistory (length a) par (NNode x subs) ++ b ->
  Forall2 (fun j t => s (id_of j) = own_value t /\ exists p, hist !! j = Some (p, nlabel t)) (nstarts (S (length a)) subs) subs ->
  exists s', at_node s (length a, x, length a + ncount (NNode x subs)) = Ok s' /\
    (s (id_of (length a)) = None -> s' (id_of (length a)) = own_value (NNode x subs)) /\
    forall j, j <> length a -> s' (id_of j) = s (id_of j).
Proof.
  intros Hh Hk. pose proof (nhistory_grown nt) as Hg. pose proof (one_note x) as Hone. unfold at_node, value_of. cbn [meaning].
  destruct (instructions_for rs x) as [|[name body] [|? ?]]; [exists s; cbn; auto| |contradiction].
  cbn [ofold]. cbn [value_vm collecting_vm vm_execute].
  assert (take (length a + ncount (NNode x subs)) hist = a ++ nhistory (length a) par (NNode x subs)) as Ht.
  { rewrite Hh, app_assoc. rewrite take_app_alt; [reflexivity|]. rewrite app_length, nhistory_length. reflexivity. }
  rewrite Ht. set (h := a ++ nhistory (length a) par (NNode x subs)) in *.
  assert (grown h) as Hgh by (rewrite Hh, app_assoc in Hg; exact (grown_prefix _ _ Hg)).
  destruct (do_adds_ok h Hgh) as [_ Hr]. unfold tree_of in Hr.
  assert (length a < length h) as Hla by (unfold h; rewrite app_length, nhistory_length; pose proof (ncount_pos (NNode x subs)); lia).
  unfold value_execute. rewrite (children_repr _ _ _ Hr Hla). unfold h at 2. rewrite kids_of_node by exact Hgh. cbn.
  eexists. split; [reflexivity|]. split; [|intros j Hj; rewrite decide_False by (intros E; injection E; intros; apply Hj; assumption); reflexivity].
  intros _. rewrite decide_True by reflexivity. do 2 f_equal. rewrite map_map.
  assert (forall j, j ∈ nstarts (S (length a)) subs -> j < length h) as Hlt.
  { intros j Hj. rewrite <- (kids_of_node a par x subs Hgh) in Hj. fold h in Hj. eapply kids_lt. exact Hj. }
  assert (forall j p d, hist !! j = Some (p, d) -> j < length h -> h !! j = Some (p, d)) as Hpre.
  { intros j p d Hj Hl. rewrite Hh, app_assoc in Hj. rewrite lookup_app_l in Hj by exact Hl. exact Hj. }
  clearbody h. revert Hlt Hk. generalize (nstarts (S (length a)) subs). intros js Hlt Hk. clear - Hlt Hk Hr Hpre.
  induction Hk as [|j t js ts [Hv [p Hp]] _ IH]; [reflexivity|]. cbn [map]. f_equal; [|apply IH; intros j' Hj'; apply Hlt; right; assumption].
  unfold child_value. rewrite Hv. unfold value_of. destruct (mean t) as [b0|v] eqn:Em; [|reflexivity].
  assert (h !! j = Some (p, nlabel t)) as Hpj by (apply Hpre; [exact Hp|apply Hlt; left]).
  destruct (f_live _ _ _ _ (repr_forest _ _ Hr) j p (nlabel t) Hpj ltac:(auto)) as (n & Hn & _ & _ & Hd).
  rewrite Hn, Hd. destruct t as [b1|y subs1]; cbn in Em |- *; [congruence|]. destruct (instructions_for rs y) as [|[? ?] ?]; congruence.
Qed.

Lemma nodes_length t : length (nodes_of t) = ncount t.
Proof.
  induction t as [c|x subs IH] using ntree_ind'; [reflexivity|]. cbn [nodes_of length]. rewrite ncount_node. f_equal.
  induction IH as [|t subs Ht _ IH]; [reflexivity|]. cbn [map concat]. rewrite app_length, Ht, IH. reflexivity.
Qed.
Lemma nodes_first t : exists l, nodes_of t = t :: l.
Proof. destruct t; cbn; eauto. Qed.
Lemma values_spec t : forall a par b s, hist = a ++ nhistory (length a) par t ++ b ->
  (forall j, length a <= j -> s (id_of j) = None) ->
  exists s', ofold at_node s (npost_order (length a) t) = Ok s' /\ (forall k u, nodes_of t !! k = Some u -> s' (id_of (length a + k)) = own_value u) /\
    (forall j, j < length a -> s' (id_of j) = s (id_of j)) /\ (forall j, length a + ncount t <= j -> s' (id_of j) = None).
Proof.
  induction t as [c|x subs IH] using ntree_ind'; intros a par b s Hh Hs.
  - exists s. cbn [npost_order ofold]. split; [reflexivity|]. split; [|split; [auto|intros j Hj; apply Hs; cbn in Hj; lia]].
    intros k u Hk. cbn in Hk. apply list_lookup_singleton_Some in Hk as [-> <-]. apply Hs. lia.
  - rewrite npost_node.
    assert (forall pre a0 s0, hist = a0 ++ nforest (length a0) (Some (length a)) subs ++ b -> length a < length a0 -> (forall j, length a0 <= j -> s0 (id_of j) = None) ->
      exists s', ofold at_node s0 (npost_forest (length a0) subs ++ pre) = ofold at_node s' pre /\
        (Forall2 (fun j t => s' (id_of j) = own_value t /\ exists p, hist !! j = Some (p, nlabel t)) (nstarts (length a0) subs) subs /\
         forall k u, concat (map nodes_of subs) !! k = Some u -> s' (id_of (length a0 + k)) = own_value u) /\
        (forall j, j < length a0 -> s' (id_of j) = s0 (id_of j)) /\ (forall j, length a0 + list_sum (map ncount subs) <= j -> s' (id_of j) = None)) as Hgen.
    { clear Hh Hs s. induction IH as [|t subs Ht _ IHs]; intros pre a0 s0 Hh Hlt Hs.
      - exists s0. cbn. repeat split; auto; [intros k u Hk; rewrite lookup_nil in Hk; discriminate|]. intros j Hj. apply Hs. lia.
      - cbn [npost_forest nforest nstarts] in *. rewrite <- app_assoc in Hh |- *.
        destruct (Ht a0 (Some (length a)) _ s0 Hh Hs) as (s1 & E1 & V1 & L1 & N1).
        destruct (IHs pre (a0 ++ nhistory (length a0) (Some (length a)) t) s1) as (s2 & E2 & (F2 & V2) & L2 & N2).
        { rewrite Hh, app_length, nhistory_length, <- app_assoc. reflexivity. }
        { rewrite app_length. lia. }
        { intros j Hj. apply N1. rewrite app_length, nhistory_length in Hj. exact Hj. }
        rewrite app_length, nhistory_length in E2, F2, V2, L2, N2.
        exists s2. split.
        { rewrite ofold_app. rewrite E1. exact E2. }
        split; [|split].
        + split.
          * constructor; [|exact F2]. split.
            -- rewrite L2 by (pose proof (ncount_pos t); lia). rewrite <- (Nat.add_0_r (length a0)). apply V1. destruct (nodes_first t) as [l ->]. reflexivity.
            -- exists (Some (length a)). rewrite Hh, lookup_app_r, Nat.sub_diag by lia. destruct t; [|rewrite nhistory_node]; reflexivity.
          * intros k u Hk. cbn [map concat] in Hk. apply lookup_app_Some in Hk as [Hk|[Hl Hk]].
            -- pose proof (lookup_lt_Some _ _ _ Hk) as Hl. rewrite nodes_length in Hl. rewrite L2 by lia. apply V1. exact Hk.
            -- rewrite nodes_length in Hl, Hk. apply V2 in Hk. rewrite <- Hk. do 2 f_equal. lia.
        + intros j Hj. rewrite L2 by lia. apply L1. exact Hj.
        + intros j Hj. apply N2. change (list_sum (map ncount (t :: subs))) with (ncount t + list_sum (map ncount subs)) in Hj. lia. }
    pose proof Hh as Hh0. rewrite nhistory_node in Hh.
    destruct (Hgen [(length a, x, length a + ncount (NNode x subs))] (a ++ [(par, [])]) s) as (s1 & E1 & (F1 & V1) & L1 & N1).
    { rewrite Hh, app_length. cbn [length]. rewrite Nat.add_1_r, <- app_assoc. reflexivity. }
    { rewrite app_length. cbn. lia. }
    { intros j Hj. apply Hs. rewrite app_length in Hj. lia. }
    rewrite app_length, Nat.add_1_r in E1, F1, V1, L1, N1. rewrite E1.
    destruct (at_node_spec s1 a par x subs b Hh0 F1) as (s2 & E2 & V2 & L2). cbn [ofold]. rewrite E2. exists s2. split; [reflexivity|]. split; [|split].
    + intros [|k] u Hk.
      * cbn in Hk. injection Hk as <-. rewrite Nat.add_0_r. apply V2. rewrite L1 by lia. apply Hs. lia.
      * cbn [nodes_of] in Hk. rewrite L2 by lia. rewrite Nat.add_succ_r. apply (V1 k). exact Hk.
    + intros j Hj. rewrite L2 by lia. apply L1. lia.
    + intros j Hj. rewrite ncount_node in Hj. rewrite L2 by lia. apply N1. lia.
Qed.
End tree.

Lemma run_tree_values nt : exists s, run_tree (vm := value_vm) rs nt no_values = Ok s /\
  (forall k u, nodes_of nt !! k = Some u -> s (id_of k) = value_of alg rs u) /\ forall k, ncount nt <= k -> s (id_of k) = None.
Proof.
  destruct (values_spec nt nt [] None [] no_values) as (s & E & Hv & _ & Hn).
  - rewrite app_nil_r. reflexivity.
  - reflexivity.
  - exists s. split; [exact E|split; [exact Hv|exact Hn]].
Qed.
End vm.
