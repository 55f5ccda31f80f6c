(** * Property theorems, graphs: C44-C47.  The specification is SpecGraph.v: an abstract
    graph is a list of nodes with data and a finite map from edge ids to targets;
    [answers_like g a] says that every query of [g] is answered from [a]. *)
From Verif Require Import Base Errors SimpleGraph NamedGraph SpecGraph Graph_proofs Named_proofs.

(** ** C44.  Any history the abstract graph allows runs on the model with the same
    answers and ends in a graph that answers like the abstract one. *)
Theorem C44_history : forall (T : Type) (m : ovf_mode) (l : list (gcall T)) answers a,
  gspec_run [] l answers a ->
  exists g, gcalls_do m graph_new l = Ok (answers, g) /\ answers_like g a.
Proof.
  intros T m l rs a H. destruct (grel_run m l _ _ _ _ _ grel_new H) as (g & chs & Hg & Hr).
  exists g. split; [assumption|]. eapply grel_answers; exact Hr.
Qed.
Print Assumptions C44_history.
(** The abstract graph allows every call whose source exists, except the edge after
    usize::MAX; those two cases panic (the second one in a debug build). *)
Theorem C44_defined_calls : forall (T : Type) (a : agraph T) (c : gcall T),
  (exists r a', gspec a c r a') \/
  match c with
  | GAddNode _ => False
  | GAddEdge s _ => a !! s = None \/
                    exists d es k, a !! s = Some (d, es) /\ is_Some (es !! k) /\ (2 ^ 64 - 1 <= k)%N
  | GTryAddEdge s _ _ => a !! s = None
  end.
Proof.
  intros T a [d|s t|s t id].
  - left. eexists _, _. constructor.
  - destruct (a !! s) as [[d es]|] eqn:Hs; [|auto]. destruct (next_edge_id_total es) as [id Hid].
    destruct (N.ltb_spec id (2 ^ 64)) as [Hlt|Hge].
    + left. eexists _, _. econstructor; eauto.
    + right. right. destruct Hid as [[-> ->]|(k & Hk & Hm & ->)]; [lia|].
      exists d, es, k. split; [reflexivity|]. split; [assumption|lia].
  - destruct (a !! s) as [[d es]|] eqn:Hs; [|auto]. left.
    destruct (es !! id) as [x|] eqn:E; eexists _, _.
    + eapply gspec_try_old; eauto.
    + eapply gspec_try_new; eauto.
Qed.
Print Assumptions C44_defined_calls.
Theorem C44_bad_source_panics : forall (T : Type) m (g : Graph T) s t id ids,
  length (gr_nodes g) <= s ->
  gcall_do m g (GAddEdge s t) = Panic /\ gcall_do m g (GTryAddEdge s t id) = Panic /\
  find_node_index (E := Empty_set) g s id = Panic /\ find_node (E := Empty_set) g s id = Panic /\
  find_node_index_by_path (E := Empty_set) g s (id :: ids) = Panic /\
  find_node_by_path (E := Empty_set) g s (id :: ids) = Panic /\
  find_node_index_by_path (E := Empty_set) g s [] = Ok (Some s) /\
  find_node_by_path (E := Empty_set) g s [] = Panic /\
  connected_edges (E := Empty_set) g s = Panic /\ successors (E := Empty_set) g s = Panic.
Proof.
  intros T m g s t id ids H. apply lookup_ge_None in H. simpl.
  unfold graph_add_edge, try_add_edge_with_id, find_node, find_node_by_path, find_node_index_by_path,
    connected_edges, successors. cbn [find_path_loop]. unfold find_node_index. rewrite H. cbn [obind node_at].
  unfold node_at. rewrite H. repeat split.
Qed.
Print Assumptions C44_bad_source_panics.
(** Reading the map: first value wins, other sources are unaffected. *)
Theorem C44_other_sources : forall (T : Type) (a a' : agraph T) c r s,
  gspec a c r a' -> match c with GAddEdge s' _ | GTryAddEdge s' _ _ => s' <> s | _ => s < length a end ->
  a' !! s = a !! s.
Proof.
  intros T a a' c r s H Hs. destruct H; simpl in *.
  - apply lookup_app_l. assumption.
  - apply list_lookup_insert_ne. assumption.
  - apply list_lookup_insert_ne. assumption.
  - reflexivity.
Qed.
Print Assumptions C44_other_sources.
Theorem C44_entries_are_permanent : forall (T : Type) l (a a' : agraph T) rs s d es id t,
  gspec_run a l rs a' -> a !! s = Some (d, es) -> es !! id = Some t ->
  exists es', a' !! s = Some (d, es') /\ es' !! id = Some t.
Proof.
  intros T l. induction l as [|c l IH]; intros a a' rs s d es id t H Hs Ht; inversion H; subst; [eauto|].
  assert (exists es', a1 !! s = Some (d, es') /\ es' !! id = Some t) as (es' & Hs' & Ht'); [|eauto].
  match goal with G : gspec _ _ _ _ |- _ => destruct G as [b d'|b s' t' d' es' id' Hs' Hid Hb|b s' t' d' es' id' Hs' Hnone|b s' t' d' es' id' Hs' Hsome] end.
  - exists es. split; [|assumption]. rewrite lookup_app_l by (eapply lookup_lt_Some; eauto). assumption.
  - destruct (decide (s' = s)) as [->|Hne].
    + rewrite list_lookup_insert by (eapply lookup_lt_Some; eauto). assert (d' = d /\ es' = es) as [-> ->] by (split; congruence).
      eexists. split; [reflexivity|]. rewrite lookup_insert_ne; [assumption|].
      intros ->. destruct Hid as [[-> _]|(k & _ & Hm & ->)]; [rewrite lookup_empty in Ht; discriminate|].
      specialize (Hm (k + 1)%N ltac:(eauto)). lia.
    + rewrite list_lookup_insert_ne by assumption. eauto.
  - destruct (decide (s' = s)) as [->|Hne].
    + rewrite list_lookup_insert by (eapply lookup_lt_Some; eauto). assert (d' = d /\ es' = es) as [-> ->] by (split; congruence).
      eexists. split; [reflexivity|]. rewrite lookup_insert_ne; [assumption|]. congruence.
    + rewrite list_lookup_insert_ne by assumption. eauto.
  - eauto.
Qed.
Print Assumptions C44_entries_are_permanent.
Example C44_example : exists g,
  gcalls_do Checked graph_new
    [GAddNode 10; GAddNode 11; GAddEdge 0 1; GTryAddEdge 0 0 7; GTryAddEdge 0 1 3; GTryAddEdge 0 0 3;
     GAddEdge 0 0; GAddEdge 1 1]
  = Ok ([AIndex 0; AIndex 1; ADone; ABool true; ABool true; ABool false; ADone; ADone], g)
  /\ successors (E := Empty_set) g 0 = Ok [0; 0; 1; 1]
  /\ find_node_index (E := Empty_set) g 0 8 = Ok (Some 0)
  /\ find_node_index (E := Empty_set) g 0 5 = Ok None.
Proof. eexists. split; [vm_compute; reflexivity|]. vm_compute. auto. Qed.
(** the history of the example is one the abstract graph allows *)
Example C44_example_allowed : exists a, gspec_run (T := nat) []
    [GAddNode 10; GAddNode 11; GAddEdge 0 1; GTryAddEdge 0 0 7; GTryAddEdge 0 0 7; GAddEdge 0 0]
    [AIndex 0; AIndex 1; ADone; ABool true; ABool false; ADone] a.
Proof.
  eexists. repeat (eapply gspec_cons; [first [apply (gspec_node [])|apply gspec_node|idtac]|]).
  - simpl. eapply gspec_edge; [reflexivity|left; auto|lia].
  - eapply gspec_try_new; [reflexivity|reflexivity].
  - eapply gspec_try_old; [reflexivity|eexists; reflexivity].
  - eapply gspec_edge; [reflexivity|right; exists 7%N|].
    + split; [eexists; reflexivity|]. split; [|reflexivity]. intros k' [x Hx].
      apply lookup_insert_Some in Hx as [[<- _]|[_ Hx]]; [lia|].
      apply lookup_insert_Some in Hx as [[<- _]|[_ Hx]]; [lia|]. rewrite lookup_empty in Hx. discriminate.
    + lia.
  - constructor.
Qed.

(** ** C45.  Grafting [o] onto [g]: the result answers like the disjoint union (with
    [o]'s nodes renumbered) plus one new edge from [this] to the renumbered [other]. *)
Theorem C45_graft : forall (T : Type) (m : ovf_mode) (l1 l2 : list (gcall T)) rs1 rs2 a b g o this other a',
  gspec_run [] l1 rs1 a -> gcalls_do m graph_new l1 = Ok (rs1, g) ->
  gspec_run [] l2 rs2 b -> gcalls_do m graph_new l2 = Ok (rs2, o) ->
  gspec (a ++ shifted (length a) b) (GAddEdge this (length a + other)) ADone a' ->
  exists g', add_graph_at_node (E := Empty_set) m g o this other = Ok g' /\ answers_like g' a'.
Proof.
  intros T m l1 l2 rs1 rs2 a b g o this other a' H1 G1 H2 G2 Hs.
  destruct (grel_run m l1 _ _ _ _ _ grel_new H1) as (g1 & chs1 & Hg1 & Hr1).
  destruct (grel_run m l2 _ _ _ _ _ grel_new H2) as (o1 & chs2 & Ho1 & Hr2).
  rewrite G1 in Hg1. rewrite G2 in Ho1. injection Hg1 as <-. injection Ho1 as <-.
  destruct (add_graph_ok m _ _ _ _ _ _ this other a' Hr1 Hr2 Hs) as (g' & chs & Hg & Hr).
  exists g'. split; [assumption|]. eapply grel_answers; exact Hr.
Qed.
Print Assumptions C45_graft.
(** Grafts in any order and nesting, with calls in between. *)
Theorem C45_nested : forall (T : Type) (m : ovf_mode) (p : gplan T) rs a, plan_spec p rs a ->
  exists g, plan_do m p = Ok (rs, g) /\ answers_like g a.
Proof.
  intros T m p rs a H. assert (exists g chs, plan_do m p = Ok (rs, g) /\ grel g a chs) as (g & chs & Hg & Hr).
  { induction H as [|p rs a c r a' _ (g & chs & Hg & Hr) Hc|p rs a q rs' b this other a' _ (g & chs & Hg & Hr) _ (o & chs' & Ho & Hr') Hs].
    - exists graph_new, []. split; [reflexivity|apply grel_new].
    - destruct (grel_step m _ _ _ _ _ _ Hr Hc) as (g' & chs' & Hg' & Hr'). exists g', chs'. cbn [plan_do]. rewrite Hg. cbn [obind]. rewrite Hg'. auto.
    - destruct (add_graph_ok m _ _ _ _ _ _ this other a' Hr Hr' Hs) as (g' & chs'' & Hg' & Hr''). exists g', chs''. cbn [plan_do]. rewrite Hg. cbn [obind]. rewrite Ho. cbn [obind]. rewrite Hg'. auto. }
  exists g. split; [exact Hg|]. eapply grel_answers; exact Hr.
Qed.
Print Assumptions C45_nested.
(** Grafting onto a graph from a plan is defined whenever the node exists and its last edge
    id is not usize::MAX. *)
Theorem C45_nested_defined : forall (T : Type) (p q : gplan T) rs rs' (a b : agraph T) this other d es, plan_spec p rs a -> plan_spec q rs' b ->
  a !! this = Some (d, es) -> (forall k, is_Some (es !! k) -> k < 2 ^ 64 - 1)%N ->
  exists rs'' a', plan_spec (PGraft p q this other) rs'' a'.
Proof.
  intros T p q rs rs' a b this other d es Hp Hq Ha Hb.
  destruct (C44_defined_calls T (a ++ shifted (length a) b) (GAddEdge this (length a + other))) as [(r & a' & Hs)|[E|(d' & es' & k & E & Hk & Hle)]].
  - exists (rs ++ rs'), a'. econstructor; [exact Hp|exact Hq|]. inversion Hs; subst. exact Hs.
  - rewrite lookup_app_l in E by (eapply lookup_lt_Some; exact Ha). congruence.
  - rewrite lookup_app_l in E by (eapply lookup_lt_Some; exact Ha). rewrite Ha in E. injection E as <- <-. specialize (Hb k Hk). lia.
Qed.
Print Assumptions C45_nested_defined.
(** Paths of the grafted graph survive under shifted indices, and so do paths of the
    receiving graph. *)
Theorem C45_paths : forall (T : Type) (g' : Graph T) (a b : agraph T) this other a',
  closed a -> closed b -> this < length a -> other < length b ->
  gspec (a ++ shifted (length a) b) (GAddEdge this (length a + other)) ADone a' ->
  answers_like g' a' ->
  (forall ids s, s < length b ->
     find_node_index_by_path (E := Empty_set) g' (length a + s) ids
     = Ok (option_map (fun t => length a + t) (apath b s ids))) /\
  (forall ids s t, s < length a -> apath a s ids = Some t ->
     find_node_index_by_path (E := Empty_set) g' s ids = Ok (Some t)) /\
  (exists id, find_node_index (E := Empty_set) g' this id = Ok (Some (length a + other)) /\
     forall d es, a !! this = Some (d, es) -> es !! id = None).
Proof.
  intros T g' a b this other a' Ha Hb Hthis Hother Hs Hans.
  inversion Hs as [|? ? ? d es id Hl Hid Hbound| |]; subst.
  pose proof Hl as Hl0. rewrite lookup_app_l in Hl by assumption.
  assert (es !! id = None) as Hfresh.
  { destruct Hid as [[-> ->]|(k & _ & Hm & ->)]; [apply lookup_empty|].
    destruct (es !! (k + 1)%N) eqn:E; [|reflexivity]. specialize (Hm (k + 1)%N ltac:(eauto)). lia. }
  set (a' := <[this:=(d, <[id:=length a + other]> es)]> (a ++ shifted (length a) b)) in *.
  assert (length a' = length a + length b) as Hlen'.
  { unfold a', shifted. rewrite insert_length, app_length, map_length. reflexivity. }
  assert (forall s, s < length b -> a' !! (length a + s) = (fun '(d, es) => (d, (fun t => length a + t) <$> es)) <$> b !! s) as Hb'.
  { intros s Hsb. unfold a'. rewrite list_lookup_insert_ne by lia.
    rewrite lookup_app_r by lia. replace (length a + s - length a) with s by lia.
    unfold shifted. change (map ?f b) with (f <$> b). rewrite list_lookup_fmap. reflexivity. }
  assert (closed a') as Hc'.
  { intros s d' es' id' t' Hs1 Ht. rewrite Hlen'. destruct (decide (s = this)) as [->|Hne].
    - unfold a' in Hs1. rewrite list_lookup_insert in Hs1 by (eapply lookup_lt_Some; exact Hl0).
      injection Hs1 as <- <-. apply lookup_insert_Some in Ht as [[_ <-]|[_ Ht]]; [lia|].
      specialize (Ha _ _ _ _ _ Hl Ht). lia.
    - destruct (decide (s < length a)) as [Hlt|Hge].
      + unfold a' in Hs1. rewrite list_lookup_insert_ne, lookup_app_l in Hs1 by (assumption || congruence).
        specialize (Ha _ _ _ _ _ Hs1 Ht). lia.
      + assert (s < length b + length a) by (apply lookup_lt_Some in Hs1; lia).
        replace s with (length a + (s - length a)) in Hs1 by lia.
        rewrite Hb' in Hs1 by lia. destruct (b !! (s - length a)) as [[d2 es2]|] eqn:E; [|discriminate].
        simpl in Hs1. injection Hs1 as <- <-. rewrite lookup_fmap in Ht.
        destruct (es2 !! id') as [t2|] eqn:E2; [|discriminate]. simpl in Ht. injection Ht as <-.
        specialize (Hb _ _ _ _ _ E E2). lia. }
  split; [|split].
  - intros ids s Hsb. rewrite (path_ok _ _ Hans Hc') by lia. f_equal. revert s Hsb.
    induction ids as [|i ids IH]; intros s Hsb; [reflexivity|]. simpl. rewrite Hb' by assumption.
    destruct (b !! s) as [[d2 es2]|] eqn:E; [|reflexivity]. simpl. rewrite lookup_fmap.
    destruct (es2 !! i) as [t2|] eqn:E2; [|reflexivity]. simpl. apply IH. eapply Hb; eauto.
  - intros ids s t Hsa Hp. rewrite (path_ok _ _ Hans Hc') by lia. f_equal. revert s Hsa Hp.
    induction ids as [|i ids IH]; intros s Hsa Hp; [exact Hp|]. simpl in *.
    destruct (a !! s) as [[d2 es2]|] eqn:E; [|discriminate].
    destruct (es2 !! i) as [t2|] eqn:E2; [|discriminate].
    assert (t2 < length a) as Ht2 by (eapply Ha; eauto).
    destruct (decide (s = this)) as [->|Hne].
    + unfold a'. rewrite list_lookup_insert by (eapply lookup_lt_Some; exact Hl0).
      assert (d2 = d /\ es2 = es) as [-> ->] by (split; congruence).
      rewrite lookup_insert_ne by congruence. rewrite E2. fold a'. auto.
    + unfold a'. rewrite list_lookup_insert_ne, lookup_app_l by (assumption || congruence).
      rewrite E, E2. fold a'. auto.
  - exists id. split.
    + destruct Hans as [_ Hans].
      assert (a' !! this = Some (d, <[id:=length a + other]> es)) as Hthis'
        by (unfold a'; apply list_lookup_insert; eapply lookup_lt_Some; exact Hl0).
      destruct (Hans _ _ _ Hthis') as (_ & Hf & _). rewrite Hf, lookup_insert. reflexivity.
    + intros d2 es2 H2. rewrite Hl in H2. injection H2 as <- <-. assumption.
Qed.
Print Assumptions C45_paths.

(** ** C46 *)
Theorem C46_history : forall (T : Type) (m : ovf_mode) (l : list (ncall T)) answers a,
  nspec_run ∅ l answers a ->
  exists g, ncalls_do m named_new l = Some (answers, g) /\
    ((N.of_nat (size a) <= 2 ^ 64)%N -> named_answers_like g a).
Proof.
  intros T m l rs a H. destruct (nrel_run m l _ _ _ _ _ nrel_new H) as (g & chs & Hg & Hr).
  exists g. split; [assumption|]. intros Hb. eapply nrel_answers; [exact Hr|].
  rewrite (named_count l m named_new rs g Hg) by reflexivity.
  replace (size (ng_names g)) with (size a); [assumption|].
  rewrite <- !size_dom. f_equal. apply set_eq. intros x. rewrite !elem_of_dom. symmetry. apply (nr_dom _ _ _ Hr).
Qed.
Print Assumptions C46_history.
(** The specification allows every call, except one more edge at a node with 2^64. *)
Theorem C46_calls_total : forall (T : Type) (a : gmap nat (T * list nat)) (c : ncall T),
  (exists r a', nspec a c r a') \/
  exists s t d ss, c = NAddEdge s t /\ a !! s = Some (d, ss) /\ (2 ^ 64 <= N.of_nat (length ss))%N.
Proof. exact @nspec_total. Qed.
Print Assumptions C46_calls_total.
Example C46_example : exists g,
  ncalls_do Checked (@named_new nat)
    [NAddNode 5 50; NAddNode 3 30; NAddNode 5 51; NAddEdge 5 3; NAddEdge 5 9; NAddEdge 5 5;
     NWrite 3 (fun x => x + 1)]
  = Some ([None; None; Some (GraphNodeAlreadyExistsError 5); None;
           Some (GraphNodeDoesNotExistsError 9); None; None], g)
  /\ (let* n := named_get_node g 3 in Ok (nd_data n)) = Ok 31
  /\ (let* l := named_successors g 5 in Ok (map (fun p => nd_data p.2) l)) = Ok [50; 31].
Proof. eexists. split; [vm_compute; reflexivity|]. vm_compute. auto. Qed.

(** ** C47.  False on the graph without nodes, true on every other graph. *)
Theorem C47_index_exact : forall (T : Type) (m : ovf_mode) (g : GraphNamedNodes T) (i : nat),
  let n := length (gr_nodes (ng_graph g)) in
  (N.of_nat n <= 2 ^ 64)%N ->
  (n = 0 -> (N.of_nat i < 2 ^ 64)%N -> get_node_by_index m g i = Panic) /\
  (0 < n -> n <= i -> get_node_by_index m g i = Err (GraphIndexOutOfBounds i)) /\
  (i < n -> exists d, gr_nodes (ng_graph g) !! i = Some d /\ get_node_by_index m g i = Ok d).
Proof.
  intros T m g i n Hb. split; [|split].
  - intros Hz Hi. unfold get_node_by_index. fold n. rewrite Hz. destruct m; [reflexivity|].
    change (usize_result Wrapping (Z.of_nat 0 - 1) : outcome GrammarError N) with (Ok (2 ^ 64 - 1)%N : outcome GrammarError N).
    unfold obind. rewrite (proj2 (N.ltb_ge _ _)) by lia.
    rewrite lookup_ge_None_2; [reflexivity|]. fold n. lia.
  - intros Hp Hi. unfold get_node_by_index, usize_result. fold n.
    rewrite (proj2 (Z.leb_le _ _)), (proj2 (Z.ltb_lt _ _)) by lia. simpl.
    rewrite (proj2 (N.ltb_lt _ _)) by lia. reflexivity.
  - intros Hi. destruct (lookup_lt_is_Some_2 (gr_nodes (ng_graph g)) i Hi) as [d Hd].
    exists d. split; [assumption|]. apply get_by_index_ok; assumption.
Qed.
Print Assumptions C47_index_exact.
Theorem C47_error_for_every_bad_index_refuted : forall (T : Type) (m : ovf_mode),
  get_node_by_index m (@named_new T) 0 = Panic.
Proof. intros T m. apply C47_index_exact; simpl; lia. Qed.
Print Assumptions C47_error_for_every_bad_index_refuted.
