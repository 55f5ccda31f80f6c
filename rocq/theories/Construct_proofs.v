(** * When a parser can be built, and what its tables are *)
From Verif Require Import Base Tree Errors Sets ParserData FirstSets FollowSets SteuerMap Vm ScriptParser
  SpecGrammar SpecParser Grammar_proofs First_proofs Follow_proofs Steuer_proofs.


Section construct.
Context {H : HashOrder} {I : Type} (m : ovf_mode) (pd : ParserData I) (Hwf : wf_grammar pd) (start : nat).
Context (fs : NamedSets) (fw : NamedSetsNoEmpty).
Hypothesis fs_dom : forall A, is_Some (fs !! A) <-> has_rule pd A.
Hypothesis fs_exact : forall A s, fs !! A = Some s -> exact pd A s.
Hypothesis fw_dom : forall A, is_Some (fw !! A) <-> has_rule pd A.
Hypothesis fw_exact : forall A s, fw !! A = Some s -> forall x, x ∈ s <-> fol pd start A x.
Hypothesis Hdef : all_defined pd.


Lemma steuer_ok : exists ss, get_steuer_sets fs fw = Ok ss.
Proof.
  pose proof (get_steuer_sets_spec fs fw) as Hs. destruct (get_steuer_sets fs fw) as [s|e| |]; [eauto| |contradiction|contradiction].
  destruct Hs as (A & _ & f & HA & _ & Hf). assert (is_Some (fw !! A)) as [? ?].
  { apply fw_dom, fs_dom. eauto. } congruence.
Qed.

Context (ss : NamedSetsNoEmpty) (Hss : get_steuer_sets fs fw = Ok ss).
Lemma ss_exact e s : ss !! e = Some s -> forall x, x ∈ s <->
  (exists c, x = MChar c /\ FIRST pd [e] c) \/ (NULLABLE pd [e] /\ FOLLOW pd start e x).
Proof.
  intros Hs x. pose proof (get_steuer_sets_spec fs fw) as Hg. rewrite Hss in Hg. destruct Hg as (_ & G2 & G3).
  assert (is_Some (fs !! e)) as [f Hf] by (apply G2; eauto).
  assert (is_Some (fw !! e)) as [o Ho] by (apply fw_dom, fs_dom; eauto).
  rewrite (G3 e f s Hf Hs x). pose proof (fs_exact e f Hf) as He. apply exact_exacts in He. destruct He as (E1 & E2 & E3).
  unfold steuer_member. rewrite Ho. setoid_rewrite FIRST_fsts. rewrite NULLABLE_nuls, FOLLOW_fol, E2.
  assert ((exists y, y ∈ f /\ try_from y = Some x) <-> exists c, x = MChar c /\ fsts pd [e] c) as ->.
  { split.
    - intros ([c| |] & Hy & Hx); simpl in Hx; try discriminate; [|contradiction]. injection Hx as <-. exists c. rewrite <- E1. auto.
    - intros (c & -> & Hc). exists (EChar c). rewrite E1. auto. }
  assert ((exists s0, Some o = Some s0 /\ x ∈ s0) <-> fol pd start e x) as ->; [|reflexivity].
  rewrite <- (fw_exact e o Ho). split; [intros (? & [= <-] & ?); assumption|eauto].
Qed.

Lemma ready_iff A r p : pd_rules pd !! A = Some r -> p ∈ possible_productions r ->
  (ready ss fw (element_types pd) (element_data pd) A p <-> ~ starts_with_empty_terminal pd p).
Proof.
  intros Hr Hp. destruct Hdef as [D1 D2].
  destruct p as [[|e rest]|]; simpl.
  - exfalso. eapply D1; eauto.
  - assert ((exists s, is_terminal pd e s) \/ (is_nonterminal pd e /\ has_rule pd e)) as He.
    { apply (D2 A (e :: rest) e); [exists r, (NotEmpty (e :: rest)); auto|left]. }
    split.
    + intros [(Ht & d & c & n & Hd & Hn)|[Ht Hs]] (e' & rest' & [= <- <-] & Hx);
        apply verbose_types in Hx as (Hx & d' & Hd' & Hn'); congruence.
    + intros Hne. destruct He as [[s Hs]|[[s Hs] Hrule]].
      * left. pose proof Hs as Hs'. apply verbose_types in Hs as (Ht & d & Hd & Hn). split; [assumption|].
        destruct s as [|c n]; [exfalso; apply Hne; exists e, rest; auto|]. exists d, c, n. auto.
      * right. apply verbose_types in Hs as (Ht & _). split; [assumption|].
        pose proof (get_steuer_sets_spec fs fw) as Hg. rewrite Hss in Hg. apply Hg, fs_dom, Hrule.
  - split.
    + intros _ (e & rest & Hx & _). discriminate.
    + intros _. apply fw_dom. eexists. exact Hr.
Qed.

Lemma choose_nonempty A p x : choose ss fw (element_types pd) (element_data pd) A p x -> ~ starts_with_empty_terminal pd p.
Proof.
  intros Hc (e & rest & -> & Ht). apply verbose_types in Ht as (Ht & d & Hd & Hn).
  destruct Hc as [(_ & d' & c & n & Hd' & Hn' & _)|[Hx _]]; congruence.
Qed.

Lemma choose_iff A r p x : pd_rules pd !! A = Some r -> p ∈ possible_productions r ->
  ~ starts_with_empty_terminal pd p ->
  (choose ss fw (element_types pd) (element_data pd) A p x <-> CHOOSE pd start A p x).
Proof.
  intros Hr Hp Hne. pose proof (proj2 (ready_iff A r p Hr Hp) Hne) as Hrdy.
  destruct p as [[|e rest]|]; simpl; [reflexivity| |].
  - simpl in Hrdy. destruct Hrdy as [(Ht & d & c & n & Hd & Hn)|[Ht [s Hs]]].
    + assert (is_terminal pd e (c :: n)) as Hterm.
      { unfold is_terminal, get_element_verbose. rewrite Hd, Ht, Hn. reflexivity. }
      pose proof (exact_terminal pd Hwf e (c :: n) Hterm) as Hx. apply exact_exacts in Hx. destruct Hx as (X1 & X2 & _).
      setoid_rewrite FIRST_fsts. rewrite NULLABLE_nuls. rewrite <- X2. setoid_rewrite <- X1. split.
      * intros [(_ & d' & c' & n' & Hd' & Hn' & ->)|[Hx _]]; [|congruence]. left. exists c'. split; [reflexivity|].
        assert (c' = c) as -> by congruence. set_solver.
      * intros [(c' & -> & Hc)|[Hx _]]; [|set_solver]. left. split; [assumption|]. exists d, c, n.
        apply elem_of_singleton in Hc. injection Hc as ->. auto.
    + rewrite <- (ss_exact e s Hs). split.
      * intros [[Hx _]|(_ & s' & Hs' & Hin)]; congruence.
      * intros Hin. right. eauto.
  - assert (is_Some (fw !! A)) as [s Hs] by (apply fw_dom; eexists; exact Hr). rewrite Hs, FOLLOW_fol, <- (fw_exact A s Hs).
    split; [intros (? & [= <-] & ?); assumption|eauto].
Qed.
End construct.

Lemma parser_table_unique {I} (pd : ParserData I) start ps ps' :
  parser_table pd start ps -> parser_table pd start ps' -> ps = ps'.
Proof.
  intros [E1 R1 T1] [E2 R2 T2]. destruct ps as [rs els], ps' as [rs' els']. simpl in *. f_equal.
  - apply map_eq. intros A. specialize (R1 A). specialize (R2 A).
    destruct (rs !! A) as [nt|] eqn:E.
    + assert (has_rule pd A) as [r Hr] by (apply R1; eauto).
      destruct (rs' !! A) as [nt'|] eqn:E'.
      2:{ assert (is_Some (@None (NTRules I))) as [? ?] by (apply R2; eexists; exact Hr). discriminate. }
      destruct (T1 A r nt Hr E) as (a1 & b1 & c1), (T2 A r nt' Hr E') as (a2 & b2 & c2).
      destruct nt as [sm ig ins], nt' as [sm' ig' ins']. simpl in *. f_equal. f_equal; [|congruence|congruence].
      apply (map_eq (M := gmap SetMember)). intros x. apply option_eq. intros p. transitivity (p ∈ possible_productions r /\ CHOOSE pd start A p x).
      * apply c1.
      * symmetry. apply c2.
    + destruct (rs' !! A) as [nt'|] eqn:E'; [|reflexivity].
      assert (is_Some (@None (NTRules I))) as [? ?] by (apply R1, R2; eauto). discriminate.
  - apply list_eq. intros e. rewrite E1, E2. reflexivity.
Qed.

Lemma elements_verbose_ok {I E} (pd : ParserData I) : wf_grammar pd ->
  exists els, get_elements_verbose (E := E) pd = Ok els /\ forall e, els !! e = get_element_verbose pd e.
Proof.
  intros [Hlen _]. unfold get_elements_verbose, get_element_verbose.
  generalize (element_data pd) (element_types pd) Hlen. clear Hlen pd.
  induction l as [|d l IH]; intros [|t ts] Hlen; simpl in Hlen; try discriminate.
  - exists []. split; [reflexivity|]. intros e. rewrite !lookup_nil. reflexivity.
  - destruct (IH ts) as (els & He & Hl); [lia|]. exists ((ed_name d, t) :: els). simpl. rewrite He. split; [reflexivity|].
    intros [|e]; simpl; [reflexivity|apply Hl].
Qed.

Section tables.
Context {H : HashOrder} {I : Type} (pd : ParserData I) (start : nat) (Hwf : wf_grammar pd).
(** The table half of the construction, for any FIRST and FOLLOW maps that are exact *)
Lemma maps_construct (fs : NamedSets) (fw : NamedSetsNoEmpty) :
  (forall A, is_Some (fs !! A) <-> has_rule pd A) -> (forall A s, fs !! A = Some s -> exact pd A s) ->
  (forall A, is_Some (fw !! A) <-> has_rule pd A) -> (forall A s, fw !! A = Some s -> forall x, x ∈ s <-> fol pd start A x) ->
  all_defined pd -> has_rule pd start -> (forall A, ~ left_recursive pd A) ->
  match get_steuermaps fs fw pd with
  | Ok maps => constructible pd start /\ (forall els, (forall e, els !! e = get_element_verbose pd e) -> parser_table pd start (mkParser maps els))
  | Diverge => False
  | Err e => ~ constructible pd start /\
      ((exists A x n r i j p q, e = SteuerSetsNotDistinct n (fill_char x) A /\ pd_rules pd !! A = Some r /\
          possible_productions r !! i = Some p /\ possible_productions r !! j = Some q /\ i <> j /\
          CHOOSE pd start A p x /\ CHOOSE pd start A q x)
       \/ ~ forall A r p, pd_rules pd !! A = Some r -> p ∈ possible_productions r -> ~ starts_with_empty_terminal pd p)
  | Panic => ~ forall A r p, pd_rules pd !! A = Some r -> p ∈ possible_productions r -> ~ starts_with_empty_terminal pd p
  end.
Proof.
  intros F1 F2 W1 W2 Hdef Hst Hnr. destruct (steuer_ok pd fs fw F1 W1) as [ss Hss].
  pose proof (get_steuermaps_spec fs fw ss pd Hss) as Hs.
  pose proof (ready_iff pd fs fw F1 W1 Hdef ss Hss) as Hready.
  pose proof (choose_iff pd Hwf start fs fw F1 F2 W1 W2 Hdef ss Hss) as Hchoose.
  assert (all_ready fw ss pd <-> forall A r p, pd_rules pd !! A = Some r -> p ∈ possible_productions r -> ~ starts_with_empty_terminal pd p) as Hall.
  { split; intros Hx A r p Hr Hp; apply (Hready A r p Hr Hp); eapply Hx; eauto. }
  destruct (get_steuermaps fs fw pd) as [maps|e| |]; [| | |assumption].
  - destruct Hs as (S1 & S2 & S3 & S4). pose proof (proj1 Hall S1) as S1x; clear S1; rename S1x into S1. split.
    + split; try assumption. intros A r i j p q x Hr Hi Hj Hne Hp Hq. apply (S2 A x). exists r. split; [assumption|].
      assert (p ∈ possible_productions r) as Hpin by (eapply elem_of_list_lookup_2; eauto).
      assert (q ∈ possible_productions r) as Hqin by (eapply elem_of_list_lookup_2; eauto).
      exists i, j, p, q. rewrite !(Hchoose A r) by eauto. auto.
    + intros els Hels. split; simpl; [assumption|assumption|].
      intros A r nt Hr Hnt. destruct (S4 A r nt Hr Hnt) as (T1 & T2 & T3). split; [assumption|]. split; [assumption|].
      intros x p. rewrite T3. split; intros [Hp Hx]; (split; [assumption|]); apply (Hchoose A r p x Hr Hp); eauto.
  - destruct Hs as [(A & x & (n & ->) & r & Hr & i & j & p & q & Hi & Hj & Hne & Hp & Hq)|[He Hno]].
    + assert (p ∈ possible_productions r) as Hpin by (eapply elem_of_list_lookup_2; eauto).
      assert (q ∈ possible_productions r) as Hqin by (eapply elem_of_list_lookup_2; eauto).
      assert (~ starts_with_empty_terminal pd p) as Np by (eapply choose_nonempty; eauto).
      assert (~ starts_with_empty_terminal pd q) as Nq by (eapply choose_nonempty; eauto).
      apply (Hchoose A r p x Hr Hpin Np) in Hp. apply (Hchoose A r q x Hr Hqin Nq) in Hq.
      split; [intros [_ _ _ _ Hd]; eapply (Hd A r i j p q x); eauto|].
      left. exists A, x, n, r, i, j, p, q. auto 10.
    + split; [intros [_ _ _ Hne _]; apply Hno, Hall, Hne|]. right. intros Hne. apply Hno, Hall, Hne.
  - intros Hne. apply Hs, Hall, Hne.
Qed.

End tables.

Section parser.
Context {H : HashOrder} (m : ovf_mode) (vm : VM) (fl : fuels) (pd : ParserData (vm_instr vm)) (start : nat).
Context (Hwf : wf_grammar pd) (Hfit : fits_memory pd).
(** the whole construction *)
Lemma construct_spec :
  match new_from_parser_data m vm fl pd start with
  | Ok ps => constructible pd start /\ parser_table pd start ps
  | Err _ => False
  | Panic => ~ constructible pd start
  | Diverge => enough fl pd -> ~ constructible pd start
  end.
Proof.
  unfold new_from_parser_data.
  assert (constructible pd start -> left_defined pd) as Hld.
  { intros [[D1 D2] _ _ _ _]. split; [assumption|]. intros B u e v Hb _. eapply D2; [exact Hb|]. apply elem_of_app. right. left. }
  pose proof (fun K => get_first_sets_fine pd Hwf (first_fuel fl) (Hld K)) as Hfine.
  pose proof (fun K : constructible pd start => get_first_sets_nodiv pd Hwf (first_fuel fl) (con_no_left_recursion pd start K)) as Hnd.
  destruct (get_first_sets pd (first_fuel fl)) as [fs| | |] eqn:Hfs; cbn [unwrap obind].
  2,3: intros K; apply (Hfine K).
  2:{ intros [Hen _] K. apply (Hnd K); [assumption|reflexivity]. }
  clear Hfine Hnd. destruct (get_first_sets_exact pd Hwf _ _ Hfs) as (F1 & F2 & _).
  destruct (get_first_sets_grounded pd Hwf _ _ Hfs) as [[Hne _] Hnr].
  pose proof (get_follow_sets_spec m pd Hwf start fs (follow_fuel fl) F1 F2 Hfit) as Hfo.
  destruct (get_follow_sets m pd (follow_fuel fl) start fs) as [fw| | |]; cbn [unwrap obind].
  2,3: intros [[D1 D2] _ Hst _ _]; apply Hfo; split; assumption.
  2:{ intros [_ Hen] K. specialize (Hfo (follow_universe pd) (follow_universe_ok pd Hwf start)).
      pose proof (Nat.mul_le_mono_l _ _ (size (pd_rules pd)) (follow_universe_size pd Hwf)). lia. }
  destruct Hfo as (Hst & Hg & W1 & W2).
  destruct (elements_verbose_ok (E := Empty_set) pd Hwf) as (els & He & Hels). rewrite He. cbn [obind].
  pose proof (maps_construct pd start Hwf fs fw F1 F2 W1 W2 (conj Hne Hg) Hst Hnr) as Hm.
  destruct (get_steuermaps fs fw pd) as [maps| | |]; cbn [unwrap obind].
  - destruct Hm as [Hc Ht]. split; [assumption|]. apply Ht. assumption.
  - apply Hm.
  - intros [_ _ _ Hx _]. contradiction.
  - contradiction.
Qed.
End parser.
