(** * C24-C29: selection tables and parser construction *)
From Verif Require Import Base Tree Errors Sets ParserData FirstSets FollowSets SteuerMap Vm ScriptParser
  SpecData SpecGrammar SpecParser Grammar_proofs First_proofs Follow_proofs Steuer_proofs Construct_proofs Checks Samples
  Props_first.

(** ** C25: steuer sets, for arbitrary FIRST and FOLLOW maps *)
(** Members of a FIRST set other than Empty, as plain set members. *)
Inductive plain : SetMemberWithEmpty -> SetMember -> Prop :=
| plain_char c : plain (EChar c) (MChar c)
| plain_terminate : plain ETerminate MTerminate.
Lemma plain_try_from y x : plain y x <-> try_from y = Some x.
Proof. split; [intros []; reflexivity|]. destruct y; simpl; intros [= <-]; constructor. Qed.
Theorem C25_steuer_sets : forall (H : HashOrder) (fs : NamedSets) (fo ss : NamedSetsNoEmpty),
  get_steuer_sets fs fo = Ok ss ->
  (forall A, is_Some (ss !! A) <-> is_Some (fs !! A)) /\
  (forall A f s, fs !! A = Some f -> ss !! A = Some s -> forall x, x ∈ s <->
     (exists y, y ∈ f /\ plain y x) \/ (EEmpty ∈ f /\ exists t, fo !! A = Some t /\ x ∈ t)).
Proof.
  intros H fs fo ss Hs. pose proof (get_steuer_sets_spec fs fo) as Hg. rewrite Hs in Hg. destruct Hg as (_ & G2 & G3).
  split; [assumption|]. intros A f s Hf HA x. rewrite (G3 A f s Hf HA x). unfold steuer_member. setoid_rewrite plain_try_from. reflexivity.
Qed.
Print Assumptions C25_steuer_sets.
Theorem C25_missing_follow : forall (H : HashOrder) (fs : NamedSets) (fo : NamedSetsNoEmpty),
  ((exists e, get_steuer_sets fs fo = Err e) <-> (exists A f, fs !! A = Some f /\ EEmpty ∈ f /\ fo !! A = None)) /\
  (forall e, get_steuer_sets fs fo = Err e -> exists A f, e = MissingFollowSet A /\ fs !! A = Some f /\ EEmpty ∈ f /\ fo !! A = None) /\
  get_steuer_sets fs fo <> Panic /\ get_steuer_sets fs fo <> Diverge.
Proof.
  intros H fs fo. pose proof (get_steuer_sets_spec fs fo) as Hg.
  destruct (get_steuer_sets fs fo) as [ss|e| |]; [| |contradiction|contradiction].
  - destruct Hg as (G1 & _). split; [|split; [discriminate|split; discriminate]]. split; [intros [e He]; discriminate|].
    intros (A & f & Hf). exfalso. apply (G1 A). exists f. assumption.
  - destruct Hg as (A & -> & f & Hf). split; [|split; [|split; discriminate]].
    + split; [intros _; eauto|eauto].
    + intros e [= <-]. exists A, f. tauto.
Qed.
Print Assumptions C25_missing_follow.

(** ** C26: the selection tables *)
(** For arbitrary set maps: the lookaheads of the alternative [p] of [A]. *)
Definition selected {I} (pd : ParserData I) (ss fo : NamedSetsNoEmpty) (A : nat) (p : Production) (x : SetMember) : Prop :=
  match p with
  | Empty => exists s, fo !! A = Some s /\ x ∈ s
  | NotEmpty [] => False
  | NotEmpty (e :: _) => (exists c n, is_terminal pd e (c :: n) /\ x = MChar c)
                         \/ (is_nonterminal pd e /\ exists s, ss !! e = Some s /\ x ∈ s)
  end.
Lemma selected_choose {I} (pd : ParserData I) ss fo A p x : wf_grammar pd ->
  (selected pd ss fo A p x <-> choose ss fo (element_types pd) (element_data pd) A p x).
Proof.
  intros Hwf. destruct p as [[|e rest]|]; simpl; try reflexivity. split.
  - intros [(c & n & Ht & ->)|[[n Hn] Hs]].
    + left. apply verbose_types in Ht as (Ht & d & Hd & Hn). split; [assumption|]. exists d, c, n. auto.
    + right. apply verbose_types in Hn as (Ht & _). auto.
  - intros [(Ht & d & c & n & Hd & Hn & ->)|[Ht Hs]].
    + left. exists c, n. split; [|reflexivity]. unfold is_terminal, get_element_verbose. rewrite Hd, Ht, Hn. reflexivity.
    + right. split; [|assumption]. destruct (types_verbose pd Hwf e _ Ht) as [n Hn]. exists n. assumption.
Qed.
Theorem C26_selection_table : forall (H : HashOrder) (I : Type) (pd : ParserData I) (fs : NamedSets) (fo ss : NamedSetsNoEmpty) maps,
  wf_grammar pd -> get_steuer_sets fs fo = Ok ss -> get_steuermaps fs fo pd = Ok maps ->
  (forall A, is_Some (maps !! A) <-> has_rule pd A) /\
  (forall A r nt, pd_rules pd !! A = Some r -> maps !! A = Some nt ->
     nt_ignore nt = ntr_ignore r /\ nt_instruction nt = instruction r /\
     forall x p, steuermap nt !! x = Some p <-> p ∈ possible_productions r /\ selected pd ss fo A p x) /\
  (forall A r i j p q x, pd_rules pd !! A = Some r ->
     possible_productions r !! i = Some p -> possible_productions r !! j = Some q -> i <> j ->
     selected pd ss fo A p x -> selected pd ss fo A q x -> False).
Proof.
  intros H I pd fs fo ss maps Hwf Hss Hm. pose proof (get_steuermaps_spec fs fo ss pd Hss) as Hs. rewrite Hm in Hs.
  destruct Hs as (_ & S2 & S3 & S4). split; [assumption|]. split.
  - intros A r nt Hr Hnt. destruct (S4 A r nt Hr Hnt) as (a & b & c). split; [assumption|]. split; [assumption|].
    intros x p. rewrite c, selected_choose by assumption. reflexivity.
  - intros A r i j p q x Hr Hi Hj Hne Hp Hq. apply selected_choose in Hp; [|assumption]. apply selected_choose in Hq; [|assumption].
    apply (S2 A x). exists r. split; [assumption|]. exists i, j, p, q. auto.
Qed.
Print Assumptions C26_selection_table.
(** A reported conflict is real: it names a rule with two alternatives that share the
    lookahead shown in the error ('#' stands for the end of input). *)
Theorem C26_conflict_is_real : forall (H : HashOrder) (I : Type) (pd : ParserData I) (fs : NamedSets) (fo ss : NamedSetsNoEmpty) n c A,
  wf_grammar pd -> get_steuer_sets fs fo = Ok ss -> get_steuermaps fs fo pd = Err (SteuerSetsNotDistinct n c A) ->
  exists r i j p q x, pd_rules pd !! A = Some r /\
     possible_productions r !! i = Some p /\ possible_productions r !! j = Some q /\ i <> j /\
     selected pd ss fo A p x /\ selected pd ss fo A q x /\ (x = MChar c \/ (x = MTerminate /\ c = 35%N)).
Proof.
  intros H I pd fs fo ss n c A Hwf Hss Hm. pose proof (get_steuermaps_spec fs fo ss pd Hss) as Hs. rewrite Hm in Hs.
  destruct Hs as [(B & x & (n' & He) & r & Hr & i & j & p & q & Hi & Hj & Hne & Hp & Hq)|[Hn _]].
  - injection He as -> -> ->. exists r, i, j, p, q, x. rewrite !selected_choose by assumption.
    split; [assumption|]. split; [assumption|]. split; [assumption|]. split; [assumption|]. split; [assumption|]. split; [assumption|].
    destruct x; simpl; auto.
  - exfalso. apply Hn. eexists _, _, _. reflexivity.
Qed.
Print Assumptions C26_conflict_is_real.
(** With the FIRST and FOLLOW sets of the crate: construction of the tables fails with
    a conflict exactly when two alternatives share a lookahead. *)
Theorem C26_conflict_iff : forall (H : HashOrder) (I : Type) m (pd : ParserData I) fuel1 fuel2 start fs fw,
  wf_grammar pd -> fits_memory pd -> get_first_sets pd fuel1 = Ok fs -> get_follow_sets m pd fuel2 start fs = Ok fw ->
  (forall A r p, pd_rules pd !! A = Some r -> p ∈ possible_productions r -> ~ starts_with_empty_terminal pd p) ->
  ((exists n c A, get_steuermaps fs fw pd = Err (SteuerSetsNotDistinct n c A)) <-> ~ choices_disjoint pd start) /\
  ((exists maps, get_steuermaps fs fw pd = Ok maps) <-> choices_disjoint pd start).
Proof.
  intros H I m pd fuel1 fuel2 start fs fw Hwf Hfit Hfs Hfw Hne.
  destruct (get_first_sets_exact pd Hwf _ _ Hfs) as (F1 & F2 & _).
  destruct (get_first_sets_grounded pd Hwf _ _ Hfs) as [[Hn0 _] Hnr].
  pose proof (get_follow_sets_spec m pd Hwf start fs fuel2 F1 F2 Hfit) as Hfo. rewrite Hfw in Hfo.
  destruct Hfo as (Hst & Hg & W1 & W2).
  pose proof (maps_construct pd start Hwf fs fw F1 F2 W1 W2 (conj Hn0 Hg) Hst Hnr) as Hm.
  destruct (get_steuermaps fs fw pd) as [maps|e| |]; [| | |contradiction].
  - destruct Hm as [[_ _ _ _ Hd] _]. split; [split; [intros (n & c & A & Hx); discriminate|contradiction]|]. split; eauto.
  - destruct Hm as [Hc [(A & x & n & r & i & j & p & q & -> & Hr & Hi & Hj & Hij & Hp & Hq)|Hx]]; [|contradiction].
    assert (~ choices_disjoint pd start) as Hd by (intros Hd; eapply (Hd A r i j p q x); eauto).
    split; split; eauto; try contradiction. intros [maps Hx]. discriminate.
  - contradiction.
Qed.
Print Assumptions C26_conflict_iff.
(** Construction succeeds exactly for the constructible grammars, and then the parser
    is the table of the grammar. *)
Theorem C26_construction : forall (H : HashOrder) m (vm : VM) fl (pd : ParserData (vm_instr vm)) start,
  wf_grammar pd -> fits_memory pd -> enough fl pd ->
  ((exists ps, new_from_parser_data m vm fl pd start = Ok ps) <-> constructible pd start) /\
  (forall ps, new_from_parser_data m vm fl pd start = Ok ps -> parser_table pd start ps) /\
  (~ constructible pd start -> new_from_parser_data m vm fl pd start = Panic \/ new_from_parser_data m vm fl pd start = Diverge).
Proof.
  intros H m vm fl pd start Hwf Hfit Hen. pose proof (construct_spec m vm fl pd start Hwf Hfit) as Hs.
  destruct (new_from_parser_data m vm fl pd start) as [ps|[]| |].
  - destruct Hs as [Hc Ht]. split; [split; eauto|]. split; [intros ps' [= <-]; assumption|contradiction].
  - split; [split; [intros [? ?]; discriminate|contradiction]|]. split; [discriminate|auto].
  - split; [split; [intros [? ?]; discriminate|intros Hc; exfalso; apply Hs; assumption]|]. split; [discriminate|auto].
Qed.
Print Assumptions C26_construction.

(** ** C24: hash order independence (grammars built through the API) *)
Theorem C24_hash_order_irrelevant : forall (H H' : HashOrder) m (vm : VM) fl (pd : ParserData (vm_instr vm)) start,
  wf_grammar pd -> fits_memory pd -> enough fl pd ->
  (exists ps, @new_from_parser_data H m vm fl pd start = Ok ps /\ @new_from_parser_data H' m vm fl pd start = Ok ps) \/
  ((forall ps, @new_from_parser_data H m vm fl pd start <> Ok ps) /\ (forall ps, @new_from_parser_data H' m vm fl pd start <> Ok ps)).
Proof.
  intros H H' m vm fl pd start Hwf Hfit Hen.
  destruct (@C26_construction H m vm fl pd start Hwf Hfit Hen) as (K1 & K2 & _).
  destruct (@C26_construction H' m vm fl pd start Hwf Hfit Hen) as (L1 & L2 & _).
  destruct (@new_from_parser_data H m vm fl pd start) as [ps| | |] eqn:E.
  - left. exists ps. split; [reflexivity|]. assert (constructible pd start) as Hc by (apply K1; eauto).
    apply L1 in Hc as [ps' E']. rewrite E'. f_equal. eapply parser_table_unique; eauto.
  - right. split; [discriminate|]. intros ps E'. assert (constructible pd start) as Hc by (apply L1; eauto).
    apply K1 in Hc as [? ?]. discriminate.
  - right. split; [discriminate|]. intros ps E'. assert (constructible pd start) as Hc by (apply L1; eauto).
    apply K1 in Hc as [? ?]. discriminate.
  - right. split; [discriminate|]. intros ps E'. assert (constructible pd start) as Hc by (apply L1; eauto).
    apply K1 in Hc as [? ?]. discriminate.
Qed.
Print Assumptions C24_hash_order_irrelevant.

(** ** C27: accepted grammars are LL(1) *)
Theorem C27_accepted_is_LL1 : forall (H : HashOrder) m (vm : VM) fl (pd : ParserData (vm_instr vm)) start ps,
  wf_grammar pd -> fits_memory pd -> new_from_parser_data m vm fl pd start = Ok ps -> LL1 pd start.
Proof.
  intros H m vm fl pd start ps Hwf Hfit Hn. pose proof (construct_spec m vm fl pd start Hwf Hfit) as Hs. rewrite Hn in Hs.
  destruct Hs as [[[Hne _] _ _ _ Hd] _]. intros A r i j p q x Hr Hi Hj Hij Hp Hq.
  assert (p ∈ possible_productions r) by (eapply elem_of_list_lookup_2; eauto).
  assert (q ∈ possible_productions r) by (eapply elem_of_list_lookup_2; eauto).
  eapply (Hd A r i j p q x); eauto; eapply select_choose; eauto.
Qed.
Print Assumptions C27_accepted_is_LL1.

(** ** C28 does not hold: S -> A "b" | "c" D;  D -> A "c";  A -> "a" | # is LL(1), not
    left recursive and all its nonterminals are defined, but no parser is built for it,
    whatever the hash order and the loop bounds.  The true statement is
    C26_construction: [constructible] is the exact condition. *)
Definition ll1_calls {I} : list (pd_call I) :=
  [GetOrAdd (lit "start") NonTerminal; GetOrAdd (lit "A") NonTerminal; GetOrAdd (lit "D") NonTerminal;
   GetOrAdd (lit "a") Terminal; GetOrAdd (lit "b") Terminal; GetOrAdd (lit "c") Terminal;
   AddProduction 0 [1; 4]; AddProduction 0 [5; 2]; AddProduction 2 [1; 5]; AddProduction 1 [3]; AddProduction 1 []].
Definition ll1_pd (I : Type) : ParserData I := pd_history ll1_calls.
Lemma ll1_pd_wf I : wf_grammar (ll1_pd I). Proof. apply wf_check_ok. vm_compute. reflexivity. Qed.
Lemma ll1_pd_fits I : fits_memory (ll1_pd I). Proof. apply fits_check_ok. vm_compute. reflexivity. Qed.
Theorem C28_every_LL1_grammar_accepted_refuted : forall I : Type,
  wf_grammar (ll1_pd I) /\ fits_memory (ll1_pd I) /\ LL1 (ll1_pd I) 0 /\ all_defined (ll1_pd I) /\ has_rule (ll1_pd I) 0 /\
  (forall A, ~ left_recursive (ll1_pd I) A) /\
  (forall A r p, pd_rules (ll1_pd I) !! A = Some r -> p ∈ possible_productions r -> ~ starts_with_empty_terminal (ll1_pd I) p) /\
  forall (H : HashOrder) m (vm : VM) fl ps, new_from_parser_data m vm fl (ll1_pd (vm_instr vm)) 0 <> Ok ps.
Proof.
  intros I. destruct (ll1_check_ok (ll1_pd I) 0 6 30 (ll1_pd_wf I) (ll1_pd_fits I) ltac:(vm_compute; reflexivity)) as (K1 & K2 & K3 & K4).
  split; [apply ll1_pd_wf|]. split; [apply ll1_pd_fits|]. do 4 (split; [assumption|]). split.
  - apply no_empty_start_check_ok. vm_compute. reflexivity.
  - clear. intros H m vm fl ps Hn. pose proof (construct_spec m vm fl _ 0 (ll1_pd_wf _) (ll1_pd_fits _)) as Hs.
    rewrite Hn in Hs. destruct Hs as [[_ _ _ _ Hd] _].
    eapply (Hd 0 (mkNTR [NotEmpty [1; 4]; NotEmpty [5; 2]] None []) 0 1 _ _ (MChar 99)).
    + vm_compute. reflexivity.
    + reflexivity.
    + reflexivity.
    + discriminate.
    + right. split.
      * apply NULLABLE_nuls. constructor; [|constructor]. apply (nul_n (ll1_pd (vm_instr vm)) 1 []); [|constructor].
        eexists _, Empty. split; [vm_compute; reflexivity|]. split; [right; left|reflexivity].
      * change (exists B u v, has_rule (ll1_pd (vm_instr vm)) B /\ derives (ll1_pd (vm_instr vm)) [B] (u ++ 1 :: v) /\ FIRST (ll1_pd (vm_instr vm)) v 99).
        exists 2, [], [5]. split; [eexists; vm_compute; reflexivity|]. split.
        -- eapply rtc_l; [|apply rtc_refl]. apply (step_intro (ll1_pd (vm_instr vm)) [] 2 [] [1; 5]).
           eexists _, (NotEmpty [1; 5]). split; [vm_compute; reflexivity|]. split; [left|reflexivity].
        -- exists [], 5, [], []. split; [apply rtc_refl|]. split; [constructor|reflexivity].
    + left. exists 99%N. split; [reflexivity|]. exists [], 5, [], []. split; [apply rtc_refl|]. split; [constructor|reflexivity].
Qed.
Print Assumptions C28_every_LL1_grammar_accepted_refuted.

(** What does hold: an LL(1) grammar is accepted if in every alternative that begins with a
    nullable nonterminal, all that can follow that nonterminal anywhere predicts the
    alternative; in particular if no alternative begins with a nullable element. *)
Theorem C28_LL1_accepted : forall (H : HashOrder) m (vm : VM) fl (pd : ParserData (vm_instr vm)) start,
  wf_grammar pd -> fits_memory pd -> enough fl pd ->
  LL1 pd start -> all_defined pd -> has_rule pd start -> (forall A, ~ left_recursive pd A) ->
  (forall A e w, alternative pd A (e :: w) -> NULLABLE pd [e] ->
     is_nonterminal pd e /\ forall x, FOLLOW pd start e x -> SELECT pd start A (e :: w) x) ->
  exists ps, new_from_parser_data m vm fl pd start = Ok ps.
Proof.
  intros H m vm fl pd start Hwf Hfit Hen Hll Hdef Hst Hlr Hn. apply C26_construction; try assumption. split; try assumption.
  - intros A r p Hr Hp (e & rest & -> & He). destruct (Hn A e rest) as [[s Hs] _].
    + exists r, (NotEmpty (e :: rest)). auto.
    + apply NULLABLE_nuls. constructor; [apply nul_t; exact He|constructor].
    + unfold is_terminal in He. congruence.
  - assert (forall A r p x, pd_rules pd !! A = Some r -> p ∈ possible_productions r -> CHOOSE pd start A p x -> SELECT pd start A (right_side p) x) as Hcs.
    { intros A r p x Hr Hp Hc. destruct p as [[|e w]|]; simpl in *; [contradiction| |].
      - destruct Hc as [(c & -> & Hc)|[Hne Hf]].
        + left. exists c. split; [reflexivity|]. apply FIRST_fsts. apply FIRST_fsts in Hc. apply fsts_cons. apply fsts_cons in Hc as [Hc|[_ Hc]]; [auto|].
          apply fsts_nil in Hc. contradiction.
        + apply (Hn A e w); [exists r, (NotEmpty (e :: w)); auto|assumption|assumption].
      - right. split; [apply NULLABLE_nuls; constructor|assumption]. }
    intros A r i j p q x Hr Hi Hj Hij Hp Hq. eapply (Hll A r i j p q x); eauto; eapply Hcs; eauto using elem_of_list_lookup_2.
Qed.
Print Assumptions C28_LL1_accepted.

(** ** C29 (first half): no dangling nonterminals *)
Theorem C29_no_dangling_nonterminals : forall (H : HashOrder) m (vm : VM) fl (pd : ParserData (vm_instr vm)) start ps,
  wf_grammar pd -> fits_memory pd -> new_from_parser_data m vm fl pd start = Ok ps ->
  has_rule pd start /\
  forall A w e, alternative pd A w -> e ∈ w -> (exists s, is_terminal pd e s) \/ (is_nonterminal pd e /\ has_rule pd e).
Proof.
  intros H m vm fl pd start ps Hwf Hfit Hn. pose proof (construct_spec m vm fl pd start Hwf Hfit) as Hs. rewrite Hn in Hs.
  destruct Hs as [[[_ Hd] _ Hst _ _] _]. split; assumption.
Qed.
Print Assumptions C29_no_dangling_nonterminals.

(** ** Non-vacuity: start -> "(" start ")" start | #  is constructible *)
Definition paren_calls {I} : list (pd_call I) :=
  [GetOrAdd (lit "start") NonTerminal; GetOrAdd (lit "(") Terminal; GetOrAdd (lit ")") Terminal;
   AddProduction 0 [1; 0; 2; 0]; AddProduction 0 []].
Definition paren_pd (I : Type) : ParserData I := pd_history paren_calls.
Lemma paren_wf I : wf_grammar (paren_pd I). Proof. apply wf_check_ok. vm_compute. reflexivity. Qed.
Lemma paren_fits I : fits_memory (paren_pd I). Proof. apply fits_check_ok. vm_compute. reflexivity. Qed.
Lemma paren_enough I : enough (mkFuels 3 5) (paren_pd I). Proof. split; vm_compute; lia. Qed.
Lemma paren_constructible : constructible (paren_pd (vm_instr NullVm)) 0.
Proof.
  apply (@C26_construction plain_order Checked NullVm (mkFuels 3 5) (paren_pd _) 0 (paren_wf _) (paren_fits _) (paren_enough _)).
  assert (is_ok (@new_from_parser_data plain_order Checked NullVm (mkFuels 3 5) (paren_pd _) 0) = true) as Hok by (vm_compute; reflexivity).
  destruct (new_from_parser_data Checked NullVm (mkFuels 3 5) (paren_pd _) 0); try discriminate. eauto.
Qed.
Example C24_example : exists ps, @new_from_parser_data plain_order Checked NullVm (mkFuels 3 5) (paren_pd _) 0 = Ok ps /\
  @new_from_parser_data reverse_order Checked NullVm (mkFuels 3 5) (paren_pd _) 0 = Ok ps.
Proof.
  destruct (C24_hash_order_irrelevant plain_order reverse_order Checked NullVm (mkFuels 3 5) (paren_pd _) 0 (paren_wf _) (paren_fits _) (paren_enough _))
    as [Hx|[Hx _]]; [assumption|].
  exfalso. pose proof (@C26_construction plain_order Checked NullVm (mkFuels 3 5) (paren_pd _) 0 (paren_wf _) (paren_fits _) (paren_enough _)) as ([_ K] & _).
  destruct (K paren_constructible) as [ps Hps]. exact (Hx ps Hps).
Qed.
Example C26_example :
  match @new_from_parser_data plain_order Checked NullVm (mkFuels 3 5) (paren_pd _) 0 with
  | Ok ps => match rules_with_steuermaps ps !! 0 with
     | Some nt => match steuermap nt !! MChar 40, steuermap nt !! MChar 41, steuermap nt !! MTerminate, steuermap nt !! MChar 42 with
        | Some (NotEmpty [1; 0; 2; 0]), Some Empty, Some Empty, None => true | _, _, _, _ => false end
     | None => false end
  | _ => false end = true.
Proof. vm_compute. reflexivity. Qed.
(** the conflict of C28 is reported *)
Example C26_example_conflict : exists n c A,
  match @get_first_sets plain_order nat (ll1_pd _) 6 with
  | Ok fs => match @get_follow_sets plain_order nat Checked (ll1_pd _) 30 0 fs with
     | Ok fw => @get_steuermaps plain_order nat fs fw (ll1_pd _) = Err (SteuerSetsNotDistinct n c A)
     | _ => False end
  | _ => False end.
Proof. exists (lit "c"), 99%N, 0. vm_compute. reflexivity. Qed.

(** the hypotheses of C28_LL1_accepted hold of the grammar of parentheses *)
Example C28_example : LL1 (paren_pd N) 0 /\ all_defined (paren_pd N) /\ has_rule (paren_pd N) 0 /\ (forall A, ~ left_recursive (paren_pd N) A) /\
  (forall A e w, alternative (paren_pd N) A (e :: w) -> NULLABLE (paren_pd N) [e] ->
     is_nonterminal (paren_pd N) e /\ forall x, FOLLOW (paren_pd N) 0 e x -> SELECT (paren_pd N) 0 A (e :: w) x).
Proof.
  destruct (ll1_check_ok (paren_pd N) 0 3 5 (paren_wf N) (paren_fits N) ltac:(vm_compute; reflexivity)) as (K1 & K2 & K3 & K4).
  do 4 (split; [assumption|]). intros A e w (r & p & Hr & Hp & E) Hn.
  apply elem_of_map_to_list in Hr.
  assert (map_to_list (pd_rules (paren_pd N)) = [(0, mkNTR [NotEmpty [1; 0; 2; 0]; Empty] None [])]) as Em by (vm_compute; reflexivity).
  rewrite Em in Hr. apply elem_of_list_singleton in Hr. injection Hr as -> ->. simpl in Hp.
  apply elem_of_cons in Hp as [->|Hp]; [|apply elem_of_list_singleton in Hp as ->; discriminate]. injection E as -> ->.
  exfalso. apply NULLABLE_nuls in Hn. inversion Hn as [|? ? Hn1 _]; subst. inversion Hn1 as [? Ht|? ? (r & p & Hr & _) _]; subst.
  - vm_compute in Ht. discriminate.
  - vm_compute in Hr. discriminate.
Qed.
