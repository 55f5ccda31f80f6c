(** * Which element an error of the grammar analysis names *)
From Verif Require Import Base Tree Errors Sets ParserData SimpleGraph NamedGraph FirstSets FollowSets SteuerMap
  SpecGraph Graph_proofs Named_proofs SpecGrammar Grammar_proofs First_proofs Follow_proofs Steuer_proofs Construct_proofs.

(** A loop that fails fails at one of its steps. *)
Lemma ofold_fail {E A B} (f : B -> A -> outcome E B) l : forall b,
  match ofold f b l with
  | Ok _ => True
  | o => exists pre x post b', l = pre ++ x :: post /\ ofold f b pre = Ok b' /\ f b' x = o
  end.
Proof.
  induction l as [|a l IH]; intros b; cbn [ofold]; [exact Logic.I|].
  destruct (f b a) as [b1|e| |] eqn:E1; cbn [obind]; [|exists [], a, l, b; auto..].
  specialize (IH b1). destruct (ofold f b1 l) as [b2|e| |]; [exact Logic.I|..];
    destruct IH as (pre & x & post & b' & -> & E2 & E3); exists (a :: pre), x, post, b'; cbn [ofold]; rewrite E1; cbn [obind]; auto.
Qed.

Section blame.
Context {H : HashOrder} {I : Type} (m : ovf_mode) (pd : ParserData I) (Hwf : wf_grammar pd).
Notation res := (outcome GrammarError).

Definition valid (e : nat) : Prop := (exists s, is_terminal pd e s) \/ is_nonterminal pd e.
Definition undefined_used (k : nat) : Prop := is_nonterminal pd k /\ ~ has_rule pd k /\ exists A w, alternative pd A w /\ k ∈ w.
(** Valid indices, and no [NotEmpty []]. *)
Record sound_indices : Prop := {
  si_valid : forall A w e, alternative pd A w -> e ∈ w -> valid e;
  si_nonempty : forall A r p, pd_rules pd !! A = Some r -> p ∈ possible_productions r -> p <> NotEmpty [];
}.
Context (Hsi : sound_indices).

(** ** FIRST *)
Definition first_blame (k : nat) : Prop := is_nonterminal pd k /\ ~ has_rule pd k.
Definition first_result {A} (used : nat -> Prop) (r : res A) : Prop :=
  match r with
  | Err e => exists k, e = MissingProduction k /\ first_blame k /\ used k
  | Panic => False
  | _ => True
  end.
Lemma get_first_valid e fs : valid e -> (exists s, get_first_set_of_element pd e fs = Ok (Some s)) \/ (get_first_set_of_element pd e fs = Ok None /\ is_nonterminal pd e).
Proof.
  intros [[s Hs]|Hn]; [rewrite (get_first_terminal pd e s fs Hs); eauto|]. rewrite (get_first_nonterminal pd e fs Hn). destruct (fs !! e); eauto.
Qed.
Definition in_alternative (k : nat) : Prop := exists A w, alternative pd A w /\ k ∈ w.
Lemma skip_blame rec els : (forall e fs, e ∈ els -> first_result in_alternative (rec e fs)) -> forall acc fs, first_result in_alternative (skip rec els acc fs).
Proof.
  induction els as [|e els IH]; intros Hrec acc fs; cbn [skip]; [exact Logic.I|].
  pose proof (Hrec e fs (elem_of_list_here _ _)) as He. destruct (rec e fs) as [[cur fs']|er| |]; cbn [obind]; try assumption.
  destruct (decide _); [|exact Logic.I]. apply IH. intros e' fs2 He'. apply Hrec. right. assumption.
Qed.
Lemma ofprod_blame rec p : p <> NotEmpty [] -> (forall e fs, e ∈ right_side p -> first_result in_alternative (rec e fs)) -> forall fs, first_result in_alternative (ofprod rec p fs).
Proof.
  intros Hp Hrec fs. destruct p as [[|e els]|]; [congruence| |exact Logic.I]. cbn [ofprod]. cbn [right_side] in Hrec.
  pose proof (Hrec e fs (elem_of_list_here _ _)) as He. destruct (rec e fs) as [[cur fs']|er| |]; cbn [obind]; try assumption.
  destruct (decide _); [|exact Logic.I]. apply skip_blame. intros e' fs2 He'. apply Hrec. right. assumption.
Qed.
Lemma prods_blame rec ps : (forall p, p ∈ ps -> p <> NotEmpty []) -> (forall p e fs, p ∈ ps -> e ∈ right_side p -> first_result in_alternative (rec e fs)) ->
  forall set fs, first_result in_alternative (prods rec ps set fs).
Proof.
  induction ps as [|p ps IH]; intros Hne Hrec set fs; cbn [prods]; [exact Logic.I|].
  pose proof (ofprod_blame rec p (Hne p (elem_of_list_here _ _)) (fun e fs => Hrec p e fs (elem_of_list_here _ _)) fs) as Hp.
  destruct (ofprod rec p fs) as [[cur fs']|er| |]; cbn [obind]; try assumption. apply IH.
  - intros q Hq. apply Hne. right. assumption.
  - intros q e fs2 Hq. apply Hrec. right. assumption.
Qed.
Lemma first_blame_spec f : forall e fs, valid e -> first_result (fun k => k = e \/ in_alternative k) (first_of_element pd f e fs).
Proof.
  induction f as [|f IH]; intros e fs He; [exact Logic.I|]. rewrite first_unfold.
  destruct (get_first_valid e fs He) as [[s ->]|[-> Hn]]; cbn [obind]; [exact Logic.I|].
  destruct (pd_rules pd !! e) as [r|] eqn:Hr.
  - assert (first_result in_alternative (prods (first_of_element pd f) (possible_productions r) ∅ fs)) as Hp.
    { apply prods_blame.
      - intros p Hp. eapply (si_nonempty Hsi); eauto.
      - intros p x fs2 Hp Hx. assert (alternative pd e (right_side p)) as Ha by (exists r, p; auto).
        pose proof (IH x fs2 (si_valid Hsi e _ x Ha Hx)) as Hxr. destruct (first_of_element pd f x fs2) as [?|er| |]; try exact Hxr.
        destruct Hxr as (k & -> & Hb & Hu). exists k. split; [reflexivity|]. split; [assumption|]. destruct Hu as [->|Hu]; [|assumption]. exists e, (right_side p). auto. }
    destruct (prods _ _ _ _) as [[? ?]|er| |]; cbn [obind]; try exact Hp. destruct Hp as (k & -> & Hb & Hu). exists k. auto.
  - cbn. exists e. split; [reflexivity|]. split; [|auto]. split; [assumption|]. unfold has_rule. rewrite Hr. intros [? ?]. discriminate.
Qed.
Lemma get_first_sets_blame fuel :
  match get_first_sets pd fuel with
  | Err e => exists k, e = MissingProduction k /\ undefined_used k
  | Panic => False
  | _ => True
  end.
Proof.
  unfold get_first_sets. pose proof (ofold_fail (fun fs ix => let* '(_s, fs') := first_of_element pd fuel ix fs in Ok fs') (ho_iter [3] (map_to_list (pd_rules pd)).*1) ∅) as Hf.
  assert (forall x, x ∈ ho_iter [3] (map_to_list (pd_rules pd)).*1 -> valid x) as Hv by (intros x Hx; right; apply rule_keys_elem in Hx; apply (wf_rules pd Hwf); assumption).
  destruct (ofold _ ∅ _) as [fs|e| |]; [exact Logic.I| | |exact Logic.I]; destruct Hf as (pre & x & post & b & El & _ & Ex).
  - assert (x ∈ ho_iter [3] (map_to_list (pd_rules pd)).*1) as Hx by (rewrite El; apply elem_of_app; right; left).
    pose proof (first_blame_spec fuel x b (Hv x Hx)) as Hb. destruct (first_of_element pd fuel x b) as [[? ?]|e'| |]; cbn [obind] in Ex; try discriminate.
    injection Ex as ->. destruct Hb as (k & -> & [Hb1 Hb2] & Hu). exists k. split; [reflexivity|]. split; [assumption|]. split; [assumption|].
    destruct Hu as [->|Hu]; [|exact Hu]. exfalso. apply Hb2. apply rule_keys_elem in Hx. assumption.
  - assert (x ∈ ho_iter [3] (map_to_list (pd_rules pd)).*1) as Hx by (rewrite El; apply elem_of_app; right; left).
    pose proof (first_blame_spec fuel x b (Hv x Hx)) as Hb. destruct (first_of_element pd fuel x b) as [[? ?]|e'| |]; cbn [obind] in Ex; try discriminate. contradiction.
Qed.

(** ** FOLLOW *)
Notation FGraph := (GraphNamedNodes (gset SetMember)).
Notation agr := (gmap nat (gset SetMember * list nat)).
Section fs.
Context (fs : NamedSets).
Context (Hdom : forall A, is_Some (fs !! A) <-> has_rule pd A).
Context (Hex : forall A s, fs !! A = Some s -> exact pd A s).

Definition named_by (k : nat) (e : GrammarError) : Prop := e = MissingFirstSet k \/ e = GraphNodeDoesNotExistsError k.
Definition mark_result {A} (w : list nat) (r : res A) : Prop :=
  match r with
  | Err e => exists k, k ∈ w /\ is_nonterminal pd k /\ ~ has_rule pd k /\ named_by k e
  | Panic | Diverge => False
  | Ok _ => True
  end.
Lemma mark_result_more {A} w w' (r : res A) : (forall k, k ∈ w -> k ∈ w') -> mark_result w r -> mark_result w' r.
Proof. intros Hs. destruct r as [a|e| |]; cbn; auto. intros (k & Hk & Hr). exists k. auto. Qed.
Lemma partial_blame els : Forall valid els -> forall acc, mark_result els (partial_loop pd els fs acc).
Proof.
  induction 1 as [|e els He Hl IH]; intros acc; cbn [partial_loop]; [exact Logic.I|].
  destruct (get_first_valid e fs He) as [[s ->]|[E Hn]]; cbn [obind].
  - destruct (decide _); [|exact Logic.I]. eapply mark_result_more; [|apply IH]. intros k Hk. right. assumption.
  - rewrite E. cbn. exists e. split; [left|]. split; [assumption|]. split; [|left; reflexivity].
    intros Hr. apply Hdom in Hr as [s Hs]. rewrite (get_first_nonterminal pd e fs Hn), Hs in E. discriminate.
Qed.
Lemma mark_head_blame (g : FGraph) (a : agr) chs el rest : nrel g a chs -> doms pd a -> is_nonterminal pd el -> Forall valid rest ->
  mark_result (el :: rest) (match rest with
            | [] => Ok (true, g)
            | _ =>
                let* following := first_set_of_partial pd rest fs in
                let has_empty := bool_decide (EEmpty ∈ following) in
                let following' := if has_empty then following ∖ {[EEmpty]} else following in
                let* extra := (match named_get_node g el with
                               | Ok _ => collect_members following'
                               | Err e => Err e
                               | Panic => Panic
                               | Diverge => Diverge
                               end) in
                let* g1 := modify_node g el (fun d => extra ∪ d) in
                Ok (has_empty, g1)
            end).
Proof.
  intros Hr Hd Hn Hv. destruct rest as [|e0 rest0]; [exact Logic.I|]. set (rest := e0 :: rest0) in *.
  pose proof (partial_blame rest Hv ∅) as Hp. fold (first_set_of_partial pd rest fs) in Hp.
  destruct (first_set_of_partial pd rest fs) as [fo|e| |] eqn:Ep; cbn [obind]; try (exact Hp).
  2:{ destruct Hp as (k & Hk & Hp). exists k. split; [right; exact Hk|exact Hp]. }
  assert (rest <> []) as Hne by discriminate.
  destruct (decide (has_rule pd el)) as [Hrule|Hno].
  - assert (is_Some (a !! el)) as [[d ss] Hel] by (apply Hd; assumption).
    destruct (nrel_some _ _ _ _ _ _ Hr Hel) as [i Hi]. destruct (nr_rep _ _ _ Hr _ _ _ _ Hi Hel) as (n & ch & Hni & _).
    unfold named_get_node at 1, get_index_of_node. rewrite Hi. cbn [obind]. rewrite Hni.
    set (fo' := if bool_decide (EEmpty ∈ fo) then fo ∖ {[EEmpty]} else fo).
    destruct (collect_members_ok (E := GrammarError) fo') as (extra & Hcm & Hextra).
    { unfold fo'. case_bool_decide; [|assumption]. rewrite elem_of_difference, elem_of_singleton. tauto. }
    rewrite Hcm. cbn [obind]. destruct (nrel_modify _ _ _ el (fun d => extra ∪ d) d ss Hr Hel) as (g1 & Hg1 & _). rewrite Hg1. exact Logic.I.
  - assert (named_get_node g el = Err (GraphNodeDoesNotExistsError el)) as ->.
    { unfold named_get_node, get_index_of_node. rewrite (nrel_none _ _ _ el Hr); [reflexivity|]. destruct (a !! el) eqn:E; [|reflexivity].
      exfalso. apply Hno. apply Hd. rewrite E. eauto. }
    cbn. exists el. split; [left|]. split; [assumption|]. split; [assumption|]. right. reflexivity.
Qed.
Lemma mark_loop_blame A w : forall (g : FGraph) (a : agr) chs, nrel g a chs -> doms pd a -> has_rule pd A ->
  (forall d ss, a !! A = Some (d, ss) -> (N.of_nat (length ss + length w) < 2 ^ 64)%N) -> Forall valid w ->
  mark_result w (mark_loop m pd w fs A g).
Proof.
  induction w as [|el rest IH]; intros g a chs Hr Hd HA Hlen Hv; cbn [mark_loop]; [exact Logic.I|].
  apply Forall_cons in Hv as [Hv Hvs]. unfold get_element. destruct Hv as [[s Hs]|Hn].
  - pose proof (verbose_types pd _ _ _ Hs) as (Ht & _). rewrite Ht. cbn.
    eapply mark_result_more; [|apply (IH g a chs); try assumption]; [intros k Hk; right; assumption|].
    intros d ss Hx. specialize (Hlen d ss Hx). cbn [length] in Hlen. lia.
  - pose proof Hn as [nm Hnm]. pose proof (verbose_types pd _ _ _ Hnm) as (Ht & _). rewrite Ht. cbn -[first_set_of_partial].
    pose proof (mark_head pd Hwf fs Hdom Hex g a chs el rest Hr Hd Hn) as Hh. pose proof (mark_head_blame g a chs el rest Hr Hd Hn Hvs) as Hb.
    match type of Hh with match ?x with _ => _ end => destruct x as [[b g1]| | |] end; cbn [obind]; [|exact Hb..].
    destruct Hh as (_ & Hgood & a1 & Hr1 & Hnm1 & Hd1 & Hpost1). clear Hb.
    destruct (proj2 (Hd A) HA) as [[dA sA] HaA]. destruct (Hpost1 A dA sA HaA) as (dA1 & HaA1 & _).
    specialize (Hlen dA sA HaA). cbn [length] in Hlen. destruct b.
    + destruct (decide (has_rule pd el)) as [Hel|Hel].
      * destruct (nrel_add_edge m g1 a1 chs A el dA1 sA Hr1 HaA1) as (g2 & chs2 & Hg2 & Hr2 & Hnm2); [apply Hd1; assumption|lia|].
        rewrite Hg2. cbn [obind]. eapply mark_result_more; [|apply (IH g2 (<[A := (dA1, el :: sA)]> a1) chs2); try assumption]; [intros k Hk; right; assumption|apply doms_insert; assumption|].
        intros d ss. rewrite lookup_insert. intros [= <- <-]. cbn [length]. lia.
      * assert (named_add_edge m g1 A el = Err (GraphNodeDoesNotExistsError el)) as ->.
        { unfold named_add_edge, get_index_of_node. destruct (nrel_some _ _ _ _ _ _ Hr1 HaA1) as [i Hi]. rewrite Hi. cbn [obind].
          rewrite (nrel_none _ _ _ el Hr1); [reflexivity|]. destruct (a1 !! el) eqn:E; [|reflexivity]. exfalso. apply Hel. apply Hd1. rewrite E. eauto. }
        cbn. exists el. split; [left|]. split; [assumption|]. split; [assumption|]. right. reflexivity.
    + cbn [obind]. eapply mark_result_more; [|apply (IH g1 a1 chs); try assumption]; [intros k Hk; right; assumption|].
      intros d ss Hx. assert (d = dA1 /\ ss = sA) as [-> ->] by (split; congruence). lia.
Qed.

(** *** all alternatives of all rules *)
Definition undef_in (w : list nat) (e : GrammarError) : Prop := exists k, k ∈ w /\ is_nonterminal pd k /\ ~ has_rule pd k /\ named_by k e.
Lemma mark_prods_blame A a0 ps : forall g a chs done,
  nrel g a chs -> doms pd a -> has_rule pd A -> mposts pd done a0 a -> doms pd a0 ->
  (forall d ss, a0 !! A = Some (d, ss) ->
     (N.of_nat (length ss + length (concat (map snd (filter (fun p => p.1 = A) done)))
                + length (concat (map right_side ps))) < 2 ^ 64)%N) ->
  Forall (fun p => Forall valid (right_side p)) ps ->
  match ofold (fun g p => match p with NotEmpty prod => mark_loop m pd prod fs A g | Empty => Ok g end) g ps with
  | Ok _ => True
  | Err e => exists p, p ∈ ps /\ undef_in (right_side p) e
  | _ => False
  end.
Proof.
  induction ps as [|p ps IH]; intros g a chs done Hr Hd HA Hm Hd0 Hlen Hv; cbn [ofold map]; [exact Logic.I|].
  apply Forall_cons in Hv as [Hv Hvs].
  replace (match p with NotEmpty prod => mark_loop m pd prod fs A g | Empty => Ok g end)
      with (mark_loop m pd (right_side p) fs A g) by (destruct p; reflexivity).
  destruct (proj2 (Hd0 A) HA) as [[d0 s0] Ha0]. specialize (Hlen d0 s0 Ha0). cbn [map concat] in Hlen.
  rewrite app_length in Hlen.
  assert (forall d ss, a !! A = Some (d, ss) -> (N.of_nat (length ss + length (right_side p)) < 2 ^ 64)%N) as Hb.
  { intros d ss HAa. destruct (Hm A d0 s0 Ha0) as (d' & s' & HAa' & _ & _ & HL). rewrite HAa in HAa'. injection HAa' as <- <-. lia. }
  pose proof (mark_loop_blame A (right_side p) g a chs Hr Hd HA Hb Hv) as Hbl.
  pose proof (mark_loop_ok m pd Hwf fs Hdom Hex A (right_side p) g a chs Hr Hd HA Hb) as Hok.
  destruct (mark_loop m pd (right_side p) fs A g) as [g1|e| |]; cbn [obind].
  - destruct Hok as (_ & a1 & chs1 & Hr1 & _ & Hd1 & Hp1).
    pose proof (mposts_snoc pd done A (right_side p) a0 a a1 Hm Hp1) as Hm1.
    specialize (IH g1 a1 chs1 _ Hr1 Hd1 HA Hm1 Hd0).
    match type of IH with ?P -> _ => assert P as Hlen1 end.
    { intros d ss Hx. rewrite Ha0 in Hx. injection Hx as <- <-.
      rewrite filter_app, filter_cons, filter_nil, map_app, concat_app, app_length. simpl.
      rewrite decide_True by reflexivity. simpl. rewrite app_nil_r. lia. }
    specialize (IH Hlen1 Hvs). destruct (ofold _ g1 ps) as [?|e| |]; try assumption.
    destruct IH as (q & Hq & Hu). exists q. split; [right|]; assumption.
  - exists p. split; [left|]. exact Hbl.
  - exact Hbl.
  - exact Hbl.
Qed.
Lemma mark_rules_blame a0 rs : forall g a chs done,
  nrel g a chs -> doms pd a -> mposts pd done a0 a -> doms pd a0 ->
  (forall A r, (A, r) ∈ rs -> pd_rules pd !! A = Some r) -> NoDup rs.*1 ->
  (forall A r d ss, (A, r) ∈ rs -> a0 !! A = Some (d, ss) -> ss = [] /\ filter (fun p => p.1 = A) done = [] /\
     (N.of_nat (length (concat (rule_words r))) < 2 ^ 64)%N) ->
  match ofold (fun g '(el, r) =>
           ofold (fun g p =>
                    match p with
                    | NotEmpty prod => mark_loop m pd prod fs el g
                    | Empty => Ok g
                    end) g (possible_productions r)) g rs with
  | Ok _ => True
  | Err e => exists A w, alternative pd A w /\ undef_in w e
  | _ => False
  end.
Proof.
  induction rs as [|[A r] rs IH]; intros g a chs done Hr Hd Hm Hd0 Hrs Hnd Hlen; cbn [ofold map concat]; [exact Logic.I|].
  pose proof (Hrs A r (elem_of_list_here _ _)) as HAr. assert (has_rule pd A) as HA by (eexists; exact HAr).
  assert (forall d ss, a0 !! A = Some (d, ss) ->
     (N.of_nat (length ss + length (concat (map snd (filter (fun p => p.1 = A) done)))
                + length (concat (map right_side (possible_productions r)))) < 2 ^ 64)%N) as Hb.
  { intros d ss Hx. destruct (Hlen A r d ss (elem_of_list_here _ _) Hx) as (-> & -> & Hlt). exact Hlt. }
  assert (Forall (fun p => Forall valid (right_side p)) (possible_productions r)) as Hv.
  { apply Forall_forall. intros p Hp. apply Forall_forall. intros e He. apply (si_valid Hsi A (right_side p)); [|assumption]. exists r, p. auto. }
  pose proof (mark_prods_blame A a0 (possible_productions r) g a chs done Hr Hd HA Hm Hd0 Hb Hv) as Hbl.
  pose proof (mark_prods_ok m pd Hwf fs Hdom Hex A a0 (possible_productions r) g a chs done Hr Hd HA Hm Hd0 Hb) as Hok.
  destruct (ofold _ g (possible_productions r)) as [g1|e| |]; cbn [obind]; [|..|contradiction|contradiction].
  - destruct Hok as (_ & a1 & chs1 & Hr1 & _ & Hd1 & Hm1).
    apply (IH g1 a1 chs1 (done ++ map (fun w => (A, w)) (rule_words r)) Hr1 Hd1 Hm1 Hd0).
    + intros B r' Hx. apply Hrs. right. exact Hx.
    + exact (proj2 (proj1 (NoDup_cons _ _) Hnd)).
    + intros B r' d ss HB Hx. destruct (Hlen B r' d ss (elem_of_list_further _ _ _ HB) Hx) as (E1 & E2 & E3).
      split; [assumption|]. split; [|assumption]. rewrite filter_app, E2. simpl. apply filter_pairs_other.
      intros ->. apply NoDup_cons in Hnd as [Hnd _]. apply Hnd. simpl. apply elem_of_list_fmap. exists (B, r'). auto.
  - destruct Hbl as (p & Hp & Hu). exists A, (right_side p). split; [|exact Hu]. exists r, p. auto.
Qed.
Lemma mark_all_blame g a chs : fits_memory pd -> nrel g a chs -> doms pd a -> (forall A d ss, a !! A = Some (d, ss) -> ss = []) ->
  match mark_all m pd fs g with
  | Ok _ => True
  | Err e => exists A w, alternative pd A w /\ undef_in w e
  | _ => False
  end.
Proof.
  intros [_ Hfit] Hr Hd He. unfold mark_all.
  assert (forall A r, (A, r) ∈ ho_iter [5] (map_to_list (pd_rules pd)) <-> pd_rules pd !! A = Some r) as Hin.
  { intros A r. rewrite (ho_perm [5] _ _). apply elem_of_map_to_list. }
  apply (mark_rules_blame a (ho_iter [5] (map_to_list (pd_rules pd))) g a chs [] Hr Hd (mposts_nil pd a) Hd).
  - intros A r. apply Hin.
  - rewrite rule_keys_fst. apply NoDup_fst_map_to_list.
  - intros A r d ss HA Hx. apply Hin in HA. split; [eapply He; eauto|]. split; [reflexivity|]. apply (Hfit A r HA).
Qed.
End fs.

Theorem get_follow_sets_blame fs start fuel :
  (forall A, is_Some (fs !! A) <-> has_rule pd A) -> (forall A s, fs !! A = Some s -> exact pd A s) -> fits_memory pd ->
  match get_follow_sets m pd fuel start fs with
  | Ok fw => has_rule pd start
  | Err e => (e = GraphNodeDoesNotExistsError start /\ ~ has_rule pd start) \/ exists A w, alternative pd A w /\ undef_in w e
  | Panic => False
  | Diverge => has_rule pd start
  end.
Proof.
  intros Hdom Hex Hfit. pose proof (get_follow_sets_spec m pd Hwf start fs fuel Hdom Hex Hfit) as Hspec. revert Hspec. unfold get_follow_sets.
  destruct (make_graph_ok pd) as (g0 & a0 & chs0 & -> & Hr0 & Hd0 & Hz0 & Hlen0). cbn [obind].
  destruct (decide (has_rule pd start)) as [Hst|Hst].
  2:{ assert (modify_node g0 start (fun d => {[MTerminate]} ∪ d) = Err (GraphNodeDoesNotExistsError start)) as ->.
      { unfold modify_node, get_index_of_node. rewrite (nrel_none _ _ _ start Hr0); [reflexivity|].
        destruct (a0 !! start) eqn:E; [|reflexivity]. exfalso. apply Hst, Hd0. rewrite E. eauto. }
      cbn [obind]. intros _. left. auto. }
  destruct (proj2 (Hd0 start) Hst) as [[d s] Ha0]. destruct (Hz0 _ _ _ Ha0) as [-> ->].
  destruct (nrel_modify g0 a0 chs0 start (fun d => {[MTerminate]} ∪ d) ∅ [] Hr0 Ha0) as (g1 & -> & Hr1 & Hn1 & Hu1). cbn [obind].
  set (a1 := <[start:=({[MTerminate]} ∪ ∅, [])]> a0) in *.
  assert (doms pd a1) as Hd1 by (apply doms_insert; assumption).
  assert (forall A d ss, a1 !! A = Some (d, ss) -> ss = []) as Hz1.
  { intros A d' ss' HA. apply lookup_insert_Some in HA as [[<- [= <- <-]]|[_ HA]]; [reflexivity|]. apply (Hz0 _ _ _ HA). }
  pose proof (mark_all_blame fs Hdom Hex g1 a1 chs0 Hfit Hr1 Hd1 Hz1) as Hb.
  pose proof (mark_all_ok m pd Hwf fs Hdom Hex g1 a1 chs0 Hfit Hr1 Hd1 Hz1) as Hok.
  destruct (mark_all m pd fs g1) as [g2|e| |]; cbn [obind]; [|intros _; right; exact Hb|contradiction|contradiction].
  destruct Hok as (Hgood & _).
  destruct (make_follow_sets_from_marked_graph m fuel g2) as [fw|e| |]; intros Hs; [assumption|exfalso; apply Hs; auto|exfalso; apply Hs; auto|assumption].
Qed.

(** ** The table *)
(** What stands between the quotes of the message: the terminal an alternative begins with, else a fixed word. *)
Definition clash_label (p : Production) : str :=
  match p with
  | NotEmpty (e :: _) => match get_element_verbose pd e with Some (n, Terminal) => n | _ => lit "follow_set" end
  | _ => lit "follow_set"
  end.
Section tables.
Context (ss fo : NamedSetsNoEmpty).
Notation ch := (choose ss fo (element_types pd) (element_data pd)).
Lemma loop_fail rule ps : forall k sm,
  match steuermap_loop ss fo (element_types pd) (element_data pd) rule k ps sm with
  | Ok _ => True
  | o => exists pre p post sm' site, ps = pre ++ p :: post /\
      steuermap_loop ss fo (element_types pd) (element_data pd) rule k pre sm = Ok sm' /\
      steuermap_of_production ss fo sm' p rule (element_types pd) (element_data pd) site = o
  end.
Proof.
  induction ps as [|p ps IH]; intros k sm; cbn [steuermap_loop]; [exact Logic.I|].
  destruct (steuermap_of_production ss fo sm p rule (element_types pd) (element_data pd) [11; rule; k]) as [sm1|e| |] eqn:E; cbn [obind];
    [|exists [], p, ps, sm, [11; rule; k]; auto..].
  specialize (IH (S k) sm1). destruct (steuermap_loop ss fo (element_types pd) (element_data pd) rule (S k) ps sm1) as [?|e| |]; [exact Logic.I|..];
    destruct IH as (pre & q & post & sm' & site & -> & E1 & E2); exists (p :: pre), q, post, sm', site; cbn [steuermap_loop]; rewrite E; cbn [obind]; auto.
Qed.
(** The alternative cannot be entered into the table for want of a set. *)
Definition wanting (A : nat) (p : Production) : Prop :=
  match p with
  | Empty => fo !! A = None
  | NotEmpty [] => False
  | NotEmpty (e :: _) => element_types pd !! e = None \/ (element_types pd !! e = Some NonTerminal /\ ss !! e = None)
  end.
Definition unnamed (p : Production) : Prop :=
  match p with
  | Empty => False
  | NotEmpty [] => True
  | NotEmpty (e :: _) => element_types pd !! e = Some Terminal /\ forall d, element_data pd !! e = Some d -> ed_name d = []
  end.
Lemma of_production_blame sm p rule site : length (element_types pd) = length (element_data pd) ->
  match steuermap_of_production ss fo sm p rule (element_types pd) (element_data pd) site with
  | Ok _ => True
  | Err e => (exists x, e = SteuerSetsNotDistinct (clash_label p) (fill_char x) rule /\ ch rule p x /\ is_Some (sm !! x)) \/ wanting rule p
  | Panic => unnamed p
  | Diverge => False
  end.
Proof.
  intros Hlen.
  assert (forall set, (forall x, x ∈ set -> ch rule p x) -> clash_label p = lit "follow_set" ->
    match fill_with_steuer_set site set sm p rule with
    | Ok _ => True
    | Err e => (exists x, e = SteuerSetsNotDistinct (clash_label p) (fill_char x) rule /\ ch rule p x /\ is_Some (sm !! x)) \/ wanting rule p
    | Panic => unnamed p
    | Diverge => False
    end) as Hfill.
  { intros set Hset Hl. pose proof (fill_spec site set sm p rule) as Hf.
    destruct (fill_with_steuer_set site set sm p rule) as [sm'|e| |]; try contradiction; [exact Logic.I|].
    destruct Hf as (x & -> & Hx & Hs). left. exists x. rewrite Hl. auto. }
  unfold steuermap_of_production. destruct p as [[|e rest]|].
  - exact Logic.I.
  - destruct (element_types pd !! e) as [[|]|] eqn:Ht.
    + destruct (element_data pd !! e) as [d|] eqn:Hd.
      2:{ cbn. split; [assumption|]. intros d Hx. congruence. }
      destruct (ed_name d) as [|c n] eqn:Hn.
      { cbn. split; [assumption|]. intros d' Hx. congruence. }
      destruct (sm !! MChar c) as [q|] eqn:E; [|exact Logic.I].
      left. exists (MChar c). cbn [clash_label fill_char]. unfold get_element_verbose. rewrite Hd, Ht, Hn. split; [reflexivity|].
      split; [|rewrite E; eauto]. left. split; [assumption|]. exists d, c, n. auto.
    + destruct (ss !! e) as [s|] eqn:Hs.
      * apply Hfill.
        -- intros x Hx. right. split; [assumption|]. eauto.
        -- cbn [clash_label]. unfold get_element_verbose. rewrite Ht. destruct (element_data pd !! e); reflexivity.
      * right. right. auto.
    + right. left. assumption.
  - destruct (fo !! rule) as [s|] eqn:Hs.
    + apply Hfill; [|reflexivity]. intros x Hx. exists s. auto.
    + right. exact Hs.
Qed.
Theorem get_steuermaps_blame fs : length (element_types pd) = length (element_data pd) -> get_steuer_sets fs fo = Ok ss ->
  match get_steuermaps fs fo pd with
  | Ok _ => True
  | Err e => exists A r, pd_rules pd !! A = Some r /\
      ((exists i j p q x, possible_productions r !! i = Some p /\ possible_productions r !! j = Some q /\ i < j /\ ch A p x /\ ch A q x /\
          e = SteuerSetsNotDistinct (clash_label q) (fill_char x) A)
       \/ exists p, p ∈ possible_productions r /\ wanting A p)
  | Panic => exists A r p, pd_rules pd !! A = Some r /\ p ∈ possible_productions r /\ unnamed p
  | Diverge => False
  end.
Proof.
  intros Hlen Hss. unfold get_steuermaps. rewrite Hss. cbn [obind].
  match goal with |- context[ofold ?f ?b ?l] => pose proof (ofold_fail f l b) as Hf end.
  destruct (ofold _ ∅ _) as [maps|e| |]; [exact Logic.I|..]; destruct Hf as (pre & [A r] & post & b & El & _ & Ex).
  all: assert (pd_rules pd !! A = Some r) as HA by (apply elem_of_map_to_list; rewrite <- (ho_perm [10] _ _), El; apply elem_of_app; right; left).
  all: pose proof (loop_fail A (possible_productions r) 0 ∅) as Hl; destruct (steuermap_loop _ _ _ _ A 0 (possible_productions r) ∅) as [sm|e'| |]; cbn [obind] in Ex; try discriminate;
       destruct Hl as (pr & p & po & sm' & site & Eps & E1 & E2); pose proof (of_production_blame sm' p A site Hlen) as Hp; rewrite E2 in Hp; try contradiction.
  - injection Ex as ->. exists A, r. split; [assumption|]. destruct Hp as [(x & -> & Hx & [q Hq])|Hw].
    2:{ right. exists p. split; [|assumption]. rewrite Eps. apply elem_of_app. right. left. }
    left. pose proof (loop_spec ss fo (element_types pd) (element_data pd) A pr 0 [] ∅) as Hsp. rewrite E1 in Hsp. destruct Hsp as (_ & _ & Hsm).
    + intros y Hy. apply elem_of_nil in Hy. contradiction.
    + intros y (i & j & p' & q' & Hi & _). rewrite lookup_nil in Hi. discriminate.
    + intros y q'. split; [intros Hy; apply lookup_empty_Some in Hy; contradiction|]. intros [Hy _]. apply elem_of_nil in Hy. contradiction.
    + cbn [app] in Hsm. apply Hsm in Hq as [Hq Hqx]. apply elem_of_list_lookup in Hq as [i Hi].
      exists i, (length pr), q, p, x. rewrite Eps. split; [apply lookup_app_l_Some; assumption|]. split; [rewrite lookup_app_r, Nat.sub_diag by lia; reflexivity|].
      split; [apply lookup_lt_Some in Hi; lia|]. auto.
  - exists A, r, p. split; [assumption|]. split; [|assumption]. rewrite Eps. apply elem_of_app. right. left.
Qed.
End tables.

(** ** The whole analysis *)
Definition unsound_table (start : nat) (e : GrammarError) : Prop := exists A r i j p q x,
  pd_rules pd !! A = Some r /\ possible_productions r !! i = Some p /\ possible_productions r !! j = Some q /\ i < j /\
  CHOOSE pd start A p x /\ CHOOSE pd start A q x /\ e = SteuerSetsNotDistinct (clash_label q) (fill_char x) A.
Theorem tables_blame (fs : NamedSets) (fw : NamedSetsNoEmpty) start :
  (forall A, is_Some (fs !! A) <-> has_rule pd A) -> (forall A s, fs !! A = Some s -> exact pd A s) ->
  (forall A, is_Some (fw !! A) <-> has_rule pd A) -> (forall A s, fw !! A = Some s -> forall x, x ∈ s <-> fol pd start A x) ->
  all_defined pd ->
  match get_steuermaps fs fw pd with
  | Ok _ => True
  | Err e => unsound_table start e
  | Panic => exists A r p, pd_rules pd !! A = Some r /\ p ∈ possible_productions r /\ starts_with_empty_terminal pd p
  | Diverge => False
  end.
Proof.
  intros F1 F2 W1 W2 Hdef. destruct (steuer_ok pd fs fw F1 W1) as [ss Hss].
  pose proof (choose_iff pd Hwf start fs fw F1 F2 W1 W2 Hdef ss Hss) as Hchoose.
  pose proof (get_steuermaps_blame ss fw fs (wf_len pd Hwf) Hss) as Hb. destruct (get_steuermaps fs fw pd) as [?|e| |]; [exact Logic.I|..|contradiction].
  - destruct Hb as (A & r & HA & [(i & j & p & q & x & Hi & Hj & Hlt & Hp & Hq & ->)|(p & Hp & Hw)]).
    + assert (p ∈ possible_productions r) as Hpin by (eapply elem_of_list_lookup_2; eauto).
      assert (q ∈ possible_productions r) as Hqin by (eapply elem_of_list_lookup_2; eauto).
      exists A, r, i, j, p, q, x. split; [assumption|]. split; [assumption|]. split; [assumption|]. split; [assumption|].
      split; [apply (Hchoose A r p x HA Hpin); [eapply choose_nonempty; eauto|assumption]|].
      split; [apply (Hchoose A r q x HA Hqin); [eapply choose_nonempty; eauto|assumption]|reflexivity].
    + exfalso. destruct Hdef as [D1 D2]. destruct p as [[|e0 rest]|]; cbn in Hw; [assumption| |].
      * destruct (D2 A (e0 :: rest) e0) as [[s Hs]|[[s Hs] Hr]]; [exists r, (NotEmpty (e0 :: rest)); auto|left|..];
          apply verbose_types in Hs as (Ht & _); (destruct Hw as [Hw|[Hw Hw2]]; [congruence|]); [congruence|].
        pose proof (get_steuer_sets_spec fs fw) as Hg. rewrite Hss in Hg. destruct Hg as (_ & G2 & _).
        destruct (proj2 (G2 e0) (proj2 (F1 e0) Hr)) as [? ?]. congruence.
      * destruct (proj2 (W1 A)) as [? ?]; [eexists; exact HA|]. congruence.
  - destruct Hb as (A & r & p & HA & Hp & Hu). exists A, r, p. split; [assumption|]. split; [assumption|].
    destruct p as [[|e0 rest]|]; cbn in Hu; [|destruct Hu as [Ht Hd]|contradiction].
    + exfalso. eapply (proj1 Hdef); eauto.
    + assert (e0 < length (element_data pd)) as Hlt by (rewrite <- (wf_len pd Hwf); eapply lookup_lt_Some; eauto).
      apply lookup_lt_is_Some in Hlt as [d Hx]. exists e0, rest. split; [reflexivity|].
      unfold is_terminal, get_element_verbose. rewrite Ht, Hx, (Hd d Hx). reflexivity.
Qed.
End blame.
