(** * Proofs about the work of building a parser (C86) *)
From Verif Require Import Base Tree Errors Sets ParserData SimpleGraph NamedGraph FirstSets FollowSets SpecGrammar SpecCost Grammar_proofs First_proofs Named_proofs Follow_proofs.

Lemma cbind_snd {E A B} (m : counted E A) (k : A -> counted E B) (k' : A -> outcome E B) : (forall a, snd (k a) = k' a) -> snd (cbind m k) = (let* a := snd m in k' a).
Proof. intros Hk. destruct m as [n [a| | |]]; cbn; try reflexivity. rewrite <- Hk. destruct (k a). reflexivity. Qed.
Lemma cfold_snd {E A B} (f : B -> A -> counted E B) (f' : B -> A -> outcome E B) l : (forall b a, snd (f b a) = f' b a) -> forall b, snd (cfold f b l) = ofold f' b l.
Proof.
  intros Hf. induction l as [|a l IH]; intros b; [reflexivity|]. cbn [cfold ofold]. rewrite (cbind_snd _ _ (fun b' => ofold f' b' l)) by auto. rewrite Hf. reflexivity.
Qed.
Section first.
Context {H : HashOrder} {I : Type} (pd : ParserData I) (Hwf : wf_grammar pd).
Notation eset := (gset SetMemberWithEmpty).
Notation cres := (counted GrammarError).
Section loops.
Variable call : nat -> NamedSets -> cres (eset * NamedSets).
Variable rec : nat -> NamedSets -> outcome GrammarError (eset * NamedSets).
Hypothesis Hc : forall e fs, snd (call e fs) = rec e fs.
Lemma skip_snd els : forall acc fs, snd (skip_counted call els acc fs) = skip rec els acc fs.
Proof.
  induction els as [|e els IH]; intros acc fs; [reflexivity|]. cbn [skip_counted skip]. rewrite <- Hc. apply cbind_snd. intros [cur fs']. destruct (decide _); [apply IH|reflexivity].
Qed.
Lemma production_snd p fs : snd (production_counted call p fs) = ofprod rec p fs.
Proof.
  destruct p as [[|e els]|]; [reflexivity| |reflexivity]. cbn [production_counted ofprod]. rewrite <- Hc. apply cbind_snd. intros [cur fs']. destruct (decide _); [apply skip_snd|reflexivity].
Qed.
Lemma productions_snd ps : forall set fs, snd (productions_counted call ps set fs) = prods rec ps set fs.
Proof.
  induction ps as [|p ps IH]; intros set fs; [reflexivity|]. cbn [productions_counted prods]. rewrite <- production_snd. apply cbind_snd. intros [rus fs']. apply IH.
Qed.
End loops.
Lemma first_counted_snd f : forall ix fs, snd (first_counted pd f ix fs) = first_of_element pd f ix fs.
Proof.
  induction f as [|f IH]; intros ix fs; [reflexivity|]. rewrite first_unfold. cbn [first_counted].
  destruct (get_first_set_of_element pd ix fs) as [[x|]| | |]; try reflexivity. cbn [obind]. destruct (pd_rules pd !! ix) as [r|]; [|reflexivity].
  rewrite <- (productions_snd (first_counted pd f) _ IH). destruct (productions_counted _ _ _ _). reflexivity.
Qed.
Lemma get_first_counted_snd fuel : snd (get_first_sets_counted pd fuel) = get_first_sets pd fuel.
Proof.
  unfold get_first_sets_counted, get_first_sets. apply cfold_snd. intros fs ix. rewrite <- first_counted_snd. apply cbind_snd. intros [s fs']. reflexivity.
Qed.

(** The rules not yet begun. *)
Definition unbegun (X : gset nat) : nat := sum_list (map (fun p => if decide (p.1 ∈ X) then 0 else rule_elements p.2) (map_to_list (pd_rules pd))).
Lemma unbegun_all : unbegun ∅ = grammar_elements pd.
Proof. unfold unbegun, grammar_elements. apply (f_equal sum_list), map_ext. intros p. destruct (decide _) as [Hx|]; [destruct (not_elem_of_empty _ Hx)|reflexivity]. Qed.
Lemma unbegun_begin X A r : A ∉ X -> pd_rules pd !! A = Some r -> unbegun X = rule_elements r + unbegun ({[A]} ∪ X).
Proof.
  intros HX Hr. unfold unbegun. pose proof (NoDup_fst_map_to_list (pd_rules pd)) as Hnd. apply elem_of_map_to_list in Hr. revert Hnd Hr.
  generalize (map_to_list (pd_rules pd)). intros l. induction l as [|[B q] l IH]; intros Hnd Hr; [inversion Hr|]. cbn [map sum_list fst snd] in *.
  apply NoDup_cons in Hnd as [Hn Hnd]. apply elem_of_cons in Hr as [E|Hr].
  - injection E as <- <-. rewrite decide_False by assumption. destruct (decide (A ∈ {[A]} ∪ X)) as [_|Hx]; [|set_solver]. f_equal. cbn.
    clear -Hn. induction l as [|[C q] l IH]; [reflexivity|]. cbn [map sum_list fst snd] in *. apply not_elem_of_cons in Hn as [Hn1 Hn2]. rewrite (IH Hn2). f_equal.
    destruct (decide (C ∈ X)) as [H1|H1], (decide (C ∈ {[A]} ∪ X)) as [H2|H2]; try reflexivity; exfalso; set_solver.
  - assert (B <> A). { intros ->. apply Hn. apply elem_of_list_fmap. exists (A, r). auto. }
    rewrite (IH Hnd Hr). destruct (decide (B ∈ X)) as [H1|H1], (decide (B ∈ {[A]} ∪ X)) as [H2|H2]; try lia; exfalso; set_solver.
Qed.
(** [c] makes at most [k] calls, and those that begin a rule pay for its elements. *)
Definition within (P : gset nat) (k : nat) (fs : NamedSets) (c : cres (eset * NamedSets)) : Prop :=
  match c with
  | (n, Ok (_, fs')) => n + unbegun (dom fs' ∪ P) <= k + unbegun (dom fs ∪ P)
  | (n, _) => n <= k + unbegun (dom fs ∪ P)
  end.
Lemma within_bind P k k' fs c (K : eset * NamedSets -> cres (eset * NamedSets)) :
  within P k fs c -> (forall s fs', snd c = Ok (s, fs') -> within P k' fs' (K (s, fs'))) -> within P (k + k') fs (cbind c K).
Proof.
  unfold within. destruct c as [n [[s fs']| | |]]; cbn; intros Hc HK; try lia. specialize (HK s fs' eq_refl).
  destruct (K (s, fs')) as [n' [[s' fs2]| | |]]; lia.
Qed.
Lemma within_more P k k' fs c : within P k fs c -> k <= k' -> within P k' fs c.
Proof. unfold within. destruct c as [n [[s fs']| | |]]; lia. Qed.
Section costs.
Variables (P : gset nat) (call : nat -> NamedSets -> cres (eset * NamedSets)) (good : nat -> Prop).
Hypothesis call_ok : forall e fs s fs', good e -> inv pd fs -> snd (call e fs) = Ok (s, fs') -> exact pd e s /\ inv pd fs'.
Hypothesis call_cost : forall e fs, good e -> inv pd fs -> within P 1 fs (call e fs).
Lemma done_within k fs s : within P k fs (0, Ok (s, fs)).
Proof. cbn. lia. Qed.
Lemma skip_within els : forall acc fs, (forall u e v, els = u ++ e :: v -> nuls pd u -> good e) -> inv pd fs -> within P (length els) fs (skip_counted call els acc fs).
Proof.
  induction els as [|e els IH]; intros acc fs Hg Hi; [apply done_within|]. cbn [skip_counted length].
  assert (good e) as He by (apply (Hg [] e els eq_refl); constructor).
  apply (within_bind P 1 (length els)); [apply call_cost; assumption|]. intros cur fs' Hr. destruct (call_ok e fs cur fs' He Hi Hr) as [(_ & Hemp & _) Hi'].
  destruct (decide (EEmpty ∈ cur)) as [Hin|Hnin]; [|apply done_within]. apply IH; [|assumption]. intros u x v -> Hu. apply (Hg (e :: u) x v eq_refl). constructor; [apply Hemp|]; assumption.
Qed.
Lemma production_within p fs : (forall u e v, right_side p = u ++ e :: v -> nuls pd u -> good e) -> inv pd fs -> within P (length (right_side p)) fs (production_counted call p fs).
Proof.
  intros Hg Hi. destruct p as [[|e els]|]; [cbn; lia| |apply done_within]. cbn [production_counted right_side length] in *.
  assert (good e) as He by (apply (Hg [] e els eq_refl); constructor).
  apply (within_bind P 1 (length els)); [apply call_cost; assumption|]. intros cur fs' Hr. destruct (call_ok e fs cur fs' He Hi Hr) as [(_ & Hemp & _) Hi'].
  destruct (decide (EEmpty ∈ cur)) as [Hin|Hnin]; [|apply done_within]. apply skip_within; [|assumption]. intros u x v -> Hu. apply (Hg (e :: u) x v eq_refl). constructor; [apply Hemp|]; assumption.
Qed.
Hypothesis production_inv : forall p fs s fs', (forall u e v, right_side p = u ++ e :: v -> nuls pd u -> good e) -> inv pd fs -> snd (production_counted call p fs) = Ok (s, fs') -> inv pd fs'.
Lemma productions_within ps : forall set fs, (forall p u e v, p ∈ ps -> right_side p = u ++ e :: v -> nuls pd u -> good e) -> inv pd fs ->
  within P (length (concat (map right_side ps))) fs (productions_counted call ps set fs).
Proof.
  induction ps as [|p ps IH]; intros set fs Hg Hi; [apply done_within|]. cbn [productions_counted map concat]. rewrite app_length.
  assert (forall u e v, right_side p = u ++ e :: v -> nuls pd u -> good e) as Hgp by (intros u e v; apply (Hg p u e v); left).
  apply (within_bind P _ (length (concat (map right_side ps)))); [apply production_within; assumption|]. intros rus fs' Hr.
  apply IH; [intros q u e v Hq; apply (Hg q u e v); right; assumption|]. eapply production_inv; eassumption.
Qed.
End costs.
Lemma first_within (Hno : forall A, ~ left_recursive pd A) f : forall P e fs, inv pd fs -> (forall A, A ∈ P -> tc (left_calls pd) A e) -> within P 1 fs (first_counted pd f e fs).
Proof.
  induction f as [|f IH]; intros P e fs Hi HP; [cbn; lia|]. cbn [first_counted].
  destruct (get_first_set_of_element pd e fs) as [[x|]| | |] eqn:Hg; try (cbn; lia). destruct (pd_rules pd !! e) as [r|] eqn:Hr; [|cbn; lia].
  assert (e ∉ dom fs ∪ P) as Hne.
  { intros Hx. apply elem_of_union in Hx as [Hx|Hx]; [|exact (Hno e (HP e Hx))]. apply elem_of_dom in Hx as [s Hs].
    destruct (element_cases pd Hwf e) as [[t Ht]|[Hn|Hn]].
    - rewrite (terminal_no_rule pd Hwf e t Ht) in Hr. discriminate.
    - rewrite (get_first_nonterminal pd e fs Hn) in Hg. enough (Some s = None) by discriminate. rewrite <- Hs. injection Hg as Hg. exact Hg.
    - rewrite get_first_none in Hg by assumption. discriminate. }
  assert (within ({[e]} ∪ P) (rule_elements r) fs (productions_counted (first_counted pd f) (possible_productions r) ∅ fs)) as Hw.
  { apply (productions_within _ _ (fun b => (exists s, is_terminal pd b s) \/ left_calls pd e b \/ element_types pd !! b = None)); [| | | |assumption].
    - intros b fs1 s fs2 _ Hi1 Hx. rewrite first_counted_snd in Hx. destruct (first_ok pd Hwf f b fs1 s fs2 Hi1 Hx) as (? & ? & ? & ? & _). auto.
    - intros b fs1 [[s Ht]|[Hc|Hn]] Hi1.
      + destruct f as [|f']; [cbn; lia|]. cbn [first_counted]. rewrite (get_first_terminal pd b s fs1 Ht). cbn. lia.
      + apply IH; [assumption|]. intros A HA. apply elem_of_union in HA as [HA|HA].
        * apply elem_of_singleton in HA as ->. constructor. assumption.
        * eapply tc_r; [apply HP; assumption|assumption].
      + destruct f as [|f']; [cbn; lia|]. cbn [first_counted]. rewrite get_first_none by assumption. cbn. lia.
    - intros p fs1 s fs2 Hgp Hi1 Hx. rewrite (production_snd _ (first_of_element pd f)) in Hx by apply first_counted_snd.
      eapply (ofprod_ok pd (first_of_element pd f) (fun _ => True)); [|auto|exact Hi1|exact Hx].
      intros b fs3 s3 fs4 _ Hi3 Hx3. destruct (first_ok pd Hwf f b fs3 s3 fs4 Hi3 Hx3) as (? & ? & ? & ? & _). auto.
    - intros p u b v Hp Heq Hu. destruct (element_cases pd Hwf b) as [Ht|[Hn|Hn]]; [auto| |auto].
      right. left. apply left_calls_iff. exists u, v. split; [|auto]. rewrite <- Heq. apply (alternative_iff pd e r _ Hr). eauto. }
  pose proof (unbegun_begin (dom fs ∪ P) e r Hne Hr) as Hb. replace ({[e]} ∪ (dom fs ∪ P)) with (dom fs ∪ ({[e]} ∪ P)) in Hb by set_solver.
  destruct (productions_counted _ _ _ _) as [n [[set fs1]| | |]]; cbn in *; try lia.
  replace (dom (<[e:=set]> fs1) ∪ P) with (dom fs1 ∪ ({[e]} ∪ P)); [lia|]. pose proof (dom_insert_L (M := gmap nat) (D := gset nat) fs1 e set) as Hd. symmetry. etransitivity; [exact (f_equal (fun X => X ∪ P) Hd)|]. clear. set_solver.
Qed.
Lemma first_calls (Hno : forall A, ~ left_recursive pd A) fuel : fst (get_first_sets_counted pd fuel) <= size (pd_rules pd) + grammar_elements pd.
Proof.
  unfold get_first_sets_counted. set (f := fun (fs : NamedSets) ix => _).
  assert (forall l fs, inv pd fs -> fst (cfold f fs l) <= length l + unbegun (dom fs ∪ ∅)) as Hl.
  { induction l as [|e l IH]; intros fs Hi; [cbn; lia|]. cbn [cfold length]. pose proof (first_within Hno fuel ∅ e fs Hi) as Hw.
    specialize (Hw ltac:(intros A HA; destruct (not_elem_of_empty _ HA))). pose proof (first_counted_snd fuel e fs) as Hs. unfold f at 1.
    destruct (first_counted pd fuel e fs) as [n [[s fs1]| | |]]; cbn in *; try lia.
    assert (inv pd fs1) as Hi1 by (symmetry in Hs; apply (first_ok pd Hwf fuel e fs s fs1 Hi Hs)). specialize (IH fs1 Hi1).
    destruct (cfold f fs1 l) as [n' o]. cbn in *. lia. }
  etransitivity; [apply Hl, inv_empty|]. replace (dom (∅ : NamedSets) ∪ ∅) with (∅ : gset nat); [rewrite unbegun_all|symmetry; etransitivity; [exact (f_equal (fun X => X ∪ ∅) (dom_empty_L (M := gmap nat) (D := gset nat)))|apply union_empty_l_L]]. apply Nat.add_le_mono_r. rewrite ho_perm, fmap_length. reflexivity.
Qed.
End first.

Section follow.
Context {H : HashOrder} {I : Type} (m : ovf_mode) (pd : ParserData I) (Hwf : wf_grammar pd).
Notation FGraph := (GraphNamedNodes (gset SetMember)).
Notation agr := (gmap nat (gset SetMember * list nat)).
Lemma missing_snd (g : FGraph) : snd (missing_counted m g) = missing_of_all m g.
Proof.
  unfold missing_counted, missing_of_all. apply cfold_snd. intros acc [name ix]. destruct (get_node_by_index m g ix) as [node| | |]; try reflexivity. cbn [obind].
  destruct (named_successors g name); reflexivity.
Qed.
Lemma propagate_snd fuel : forall g : FGraph, snd (propagate_counted m fuel g) = propagate m fuel g.
Proof.
  induction fuel as [|fuel IH]; intros g; [reflexivity|]. cbn [propagate_counted propagate]. rewrite <- missing_snd. apply cbind_snd. intros [|p l]; [reflexivity|].
  apply (cbind_snd (0, apply_missing m g (p :: l))). exact IH.
Qed.
Lemma follow_counted_snd fuel start fs : snd (get_follow_sets_counted m pd fuel start fs) = get_follow_sets m pd fuel start fs.
Proof.
  unfold get_follow_sets_counted, get_follow_sets, make_follow_sets_from_marked_graph. destruct (make_graph_with_index pd) as [g0| | |]; try reflexivity. cbn [obind].
  destruct (modify_node g0 start _) as [g1| | |]; try reflexivity. cbn [obind]. destruct (mark_all m pd fs g1) as [g2| | |]; try reflexivity.
  cbn [obind cbind]. rewrite <- propagate_snd. destruct (propagate_counted m fuel g2) as [n [g3| | |]]; reflexivity.
Qed.

Definition few_edges (a : agr) : Prop := forall A d ss r, a !! A = Some (d, ss) -> pd_rules pd !! A = Some r -> length ss <= rule_elements r.
Definition elements_of (A : nat) : nat := match pd_rules pd !! A with Some r => rule_elements r | None => 0 end.
Lemma elements_sum : sum_list (map elements_of (map_to_list (pd_rules pd)).*1) = grammar_elements pd.
Proof.
  unfold grammar_elements. rewrite map_map. f_equal. apply map_ext_in. intros [A r] Hin. apply elem_of_list_In, elem_of_map_to_list in Hin. cbn. unfold elements_of. rewrite Hin. reflexivity.
Qed.
Lemma sum_list_perm (l l' : list nat) : l ≡ₚ l' -> sum_list l = sum_list l'.
Proof. induction 1; cbn; lia. Qed.
Lemma missing_cost (g : FGraph) a chs : pinv pd g a chs -> few_edges a -> fst (missing_counted m g) <= grammar_elements pd.
Proof.
  intros Hp Hfew. pose proof (pi_rel _ _ _ _ Hp) as Hr. rewrite <- elements_sum.
  assert (forall l acc, (forall x i, (x, i) ∈ l -> ng_names g !! x = Some i) ->
    fst (cfold (fun acc '((name, ix) : nat * nat) =>
           match (let* node := get_node_by_index m g ix in let* succs := named_successors g name in Ok (node, succs)) with
           | Ok (node, succs) => (length succs, Ok (acc ++ collect_missing g node succs))
           | Err e => (0, Err e)
           | Panic => (0, Panic)
           | Diverge => (0, Diverge)
           end) acc l) <= sum_list (map elements_of l.*1)) as Hl.
  { induction l as [|[A i] l IH]; intros acc Hin; [cbn; lia|]. cbn [cfold fmap list_fmap map sum_list fst].
    pose proof (Hin A i ltac:(left)) as HA. destruct (proj1 (nr_dom _ _ _ Hr A)) as [[d ss] Ha]; [eauto|].
    destruct (nr_rep _ _ _ Hr _ _ _ _ HA Ha) as (n & ch & Hn & Hnd & _).
    rewrite (get_by_index_ok m g i n Hn (pi_len _ _ _ _ Hp)). cbn [obind].
    destruct (nrel_successors g a chs A i d ss Hr Ha HA) as (succ & -> & Hsucc). cbn [obind cbind].
    specialize (IH (acc ++ collect_missing g n succ) ltac:(intros x j Hx; apply Hin; right; assumption)).
    destruct (cfold _ _ l) as [k o]. cbn [fst] in *. rewrite <- (Forall2_length _ _ _ Hsucc).
    destruct (proj1 (pi_dom _ _ _ _ Hp A)) as [r HrA]; [eauto|]. pose proof (Hfew A d ss r Ha HrA). assert (elements_of A = rule_elements r) as -> by (unfold elements_of; rewrite HrA; reflexivity). apply Nat.add_le_mono; assumption. }
  etransitivity; [apply Hl|].
  - intros x i Hx. rewrite (ho_perm [6] _ _) in Hx. apply elem_of_map_to_list. assumption.
  - apply Nat.eq_le_incl, sum_list_perm. change (map elements_of) with (fmap (M := list) elements_of). apply fmap_Permutation. rewrite (ho_perm [6] _ _).
    apply NoDup_Permutation; [apply NoDup_fst_map_to_list..|]. intros A. rewrite !elem_of_list_fmap. split.
    + intros ([A' i] & -> & Hx). apply elem_of_map_to_list in Hx. destruct (proj1 (pi_dom _ _ _ _ Hp A')) as [r HrA]; [apply (nr_dom _ _ _ Hr); eauto|].
      exists (A', r). split; [reflexivity|]. apply elem_of_map_to_list. assumption.
    + intros ([A' r] & -> & Hx). apply elem_of_map_to_list in Hx. destruct (proj2 (nr_dom _ _ _ Hr A')) as [i Hi]; [apply (pi_dom _ _ _ _ Hp); eexists; exact Hx|].
      exists (A', i). split; [reflexivity|]. apply elem_of_map_to_list. assumption.
Qed.
Lemma same_few a a' : doms pd a -> doms pd a' -> same_edges a a' -> few_edges a -> few_edges a'.
Proof.
  intros Hd Hd' Hs Hf A d' ss' r Ha' Hr. destruct (proj2 (Hd A)) as [[d ss] Ha]; [eexists; exact Hr|]. destruct (Hs A d ss Ha) as (d2 & Ha2 & _).
  rewrite Ha' in Ha2. injection Ha2 as <- <-. eapply Hf; eassumption.
Qed.
Lemma propagate_cost start (U : gset SetMember) (HU : forall A x, has_rule pd A -> fol pd start A x -> x ∈ U) fuel : forall g a chs, pinv pd g a chs -> sound pd start a -> edges_sound pd a -> few_edges a ->
  fst (propagate_counted m fuel g) <= (room pd U a + 1) * grammar_elements pd.
Proof.
  induction fuel as [|fuel IH]; intros g a chs Hp Hs He Hf; cbn [propagate_counted]; [cbn; lia|].
  destruct (missing_ok m pd g a chs Hp) as (l & El & Hl & Hall). rewrite <- missing_snd in El. pose proof (missing_cost g a chs Hp Hf) as Hc.
  destruct (missing_counted m g) as [n o]. cbn [snd fst] in *. subst o. cbn [cbind].
  destruct l as [|p l]; [cbn; lia|].
  destruct (apply_ok m pd g a chs (p :: l) Hp Hl) as (g1 & a1 & Hg1 & Hp1 & Hn1 & Hgr). rewrite Hg1. cbn [cbind].
  pose proof (grown_same _ _ _ _ Hgr) as Hsame.
  assert (sound pd start a1) as Hs1 by (eapply (grown_sound pd start g a chs (p :: l)); eauto; apply Hp1).
  assert (edges_sound pd a1) as He1 by (eapply (edges_sound_same pd a); eauto; [apply Hp|apply Hp1]).
  assert (few_edges a1) as Hf1 by (eapply (same_few a); eauto; [apply Hp|apply Hp1]).
  specialize (IH g1 a1 chs Hp1 Hs1 He1 Hf1). destruct (propagate_counted m fuel g1) as [n' o]. cbn [fst] in *.
  pose proof (room_round pd start U g a chs (p :: l) a1 HU Hp Hs Hl ltac:(discriminate) Hgr) as Hroom.
  assert ((room pd U a1 + 1) * grammar_elements pd + grammar_elements pd <= (room pd U a + 1) * grammar_elements pd) by (clear -Hroom; nia). lia.
Qed.
Lemma pairs_of (l : list (nat * NonTerminalRules I)) B r : NoDup l.*1 -> (B, r) ∈ l ->
  map snd (filter (fun p : nat * list nat => p.1 = B) (concat (map rule_pairs l))) = rule_words r.
Proof.
  assert (forall l' : list (nat * NonTerminalRules I), B ∉ l'.*1 -> filter (fun p : nat * list nat => p.1 = B) (concat (map rule_pairs l')) = []) as Hnone.
  { induction l' as [|[A q] l' IH]; intros Hn; [reflexivity|]. cbn [map concat]. apply not_elem_of_cons in Hn as [Hn1 Hn2]. rewrite filter_app, (IH Hn2), app_nil_r.
    unfold rule_pairs. cbn [fst snd]. apply filter_pairs_other. cbn in Hn1. congruence. }
  induction l as [|[A q] l IH]; intros Hnd Hin; [inversion Hin|]. cbn [map concat]. apply NoDup_cons in Hnd as [Hn Hnd]. rewrite filter_app, map_app.
  apply elem_of_cons in Hin as [E|Hin].
  - injection E as <- <-. rewrite (Hnone l Hn), app_nil_r. unfold rule_pairs. cbn [fst snd]. apply filter_pairs_self.
  - assert (A <> B). { intros ->. apply Hn. apply elem_of_list_fmap. exists (B, r). auto. }
    rewrite (IH Hnd Hin). unfold rule_pairs at 1. cbn [fst snd]. rewrite filter_pairs_other by assumption. reflexivity.
Qed.
Lemma marked_few a1 a2 : doms pd a1 -> doms pd a2 -> (forall A d ss, a1 !! A = Some (d, ss) -> ss = []) -> marked pd a1 a2 -> few_edges a2.
Proof.
  intros Hd1 Hd2 Hz Hmk A d2 s2 r HA2 Hr. destruct (proj2 (Hd1 A)) as [[d1 s1] HA1]; [eexists; exact Hr|].
  destruct (Hmk A d1 s1 HA1) as (d & ss & HA & _ & _ & Hlen). rewrite HA2 in HA. injection HA as <- <-. rewrite (Hz A d1 s1 HA1) in Hlen.
  rewrite (pairs_of _ A r) in Hlen; [exact Hlen| |].
  - rewrite (ho_perm [5] _ _). apply NoDup_fst_map_to_list.
  - rewrite (ho_perm [5] _ _). apply elem_of_map_to_list. assumption.
Qed.
Lemma follow_cost start fs fuel (U : gset SetMember) : (forall A x, has_rule pd A -> fol pd start A x -> x ∈ U) ->
  (forall A, is_Some (fs !! A) <-> has_rule pd A) -> (forall A s, fs !! A = Some s -> exact pd A s) -> fits_memory pd ->
  fst (get_follow_sets_counted m pd fuel start fs) <= (size (pd_rules pd) * size U + 1) * grammar_elements pd.
Proof.
  intros HU Hdom Hex Hfit. unfold get_follow_sets_counted.
  destruct (make_graph_ok pd) as (g0 & a0 & chs0 & -> & Hr0 & Hd0 & Hz0 & Hlen0). cbn [obind].
  destruct (decide (has_rule pd start)) as [Hst|Hst].
  2:{ assert (modify_node g0 start (fun d => {[MTerminate]} ∪ d) = Err (GraphNodeDoesNotExistsError start)) as ->.
      { unfold modify_node, get_index_of_node. rewrite (nrel_none _ _ _ start Hr0); [reflexivity|].
        destruct (a0 !! start) eqn:E; [|reflexivity]. exfalso. apply Hst, Hd0. rewrite E. eauto. }
      cbn [obind cbind]. cbn. lia. }
  destruct (proj2 (Hd0 start) Hst) as [[d s] Ha0]. destruct (Hz0 _ _ _ Ha0) as [-> ->].
  destruct (nrel_modify g0 a0 chs0 start (fun d => {[MTerminate]} ∪ d) ∅ [] Hr0 Ha0) as (g1 & -> & Hr1 & Hn1 & Hu1). cbn [obind].
  set (a1 := <[start:=({[MTerminate]} ∪ ∅, [])]> a0) in *.
  assert (doms pd a1) as Hd1 by (apply doms_insert; assumption).
  assert (forall A d ss, a1 !! A = Some (d, ss) -> ss = [] /\ forall x, x ∈ d -> A = start /\ x = MTerminate) as Hz1.
  { intros A d' ss' HA. apply lookup_insert_Some in HA as [[<- [= <- <-]]|[_ HA]].
    - split; [reflexivity|]. clear. set_solver.
    - destruct (Hz0 _ _ _ HA) as [-> ->]. split; [reflexivity|]. clear. set_solver. }
  pose proof (mark_all_ok m pd Hwf fs Hdom Hex g1 a1 chs0 Hfit Hr1 Hd1 ltac:(intros A d' ss' HA; eapply Hz1; eauto)) as Hm.
  pose proof (mark_all_len m pd fs g1) as Hml.
  destruct (mark_all m pd fs g1) as [g2| | |]; cbn [obind cbind]; [|cbn; lia|cbn; lia|contradiction].
  destruct Hm as (Hgood & a2 & chs2 & Hr2 & Hn2 & Hd2 & Hmk).
  assert (sound pd start a2) as Hs2.
  { intros A d' ss' x HA Hx. destruct (proj2 (Hd1 A)) as [[d1 s1] HA1]; [apply Hd2; rewrite HA; eauto|].
    destruct (Hmk A d1 s1 HA1) as (d2 & s2 & HA2 & Hx2 & _). rewrite HA in HA2. injection HA2 as <- <-.
    apply Hx2 in Hx. destruct Hx as [Hx1|(B & w & Hpw & u & v & c & -> & Hn & Hf & ->)].
    - destruct (proj2 (Hz1 A d1 s1 HA1) x Hx1) as [-> ->]. constructor.
    - eapply fol_first; [apply pairs_elem; exact Hpw|assumption]. }
  assert (edges_sound pd a2) as He2.
  { intros A d' ss' B HA HB. destruct (proj2 (Hd1 A)) as [[d1 s1] HA1]; [apply Hd2; rewrite HA; eauto|].
    destruct (Hmk A d1 s1 HA1) as (d2 & s2 & HA2 & _ & Hx2 & _). rewrite HA in HA2. injection HA2 as <- <-.
    apply Hx2 in HB. destruct HB as [HB|(w & Hpw & u & v & -> & Hn & Hf)].
    - rewrite (proj1 (Hz1 A d1 s1 HA1)) in HB. apply elem_of_nil in HB. contradiction.
    - exists u, v. split; [apply pairs_elem; assumption|assumption]. }
  assert (pinv pd g2 a2 chs2) as Hp2.
  { split; [assumption|assumption| |].
    - rewrite Hml by reflexivity. assert (length (gr_nodes (ng_graph g1)) = size (pd_rules pd)) as ->; [|apply Hfit].
      destruct (nrel_some _ _ _ _ _ _ Hr0 Ha0) as [i Hi]. rewrite (Hu1 i Hi). unfold update_node_data.
      destruct (gr_nodes (ng_graph g0) !! i); [simpl; rewrite insert_length|]; assumption.
    - intros A d' ss' B HA HB. destruct (He2 A d' ss' B HA HB) as (u & v & Halt & _).
      destruct (proj2 (Hd1 A)) as [[d1 s1] HA1]; [apply Hd2; rewrite HA; eauto|].
      destruct (Hmk A d1 s1 HA1) as (d2 & s2 & HA2 & _ & Hx2 & _). rewrite HA in HA2. injection HA2 as <- <-.
      apply Hx2 in HB. destruct HB as [HB|(w & Hpw & u' & v' & -> & Hn & Hf)].
      + rewrite (proj1 (Hz1 A d1 s1 HA1)) in HB. apply elem_of_nil in HB. contradiction.
      + destruct (Hgood A (u ++ B :: v) B Halt ltac:(apply elem_of_app; right; left)) as [[t Ht]|[_ ?]]; [|assumption].
        exfalso. eapply terminal_not_nonterminal; eauto. }
  assert (few_edges a2) as Hf2 by (apply (marked_few a1 a2 Hd1 Hd2); [intros A d' ss' HA; eapply Hz1; eauto|assumption]).
  pose proof (propagate_cost start U HU fuel g2 a2 chs2 Hp2 Hs2 He2 Hf2) as Hc. pose proof (room_bound pd U a2) as Hb.
  assert ((room pd U a2 + 1) * grammar_elements pd <= (size (pd_rules pd) * size U + 1) * grammar_elements pd) by (apply Nat.mul_le_mono_r; lia).
  destruct (propagate_counted m fuel g2) as [n [g3| | |]]; cbn in *; lia.
Qed.
End follow.
