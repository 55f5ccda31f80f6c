(** * Proofs about first_sets.rs *)
From Verif Require Import Base Tree Errors Sets ParserData FirstSets SpecGrammar Grammar_proofs.

Section first.
Context {H : HashOrder} {I : Type} (pd : ParserData I) (Hwf : wf_grammar pd).
Notation res := (outcome GrammarError).
Notation eset := (gset SetMemberWithEmpty).
Notation nul := (nul pd). Notation nuls := (nuls pd). Notation fst_of := (fst_of pd). Notation fsts := (fsts pd).

(** exactness of a set for an element / a sequence *)
Definition exact (e : nat) (s : eset) : Prop :=
  (forall c, EChar c ∈ s <-> fst_of e c) /\ (EEmpty ∈ s <-> nul e) /\ ETerminate ∉ s.
Definition exacts (w : list nat) (s : eset) : Prop :=
  (forall c, EChar c ∈ s <-> fsts w c) /\ (EEmpty ∈ s <-> nuls w) /\ ETerminate ∉ s.

Lemma exacts_is_first w s : exacts w s <-> is_first_set pd w s.
Proof.
  unfold exacts, is_first_set. rewrite NULLABLE_nuls.
  split; intros (H1 & H2 & H3); (split; [|auto]); intros c; rewrite H1, FIRST_fsts; reflexivity.
Qed.
Lemma exact_exacts e s : exact e s <-> exacts [e] s.
Proof.
  unfold exact, exacts.
  assert (forall c, fst_of e c <-> fsts [e] c) as Hf.
  { intros c. rewrite fsts_cons. split; [auto|]. intros [?|[_ Hn]]; [assumption|]. exfalso. eapply fsts_nil; eauto. }
  assert (nul e <-> nuls [e]) as Hn.
  { split; [intros; constructor; [assumption|constructor]|]. intros Hx. inversion Hx; assumption. }
  rewrite Hn. split; intros (H1 & H2 & H3); (split; [|auto]); intros c; rewrite H1, Hf; reflexivity.
Qed.
Lemma exact_unique e s s' : exact e s -> exact e s' -> s = s'.
Proof.
  intros (H1 & H2 & H3) (K1 & K2 & K3). apply set_eq. intros [c| |].
  - rewrite H1, K1. reflexivity.
  - rewrite H2, K2. reflexivity.
  - tauto.
Qed.

Inductive grounded : nat -> Prop :=
| grounded_t e s : is_terminal pd e s -> grounded e
| grounded_n A r : pd_rules pd !! A = Some r ->
    (forall p, p ∈ possible_productions r -> p <> NotEmpty []) ->
    (forall u B v, alternative pd A (u ++ B :: v) -> nuls u -> grounded B) -> grounded A.

Definition inv (fs : NamedSets) : Prop :=
  forall A s, fs !! A = Some s -> has_rule pd A /\ exact A s /\ grounded A.

(** ** elements *)
Lemma verbose_types e n k : get_element_verbose pd e = Some (n, k) ->
  element_types pd !! e = Some k /\ exists d, element_data pd !! e = Some d /\ ed_name d = n.
Proof.
  unfold get_element_verbose. destruct (element_data pd !! e) as [d|] eqn:E1; [|discriminate].
  destruct (element_types pd !! e) as [t|] eqn:E2; [|discriminate]. intros [= <- <-]. split; [reflexivity|]. eauto.
Qed.
Lemma types_verbose e k : element_types pd !! e = Some k -> exists n, get_element_verbose pd e = Some (n, k).
Proof.
  intros Ht. destruct (lookup_lt_is_Some_2 (element_data pd) e) as [d Hd].
  { rewrite <- (wf_len _ Hwf). eapply lookup_lt_Some; eauto. }
  unfold get_element_verbose. rewrite Hd, Ht. eauto.
Qed.
Lemma terminal_no_rule e s : is_terminal pd e s -> pd_rules pd !! e = None.
Proof.
  intros Ht. destruct (pd_rules pd !! e) as [rr|] eqn:E; [|reflexivity].
  destruct (wf_rules _ Hwf e) as [nm Hn]; [eexists; exact E|]. unfold is_terminal in Ht. congruence.
Qed.
Lemma terminal_no_alt e s w : is_terminal pd e s -> ~ alternative pd e w.
Proof. intros Ht (r & p & Hr & _). rewrite (terminal_no_rule e s Ht) in Hr. discriminate. Qed.
Lemma terminal_unique e s s' : is_terminal pd e s -> is_terminal pd e s' -> s = s'.
Proof. unfold is_terminal. congruence. Qed.

Lemma get_first_terminal e s fs : is_terminal pd e s ->
  get_first_set_of_element pd e fs = Ok (Some (match s with [] => {[EEmpty]} | c :: _ => {[EChar c]} end)).
Proof.
  intros Ht. apply verbose_types in Ht as (Ht & d & Hd & Hn). unfold get_first_set_of_element, get_element_data.
  rewrite Ht, Hd, Hn. destruct s; reflexivity.
Qed.
Lemma exact_terminal e s : is_terminal pd e s ->
  exact e (match s with [] => {[EEmpty]} | c :: _ => {[EChar c]} end).
Proof.
  intros Ht.
  assert (forall c, fst_of e c <-> exists s', s = c :: s') as Hf.
  { intros c. split.
    - intros Hf. inversion Hf; subst; [|exfalso; eapply terminal_no_alt; eauto].
      rewrite (terminal_unique _ _ _ Ht H0). eauto.
    - intros [s' ->]. eapply fst_t; eauto. }
  assert (nul e <-> s = []) as Hn.
  { split.
    - intros Hx. inversion Hx; subst; [|exfalso; eapply terminal_no_alt; eauto].
      exact (terminal_unique _ _ _ Ht H0).
    - intros ->. apply nul_t. assumption. }
  destruct s as [|c s]; split.
  - intros c. rewrite Hf, elem_of_singleton. split; [discriminate|intros [? ?]; discriminate].
  - rewrite Hn, elem_of_singleton. split; [tauto|]. rewrite elem_of_singleton. discriminate.
  - intros c'. rewrite Hf, elem_of_singleton. split; [intros [= ->]; eauto|intros [s' [= -> ->]]; reflexivity].
  - rewrite Hn, !elem_of_singleton. split; [split; discriminate|discriminate].
Qed.
Lemma get_first_nonterminal e fs : is_nonterminal pd e -> get_first_set_of_element pd e fs = Ok (fs !! e).
Proof. intros [n Hn]. apply verbose_types in Hn as (Ht & _). unfold get_first_set_of_element. rewrite Ht. reflexivity. Qed.
(** the three cases of an index *)
Lemma element_cases e : (exists s, is_terminal pd e s) \/ is_nonterminal pd e \/ element_types pd !! e = None.
Proof.
  destruct (element_types pd !! e) as [k|] eqn:E; [|auto]. destruct (types_verbose e k E) as [n Hn].
  destruct k; [left; eauto|right; left; eexists; eauto].
Qed.
Lemma get_first_none e fs : element_types pd !! e = None -> get_first_set_of_element pd e fs = Panic.
Proof. intros E. unfold get_first_set_of_element. rewrite E. reflexivity. Qed.

Lemma get_first_some e fs s : inv fs -> get_first_set_of_element pd e fs = Ok (Some s) -> exact e s /\ grounded e.
Proof.
  intros Hi Hg. destruct (element_cases e) as [[t Ht]|[Hn|Hn]].
  - rewrite (get_first_terminal e t fs Ht) in Hg. injection Hg as <-. split; [apply exact_terminal; assumption|].
    eapply grounded_t; eauto.
  - rewrite (get_first_nonterminal e fs Hn) in Hg. injection Hg as Hg. apply Hi in Hg. tauto.
  - rewrite get_first_none in Hg by assumption. discriminate.
Qed.

(** ** the loops as separate functions *)
Section loops.
Variable rec : nat -> NamedSets -> res (eset * NamedSets).
Fixpoint skip (els : list nat) (acc : eset) (fs : NamedSets) : res (eset * NamedSets) :=
  match els with
  | [] => Ok (acc, fs)
  | e :: els' =>
      let* '(cur, fs') := rec e fs in
      let acc' := cur ∪ acc in
      if decide (EEmpty ∈ cur) then skip els' acc' fs'
      else Ok (acc' ∖ {[EEmpty]}, fs')
  end.
Definition ofprod (p : Production) (fs : NamedSets) : res (eset * NamedSets) :=
  match p with
  | Empty => Ok ({[EEmpty]}, fs)
  | NotEmpty [] => Panic
  | NotEmpty (e :: els) =>
      let* '(first_menge, fs') := rec e fs in
      if decide (EEmpty ∈ first_menge) then skip els first_menge fs'
      else Ok (first_menge, fs')
  end.
Fixpoint prods (ps : list Production) (set : eset) (fs : NamedSets) : res (eset * NamedSets) :=
  match ps with
  | [] => Ok (set, fs)
  | p :: ps' => let* '(rus, fs') := ofprod p fs in prods ps' (rus ∪ set) fs'
  end.

(** what is known about the recursive calls *)
Variable good : nat -> Prop.       (* calls allowed *)
Hypothesis rec_ok : forall e fs s fs', good e -> inv fs -> rec e fs = Ok (s, fs') ->
  exact e s /\ grounded e /\ inv fs' /\ fs ⊆ fs'.

(** [acc] is exact for a nullable prefix *)
Lemma skip_ok els : forall pre acc fs r fs',
  (forall u e v, els = u ++ e :: v -> nuls u -> good e) ->
  inv fs -> exacts pre acc -> nuls pre -> skip els acc fs = Ok (r, fs') ->
  exacts (pre ++ els) r /\ inv fs' /\ fs ⊆ fs' /\
  (forall u e v, els = u ++ e :: v -> nuls u -> grounded e).
Proof.
  induction els as [|e els IH]; intros pre acc fs r fs' Hg Hi Ha Hn Hs; simpl in Hs.
  - injection Hs as <- <-. rewrite app_nil_r. split; [assumption|]. split; [assumption|]. split; [reflexivity|].
    intros u e v Hx. destruct u; discriminate.
  - destruct (rec e fs) as [[cur fs1]| | |] eqn:Hr; try discriminate. simpl in Hs.
    destruct (rec_ok e fs cur fs1) as (He & Hgr & Hi1 & Hsub).
    { apply (Hg [] e els); [reflexivity|constructor]. }
    { assumption. }
    { assumption. }
    destruct He as (Hc & Hemp & Hterm). destruct Ha as (Ac & Aemp & Aterm).
    destruct (decide (EEmpty ∈ cur)) as [Hin|Hnin].
    + assert (nul e) as Hne by (apply Hemp; assumption).
      destruct (IH (pre ++ [e]) (cur ∪ acc) fs1 r fs') as (K1 & K2 & K3 & K4).
      * intros u x v -> Hu. apply (Hg (e :: u) x v); [reflexivity|constructor; assumption].
      * assumption.
      * split; [|split].
        -- intros c. rewrite elem_of_union, Hc, Ac, fsts_app, fsts_cons. split; [intuition|].
           intros [?|[? [?|[? Hf]]]]; [auto|auto|]. exfalso. eapply fsts_nil; eauto.
        -- rewrite elem_of_union, nuls_app. split; [|auto]. intros _. split; [assumption|]. constructor; [assumption|constructor].
        -- rewrite elem_of_union. tauto.
      * apply nuls_app. split; [assumption|]. constructor; [assumption|constructor].
      * assumption.
      * rewrite <- app_assoc in K1. split; [assumption|]. split; [assumption|]. split; [etransitivity; eassumption|].
        intros u x v Heq Hu. destruct u as [|y u]; simpl in Heq; injection Heq as -> ->; [assumption|].
        inversion Hu; subst. eapply K4; eauto.
    + injection Hs as <- <-. split; [|split; [assumption|split; [assumption|]]].
      * split; [|split].
        -- intros c. rewrite elem_of_difference, elem_of_union, elem_of_singleton, Hc, Ac, fsts_app, fsts_cons.
           split; [intuition|]. intros [?|[? [?|[Hne _]]]]; [split; [auto|discriminate]|split; [auto|discriminate]|].
           exfalso. apply Hnin, Hemp. assumption.
        -- rewrite elem_of_difference, elem_of_singleton, nuls_app. split; [tauto|].
           intros [_ Hx]. inversion Hx; subst. exfalso. apply Hnin, Hemp. assumption.
        -- rewrite elem_of_difference, elem_of_union. tauto.
      * intros u x v Heq Hu. destruct u as [|y u]; simpl in Heq; injection Heq as -> ->; [assumption|].
        inversion Hu; subst. exfalso. apply Hnin, Hemp. assumption.
Qed.

Lemma ofprod_ok p fs r fs' :
  (forall u e v, right_side p = u ++ e :: v -> nuls u -> good e) ->
  inv fs -> ofprod p fs = Ok (r, fs') ->
  exacts (right_side p) r /\ inv fs' /\ fs ⊆ fs' /\ p <> NotEmpty [] /\
  (forall u e v, right_side p = u ++ e :: v -> nuls u -> grounded e).
Proof.
  intros Hg Hi Ho. destruct p as [[|e els]|]; simpl in *; [discriminate| |].
  - destruct (rec e fs) as [[cur fs1]| | |] eqn:Hr; try discriminate. simpl in Ho.
    destruct (rec_ok e fs cur fs1) as (He & Hgr & Hi1 & Hsub).
    { apply (Hg [] e els); [reflexivity|constructor]. }
    { assumption. }
    { assumption. }
    pose proof He as (Hc & Hemp & Hterm).
    destruct (decide (EEmpty ∈ cur)) as [Hin|Hnin].
    + assert (nul e) as Hne by (apply Hemp; assumption).
      destruct (skip_ok els [e] cur fs1 r fs') as (K1 & K2 & K3 & K4).
      * intros u x v -> Hu. apply (Hg (e :: u) x v); [reflexivity|constructor; assumption].
      * assumption.
      * apply exact_exacts. assumption.
      * constructor; [assumption|constructor].
      * assumption.
      * split; [assumption|]. split; [assumption|]. split; [etransitivity; eassumption|]. split; [discriminate|].
        intros u x v Heq Hu. destruct u as [|y u]; simpl in Heq; injection Heq as -> ->; [assumption|].
        inversion Hu; subst. eapply K4; eauto.
    + injection Ho as <- <-. split; [|split; [assumption|split; [assumption|split; [discriminate|]]]].
      * split; [|split; [|assumption]].
        -- intros c. rewrite Hc, fsts_cons. split; [auto|]. intros [?|[Hx _]]; [assumption|].
           exfalso. apply Hnin, Hemp. assumption.
        -- split; [contradiction|]. intros Hx. inversion Hx; subst. exfalso. apply Hnin, Hemp. assumption.
      * intros u x v Heq Hu. destruct u as [|y u]; simpl in Heq; injection Heq as -> ->; [assumption|].
        inversion Hu; subst. exfalso. apply Hnin, Hemp. assumption.
  - injection Ho as <- <-. split; [|split; [assumption|split; [reflexivity|split; [discriminate|]]]].
    + split; [|split].
      * intros c. rewrite elem_of_singleton. split; [discriminate|]. intros Hf. exfalso. eapply fsts_nil; eauto.
      * rewrite elem_of_singleton. split; [constructor|reflexivity].
      * rewrite elem_of_singleton. discriminate.
    + intros u e v Heq. destruct u; discriminate.
Qed.

Lemma prods_ok ps : forall set fs r fs',
  (forall p u e v, p ∈ ps -> right_side p = u ++ e :: v -> nuls u -> good e) ->
  inv fs -> ETerminate ∉ set -> prods ps set fs = Ok (r, fs') ->
  ((forall c, EChar c ∈ r <-> EChar c ∈ set \/ exists p, p ∈ ps /\ fsts (right_side p) c) /\
   (EEmpty ∈ r <-> EEmpty ∈ set \/ exists p, p ∈ ps /\ nuls (right_side p)) /\ ETerminate ∉ r) /\
  inv fs' /\ fs ⊆ fs' /\ (forall p, p ∈ ps -> p <> NotEmpty []) /\
  (forall p u e v, p ∈ ps -> right_side p = u ++ e :: v -> nuls u -> grounded e).
Proof.
  induction ps as [|p ps IH]; intros set fs r fs' Hg Hi Ht Hp; simpl in Hp.
  - injection Hp as <- <-. split; [split; [|split]|split; [|split; [|split]]]; try assumption; try reflexivity.
    + intros c. split; [auto|]. intros [?|(p & Hp & _)]; [assumption|apply elem_of_nil in Hp; contradiction].
    + split; [auto|]. intros [?|(p & Hp & _)]; [assumption|apply elem_of_nil in Hp; contradiction].
    + intros p Hp. apply elem_of_nil in Hp. contradiction.
    + intros p u e v Hp. apply elem_of_nil in Hp. contradiction.
  - destruct (ofprod p fs) as [[rus fs1]| | |] eqn:Ho; try discriminate. simpl in Hp.
    destruct (ofprod_ok p fs rus fs1) as ((O1 & O2 & O3) & Oi & Osub & One & Ogr).
    { intros u e v. apply (Hg p u e v). left. }
    { assumption. }
    { assumption. }
    destruct (IH (rus ∪ set) fs1 r fs') as ((K1 & K2 & K3) & Ki & Ksub & Kne & Kgr).
    { intros q u e v Hq. apply Hg. right. assumption. }
    { assumption. }
    { rewrite elem_of_union. tauto. }
    { assumption. }
    split; [split; [|split]|split; [|split; [|split]]].
    + intros c. rewrite K1, elem_of_union, O1. setoid_rewrite elem_of_cons. split.
      * intros [[?|?]|(q & Hq & Hf)]; [right; exists p; auto|auto|right; exists q; auto].
      * intros [?|(q & [->|Hq] & Hf)]; [auto|auto|right; eauto].
    + rewrite K2, elem_of_union, O2. setoid_rewrite elem_of_cons. split.
      * intros [[?|?]|(q & Hq & Hf)]; [right; exists p; auto|auto|right; exists q; auto].
      * intros [?|(q & [->|Hq] & Hf)]; [auto|auto|right; eauto].
    + assumption.
    + assumption.
    + etransitivity; eassumption.
    + intros q Hq. apply elem_of_cons in Hq as [->|Hq]; auto.
    + intros q u e v Hq. apply elem_of_cons in Hq as [->|Hq]; eauto.
Qed.

(** ** no divergence *)
Variable G : Prop.
Hypothesis rec_nodiv : forall e fs, good e -> inv fs -> rec e fs = Diverge -> G.
Lemma skip_nodiv els : forall acc fs,
  (forall u e v, els = u ++ e :: v -> nuls u -> good e) -> inv fs -> skip els acc fs = Diverge -> G.
Proof.
  induction els as [|e els IH]; intros acc fs Hg Hi; simpl; [discriminate|].
  assert (good e) as Hge by (apply (Hg [] e els); [reflexivity|constructor]).
  pose proof (rec_nodiv e fs Hge Hi) as Hnd.
  destruct (rec e fs) as [[cur fs1]| | |] eqn:Hr; try discriminate; [|auto]. simpl.
  destruct (rec_ok e fs cur fs1 Hge Hi Hr) as ((_ & Hemp & _) & _ & Hi1 & _).
  destruct (decide (EEmpty ∈ cur)) as [Hin|]; [|discriminate].
  apply IH; [|assumption]. intros u x v -> Hu. apply (Hg (e :: u) x v); [reflexivity|].
  constructor; [apply Hemp; assumption|assumption].
Qed.
Lemma ofprod_nodiv p fs :
  (forall u e v, right_side p = u ++ e :: v -> nuls u -> good e) -> inv fs -> ofprod p fs = Diverge -> G.
Proof.
  intros Hg Hi. destruct p as [[|e els]|]; simpl in *; try discriminate.
  assert (good e) as Hge by (apply (Hg [] e els); [reflexivity|constructor]).
  pose proof (rec_nodiv e fs Hge Hi) as Hnd.
  destruct (rec e fs) as [[cur fs1]| | |] eqn:Hr; try discriminate; [|auto]. simpl.
  destruct (rec_ok e fs cur fs1 Hge Hi Hr) as ((_ & Hemp & _) & _ & Hi1 & _).
  destruct (decide (EEmpty ∈ cur)) as [Hin|]; [|discriminate].
  apply skip_nodiv; [|assumption]. intros u x v -> Hu. apply (Hg (e :: u) x v); [reflexivity|].
  constructor; [apply Hemp; assumption|assumption].
Qed.
Lemma prods_nodiv ps : forall set fs,
  (forall p u e v, p ∈ ps -> right_side p = u ++ e :: v -> nuls u -> good e) -> inv fs -> prods ps set fs = Diverge -> G.
Proof.
  induction ps as [|p ps IH]; intros set fs Hg Hi; simpl; [discriminate|].
  assert (forall u e v, right_side p = u ++ e :: v -> nuls u -> good e) as Hgp by (intros u e v; apply Hg; left).
  pose proof (ofprod_nodiv p fs Hgp Hi) as Hnd.
  destruct (ofprod p fs) as [[rus fs1]| | |] eqn:Ho; try discriminate; [|auto]. simpl.
  apply IH; [intros q u e v Hq; apply Hg; right; assumption|].
  apply (ofprod_ok p fs rus fs1 Hgp Hi Ho).
Qed.
End loops.

(** ** no error and no panic *)
Section noerr.
Variable rec : nat -> NamedSets -> res (eset * NamedSets).
Variable good : nat -> Prop.
Hypothesis rec_ok : forall e fs s fs', good e -> inv fs -> rec e fs = Ok (s, fs') ->
  exact e s /\ grounded e /\ inv fs' /\ fs ⊆ fs'.
Definition fine {A} (r : res A) : Prop := match r with Ok _ | Diverge => True | _ => False end.
Hypothesis rec_fine : forall e fs, good e -> inv fs -> fine (rec e fs).
Lemma skip_fine els : forall acc fs,
  (forall u e v, els = u ++ e :: v -> nuls u -> good e) -> inv fs -> fine (skip rec els acc fs).
Proof.
  induction els as [|e els IH]; intros acc fs Hg Hi; simpl; [exact Logic.I|].
  assert (good e) as Hge by (apply (Hg [] e els); [reflexivity|constructor]).
  pose proof (rec_fine e fs Hge Hi) as Hnd.
  destruct (rec e fs) as [[cur fs1]| | |] eqn:Hr; simpl in *; try tauto.
  destruct (rec_ok e fs cur fs1 Hge Hi Hr) as ((_ & Hemp & _) & _ & Hi1 & _).
  destruct (decide (EEmpty ∈ cur)) as [Hin|]; [|exact Logic.I].
  apply IH; [|assumption]. intros u x v -> Hu. apply (Hg (e :: u) x v); [reflexivity|].
  constructor; [apply Hemp; assumption|assumption].
Qed.
Lemma ofprod_fine p fs : p <> NotEmpty [] ->
  (forall u e v, right_side p = u ++ e :: v -> nuls u -> good e) -> inv fs -> fine (ofprod rec p fs).
Proof.
  intros Hp Hg Hi. destruct p as [[|e els]|]; simpl in *; [congruence| |exact Logic.I].
  assert (good e) as Hge by (apply (Hg [] e els); [reflexivity|constructor]).
  pose proof (rec_fine e fs Hge Hi) as Hnd.
  destruct (rec e fs) as [[cur fs1]| | |] eqn:Hr; simpl in *; try tauto.
  destruct (rec_ok e fs cur fs1 Hge Hi Hr) as ((_ & Hemp & _) & _ & Hi1 & _).
  destruct (decide (EEmpty ∈ cur)) as [Hin|]; [|exact Logic.I].
  apply skip_fine; [|assumption]. intros u x v -> Hu. apply (Hg (e :: u) x v); [reflexivity|].
  constructor; [apply Hemp; assumption|assumption].
Qed.
Lemma prods_fine ps : forall set fs, (forall p, p ∈ ps -> p <> NotEmpty []) ->
  (forall p u e v, p ∈ ps -> right_side p = u ++ e :: v -> nuls u -> good e) -> inv fs -> fine (prods rec ps set fs).
Proof.
  induction ps as [|p ps IH]; intros set fs Hne Hg Hi; simpl; [exact Logic.I|].
  assert (forall u e v, right_side p = u ++ e :: v -> nuls u -> good e) as Hgp by (intros u e v; apply Hg; left).
  pose proof (ofprod_fine p fs (Hne p (elem_of_list_here p ps)) Hgp Hi) as Hnd.
  destruct (ofprod rec p fs) as [[rus fs1]| | |] eqn:Ho; simpl in *; try tauto.
  apply IH; [intros q Hq; apply Hne; right; assumption|intros q u e v Hq; apply Hg; right; assumption|].
  apply (ofprod_ok rec good rec_ok p fs rus fs1 Hgp Hi Ho).
Qed.
End noerr.

(** ** the recursion *)
Lemma first_unfold f ix fs : first_of_element pd (S f) ix fs =
  let* o := get_first_set_of_element pd ix fs in
  match o with
  | Some x => Ok (x, fs)
  | None =>
      match pd_rules pd !! ix with
      | None => Err (MissingProduction ix)
      | Some r =>
          let* '(set, fs') := prods (first_of_element pd f) (possible_productions r) ∅ fs in
          Ok (set, <[ix := set]> fs')
      end
  end.
Proof. reflexivity. Qed.

Lemma alternative_iff A r w : pd_rules pd !! A = Some r ->
  (alternative pd A w <-> exists p, p ∈ possible_productions r /\ w = right_side p).
Proof.
  intros Hr. split.
  - intros (r' & p & Hr' & Hp & ->). assert (r' = r) as -> by congruence. eauto.
  - intros (p & Hp & ->). exists r, p. auto.
Qed.

Lemma first_ok f : forall e fs s fs', inv fs -> first_of_element pd f e fs = Ok (s, fs') ->
  exact e s /\ grounded e /\ inv fs' /\ fs ⊆ fs' /\ (is_nonterminal pd e -> fs' !! e = Some s).
Proof.
  induction f as [|f IH]; intros e fs s fs' Hi Hf; [discriminate|].
  rewrite first_unfold in Hf.
  destruct (get_first_set_of_element pd e fs) as [[x|]| | |] eqn:Hg; simpl in Hf; try discriminate.
  - injection Hf as <- <-. destruct (get_first_some e fs x Hi Hg) as [He Hgr].
    split; [assumption|]. split; [assumption|]. split; [assumption|]. split; [reflexivity|].
    intros Hn. rewrite (get_first_nonterminal e fs Hn) in Hg. congruence.
  - destruct (pd_rules pd !! e) as [r|] eqn:Hr; [|discriminate].
    destruct (prods (first_of_element pd f) (possible_productions r) ∅ fs) as [[set fs1]| | |] eqn:Hp; simpl in Hf; try discriminate.
    injection Hf as <- <-.
    destruct (prods_ok (first_of_element pd f) (fun _ => True)
                (fun e fs s fs' _ Hi Hx => let '(conj a (conj b (conj c (conj d _)))) := IH e fs s fs' Hi Hx in
                                            conj a (conj b (conj c d)))
                (possible_productions r) ∅ fs set fs1) as ((K1 & K2 & K3) & Ki & Ksub & Kne & Kgr).
    { auto. } { assumption. } { apply not_elem_of_empty. } { assumption. }
    assert (exact e set) as He.
    { split; [|split; [|assumption]].
      - intros c. rewrite K1. split.
        + intros [Hx|(p & Hp' & u & x & v & Heq & Hn & Hfx)]; [apply not_elem_of_empty in Hx; contradiction|].
          apply (fst_n pd e u x v); [|assumption|assumption]. apply (alternative_iff e r _ Hr). eauto.
        + intros Hx. right. inversion Hx; subst.
          * exfalso. rewrite (terminal_no_rule _ _ H0) in Hr. discriminate.
          * apply (alternative_iff e r _ Hr) in H0 as (p & Hp' & Heq). exists p. split; [assumption|].
            exists u, e0, v. auto.
      - rewrite K2. split.
        + intros [Hx|(p & Hp' & Hn)]; [apply not_elem_of_empty in Hx; contradiction|].
          eapply nul_n; [|exact Hn]. apply (alternative_iff e r _ Hr). eauto.
        + intros Hx. right. inversion Hx; subst.
          * exfalso. rewrite (terminal_no_rule _ _ H0) in Hr. discriminate.
          * apply (alternative_iff e r _ Hr) in H0 as (p & Hp' & ->). eauto. }
    assert (grounded e) as Hgr.
    { eapply grounded_n; [exact Hr|exact Kne|]. intros u B v Ha Hn.
      apply (alternative_iff e r _ Hr) in Ha as (p & Hp' & Heq). eapply Kgr; eauto. }
    split; [assumption|]. split; [assumption|]. split; [|split].
    + intros A s' HA. apply lookup_insert_Some in HA as [[<- <-]|[_ HA]]; [|auto].
      split; [eexists; exact Hr|auto].
    + etransitivity; [exact Ksub|]. apply map_subseteq_spec. intros k v Hk.
      apply lookup_insert_Some. destruct (decide (e = k)) as [<-|Hne]; [|right; split; assumption].
      left. split; [reflexivity|]. eapply exact_unique; [exact He|]. apply (Ki e v Hk).
    + intros _. apply lookup_insert.
Qed.

Lemma inv_empty : inv ∅.
Proof. intros A s HA. apply lookup_empty_Some in HA. contradiction. Qed.

Definition first_step (fuel : nat) (fs : NamedSets) (ix : nat) : res NamedSets :=
  let* '(_s, fs') := first_of_element pd fuel ix fs in Ok fs'.
Lemma get_first_sets_unfold fuel : get_first_sets pd fuel
  = ofold (first_step fuel) ∅ (ho_iter [3] (map_to_list (pd_rules pd)).*1).
Proof. reflexivity. Qed.

Lemma first_fold_ok fuel l : forall fs fs', inv fs -> ofold (first_step fuel) fs l = Ok fs' ->
  inv fs' /\ fs ⊆ fs' /\ forall e, e ∈ l -> grounded e /\ (is_nonterminal pd e -> is_Some (fs' !! e)).
Proof.
  induction l as [|e l IH]; intros fs fs' Hi Hf; simpl in Hf.
  - injection Hf as <-. split; [assumption|]. split; [reflexivity|]. intros e He. apply elem_of_nil in He. contradiction.
  - unfold first_step in Hf at 1. destruct (first_of_element pd fuel e fs) as [[s fs1]| | |] eqn:He; simpl in Hf; try discriminate.
    destruct (first_ok fuel e fs s fs1 Hi He) as (_ & Hgr & Hi1 & Hsub & Hlook).
    destruct (IH fs1 fs' Hi1 Hf) as (Hi' & Hsub' & Hall). split; [assumption|]. split; [etransitivity; eassumption|].
    intros x Hx. apply elem_of_cons in Hx as [->|Hx]; [|auto]. split; [assumption|].
    intros Hn. exists s. eapply lookup_weaken; [apply Hlook; assumption|assumption].
Qed.

Lemma rule_keys_elem site A : A ∈ ho_iter site (map_to_list (pd_rules pd)).*1 <-> has_rule pd A.
Proof.
  rewrite (ho_perm site _ _). rewrite elem_of_list_fmap. split.
  - intros ([k r] & -> & Hin). apply elem_of_map_to_list in Hin. eexists. exact Hin.
  - intros [r Hr]. exists (A, r). split; [reflexivity|]. apply elem_of_map_to_list. assumption.
Qed.

Theorem get_first_sets_exact fuel fs : get_first_sets pd fuel = Ok fs ->
  (forall A, is_Some (fs !! A) <-> has_rule pd A) /\
  (forall A s, fs !! A = Some s -> exact A s) /\
  (forall A, has_rule pd A -> grounded A).
Proof.
  rewrite get_first_sets_unfold. intros Hf.
  destruct (first_fold_ok fuel _ ∅ fs inv_empty Hf) as (Hi & _ & Hall).
  split; [|split].
  - intros A. split.
    + intros [s Hs]. apply (Hi A s Hs).
    + intros HA. apply Hall; [apply rule_keys_elem; assumption|]. apply (wf_rules _ Hwf). assumption.
  - intros A s Hs. apply (Hi A s Hs).
  - intros A HA. apply Hall. apply rule_keys_elem. assumption.
Qed.

(** ** left recursion *)
Lemma left_calls_iff A B : left_calls pd A B <->
  exists u v, alternative pd A (u ++ B :: v) /\ nuls u /\ is_nonterminal pd B.
Proof. unfold left_calls. setoid_rewrite NULLABLE_nuls. reflexivity. Qed.
Lemma grounded_call A B : grounded A -> left_calls pd A B -> grounded B.
Proof.
  intros Hg (u & v & Ha & Hn & _)%left_calls_iff. inversion Hg; subst.
  - exfalso. eapply terminal_no_alt; eauto.
  - eauto.
Qed.
Lemma grounded_acyclic A : grounded A -> ~ left_recursive pd A.
Proof.
  intros Hg. cut (Acc (fun B A => left_calls pd A B) A).
  - clear Hg. intros Hacc. unfold left_recursive. induction Hacc as [x Hx IH]. intros Hc.
    inversion Hc as [? ? Hs|? y ? Hs Ht]; subst.
    + eapply (IH x Hs). constructor. assumption.
    + eapply (IH y Hs).
      * eapply tc_r; eauto.
  - induction Hg as [e s Ht|A r Hr Hne Hc IH].
    + constructor. intros B (u & v & Ha & _)%left_calls_iff. exfalso. eapply terminal_no_alt; eauto.
    + constructor. intros B (u & v & Ha & Hn & _)%left_calls_iff. eapply IH; eauto.
Qed.

Theorem get_first_sets_grounded fuel fs : get_first_sets pd fuel = Ok fs ->
  left_defined pd /\ forall A, ~ left_recursive pd A.
Proof.
  intros Hf. destruct (get_first_sets_exact fuel fs Hf) as (_ & _ & Hg). split; [split|].
  - intros A r p Hr Hp. specialize (Hg A ltac:(eexists; exact Hr)). inversion Hg; subst.
    + rewrite (terminal_no_rule _ _ H0) in Hr. discriminate.
    + assert (r0 = r) as -> by congruence. auto.
  - intros A u e v Ha Hn. apply NULLABLE_nuls in Hn.
    specialize (Hg A ltac:(destruct Ha as (r & p & Hr & _); eexists; exact Hr)). inversion Hg as [? ? Ht|? r Hr _ Hc]; subst.
    + exfalso. eapply terminal_no_alt; eauto.
    + specialize (Hc u e v Ha Hn). inversion Hc as [? s Ht|? r' Hr' _ _]; subst; [left; eauto|].
      right. split; [|eexists; eauto]. apply (wf_rules _ Hwf). eexists; eauto.
  - intros A HA. refine (grounded_acyclic A _ HA). apply Hg.
    inversion HA as [? ? Hs|? y ? Hs _]; subst; destruct Hs as (u & v & (r & p & Hr & _) & _); eexists; exact Hr.
Qed.

(** ** termination *)
Lemma first_terminal_step f e s fs : is_terminal pd e s -> first_of_element pd (S f) e fs <> Diverge.
Proof. intros Ht. rewrite first_unfold, (get_first_terminal e s fs Ht). simpl. discriminate. Qed.

Lemma path_bound (path : list nat) : NoDup path -> (forall A, A ∈ path -> has_rule pd A) ->
  length path <= size (pd_rules pd).
Proof.
  intros Hn Hp. rewrite <- size_dom. rewrite <- (size_list_to_set (C := gset nat) path Hn).
  apply subseteq_size. intros x Hx. apply elem_of_list_to_set in Hx. apply elem_of_dom. apply Hp. assumption.
Qed.

Lemma first_div f : forall path e fs,
  inv fs -> NoDup path -> (forall A, A ∈ path -> has_rule pd A /\ tc (left_calls pd) A e) ->
  size (pd_rules pd) + 2 <= f + length path -> first_of_element pd f e fs = Diverge -> exists A, left_recursive pd A.
Proof.
  induction f as [|f IH]; intros path e fs Hi Hnd Hpath Hf.
  - assert (length path <= size (pd_rules pd)) by (apply path_bound; [assumption|intros A HA; apply Hpath; assumption]). lia.
  - rewrite first_unfold.
    destruct (get_first_set_of_element pd e fs) as [[x|]| | |] eqn:Hg; simpl; try discriminate.
    2:{ destruct (element_cases e) as [[t Ht]|[Hn|Hn]].
        - rewrite (get_first_terminal e t fs Ht) in Hg. discriminate.
        - rewrite (get_first_nonterminal e fs Hn) in Hg. discriminate.
        - rewrite get_first_none in Hg by assumption. discriminate. }
    destruct (pd_rules pd !! e) as [r|] eqn:Hr; [|discriminate].
    destruct (decide (e ∈ path)) as [Hin|Hin]; [intros _; exists e; apply (Hpath e Hin)|].
    assert (length (e :: path) <= size (pd_rules pd)) as Hlen.
    { apply path_bound; [constructor; assumption|]. intros A HA. apply elem_of_cons in HA as [->|HA]; [eexists; exact Hr|apply Hpath; assumption]. }
    simpl in Hlen.
    assert (prods (first_of_element pd f) (possible_productions r) ∅ fs = Diverge -> exists A, left_recursive pd A) as Hp.
    { apply (prods_nodiv (first_of_element pd f)
         (fun b => (exists s, is_terminal pd b s) \/ left_calls pd e b \/ element_types pd !! b = None)).
      - intros b fs1 s fs2 _ Hi1 Hx. destruct (first_ok f b fs1 s fs2 Hi1 Hx) as (? & ? & ? & ? & _). auto.
      - intros b fs1 [[s Ht]|[Hc|Hn]] Hi1.
        + destruct f as [|f']; [lia|]. intros Hx. destruct (first_terminal_step f' b s fs1 Ht Hx).
        + apply (IH (e :: path)).
          * assumption.
          * constructor; assumption.
          * intros A HA. apply elem_of_cons in HA as [->|HA].
            -- split; [eexists; exact Hr|]. constructor. assumption.
            -- split; [apply Hpath; assumption|]. eapply tc_r; [apply Hpath; assumption|assumption].
          * simpl. lia.
        + destruct f as [|f']; [lia|]. rewrite first_unfold, get_first_none by assumption. discriminate.
      - intros p u b v Hp Heq Hu. destruct (element_cases b) as [Ht|[Hn|Hn]]; [auto| |auto].
        right. left. apply left_calls_iff. exists u, v. split; [|auto]. rewrite <- Heq. apply (alternative_iff e r _ Hr). eauto.
      - assumption. }
    destruct (prods (first_of_element pd f) (possible_productions r) ∅ fs) as [[set fs1]| | |]; simpl; try discriminate. auto.
Qed.

Lemma first_fold_div fuel l : size (pd_rules pd) + 2 <= fuel ->
  forall fs, inv fs -> ofold (first_step fuel) fs l = Diverge -> exists A, left_recursive pd A.
Proof.
  intros Hf. induction l as [|e l IH]; intros fs Hi; simpl; [discriminate|].
  pose proof (first_div fuel [] e fs Hi ltac:(constructor)) as Hnd. unfold first_step at 1.
  destruct (first_of_element pd fuel e fs) as [[s fs1]| | |] eqn:He; simpl; try discriminate.
  - apply IH. apply (first_ok fuel e fs s fs1 Hi He).
  - intros _. apply Hnd; [intros A HA; apply elem_of_nil in HA; contradiction|simpl; lia|reflexivity].
Qed.

(** ** no error when everything on the left is defined *)
Definition ok_element (e : nat) : Prop := (exists s, is_terminal pd e s) \/ (is_nonterminal pd e /\ has_rule pd e).
Lemma first_fine (Hd : left_defined pd) f : forall e fs, ok_element e -> inv fs -> fine (first_of_element pd f e fs).
Proof.
  induction f as [|f IH]; intros e fs He Hi; [exact Logic.I|]. rewrite first_unfold.
  destruct He as [[s Ht]|[Hn [r Hr]]].
  - rewrite (get_first_terminal e s fs Ht). exact Logic.I.
  - rewrite (get_first_nonterminal e fs Hn). simpl. destruct (fs !! e); [exact Logic.I|]. rewrite Hr.
    assert (fine (prods (first_of_element pd f) (possible_productions r) ∅ fs)) as Hp.
    { apply (prods_fine (first_of_element pd f) ok_element).
      - intros b fs1 s fs2 _ Hi1 Hx. destruct (first_ok f b fs1 s fs2 Hi1 Hx) as (? & ? & ? & ? & _). auto.
      - intros b fs1 Hb Hi1. apply IH; assumption.
      - intros p Hp. eapply Hd; eauto.
      - intros p u b v Hp Heq Hu. apply (proj2 Hd e u b v); [|apply NULLABLE_nuls; assumption].
        rewrite <- Heq. apply (alternative_iff e r _ Hr). eauto.
      - assumption. }
    destruct (prods (first_of_element pd f) (possible_productions r) ∅ fs) as [[set fs1]| | |]; simpl in *; tauto.
Qed.
Lemma first_fold_fine fuel l : left_defined pd -> (forall e, e ∈ l -> ok_element e) ->
  forall fs, inv fs -> fine (ofold (first_step fuel) fs l).
Proof.
  intros Hd. induction l as [|e l IH]; intros Hl fs Hi; simpl; [exact Logic.I|].
  pose proof (first_fine Hd fuel e fs (Hl e (elem_of_list_here e l)) Hi) as Hfi. unfold first_step at 1.
  destruct (first_of_element pd fuel e fs) as [[s fs1]| | |] eqn:He; simpl in *; try tauto.
  apply IH; [intros x Hx; apply Hl; right; assumption|]. apply (first_ok fuel e fs s fs1 Hi He).
Qed.
Lemma rule_keys_ok site : forall e, e ∈ ho_iter site (map_to_list (pd_rules pd)).*1 -> ok_element e.
Proof. intros e He. apply rule_keys_elem in He. right. split; [apply (wf_rules _ Hwf); assumption|assumption]. Qed.

Theorem get_first_sets_div fuel : size (pd_rules pd) + 2 <= fuel ->
  get_first_sets pd fuel = Diverge -> exists A, left_recursive pd A.
Proof. intros Hf. rewrite get_first_sets_unfold. apply first_fold_div; [assumption|apply inv_empty]. Qed.
Theorem get_first_sets_nodiv fuel : (forall A, ~ left_recursive pd A) -> size (pd_rules pd) + 2 <= fuel ->
  get_first_sets pd fuel <> Diverge.
Proof. intros Hno Hf E. destruct (get_first_sets_div fuel Hf E) as [A HA]. exact (Hno A HA). Qed.
Theorem get_first_sets_fine fuel : left_defined pd -> fine (get_first_sets pd fuel).
Proof. intros Hd. rewrite get_first_sets_unfold. apply first_fold_fine; [assumption|apply rule_keys_ok|apply inv_empty]. Qed.

(** ** more fuel does not change an answer *)
Lemma skip_mono rec1 rec2 els : (forall e fs, rec1 e fs <> Diverge -> rec2 e fs = rec1 e fs) ->
  forall acc fs, skip rec1 els acc fs <> Diverge -> skip rec2 els acc fs = skip rec1 els acc fs.
Proof.
  intros Hm. induction els as [|e els IH]; intros acc fs Hs; simpl in *; [reflexivity|].
  rewrite Hm by (intros Hx; rewrite Hx in Hs; apply Hs; reflexivity).
  destruct (rec1 e fs) as [[cur fs1]| | |]; simpl in *; try reflexivity.
  destruct (decide (EEmpty ∈ cur)); [apply IH; assumption|reflexivity].
Qed.
Lemma ofprod_mono rec1 rec2 p : (forall e fs, rec1 e fs <> Diverge -> rec2 e fs = rec1 e fs) ->
  forall fs, ofprod rec1 p fs <> Diverge -> ofprod rec2 p fs = ofprod rec1 p fs.
Proof.
  intros Hm fs Hs. destruct p as [[|e els]|]; simpl in *; try reflexivity.
  rewrite Hm by (intros Hx; rewrite Hx in Hs; apply Hs; reflexivity).
  destruct (rec1 e fs) as [[cur fs1]| | |]; simpl in *; try reflexivity.
  destruct (decide (EEmpty ∈ cur)); [apply skip_mono; assumption|reflexivity].
Qed.
Lemma prods_mono rec1 rec2 ps : (forall e fs, rec1 e fs <> Diverge -> rec2 e fs = rec1 e fs) ->
  forall set fs, prods rec1 ps set fs <> Diverge -> prods rec2 ps set fs = prods rec1 ps set fs.
Proof.
  intros Hm. induction ps as [|p ps IH]; intros set fs Hs; simpl in *; [reflexivity|].
  rewrite (ofprod_mono rec1 rec2 p Hm) by (intros Hx; rewrite Hx in Hs; apply Hs; reflexivity).
  destruct (ofprod rec1 p fs) as [[cur fs1]| | |]; simpl in *; try reflexivity. apply IH. assumption.
Qed.
Lemma first_mono f : forall e fs, first_of_element pd f e fs <> Diverge ->
  first_of_element pd (S f) e fs = first_of_element pd f e fs.
Proof.
  induction f as [|f IH]; intros e fs Hs; [exfalso; apply Hs; reflexivity|].
  rewrite first_unfold in Hs. rewrite (first_unfold (S f)), (first_unfold f).
  destruct (get_first_set_of_element pd e fs) as [[x|]| | |]; simpl in *; try reflexivity.
  destruct (pd_rules pd !! e) as [r|]; [|reflexivity].
  rewrite (prods_mono (first_of_element pd f) (first_of_element pd (S f))); [reflexivity|exact IH|].
  intros Hx. rewrite Hx in Hs. apply Hs. reflexivity.
Qed.
Lemma first_fold_mono f l : forall fs, ofold (first_step f) fs l <> Diverge ->
  ofold (first_step (S f)) fs l = ofold (first_step f) fs l.
Proof.
  induction l as [|e l IH]; intros fs Hs; simpl in *; [reflexivity|].
  unfold first_step at 1 in Hs. unfold first_step at 1 3.
  rewrite first_mono by (intros Hx; rewrite Hx in Hs; apply Hs; reflexivity).
  destruct (first_of_element pd f e fs) as [[s fs1]| | |]; simpl in *; try reflexivity. apply IH. assumption.
Qed.
Lemma get_first_sets_mono f f' : f <= f' -> get_first_sets pd f <> Diverge ->
  get_first_sets pd f' = get_first_sets pd f.
Proof.
  induction 1 as [|f' Hle IH]; intros Hs; [reflexivity|]. rewrite <- IH by assumption.
  apply first_fold_mono. fold (first_step f'). change (get_first_sets pd f' <> Diverge). rewrite IH; assumption.
Qed.

(** ** first_set_of_partial *)
Lemma partial_loop_exact fs els : (forall A s, fs !! A = Some s -> exact A s) ->
  forall pre acc r, exacts pre acc -> nuls pre ->
  partial_loop pd els fs acc = Ok r -> exacts (pre ++ els) r.
Proof.
  intros Hfs. induction els as [|e els IH]; intros pre acc r (Ac & Aemp & Aterm) Hn Hp; simpl in Hp.
  - injection Hp as <-. rewrite app_nil_r. split; [assumption|split; assumption].
  - destruct (get_first_set_of_element pd e fs) as [[cur|]| | |] eqn:Hg; simpl in Hp; try discriminate.
    assert (exact e cur) as (Hc & Hemp & Hterm).
    { destruct (element_cases e) as [[t Ht]|[Hn'|Hn']].
      - rewrite (get_first_terminal e t fs Ht) in Hg. injection Hg as <-. apply exact_terminal; assumption.
      - rewrite (get_first_nonterminal e fs Hn') in Hg. injection Hg as Hg. apply Hfs. assumption.
      - rewrite get_first_none in Hg by assumption. discriminate. }
    destruct (decide (EEmpty ∈ cur)) as [Hin|Hnin].
    + assert (nul e) as Hne by (apply Hemp; assumption).
      rewrite cons_middle, app_assoc. eapply IH; [| |exact Hp].
      * split; [|split].
        -- intros c. rewrite elem_of_union, Hc, Ac, fsts_app, fsts_cons. split; [intuition|].
           intros [?|[? [?|[? Hf]]]]; [auto|auto|]. exfalso. eapply fsts_nil; eauto.
        -- rewrite elem_of_union, nuls_app. split; [|auto]. intros _. split; [assumption|]. constructor; [assumption|constructor].
        -- rewrite elem_of_union. tauto.
      * apply nuls_app. split; [assumption|]. constructor; [assumption|constructor].
    + injection Hp as <-. split; [|split].
      * intros c. rewrite elem_of_difference, elem_of_union, elem_of_singleton, Hc, Ac, fsts_app, fsts_cons.
        split; [intuition|]. intros [?|[? [?|[Hne _]]]]; [split; [auto|discriminate]|split; [auto|discriminate]|].
        exfalso. apply Hnin, Hemp. assumption.
      * rewrite elem_of_difference, elem_of_singleton, nuls_app. split; [tauto|].
        intros [_ Hx]. inversion Hx; subst. exfalso. apply Hnin, Hemp. assumption.
      * rewrite elem_of_difference, elem_of_union. tauto.
Qed.
(** for a non-empty rest the set is exact (for the empty one the source returns ∅) *)
Lemma first_set_of_partial_exact fs els r : (forall A s, fs !! A = Some s -> exact A s) -> els <> [] ->
  first_set_of_partial pd els fs = Ok r -> exacts els r.
Proof.
  intros Hfs Hne Hp. destruct els as [|e els]; [congruence|]. unfold first_set_of_partial in Hp. simpl in Hp.
  destruct (get_first_set_of_element pd e fs) as [[cur|]| | |] eqn:Hg; simpl in Hp; try discriminate.
  assert (exact e cur) as He.
  { destruct (element_cases e) as [[t Ht]|[Hn'|Hn']].
    - rewrite (get_first_terminal e t fs Ht) in Hg. injection Hg as <-. apply exact_terminal; assumption.
    - rewrite (get_first_nonterminal e fs Hn') in Hg. injection Hg as Hg. apply Hfs. assumption.
    - rewrite get_first_none in Hg by assumption. discriminate. }
  pose proof He as (Hc & Hemp & Hterm). rewrite (right_id_L ∅ (∪) cur) in Hp.
  destruct (decide (EEmpty ∈ cur)) as [Hin|Hnin].
  - assert (nul e) as Hne' by (apply Hemp; assumption).
    apply (partial_loop_exact fs els Hfs [e] cur r); [apply exact_exacts; assumption|constructor; [assumption|constructor]|assumption].
  - injection Hp as <-. split; [|split].
    + intros c. rewrite elem_of_difference, elem_of_singleton, Hc, fsts_cons. split; [tauto|].
      intros [?|[Hx _]]; [split; [assumption|discriminate]|]. exfalso. apply Hnin, Hemp. assumption.
    + rewrite elem_of_difference, elem_of_singleton. split; [tauto|]. intros Hx. inversion Hx; subst.
      exfalso. apply Hnin, Hemp. assumption.
    + rewrite elem_of_difference. tauto.
Qed.
End first.
