(** * Proofs for C84: a name of its own for every alternative *)
From Verif Require Import Base Tree Sets ParserData Vm SpecTree SpecWeave SpecRules SpecLanguage SpecNaming
  Language_proofs Start_proofs Naming_proofs.

Section all.
Context {I : Type} (new : nat -> str) (Hinj : forall i j, new i = new j -> i = j).
Notation element := (str * ElementType)%type.
Fixpoint table (c : nat) (rs : list (arule I)) : list (str * list element) :=
  match rs with [] => [] | r :: rs => numbered new c (ar_alts r) ++ table (c + length (ar_alts r)) rs end.
Definition not_new (c : nat) (rs : list (arule I)) (x : str) : Prop := forall p, p ∈ table c rs -> p.1 <> x.
(** The entries for the alternatives of [x]. *)
Fixpoint table_of (c : nat) (x : str) (rs : list (arule I)) : list (str * list element) :=
  match rs with
  | [] => []
  | r :: rs => (if decide (ar_name r = x) then numbered new c (ar_alts r) else []) ++ table_of (c + length (ar_alts r)) x rs
  end.
Lemma numbered_snd c alts : map snd (numbered new c alts) = alts.
Proof.
  unfold numbered. revert c. induction alts as [|w alts IH]; intros c; [reflexivity|]. cbn [imap map snd]. f_equal. rewrite <- (IH (S c)) at 2. f_equal.
  apply imap_ext. intros j w' _. cbn. f_equal. f_equal. lia.
Qed.
Lemma numbered_fst c alts : map fst (numbered new c alts) = map new (seq c (length alts)).
Proof.
  unfold numbered. revert c. induction alts as [|w alts IH]; intros c; [reflexivity|]. cbn [imap map length seq]. rewrite Nat.add_0_r. cbn [fst]. f_equal.
  rewrite <- IH. f_equal. apply imap_ext. intros j w' _. cbn. f_equal. f_equal. lia.
Qed.
Lemma numbered_length c alts : length (numbered new c alts) = length alts.
Proof. apply imap_length. Qed.
Lemma table_keys rs : forall c, map fst (table c rs) = map new (seq c (length (table c rs))).
Proof.
  induction rs as [|r rs IH]; intros c; [reflexivity|]. cbn [table]. rewrite map_app, numbered_fst, IH, app_length, numbered_length, seq_app, map_app. reflexivity.
Qed.
Lemma table_nodup c rs : NoDup (map fst (table c rs)).
Proof. rewrite table_keys. change (NoDup (new <$> seq c (length (table c rs)))). apply NoDup_fmap_2; [intros i j; apply Hinj|apply NoDup_seq]. Qed.
Lemma table_new c rs n u : (n, u) ∈ table c rs -> exists k, c <= k < c + length (table c rs) /\ n = new k.
Proof.
  intros Hin. assert (n ∈ map fst (table c rs)) as Hk by (change n with (fst (n, u)); apply elem_of_list_fmap_1; assumption).
  rewrite table_keys in Hk. apply elem_of_list_fmap in Hk as (k & -> & Hk). apply elem_of_seq in Hk. eauto.
Qed.
Lemma table_of_sub x rs : forall c p, p ∈ table_of c x rs -> p ∈ table c rs.
Proof.
  induction rs as [|r rs IH]; intros c p Hin; [assumption|]. cbn [table table_of] in *. apply elem_of_app in Hin as [Hin|Hin]; [|apply elem_of_app; right; apply IH; assumption].
  destruct (decide _); [apply elem_of_app; auto|apply elem_of_nil in Hin; contradiction].
Qed.
Lemma table_of_some rs : forall c p, p ∈ table c rs -> exists r, r ∈ rs /\ p ∈ table_of c (ar_name r) rs /\ p.2 ∈ ar_alts r.
Proof.
  induction rs as [|r rs IH]; intros c p Hin; [apply elem_of_nil in Hin; contradiction|]. cbn [table table_of] in *. apply elem_of_app in Hin as [Hin|Hin].
  - exists r. split; [left|]. rewrite decide_True by reflexivity. split; [apply elem_of_app; auto|].
    rewrite <- (numbered_snd c (ar_alts r)). apply (elem_of_list_fmap_1 snd). assumption.
  - destruct (IH _ _ Hin) as (r' & H1 & H2 & H3). exists r'. split; [right; assumption|]. split; [apply elem_of_app; auto|assumption].
Qed.
Lemma numbered_in c alts n u : (n, u) ∈ numbered new c alts -> exists k, c <= k < c + length alts /\ n = new k.
Proof.
  intros Hin. assert (n ∈ map fst (numbered new c alts)) as Hk by (change n with (fst (n, u)); apply elem_of_list_fmap_1; assumption).
  rewrite numbered_fst in Hk. apply elem_of_list_fmap in Hk as (k & -> & Hk). apply elem_of_seq in Hk. eauto.
Qed.
Lemma table_of_name x y rs : forall c n u u', (n, u) ∈ table_of c x rs -> (n, u') ∈ table_of c y rs -> x = y.
Proof.
  induction rs as [|r rs IH]; intros c n u u' Hx Hy; [apply elem_of_nil in Hx; contradiction|]. cbn [table_of] in *.
  apply elem_of_app in Hx as [Hx|Hx], Hy as [Hy|Hy]; [| | |eapply IH; eassumption].
  - destruct (decide (ar_name r = x)), (decide (ar_name r = y)); [congruence|apply elem_of_nil in Hy; contradiction|apply elem_of_nil in Hx; contradiction..].
  - exfalso. destruct (decide (ar_name r = x)); [|apply elem_of_nil in Hx; contradiction]. apply numbered_in in Hx as (k & Hk & ->).
    apply table_of_sub, table_new in Hy as (k' & Hk' & E). apply Hinj in E. lia.
  - exfalso. destruct (decide (ar_name r = y)); [|apply elem_of_nil in Hy; contradiction]. apply numbered_in in Hy as (k & Hk & ->).
    apply table_of_sub, table_new in Hx as (k' & Hk' & E). apply Hinj in E. lia.
Qed.
Lemma table_of_nodup x rs : forall c, NoDup (map fst (table_of c x rs)).
Proof.
  induction rs as [|r rs IH]; intros c; [constructor|]. cbn [table_of]. rewrite map_app. apply NoDup_app. split; [|split; [|apply IH]].
  - destruct (decide _); [|constructor]. rewrite numbered_fst. apply (NoDup_fmap_2_strong new); [intros i j _ _; apply Hinj|apply NoDup_seq].
  - intros n H1 H2. destruct (decide _); [|apply elem_of_nil in H1; contradiction]. rewrite numbered_fst in H1. apply elem_of_list_fmap in H1 as (k & -> & Hk). apply elem_of_seq in Hk.
    apply elem_of_list_fmap in H2 as ([n u] & E & H2). cbn in E. apply table_of_sub, table_new in H2 as (k' & Hk' & E'). subst n. apply Hinj in E'. lia.
Qed.

(** ** The alternatives of the new grammar *)
Lemma alternatives_cons (r : arule I) rs x : alternatives_for (r :: rs) x = (if decide (ar_name r = x) then ar_alts r else []) ++ alternatives_for rs x.
Proof. unfold alternatives_for, rules_for. rewrite filter_cons. destruct (decide _); reflexivity. Qed.
Lemma alternatives_app (l1 l2 : list (arule I)) x : alternatives_for (l1 ++ l2) x = alternatives_for l1 x ++ alternatives_for l2 x.
Proof. unfold alternatives_for, rules_for. rewrite filter_app, map_app, concat_app. reflexivity. Qed.
Lemma alternatives_old rs x : forall c, alternatives_for rs x = map snd (table_of c x rs).
Proof.
  induction rs as [|r rs IH]; intros c; [reflexivity|]. cbn [table_of]. rewrite alternatives_cons, map_app. f_equal; [|apply IH].
  destruct (decide _); [symmetry; apply numbered_snd|reflexivity].
Qed.
Definition single (p : str * list element) : arule I := mkARule p.1 OvAbsent [p.2] [].
Lemma singles_old l x : (forall p, p ∈ l -> p.1 <> x) -> alternatives_for (map single l) x = [].
Proof.
  induction l as [|p l IH]; intros Hl; [reflexivity|]. cbn [map]. rewrite alternatives_cons, decide_False by (apply Hl; left).
  apply IH. intros q Hq. apply Hl. right. assumption.
Qed.
Lemma singles_new l n : alternatives_for (map single l) n = map snd (filter (fun p => p.1 = n) l).
Proof.
  induction l as [|p l IH]; [reflexivity|]. cbn [map]. rewrite alternatives_cons, filter_cons. cbn [single ar_name ar_alts]. destruct (decide (p.1 = n)); cbn [map app]; f_equal; apply IH.
Qed.
Lemma not_new_cons c r rs x : not_new c (r :: rs) x -> (forall p, p ∈ numbered new c (ar_alts r) -> p.1 <> x) /\ not_new (c + length (ar_alts r)) rs x.
Proof. intros Hx. split; intros p Hp; apply Hx; cbn [table]; apply elem_of_app; auto. Qed.
Lemma named_old rs x : forall c, not_new c rs x -> alternatives_for (all_named new c rs) x = map (fun p => [(p.1, NonTerminal)]) (table_of c x rs).
Proof.
  induction rs as [|r rs IH]; intros c Hx; [reflexivity|]. apply not_new_cons in Hx as [H1 H2]. cbn [all_named table_of]. rewrite alternatives_cons, alternatives_app, map_app. cbn [ar_name ar_alts].
  f_equal; [destruct (decide _); reflexivity|]. rewrite (singles_old _ x), IH by assumption. reflexivity.
Qed.
Lemma named_new rs n : (forall r, r ∈ rs -> ar_name r <> n) -> forall c, alternatives_for (all_named new c rs) n = map snd (filter (fun p => p.1 = n) (table c rs)).
Proof.
  induction rs as [|r rs IH]; intros Hn c; [reflexivity|]. cbn [all_named table]. rewrite alternatives_cons, alternatives_app, filter_app, map_app. cbn [ar_name].
  rewrite decide_False by (apply Hn; left). cbn [app]. f_equal; [apply singles_new|]. apply IH. intros r' Hr'. apply Hn. right. assumption.
Qed.
Lemma unique_key l n u : NoDup (map fst l) -> (n, u) ∈ l -> filter (fun p => p.1 = n) l = [(n, u)] :> list (str * list element).
Proof.
  induction l as [|[m w] l IH]; intros Hnd Hin; [apply elem_of_nil in Hin; contradiction|]. cbn [map] in Hnd. inversion Hnd as [|? ? Hm Hnd']; subst.
  rewrite filter_cons. cbn [fst] in *. apply elem_of_cons in Hin as [E|Hin].
  - injection E as -> ->. rewrite decide_True by reflexivity. f_equal. clear IH Hnd Hnd'. induction l as [|[k v] l IH]; [reflexivity|]. cbn [map fst] in Hm.
    rewrite filter_cons. cbn [fst]. rewrite decide_False; [apply IH|]; intros Hk; apply Hm; [right; assumption|subst; left].
  - rewrite decide_False; [apply IH; assumption|]. intros ->. apply Hm. change n with (fst (n, u)). apply elem_of_list_fmap_1. assumption.
Qed.

(** ** Overrides and instructions *)
Lemma no_override_ignores (rs : list (arule I)) : (forall r x, r ∈ rs -> ar_override r <> OvIgnore x) -> forall x y, ~ ignores rs x y.
Proof.
  intros Hno x y (r0 & more & E & Ho). apply (Hno r0 y); [|assumption]. assert (r0 ∈ rules_for x rs) as Hin by (rewrite E; left).
  unfold rules_for in Hin. apply elem_of_list_filter in Hin. tauto.
Qed.
Lemma plain_says (rs : list (arule I)) : (forall x y, ~ ignores rs x y) -> forall x i w, says rs x i w <-> alternatives_for rs x !! i = Some w.
Proof.
  intros Hno x i w. split; [intros [w0 Hw _|w0 y _ Hi _]; [assumption|destruct (Hno x y Hi)]|].
  intros Hw. apply says_plain; [assumption|]. intros y Hy. destruct (Hno x y Hy).
Qed.
Lemma named_overrides (rs : list (arule I)) : (forall r x, r ∈ rs -> ar_override r <> OvIgnore x) -> forall c r x, r ∈ all_named new c rs -> ar_override r <> OvIgnore x.
Proof.
  induction rs as [|r0 rs IH]; intros Hno c r x Hin; [apply elem_of_nil in Hin; contradiction|]. cbn [all_named] in Hin. apply elem_of_cons in Hin as [->|Hin].
  - cbn. apply Hno. left.
  - apply elem_of_app in Hin as [Hin|Hin]; [apply elem_of_list_fmap in Hin as (p & -> & _); discriminate|].
    eapply IH; [|eassumption]. intros r' y Hr'. apply Hno. right. assumption.
Qed.
Lemma rules_for_cons (r : arule I) rs x : rules_for x (r :: rs) = if decide (ar_name r = x) then r :: rules_for x rs else rules_for x rs.
Proof. unfold rules_for; rewrite filter_cons; reflexivity. Qed.
Lemma rules_for_app (l1 l2 : list (arule I)) x : rules_for x (l1 ++ l2) = rules_for x l1 ++ rules_for x l2.
Proof. apply filter_app. Qed.
Lemma singles_rules l x : (forall p, p ∈ l -> p.1 <> x) -> rules_for x (map single l) = [].
Proof.
  induction l as [|p l IH]; intros Hl; [reflexivity|]. cbn [map]. rewrite rules_for_cons, decide_False by (apply Hl; left).
  apply IH. intros q Hq. apply Hl. right. assumption.
Qed.
Lemma named_rules_old (rs : list (arule I)) x : forall c, not_new c rs x -> Forall2 (fun r' r => ar_instr r' = ar_instr r) (rules_for x (all_named new c rs)) (rules_for x rs).
Proof.
  induction rs as [|r rs IH]; intros c Hx; [constructor|]. apply not_new_cons in Hx as [H1 H2]. cbn [all_named]. rewrite !rules_for_cons, rules_for_app. cbn [ar_name].
  rewrite (singles_rules _ x) by assumption.
  destruct (decide (ar_name r = x)); cbn [app]; [constructor; [reflexivity|apply IH; assumption]|apply IH; assumption].
Qed.
Lemma named_instr_old (rs : list (arule I)) x c : not_new c rs x -> instructions_for (all_named new c rs) x = instructions_for rs x.
Proof. intros Hx. unfold instructions_for. pose proof (named_rules_old rs x c Hx) as Hf. inversion Hf as [|? ? ? ? E]; subst; [reflexivity|exact E]. Qed.
Lemma named_defined_old (rs : list (arule I)) x c : not_new c rs x -> defined (all_named new c rs) x <-> defined rs x.
Proof. intros Hx. unfold defined. pose proof (named_rules_old rs x c Hx) as Hf. inversion Hf; subst; split; intros E; congruence. Qed.
Lemma named_instr_new (rs : list (arule I)) n : (forall r, r ∈ rs -> ar_name r <> n) -> forall c r, r ∈ rules_for n (all_named new c rs) -> ar_instr r = [].
Proof.
  intros Hn. induction rs as [|r0 rs IH]; intros c r Hin; [apply elem_of_nil in Hin; contradiction|]. cbn [all_named] in Hin. rewrite rules_for_cons, rules_for_app in Hin. cbn [ar_name] in Hin.
  rewrite decide_False in Hin by (apply Hn; left). apply elem_of_app in Hin as [Hin|Hin].
  - unfold rules_for in Hin. apply elem_of_list_filter in Hin as [_ Hin]. apply elem_of_list_fmap in Hin as (p & -> & _). reflexivity.
  - eapply IH; [|eassumption]. intros r' Hr'. apply Hn. right. assumption.
Qed.
End all.

(** ** The parts *)
Section parts.
Context {I : Type} (new : nat -> str) (rs : list (arule I)) (Hf : fresh_names new rs) (Hno : forall r x, r ∈ rs -> ar_override r <> OvIgnore x).
Notation rs' := (all_named new 0 rs).
Definition alternative_named (n : str) : option (list (str * ElementType)) := (list_to_map (table new 0 rs) : gmap str _) !! n.
Notation part := alternative_named.
Lemma part_iff n u : part n = Some u <-> (n, u) ∈ table new 0 rs.
Proof. symmetry. apply elem_of_list_to_map. apply table_nodup, (proj1 Hf). Qed.
Lemma part_new n u : part n = Some u -> exists k, n = new k.
Proof. intros E. apply part_iff, table_new in E as (k & _ & ->). eauto. Qed.
Lemma new_not_name n u : part n = Some u -> forall r, r ∈ rs -> ar_name r <> n.
Proof. intros E r Hr. destruct (part_new n u E) as (k & ->). intros E'. destruct (proj2 (proj2 Hf k) r Hr) as [Hk _]. congruence. Qed.
Lemma says_alt x i w : says rs x i w <-> alternatives_for rs x !! i = Some w.
Proof. apply plain_says, no_override_ignores, Hno. Qed.
Lemma says_alt' x i w : says rs' x i w <-> alternatives_for rs' x !! i = Some w.
Proof. apply plain_says, no_override_ignores. intros r y. apply named_overrides, Hno. Qed.
Lemma alternatives_in x w : w ∈ alternatives_for rs x -> exists r, r ∈ rs /\ ar_name r = x /\ w ∈ ar_alts r.
Proof.
  unfold alternatives_for. intros Hin. apply elem_of_list_In, in_concat in Hin as (l & Hl & Hw). apply in_map_iff in Hl as (r & <- & Hr).
  apply elem_of_list_In in Hr. unfold rules_for in Hr. apply elem_of_list_filter in Hr as [E Hr]. exists r. split; [assumption|]. split; [assumption|]. apply elem_of_list_In. assumption.
Qed.
Lemma part_none x : part x = None -> not_new new 0 rs x.
Proof. intros E [n u] Hin <-. apply part_iff in Hin. cbn [fst] in E. congruence. Qed.
Lemma alternatives_part n u : part n = Some u -> alternatives_for rs' n = [u].
Proof.
  intros E. rewrite (named_new new rs n) by (eapply new_not_name; eassumption). apply part_iff in E.
  rewrite (unique_key _ n u); [reflexivity|apply table_nodup, (proj1 Hf)|assumption].
Qed.
Lemma table_of_part x p : p ∈ table_of new 0 x rs -> part p.1 = Some p.2.
Proof. intros Hp. apply part_iff. destruct p. cbn. eapply table_of_sub; eassumption. Qed.
Lemma all_parts_named : parts_named part rs rs'.
Proof.
  split.
  - destruct (part (lit "start")) as [u|] eqn:E; [|reflexivity]. destruct (part_new _ _ E) as (k & Ek). destruct (proj2 Hf k) as [Hk _]. congruence.
  - intros n u E. split.
    + intros Hd. unfold defined in Hd. destruct (rules_for n rs) as [|r more] eqn:Er; [congruence|]. assert (r ∈ rules_for n rs) as Hin by (rewrite Er; left).
      unfold rules_for in Hin. apply elem_of_list_filter in Hin as [E' Hin]. exact (new_not_name n u E r Hin E').
    + intros x i w Hs Hin. apply says_alt in Hs. apply elem_of_list_lookup_2, alternatives_in in Hs as (r & Hr & _ & Hw).
      destruct (part_new n u E) as (k & ->). exact (proj2 (proj2 (proj2 Hf k) r Hr) w Hw Hin).
  - intros n u m E Hin. apply part_iff, table_of_some in E as (r & Hr & _ & Hu). cbn in Hu. destruct (part m) as [u'|] eqn:Em; [|reflexivity].
    destruct (part_new m u' Em) as (k & ->). destruct (proj2 (proj2 (proj2 Hf k) r Hr) u Hu Hin).
  - intros x E. apply named_defined_old, part_none, E.
  - intros x i w E. rewrite says_alt. setoid_rewrite says_alt'. rewrite (alternatives_old new rs x 0), (named_old new rs x 0) by (apply part_none, E).
    change (map snd (table_of new 0 x rs)) with (snd <$> table_of new 0 x rs). change (map (fun p => [(p.1, NonTerminal)]) (table_of new 0 x rs)) with ((fun p => [(p.1, NonTerminal)]) <$> table_of new 0 x rs).
    setoid_rewrite list_lookup_fmap. destruct (table_of new 0 x rs !! i) as [p|] eqn:Ep; cbn; [|split; [discriminate|intros (? & ? & _); discriminate]].
    pose proof (table_of_part x p (elem_of_list_lookup_2 _ _ _ Ep)) as Epp. split.
    + intros [= <-]. exists [(p.1, NonTerminal)]. split; [reflexivity|]. rewrite (wo_new part p.1 p.2 [] Epp). symmetry. apply app_nil_r.
    + intros (w' & [= <-] & ->). rewrite (wo_new part p.1 p.2 [] Epp). f_equal. symmetry. apply app_nil_r.
  - intros n u E i w. rewrite says_alt', (alternatives_part n u E). destruct i as [|i]; cbn; [split; [intros [= ->]; auto|intros [_ ->]; reflexivity]|].
    split; [discriminate|intros [? _]; discriminate].
Qed.
Lemma all_used_once : used_once part rs'.
Proof.
  intros n u E. pose proof E as Hin. apply part_iff, table_of_some in Hin as (r & Hr & Hin & _). apply elem_of_list_lookup in Hin as (i & Hi).
  assert (part (ar_name r) = None) as Er. { destruct (part (ar_name r)) as [u'|] eqn:Er; [|reflexivity]. destruct (new_not_name _ _ Er r Hr eq_refl). }
  exists (ar_name r), i, [], []. cbn [app]. split.
  - apply says_alt'. rewrite named_old by (apply part_none, Er). change (((fun p => [(p.1, NonTerminal)]) <$> table_of new 0 (ar_name r) rs) !! i = Some [(n, NonTerminal)]).
    rewrite list_lookup_fmap, Hi. reflexivity.
  - intros y j a b Hs. pose proof (user_old part rs rs' all_parts_named y j _ n u Hs E (in_middle _ _ _)) as Ey. apply says_alt' in Hs.
    rewrite named_old in Hs by (apply part_none, Ey). change (((fun p => [(p.1, NonTerminal)]) <$> table_of new 0 y rs) !! j = Some (a ++ (n, NonTerminal) :: b)) in Hs.
    rewrite list_lookup_fmap in Hs. destruct (table_of new 0 y rs !! j) as [[n' u']|] eqn:Ej; [|discriminate]. cbn in Hs.
    destruct a as [|? a]; [|destruct a; discriminate]. cbn [app] in Hs. assert (n' = n /\ b = []) as [-> ->] by (split; congruence).
    assert (y = ar_name r) as -> by (eapply (table_of_name new (proj1 Hf)); eapply elem_of_list_lookup_2; eassumption).
    split; [reflexivity|]. split; [|auto]. eapply (NoDup_lookup _ _ _ n (table_of_nodup new (proj1 Hf) (ar_name r) rs 0)).
    + change ((fst <$> table_of new 0 (ar_name r) rs) !! j = Some n). rewrite list_lookup_fmap, Ej. reflexivity.
    + change ((fst <$> table_of new 0 (ar_name r) rs) !! i = Some n). rewrite list_lookup_fmap, Hi. reflexivity.
Qed.
Lemma all_starts_named : nullable_starts_named part rs rs'.
Proof.
  intros x i e w Ex Hs. left. apply says_alt' in Hs. rewrite named_old in Hs by (apply part_none, Ex).
  change (((fun p => [(p.1, NonTerminal)]) <$> table_of new 0 x rs) !! i = Some (e :: w)) in Hs. rewrite list_lookup_fmap in Hs.
  destruct (table_of new 0 x rs !! i) as [p|] eqn:Ep; [|discriminate]. cbn in Hs. exists p.1, p.2. split; [congruence|]. eapply table_of_part, elem_of_list_lookup_2, Ep.
Qed.
Lemma all_parts_begin : (forall x i w, says rs x i w -> head w <> Some ([], Terminal)) -> parts_begin part.
Proof.
  intros He n u E. apply part_iff, table_of_some in E as (r & _ & Hin & _). apply (elem_of_list_fmap_1 snd) in Hin. cbn in Hin.
  apply elem_of_list_lookup in Hin as (i & Hi). apply (He (ar_name r) i). apply says_alt. rewrite (alternatives_old new rs _ 0). exact Hi.
Qed.
Lemma all_instr_old x : part x = None -> instructions_for rs' x = instructions_for rs x.
Proof. intros E. apply named_instr_old, part_none, E. Qed.
Lemma all_instr_new n u : part n = Some u -> instructions_for rs' n = [].
Proof.
  intros E. unfold instructions_for. pose proof (named_instr_new new rs n (new_not_name n u E) 0) as Hi. destruct (rules_for n rs') as [|r l]; [reflexivity|]. apply Hi. left.
Qed.
End parts.
