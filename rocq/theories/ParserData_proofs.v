From Verif Require Import Base ParserData SpecData.

Section proofs.
Context {I : Type}.
Implicit Types (pd : ParserData I) (l : list (pd_call I)).

(** The element table of [pd] is the list [keys]. *)
Definition table_is pd (keys : list (str * ElementType)) : Prop :=
  NoDup keys /\
  element_types pd = keys.*2 /\
  map ed_name (element_data pd) = keys.*1 /\
  forall key ix, element_verbose_map pd !! key = Some ix <-> keys !! ix = Some key.

Lemma table_set_rules pd r keys : table_is pd keys -> table_is (set_rules pd r) keys.
Proof. exact id. Qed.
Lemma table_add_production pd i t keys : table_is pd keys -> table_is (add_production pd i t) keys.
Proof. intros H. unfold add_production. destruct (pd_rules pd !! i); exact H. Qed.
Lemma table_set_productions pd i ts keys : table_is pd keys -> table_is (set_productions pd i ts) keys.
Proof.
  intros H. unfold set_productions.
  assert (table_is (match pd_rules pd !! i with
             | Some rule =>
                 set_rules pd (<[i := mkNTR [] (ntr_ignore rule) (instruction rule)]> (pd_rules pd))
             | None => pd
             end) keys) as H1 by (destruct (pd_rules pd !! i); exact H).
  revert H1. generalize (match pd_rules pd !! i with
             | Some rule =>
                 set_rules pd (<[i := mkNTR [] (ntr_ignore rule) (instruction rule)]> (pd_rules pd))
             | None => pd
             end). clear H. induction ts as [|t ts IH]; intros p H; simpl; [assumption|].
  apply IH. apply table_add_production. assumption.
Qed.
Lemma table_add_instructions pd i t keys : table_is pd keys -> table_is (add_instructions pd i t) keys.
Proof. intros H. unfold add_instructions. destruct (pd_rules pd !! i); exact H. Qed.

Lemma table_length pd keys : table_is pd keys -> length (element_data pd) = length keys.
Proof. intros (_ & _ & H & _). apply (f_equal length) in H. rewrite map_length, fmap_length in H. exact H. Qed.

Lemma table_get_or_add pd key keys : table_is pd keys ->
  (key ∈ keys /\ exists ix, keys !! ix = Some key /\ get_or_add_element_key pd key = (ix, pd)) \/
  (key ∉ keys /\ exists pd', get_or_add_element_key pd key = (length keys, pd') /\
     table_is pd' (keys ++ [key])).
Proof.
  intros H. pose proof (table_length _ _ H) as Hlen. destruct H as (Hnd & Ht & Hd & Hm).
  unfold get_or_add_element_key. destruct (element_verbose_map pd !! key) as [ix|] eqn:E.
  - left. apply Hm in E. split; [eapply elem_of_list_lookup_2; eauto|]. eauto.
  - right. assert (key ∉ keys) as Hin.
    { intros [ix Hix]%elem_of_list_lookup. apply Hm in Hix. congruence. }
    split; [assumption|]. rewrite Hlen. eexists. split; [reflexivity|].
    repeat split; simpl.
    + apply NoDup_app. split; [assumption|]. split; [|apply NoDup_singleton].
      intros x Hx ->%elem_of_list_singleton. contradiction.
    + rewrite Ht, fmap_app. reflexivity.
    + rewrite map_app, Hd, fmap_app. reflexivity.
    + intros H. rewrite lookup_insert_Some in H. destruct H as [[<- <-]|[Hne H]].
      * rewrite lookup_app_r by lia. rewrite Nat.sub_diag. reflexivity.
      * apply Hm in H. rewrite lookup_app_l; [assumption|]. eapply lookup_lt_Some; eauto.
    + intros H. rewrite lookup_insert_Some. apply lookup_app_Some in H as [H|[Hge H]].
      * right. split; [|apply Hm; assumption]. intros ->. apply Hin. eapply elem_of_list_lookup_2; eauto.
      * left. apply list_lookup_singleton_Some in H as [H ->]. split; [reflexivity|lia].
Qed.

Lemma table_first_requests l : forall pd keys, table_is pd keys ->
  forall seen, (forall k, k ∈ seen <-> k ∈ keys) ->
  table_is (fold_left pd_do l pd) (keys ++ first_requests seen l).
Proof.
  induction l as [|c l IH]; intros pd keys H seen Hs; simpl; [rewrite app_nil_r; assumption|].
  destruct c as [n k|i t|i ts|i inst]; simpl.
  - destruct (table_get_or_add pd (n, k) keys H) as [(Hin & ix & _ & ->)|(Hin & pd' & -> & H')]; simpl.
    + rewrite decide_True by (apply Hs; assumption). apply IH; assumption.
    + rewrite decide_False by (rewrite Hs; assumption).
      rewrite cons_middle, app_assoc. apply IH; [assumption|].
      intros x. rewrite elem_of_cons, elem_of_app, elem_of_list_singleton, Hs. tauto.
  - apply IH; [apply table_add_production; assumption|assumption].
  - apply IH; [apply table_set_productions; assumption|assumption].
  - apply IH; [apply table_add_instructions; assumption|assumption].
Qed.

Lemma table_new : table_is (pd_new : ParserData I) [].
Proof.
  repeat split; simpl; try constructor.
  all: intros H; exfalso.
  - rewrite lookup_empty in H. discriminate.
  - discriminate.
Qed.

Lemma table_history l : table_is (pd_history l) (first_requests [] l).
Proof. apply (table_first_requests l pd_new [] table_new []). tauto. Qed.

Lemma table_verbose pd keys ix : table_is pd keys -> get_element_verbose pd ix = keys !! ix.
Proof.
  intros (_ & Ht & Hd & _). unfold get_element_verbose. rewrite Ht, list_lookup_fmap.
  assert (ed_name <$> element_data pd !! ix = fst <$> keys !! ix) as Hn.
  { rewrite <- !list_lookup_fmap. f_equal. exact Hd. }
  destruct (element_data pd !! ix) as [d|], (keys !! ix) as [[n k]|]; simpl in *; try discriminate; congruence.
Qed.
Lemma table_element pd keys ix : table_is pd keys ->
  get_element pd ix = (fun k => (ix, snd k)) <$> keys !! ix.
Proof.
  intros (_ & Ht & _). unfold get_element. rewrite Ht, list_lookup_fmap.
  destruct (keys !! ix); reflexivity.
Qed.
Lemma zip_elements_spec {E} (data : list ElementData) : forall keys : list (str * ElementType),
  map ed_name data = keys.*1 -> @zip_elements E data keys.*2 = Ok keys.
Proof.
  induction data as [|d data IH]; intros [|[n k] keys] H; simpl in *; try discriminate; [reflexivity|].
  injection H as H1 H2. rewrite IH by assumption. simpl. congruence.
Qed.
Lemma table_all_verbose {E} pd keys : table_is pd keys -> @get_elements_verbose I E pd = Ok keys.
Proof. intros (_ & Ht & Hd & _). unfold get_elements_verbose. rewrite Ht. apply zip_elements_spec; assumption. Qed.
Lemma table_index pd keys key ix : table_is pd keys ->
  (get_element_index pd key = Some ix <-> get_element_verbose pd ix = Some key).
Proof. intros H. rewrite (table_verbose _ _ _ H). destruct H as (_ & _ & _ & Hm). apply Hm. Qed.

Lemma first_requests_elem l : forall seen key,
  key ∈ first_requests seen l <-> key ∉ seen /\ (GetOrAdd key.1 key.2 : pd_call I) ∈ l.
Proof.
  induction l as [|c l IH]; intros seen key; simpl.
  - split; [intros H; apply elem_of_nil in H; contradiction|intros [_ H]; apply elem_of_nil in H; contradiction].
  - destruct c as [n k|i t|i ts|i inst]; [|rewrite IH, elem_of_cons; intuition congruence..].
    rewrite elem_of_cons. destruct key as [kn kk]. simpl. destruct (decide ((n, k) ∈ seen)) as [Hs|Hs].
    + rewrite IH; simpl. intuition. destruct (decide ((kn, kk) = (n, k))); [congruence|intuition congruence].
    + rewrite elem_of_cons, IH, elem_of_cons; simpl.
      destruct (decide ((kn, kk) = (n, k))) as [E|E].
      * injection E as -> ->. intuition.
      * intuition congruence.
Qed.

(** ** C19 *)
Definition alts_at pd idx := possible_productions <$> pd_rules pd !! idx.

Lemma pd_rules_set_rules pd r : pd_rules (set_rules pd r) = r.
Proof. reflexivity. Qed.

Definition rule_entry pd idx := pd_rules pd !! idx.

(** entry after one call, seen from [idx] *)
Definition base_entry (o : option (NonTerminalRules I)) : NonTerminalRules I :=
  default (mkNTR [] None []) o.

Lemma add_production_entry pd i t idx :
  pd_rules (add_production pd i t) !! idx =
  if i =? idx then
    let r := base_entry (pd_rules pd !! idx) in
    Some (mkNTR (possible_productions r ++ [production_of t]) (ntr_ignore r) (instruction r))
  else pd_rules pd !! idx.
Proof.
  unfold add_production. destruct (Nat.eqb_spec i idx) as [->|Hne].
  - destruct (pd_rules pd !! idx); rewrite pd_rules_set_rules, lookup_insert; reflexivity.
  - destruct (pd_rules pd !! i); rewrite pd_rules_set_rules, lookup_insert_ne by congruence; reflexivity.
Qed.

Lemma add_productions_entry ts : forall pd i idx,
  pd_rules (fold_left (fun acc t => add_production acc i t) ts pd) !! idx =
  if i =? idx then
    match ts with
    | [] => pd_rules pd !! idx
    | _ => let r := base_entry (pd_rules pd !! idx) in
           Some (mkNTR (possible_productions r ++ map production_of ts) (ntr_ignore r) (instruction r))
    end
  else pd_rules pd !! idx.
Proof.
  induction ts as [|t ts IH]; intros pd i idx; simpl; [destruct (i =? idx); reflexivity|].
  rewrite IH, add_production_entry. destruct (i =? idx); [|reflexivity].
  destruct ts; [reflexivity|]. simpl. rewrite <- app_assoc. reflexivity.
Qed.

Lemma set_productions_entry pd i ts idx :
  pd_rules (set_productions pd i ts) !! idx =
  if i =? idx then
    match ts, pd_rules pd !! idx with
    | [], None => None
    | _, o => let r := base_entry o in
              Some (mkNTR (map production_of ts) (ntr_ignore r) (instruction r))
    end
  else pd_rules pd !! idx.
Proof.
  unfold set_productions. rewrite add_productions_entry. destruct (Nat.eqb_spec i idx) as [->|Hne].
  - destruct (pd_rules pd !! idx) as [r|] eqn:E; rewrite ?pd_rules_set_rules, ?lookup_insert, ?E; simpl.
    + destruct ts; reflexivity.
    + destruct ts; reflexivity.
  - destruct (pd_rules pd !! i) as [r|] eqn:E; [|reflexivity].
    rewrite pd_rules_set_rules, lookup_insert_ne by congruence. reflexivity.
Qed.

Lemma add_instructions_entry pd i inst idx :
  pd_rules (add_instructions pd i inst) !! idx =
  if i =? idx then
    let r := base_entry (pd_rules pd !! idx) in
    Some (mkNTR (possible_productions r) (ntr_ignore r) inst)
  else pd_rules pd !! idx.
Proof.
  unfold add_instructions. destruct (Nat.eqb_spec i idx) as [->|Hne].
  - destruct (pd_rules pd !! idx); rewrite pd_rules_set_rules, lookup_insert; reflexivity.
  - destruct (pd_rules pd !! i); rewrite pd_rules_set_rules, lookup_insert_ne by congruence; reflexivity.
Qed.
Lemma get_or_add_entry pd key idx :
  pd_rules (snd (get_or_add_element_key pd key)) !! idx = pd_rules pd !! idx.
Proof. unfold get_or_add_element_key. destruct (element_verbose_map pd !! key); reflexivity. Qed.

Lemma pd_do_entry pd c idx :
  base_entry (pd_rules (pd_do pd c) !! idx) =
  let r := base_entry (pd_rules pd !! idx) in
  match c with
  | AddProduction i t => if i =? idx then mkNTR (possible_productions r ++ [production_of t]) (ntr_ignore r) (instruction r) else r
  | SetProductions i ts => if i =? idx then mkNTR (map production_of ts) (ntr_ignore r) (instruction r) else r
  | AddInstructions i inst => if i =? idx then mkNTR (possible_productions r) (ntr_ignore r) inst else r
  | GetOrAdd _ _ => r
  end.
Proof.
  destruct c as [n k|i t|i ts|i inst]; simpl.
  - rewrite get_or_add_entry. reflexivity.
  - rewrite add_production_entry. destruct (i =? idx); reflexivity.
  - rewrite set_productions_entry. destruct (i =? idx); [|reflexivity].
    destruct ts; [|reflexivity]. destruct (pd_rules pd !! idx); reflexivity.
  - rewrite add_instructions_entry. destruct (i =? idx); reflexivity.
Qed.

Lemma no_set_alts l idx : Forall (fun c => ~ sets_productions idx c) l -> forall pd,
  possible_productions (base_entry (pd_rules (fold_left pd_do l pd) !! idx)) =
  possible_productions (base_entry (pd_rules pd !! idx)) ++ map production_of (added idx l).
Proof.
  induction 1 as [|c l Hc Hl IH]; intros pd; simpl; [rewrite app_nil_r; reflexivity|].
  rewrite IH, pd_do_entry. destruct c as [n k|i t|i ts|i inst]; simpl; try reflexivity.
  - destruct (i =? idx); [|reflexivity]. simpl. rewrite <- app_assoc. reflexivity.
  - destruct (Nat.eqb_spec i idx) as [->|]; [|reflexivity]. exfalso. apply Hc. eexists. reflexivity.
  - destruct (i =? idx); reflexivity.
Qed.
Lemma no_set_instr l idx : Forall (fun c => ~ sets_instructions idx c) l -> forall pd,
  instruction (base_entry (pd_rules (fold_left pd_do l pd) !! idx)) =
  instruction (base_entry (pd_rules pd !! idx)).
Proof.
  induction 1 as [|c l Hc Hl IH]; intros pd; simpl; [reflexivity|].
  rewrite IH, pd_do_entry. destruct c as [n k|i t|i ts|i inst]; simpl; try reflexivity.
  - destruct (i =? idx); reflexivity.
  - destruct (i =? idx); reflexivity.
  - destruct (Nat.eqb_spec i idx) as [->|]; [|reflexivity]. exfalso. apply Hc. eexists. reflexivity.
Qed.
Lemma ignore_none l idx : forall pd, ntr_ignore (base_entry (pd_rules pd !! idx)) = None ->
  ntr_ignore (base_entry (pd_rules (fold_left pd_do l pd) !! idx)) = None.
Proof.
  induction l as [|c l IH]; intros pd H; simpl; [assumption|]. apply IH. rewrite pd_do_entry.
  destruct c as [n k|i t|i ts|i inst]; simpl; try destruct (i =? idx); assumption.
Qed.

Lemma entry_defined l idx : forall pd,
  is_Some (pd_rules (fold_left pd_do l pd) !! idx) <->
  is_Some (pd_rules pd !! idx) \/ Exists (defines idx) l.
Proof.
  induction l as [|c l IH]; intros pd; simpl.
  - rewrite Exists_nil. tauto.
  - rewrite IH, Exists_cons.
    assert (is_Some (pd_rules (pd_do pd c) !! idx) <-> is_Some (pd_rules pd !! idx) \/ defines idx c) as ->; [|tauto].
    unfold defines. destruct c as [n k|i t|i ts|i inst]; simpl.
    + rewrite get_or_add_entry. split; [auto|]. intros [?|[[? ?]|[(?&?&?)|[? ?]]]]; [assumption|discriminate..].
    + rewrite add_production_entry. destruct (Nat.eqb_spec i idx) as [->|Hne].
      * split; [|intros _; eauto]. intros _. right. left. eauto.
      * split; [auto|]. intros [?|[[? ?]|[(?&?&?)|[? ?]]]]; [assumption|congruence..].
    + rewrite set_productions_entry. destruct (Nat.eqb_spec i idx) as [->|Hne].
      * destruct ts as [|t ts].
        -- destruct (pd_rules pd !! idx).
           ++ split; eauto.
           ++ split; [intros [? ?]; discriminate|].
              intros [[? ?]|[[? ?]|[(?&?&?)|[? ?]]]]; congruence.
        -- split; [|eauto]. intros _. right. right. left. exists (t :: ts). split; [discriminate|reflexivity].
      * split; [auto|]. intros [?|[[? ?]|[(?&?&?)|[? ?]]]]; [assumption|congruence..].
    + rewrite add_instructions_entry. destruct (Nat.eqb_spec i idx) as [->|Hne].
      * split; [|eauto]. intros _. right. right. right. eauto.
      * split; [auto|]. intros [?|[[? ?]|[(?&?&?)|[? ?]]]]; [assumption|congruence..].
Qed.

Lemma production_of_alternative ts : Forall2 alternative_of ts (map production_of ts).
Proof.
  induction ts as [|t ts IH]; simpl; constructor; [|assumption].
  destruct t; [left; auto|right]. split; [discriminate|reflexivity].
Qed.
End proofs.
