(** * Property theorems, parser data: C18, C19.  [pd_history l] is the ParserData after
    the calls [l] on a new one; the specification is SpecData.v. *)
From Verif Require Import Base ParserData SpecData ParserData_proofs.

(** ** C18 *)
(** The element table is the list of the pairs requested, in the order of their first
    request, without duplicates. *)
Theorem C18_table : forall (I : Type) (E : Type) (l : list (pd_call I)),
  get_elements_verbose (E := E) (pd_history l) = Ok (first_requests [] l) /\
  NoDup (first_requests [] l) /\
  (forall name kind, (name, kind) ∈ first_requests [] l <-> GetOrAdd name kind ∈ l).
Proof.
  intros I E l. split; [apply table_all_verbose, table_history|].
  split; [apply table_history|]. intros n k. rewrite first_requests_elem. simpl.
  split; [tauto|]. intros H. split; [apply not_elem_of_nil|assumption].
Qed.
Print Assumptions C18_table.
(** No call asks to keep data: the flag is always false. *)
Lemma history_keep {I} (l : list (pd_call I)) : forall ix d, element_data (pd_history l) !! ix = Some d -> keep_data d = false.
Proof.
  induction l as [|c l IH] using rev_ind; intros ix d; [discriminate|]. unfold pd_history. rewrite fold_left_app. fold (pd_history l). cbn [fold_left]. destruct c as [n k|i t|i ts|i inst]; cbn [pd_do].
  - unfold get_or_add_element_key. destruct (element_verbose_map _ !! _); [apply IH|]. cbn [snd element_data]. intros Hd. apply lookup_app_Some in Hd as [Hd|[_ Hd]]; [exact (IH _ _ Hd)|].
    destruct (ix - _) as [|j]; [injection Hd as <-; reflexivity|destruct j; discriminate].
  - unfold add_production. destruct (pd_rules _ !! i); apply IH.
  - unfold set_productions. assert (forall pd : ParserData I, element_data (fold_left (fun acc t => add_production acc i t) ts pd) = element_data pd) as Hs.
    { induction ts as [|t ts IHt]; intros pd; [reflexivity|]. cbn [fold_left]. rewrite IHt. unfold add_production. destruct (pd_rules pd !! i); reflexivity. }
    rewrite Hs. destruct (pd_rules _ !! i); apply IH.
  - unfold add_instructions. destruct (pd_rules _ !! i); apply IH.
Qed.
Theorem C18_bijection : forall (I : Type) (l : list (pd_call I)),
  let pd := pd_history l in
  (forall ix, ix < length (first_requests [] l) <-> is_Some (get_element_verbose pd ix)) /\
  (forall ix name kind, get_element_verbose pd ix = Some (name, kind) ->
     get_element pd ix = Some (ix, kind) /\ get_element_data pd ix = Some (mkElementData false name)) /\
  (forall ix name, get_element_verbose pd ix = Some (name, Terminal) <->
                   get_element_t_index pd name = Some ix) /\
  (forall ix name, get_element_verbose pd ix = Some (name, NonTerminal) <->
                   get_element_nt_index pd name = Some ix).
Proof.
  intros I l pd. pose proof (table_history l) as H. fold pd in H. repeat apply conj.
  - intros ix. rewrite (table_verbose _ _ _ H), lookup_lt_is_Some. reflexivity.
  - intros ix n k Hv. rewrite (table_element _ _ _ H). rewrite (table_verbose _ _ _ H) in Hv. rewrite Hv.
    split; [reflexivity|]. rewrite <- (table_verbose _ _ _ H) in Hv. unfold get_element_verbose, get_element_data in *.
    destruct (element_data pd !! ix) as [[kd nm]|] eqn:E, (element_types pd !! ix); simpl in *; try discriminate. apply (history_keep l) in E. simpl in E. congruence.
  - intros ix n. symmetry. apply (table_index _ _ _ _ H).
  - intros ix n. symmetry. apply (table_index _ _ _ _ H).
Qed.
Print Assumptions C18_bijection.
(** A call of get_or_add returns an index of exactly the pair asked for, and repeating
    it returns the same index and changes nothing. *)
Theorem C18_get_or_add : forall (I : Type) (l : list (pd_call I)) (name : str) (kind : ElementType),
  let get_or_add pd := match kind with Terminal => get_or_add_terminal pd name | NonTerminal => get_or_add_non_terminal pd name end in
  let '(ix, pd') := get_or_add (pd_history l) in
  get_element_verbose pd' ix = Some (name, kind) /\
  get_or_add pd' = (ix, pd') /\
  pd' = pd_history (l ++ [GetOrAdd name kind]).
Proof.
  intros I l n k get_or_add. assert (forall pd, get_or_add pd = get_or_add_element_key pd (n, k)) as Hga by (intros pd; destruct k; reflexivity).
  clearbody get_or_add. rewrite !Hga. pose proof (table_history l) as H.
  assert (snd (get_or_add_element_key (pd_history l) (n, k)) = pd_history (l ++ [GetOrAdd n k])) as Hs
    by (unfold pd_history; rewrite fold_left_app; reflexivity).
  destruct (table_get_or_add _ (n, k) _ H) as [(Hin & ix & Hix & Hg)|(Hin & pd' & Hg & H')];
    rewrite Hg in *; rewrite Hga; simpl in Hs.
  - rewrite (table_verbose _ _ _ H). auto.
  - rewrite (table_verbose _ _ _ H'). split; [|split; [|assumption]].
    + rewrite lookup_app_r, Nat.sub_diag by lia. reflexivity.
    + destruct (table_get_or_add _ (n, k) _ H') as [(Hin' & ix & Hix & Hg')|(Hin' & _)].
      * rewrite Hg'. f_equal. eapply NoDup_lookup; [apply H'|exact Hix|].
        rewrite lookup_app_r, Nat.sub_diag by lia. reflexivity.
      * exfalso. apply Hin'. apply elem_of_app. right. apply elem_of_list_singleton. reflexivity.
Qed.
Print Assumptions C18_get_or_add.
(** Indices never change meaning. *)
Theorem C18_stable : forall (I : Type) (l l' : list (pd_call I)) ix name kind,
  get_element_verbose (pd_history l) ix = Some (name, kind) ->
  get_element_verbose (pd_history (l ++ l')) ix = Some (name, kind).
Proof.
  intros I l l' ix n k Hv. pose proof (table_history l) as H. rewrite (table_verbose _ _ _ H) in Hv.
  pose proof (table_first_requests l' _ _ H (first_requests [] l)) as H2.
  unfold pd_history in *. rewrite fold_left_app. rewrite (table_verbose _ _ _ (H2 ltac:(tauto))).
  apply lookup_app_l_Some. assumption.
Qed.
Print Assumptions C18_stable.
Example C18_example :
  let l := [GetOrAdd (lit "start") NonTerminal; GetOrAdd (lit "start") Terminal;
            AddProduction 0 [1; 0]; GetOrAdd (lit "start") NonTerminal; GetOrAdd (lit "+") Terminal] in
  first_requests (I := nat) [] l = [(lit "start", NonTerminal); (lit "start", Terminal); (lit "+", Terminal)]
  /\ get_element_t_index (pd_history l) (lit "+") = Some 2.
Proof. vm_compute. auto. Qed.

(** ** C19 *)
(** Whatever happened before the last [set_productions] of [idx] is forgotten. *)
Theorem C19_alternatives_after_set : forall (I : Type) (l1 l2 : list (pd_call I)) idx ts r,
  Forall (fun c => ~ sets_productions idx c) l2 ->
  get_rule_by_key (pd_history (l1 ++ SetProductions idx ts :: l2)) idx = Some r ->
  Forall2 alternative_of (ts ++ added idx l2) (possible_productions r).
Proof.
  intros I l1 l2 idx ts r Hl2 Hr. unfold pd_history, get_rule_by_key in *. rewrite fold_left_app in Hr. simpl in Hr.
  pose proof (no_set_alts l2 idx Hl2 (pd_do (fold_left pd_do l1 pd_new) (SetProductions idx ts))) as H.
  rewrite pd_do_entry in H. simpl pd_do in H. rewrite Hr in H. simpl in H. rewrite Nat.eqb_refl in H. simpl in H.
  rewrite H, <- map_app. apply production_of_alternative.
Qed.
Print Assumptions C19_alternatives_after_set.
Theorem C19_alternatives_no_set : forall (I : Type) (l : list (pd_call I)) idx r,
  Forall (fun c => ~ sets_productions idx c) l ->
  get_rule_by_key (pd_history l) idx = Some r ->
  Forall2 alternative_of (added idx l) (possible_productions r).
Proof.
  intros I l idx r Hl Hr. unfold pd_history, get_rule_by_key in *.
  pose proof (no_set_alts l idx Hl pd_new) as H. rewrite Hr in H. simpl in H.
  unfold pd_rules in H at 1. simpl in H. rewrite H. apply production_of_alternative.
Qed.
Print Assumptions C19_alternatives_no_set.
Theorem C19_instructions : forall (I : Type) (l1 l2 : list (pd_call I)) idx inst r,
  Forall (fun c => ~ sets_instructions idx c) l2 ->
  get_rule_by_key (pd_history (l1 ++ AddInstructions idx inst :: l2)) idx = Some r ->
  instruction r = inst.
Proof.
  intros I l1 l2 idx inst r Hl2 Hr. unfold pd_history, get_rule_by_key in *. rewrite fold_left_app in Hr. simpl in Hr.
  pose proof (no_set_instr l2 idx Hl2 (pd_do (fold_left pd_do l1 pd_new) (AddInstructions idx inst))) as H.
  rewrite pd_do_entry in H. simpl pd_do in H. rewrite Hr in H. simpl in H. rewrite Nat.eqb_refl in H. exact H.
Qed.
Print Assumptions C19_instructions.
Theorem C19_no_instructions : forall (I : Type) (l : list (pd_call I)) idx r,
  Forall (fun c => ~ sets_instructions idx c) l ->
  get_rule_by_key (pd_history l) idx = Some r -> instruction r = [].
Proof.
  intros I l idx r Hl Hr. unfold pd_history, get_rule_by_key in *.
  pose proof (no_set_instr l idx Hl pd_new) as H. rewrite Hr in H. exact H.
Qed.
Print Assumptions C19_no_instructions.
(** A rule exists iff some call defined it; the API never sets an IGNORE override. *)
Theorem C19_rule_exists : forall (I : Type) (l : list (pd_call I)) idx,
  (is_Some (get_rule_by_key (pd_history l) idx) <-> Exists (defines idx) l) /\
  (forall r, get_rule_by_key (pd_history l) idx = Some r -> ntr_ignore r = None).
Proof.
  intros I l idx. unfold pd_history, get_rule_by_key. split.
  - rewrite entry_defined. split; [|auto]. intros [[r Hr]|H]; [|assumption].
    exfalso. unfold pd_rules in Hr. simpl in Hr. rewrite lookup_empty in Hr. discriminate.
  - intros r Hr. pose proof (ignore_none l idx pd_new eq_refl) as H. rewrite Hr in H. exact H.
Qed.
Print Assumptions C19_rule_exists.
Example C19_example :
  let l := [AddProduction 0 [1]; SetProductions 0 [[2; 0]; []]; AddInstructions 0 [7];
            AddProduction 1 [5]; AddProduction 0 [3]] in
  get_rule_by_key (pd_history l) 0 = Some (mkNTR [NotEmpty [2; 0]; Empty; NotEmpty [3]] None [7]).
Proof. vm_compute. reflexivity. Qed.
