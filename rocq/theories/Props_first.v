(** * Property theorems, FIRST sets: C20, C21.  Derivations, NULLABLE, FIRST and left
    recursion are defined in SpecGrammar.v, over the parser data only. *)
From Coq Require Import Ascii String.
From Verif Require Import Base Errors Sets ParserData FirstSets SpecData ParserData_proofs
  SpecGrammar Grammar_proofs First_proofs Blame_proofs Samples.

(** Parser data made by calls of the API are well formed as soon as rules are given to
    nonterminals only. *)
Theorem C20_api_grammars_well_formed : forall (I : Type) (l : list (pd_call I)),
  (forall A, Exists (defines A) l -> is_nonterminal (pd_history l) A) -> wf_grammar (pd_history l).
Proof.
  intros I l H. split.
  - rewrite (table_length _ _ (table_history l)). destruct (table_history l) as (_ & H2 & _).
    rewrite H2. apply fmap_length.
  - intros A HA. apply H. apply (entry_defined l A) in HA as [HA|HA]; [|assumption].
    destruct HA as [r Hr]. unfold pd_rules in Hr. simpl in Hr. rewrite lookup_empty in Hr. discriminate.
Qed.
Print Assumptions C20_api_grammars_well_formed.

(** ** C20 *)
Theorem C20_first_sets_exact : forall (H : HashOrder) (I : Type) (pd : ParserData I) fuel fs,
  wf_grammar pd -> get_first_sets pd fuel = Ok fs ->
  (forall A, is_Some (fs !! A) <-> has_rule pd A) /\
  (forall A s, fs !! A = Some s -> is_first_set pd [A] s).
Proof.
  intros H I pd fuel fs Hwf Hf. destruct (get_first_sets_exact pd Hwf fuel fs Hf) as (H1 & H2 & _).
  split; [assumption|]. intros A s HA. apply exacts_is_first, exact_exacts. eauto.
Qed.
Print Assumptions C20_first_sets_exact.
(** The set computed for what stands behind an element is exact too; behind the last
    element nothing is computed. *)
Theorem C20_partial_sets_exact : forall (H : HashOrder) (I : Type) (pd : ParserData I) fuel fs w s,
  wf_grammar pd -> get_first_sets pd fuel = Ok fs -> w <> [] ->
  first_set_of_partial pd w fs = Ok s -> is_first_set pd w s.
Proof.
  intros H I pd fuel fs w s Hwf Hf Hne Hp. apply exacts_is_first.
  eapply first_set_of_partial_exact; [exact Hwf| |exact Hne|exact Hp].
  apply (get_first_sets_exact pd Hwf fuel fs Hf).
Qed.
Print Assumptions C20_partial_sets_exact.

(** ** C21 *)
Theorem C21_returns_iff : forall (H : HashOrder) (I : Type) (pd : ParserData I) fuel,
  wf_grammar pd -> size (pd_rules pd) + 2 <= fuel ->
  ((exists fs, get_first_sets pd fuel = Ok fs) <->
   left_defined pd /\ forall A, ~ left_recursive pd A).
Proof.
  intros H I pd fuel Hwf Hf. split.
  - intros [fs Hfs]. eapply get_first_sets_grounded; eauto.
  - intros [Hd Hno]. pose proof (get_first_sets_fine pd Hwf fuel Hd) as Hfine.
    pose proof (get_first_sets_nodiv pd Hwf fuel Hno Hf) as Hnd.
    destruct (get_first_sets pd fuel); simpl in Hfine; [eauto|contradiction|contradiction|congruence].
Qed.
Print Assumptions C21_returns_iff.
Theorem C21_terminates : forall (H : HashOrder) (I : Type) (pd : ParserData I) fuel,
  wf_grammar pd -> (forall A, ~ left_recursive pd A) -> size (pd_rules pd) + 2 <= fuel ->
  get_first_sets pd fuel <> Diverge.
Proof. intros H I pd fuel Hwf Hno Hf. apply get_first_sets_nodiv; assumption. Qed.
Print Assumptions C21_terminates.
(** If moreover the alternatives use only indices of elements (those of texts do), it returns
    the sets or names an element without rules that some alternative uses. *)
Theorem C21_returns : forall (H : HashOrder) (I : Type) (pd : ParserData I) fuel,
  wf_grammar pd -> (forall A, ~ left_recursive pd A) -> size (pd_rules pd) + 2 <= fuel ->
  (forall A r, pd_rules pd !! A = Some r -> NotEmpty [] ∉ possible_productions r) ->
  (forall A w e, alternative pd A w -> e ∈ w -> is_nonterminal pd e \/ exists s, is_terminal pd e s) ->
  (exists fs, get_first_sets pd fuel = Ok fs) \/
  (exists k, get_first_sets pd fuel = Err (MissingProduction k) /\ is_nonterminal pd k /\ ~ has_rule pd k /\ exists A w, alternative pd A w /\ k ∈ w).
Proof.
  intros H I pd fuel Hwf Hno Hf Hne Hix.
  assert (sound_indices pd) as Hsi.
  { split; [intros A w e Ha He; destruct (Hix A w e Ha He); [right|left]; assumption|]. intros A r p HA Hp ->. exact (Hne A r HA Hp). }
  pose proof (get_first_sets_blame pd Hwf Hsi fuel) as Hb. pose proof (get_first_sets_nodiv pd Hwf fuel Hno Hf) as Hd.
  destruct (get_first_sets pd fuel) as [fs|e| |]; [left; eauto| |contradiction|contradiction].
  destruct Hb as (k & -> & Hk). right. exists k. split; [reflexivity|exact Hk].
Qed.
Print Assumptions C21_returns.
(** If the recursion does not end, there is a left-recursive nonterminal. *)
Theorem C21_divergence_is_left_recursion : forall (H : HashOrder) (I : Type) (pd : ParserData I) fuel,
  wf_grammar pd -> size (pd_rules pd) + 2 <= fuel -> get_first_sets pd fuel = Diverge -> exists A, left_recursive pd A.
Proof. intros H I pd fuel Hwf Hf. apply get_first_sets_div; assumption. Qed.
Print Assumptions C21_divergence_is_left_recursion.
(** On a left-recursive grammar whose nonterminals are all defined it never returns,
    whatever recursion depth is available. *)
Theorem C21_left_recursion_diverges : forall (H : HashOrder) (I : Type) (pd : ParserData I) A fuel,
  wf_grammar pd -> all_defined pd -> left_recursive pd A -> get_first_sets pd fuel = Diverge.
Proof.
  intros H I pd A fuel Hwf [Hd1 Hd2] HA.
  assert (left_defined pd) as Hd.
  { split; [assumption|]. intros B u e v Hb _. eapply Hd2; [exact Hb|]. apply elem_of_app. right. left. }
  pose proof (get_first_sets_fine pd Hwf fuel Hd) as Hfine.
  destruct (get_first_sets pd fuel) as [fs| | |] eqn:E; simpl in Hfine; [|contradiction|contradiction|reflexivity].
  exfalso. eapply (get_first_sets_grounded pd Hwf fuel fs E); eauto.
Qed.
Print Assumptions C21_left_recursion_diverges.
(** The fuel is only a bound on the depth: a larger bound changes no answer. *)
Theorem C21_depth_irrelevant : forall (H : HashOrder) (I : Type) (pd : ParserData I) f f',
  f <= f' -> get_first_sets pd f <> Diverge -> get_first_sets pd f' = get_first_sets pd f.
Proof. intros H I pd f f' Hle Hn. apply get_first_sets_mono; assumption. Qed.
Print Assumptions C21_depth_irrelevant.

(** ** Examples: S -> A "b" | C;  A -> "a" | #;  C -> A A *)
Definition first_calls : list (pd_call nat) :=
  [GetOrAdd (lit "S") NonTerminal; GetOrAdd (lit "A") NonTerminal; GetOrAdd (lit "b") Terminal;
   GetOrAdd (lit "a") Terminal; GetOrAdd (lit "C") NonTerminal;
   AddProduction 0 [1; 2]; AddProduction 0 [4]; AddProduction 1 [3]; AddProduction 1 [];
   AddProduction 4 [1; 1]].
Definition first_pd : ParserData nat := pd_history first_calls.
Lemma first_pd_wf : wf_grammar first_pd.
Proof.
  apply C20_api_grammars_well_formed. intros A HA.
  assert (A = 0 \/ A = 1 \/ A = 4) as [->|[->| ->]].
  { apply Exists_exists in HA as (c & Hc & Hd). unfold first_calls in Hc.
    repeat (apply elem_of_cons in Hc as [->|Hc];
      [destruct Hd as [[t Ht]|[(ts & _ & Ht)|[inst Ht]]]; try discriminate; injection Ht as Ht _; auto|]).
    apply elem_of_nil in Hc. contradiction. }
  all: eexists; vm_compute; reflexivity.
Qed.
Example C20_example :
  match @get_first_sets plain_order nat first_pd 5 with
  | Ok fs => bool_decide (fs !! 0 = Some {[EChar 97; EChar 98; EEmpty]}) &&
             bool_decide (fs !! 1 = Some {[EChar 97; EEmpty]}) &&
             bool_decide (fs !! 4 = Some {[EChar 97; EEmpty]}) && bool_decide (fs !! 2 = None)
  | _ => false
  end = true.
Proof. vm_compute. reflexivity. Qed.
Example C21_example : size (pd_rules first_pd) + 2 = 5 /\ left_defined first_pd /\ (forall A, ~ left_recursive first_pd A).
Proof.
  split; [vm_compute; reflexivity|].
  apply (proj1 (C21_returns_iff plain_order nat first_pd 5 first_pd_wf ltac:(vm_compute; lia))).
  assert (is_ok (@get_first_sets plain_order nat first_pd 5) = true) as Hok by (vm_compute; reflexivity).
  destruct (get_first_sets first_pd 5); try discriminate. eauto.
Qed.
(** E -> E "+" | "n" *)
Definition left_calls_list : list (pd_call nat) :=
  [GetOrAdd (lit "E") NonTerminal; GetOrAdd (lit "+") Terminal; GetOrAdd (lit "n") Terminal;
   AddProduction 0 [0; 1]; AddProduction 0 [2]].
Example C21_example_left_recursive :
  let pd := pd_history left_calls_list in
  wf_grammar pd /\ all_defined pd /\ left_recursive pd 0.
Proof.
  assert (forall A r, pd_rules (pd_history left_calls_list) !! A = Some r ->
     A = 0 /\ possible_productions r = [NotEmpty [0; 1]; NotEmpty [2]]) as Hr.
  { intros A r H.
    apply elem_of_map_to_list in H.
    assert (map_to_list (pd_rules (pd_history left_calls_list))
      = [(0, mkNTR [NotEmpty [0; 1]; NotEmpty [2]] None [])]) as Hx by (vm_compute; reflexivity).
    rewrite Hx in H. apply elem_of_list_singleton in H. injection H as -> ->. auto. }
  simpl. split; [|split].
  - split; [reflexivity|]. intros A [r HA]. apply Hr in HA as [-> _]. exists (lit "E"). reflexivity.
  - split.
    + intros A r p HA Hp. apply Hr in HA as [_ HA]. rewrite HA in Hp.
      apply elem_of_cons in Hp as [->|Hp]; [discriminate|]. apply elem_of_list_singleton in Hp. subst. discriminate.
    + intros A w e (r & p & HA & Hp & ->) He. apply Hr in HA as [_ HA]. rewrite HA in Hp.
      assert (e = 0 \/ e = 1 \/ e = 2) as [->|[->| ->]].
      { apply elem_of_cons in Hp as [->|Hp].
        - simpl in He. apply elem_of_cons in He as [->|He]; [auto|]. apply elem_of_list_singleton in He. auto.
        - apply elem_of_list_singleton in Hp. subst. apply elem_of_list_singleton in He. auto. }
      * right. split; [exists (lit "E"); reflexivity|]. eexists. vm_compute. reflexivity.
      * left. exists (lit "+"). reflexivity.
      * left. exists (lit "n"). reflexivity.
  - constructor. exists [], [1]. split; [|split].
    + eexists _, _. split; [vm_compute; reflexivity|]. split; [left|reflexivity].
    + exists []. split; [apply rtc_refl|constructor].
    + exists (lit "E"). reflexivity.
Qed.
