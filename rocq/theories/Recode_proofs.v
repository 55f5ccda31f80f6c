(** * Other characters in the terminals (C93): proofs *)
From Verif Require Import Base Peekables Tree Errors Sets ParserData Vm RuleParsing FirstSets FollowSets SteuerMap ScriptParser
  SpecText SpecData SpecGrammar SpecParser SpecTree SpecScript SpecContract SpecWeave SpecRules SpecNames SpecLanguage SpecRecode
  Grammar_proofs Construct_proofs Script_proofs Parse_proofs Names_proofs RuleBuild_proofs Language_proofs Syntax_proofs.

Section data.
Context {I : Type} (g : char -> char) (Hg : one_to_one g) (pd pd' : ParserData I).
Hypothesis (Hv : forall e, get_element_verbose pd' e = option_map (recode_el g) (get_element_verbose pd e)).
Hypothesis (Hr : pd_rules pd' = pd_rules pd).
Notation rm := (recode_member g).
Lemma rm_inj x y : rm x = rm y -> x = y.
Proof. destruct x, y; intros E; try discriminate; [|reflexivity]. injection E as E. apply Hg in E. congruence. Qed.
Lemma rc_terminal e s : is_terminal pd e s -> is_terminal pd' e (map g s).
Proof. unfold is_terminal. rewrite Hv. intros ->. reflexivity. Qed.
Lemma rc_terminal_back e s' : is_terminal pd' e s' -> exists s, s' = map g s /\ is_terminal pd e s.
Proof. unfold is_terminal. rewrite Hv. destruct (get_element_verbose pd e) as [[s []]|]; cbn; try discriminate. intros [= <-]. eauto. Qed.
Lemma rc_nonterminal e : is_nonterminal pd' e <-> is_nonterminal pd e.
Proof. unfold is_nonterminal. rewrite Hv. destruct (get_element_verbose pd e) as [[s []]|]; cbn; split; intros [x E]; try discriminate; eauto. Qed.
Lemma rc_alternative A w : alternative pd' A w <-> alternative pd A w.
Proof. unfold alternative. rewrite Hr. reflexivity. Qed.
Lemma rc_has_rule A : has_rule pd' A <-> has_rule pd A.
Proof. unfold has_rule. rewrite Hr. reflexivity. Qed.
Lemma rc_derives u w : derives pd' u w <-> derives pd u w.
Proof. split; apply ow_derives; intros A x; apply rc_alternative. Qed.
Lemma rc_erased w : erased pd' w <-> erased pd w.
Proof.
  unfold erased. split; intros Hw; (eapply Forall_impl; [exact Hw|]); cbn; intros e He.
  - apply rc_terminal_back in He as ([|] & E & He); [assumption|discriminate].
  - apply rc_terminal in He. exact He.
Qed.
Lemma rc_nullable w : NULLABLE pd' w <-> NULLABLE pd w.
Proof. unfold NULLABLE. setoid_rewrite rc_derives. setoid_rewrite rc_erased. reflexivity. Qed.
Lemma rc_first w c : FIRST pd w c -> FIRST pd' w (g c).
Proof. intros (x & t & v & s & Hd & He & Ht). exists x, t, v, (map g s). rewrite rc_derives, rc_erased. split; [assumption|]. split; [assumption|]. exact (rc_terminal t (c :: s) Ht). Qed.
Lemma rc_first_back w c' : FIRST pd' w c' -> exists c, c' = g c /\ FIRST pd w c.
Proof.
  intros (x & t & v & s & Hd & He & Ht). rewrite rc_derives in Hd. rewrite rc_erased in He. apply rc_terminal_back in Ht as ([|c s0] & E & Ht); [discriminate|]. injection E as -> ->.
  exists c. split; [reflexivity|]. exists x, t, v, s0. auto.
Qed.
Lemma rc_follow start A x : FOLLOW pd start A x -> FOLLOW pd' start A (rm x).
Proof.
  destruct x as [c|]; cbn.
  - intros (B & u & v & HB & Hd & Hf). exists B, u, v. rewrite rc_has_rule, rc_derives. split; [assumption|]. split; [assumption|]. apply rc_first. assumption.
  - intros (u & v & Hd & Hn). exists u, v. rewrite rc_derives, rc_nullable. auto.
Qed.
Lemma rc_follow_back start A x' : FOLLOW pd' start A x' -> exists x, x' = rm x /\ FOLLOW pd start A x.
Proof.
  destruct x' as [c'|]; cbn.
  - intros (B & u & v & HB & Hd & Hf). apply rc_first_back in Hf as (c & -> & Hf). exists (MChar c). split; [reflexivity|]. exists B, u, v.
    rewrite rc_has_rule in HB. rewrite rc_derives in Hd. auto.
  - intros (u & v & Hd & Hn). exists MTerminate. split; [reflexivity|]. exists u, v. rewrite rc_derives in Hd. rewrite rc_nullable in Hn. auto.
Qed.
Lemma rc_choose start A p x : CHOOSE pd start A p x -> CHOOSE pd' start A p (rm x).
Proof.
  destruct p as [[|e l]|]; cbn [CHOOSE]; [auto| |apply rc_follow].
  intros [(c & -> & Hf)|[Hn Hf]]; [left; exists (g c); split; [reflexivity|apply rc_first; assumption]|right; split; [apply rc_nullable|apply rc_follow]; assumption].
Qed.
Lemma rc_choose_back start A p x' : CHOOSE pd' start A p x' -> exists x, x' = rm x /\ CHOOSE pd start A p x.
Proof.
  destruct p as [[|e l]|]; cbn [CHOOSE]; [intros []| |apply rc_follow_back].
  intros [(c' & -> & Hf)|[Hn Hf]].
  - apply rc_first_back in Hf as (c & -> & Hf). exists (MChar c). split; [reflexivity|]. left. eauto.
  - apply rc_follow_back in Hf as (x & -> & Hf). exists x. split; [reflexivity|]. right. rewrite rc_nullable in Hn. auto.
Qed.
Lemma rc_left_recursive A : left_recursive pd' A <-> left_recursive pd A.
Proof.
  unfold left_recursive. assert (forall B C, left_calls pd' B C <-> left_calls pd B C) as E.
  { intros B C. split; intros (u & v & H1 & H2 & H3); exists u, v; (split; [apply rc_alternative, H1|]; split; [apply rc_nullable, H2|apply rc_nonterminal, H3]). }
  generalize A at 2 4. intros B. split; (induction 1 as [x y Hc|x y z Hc _ IH]; [apply tc_once, E; assumption|eapply tc_l; [apply E; exact Hc|exact IH]]).
Qed.
Lemma rc_constructible start : constructible pd' start <-> constructible pd start.
Proof.
  split; intros [[D1 D2] C2 C3 C4 C5].
  - split.
    + split; [rewrite <- Hr; exact D1|]. intros A w e Ha He. apply rc_alternative in Ha. destruct (D2 A w e Ha He) as [[s Es]|[Hn Hh]].
      * left. apply rc_terminal_back in Es as (s0 & _ & Es). eauto.
      * right. apply rc_nonterminal in Hn. apply rc_has_rule in Hh. auto.
    + intros A HA. apply (C2 A), rc_left_recursive, HA.
    + apply rc_has_rule. exact C3.
    + intros A r p Er Hp (e & rest & -> & Ht). rewrite <- Hr in Er. apply (C4 A r _ Er Hp). exists e, rest. split; [reflexivity|]. exact (rc_terminal e [] Ht).
    + intros A r i j p q x Er Hi Hj Hne Hp Hq. rewrite <- Hr in Er. apply (C5 A r i j p q (rm x) Er Hi Hj Hne); apply rc_choose; assumption.
  - split.
    + split; [rewrite Hr; exact D1|]. intros A w e Ha He. apply rc_alternative in Ha. destruct (D2 A w e Ha He) as [[s Es]|[Hn Hh]].
      * left. eauto using rc_terminal.
      * right. rewrite rc_nonterminal, rc_has_rule. auto.
    + intros A HA. apply (C2 A), rc_left_recursive, HA.
    + apply rc_has_rule. exact C3.
    + intros A r p Er Hp (e & rest & -> & Ht). rewrite Hr in Er. apply (C4 A r _ Er Hp). exists e, rest. split; [reflexivity|].
      apply rc_terminal_back in Ht as ([|] & E & Ht); [assumption|discriminate].
    + intros A r i j p q x' Er Hi Hj Hne Hp Hq. rewrite Hr in Er. apply rc_choose_back in Hp as (x & -> & Hp). apply rc_choose_back in Hq as (y & E & Hq).
      apply rm_inj in E as <-. exact (C5 A r i j p q x Er Hi Hj Hne Hp Hq).
Qed.
(** The tables. *)
Definition recoded_map (sm sm' : Steuermap) : Prop := (forall x, sm' !! rm x = sm !! x) /\ (forall x', is_Some (sm' !! x') -> exists x, x' = rm x).
Lemma rc_table start ps ps' A : parser_table pd start ps -> parser_table pd' start ps' ->
  match rules_with_steuermaps ps !! A, rules_with_steuermaps ps' !! A with
  | Some nt, Some nt' => nt_instruction nt' = nt_instruction nt /\ recoded_map (steuermap nt) (steuermap nt')
  | None, None => True
  | _, _ => False
  end.
Proof.
  intros T T'. pose proof (pt_rules _ _ _ T A) as R1. pose proof (pt_rules _ _ _ T' A) as R2. rewrite rc_has_rule in R2.
  destruct (rules_with_steuermaps ps !! A) as [nt|] eqn:En, (rules_with_steuermaps ps' !! A) as [nt'|] eqn:En'.
  - destruct (proj1 R1 ltac:(eexists; reflexivity)) as [r Er].
    destruct (pt_entry _ _ _ T A r nt Er En) as (S1 & S2 & S3). rewrite <- Hr in Er. destruct (pt_entry _ _ _ T' A r nt' Er En') as (S1' & S2' & S3').
    split; [congruence|]. split.
    + intros x. destruct (steuermap nt !! x) as [p|] eqn:Ex; [|destruct (steuermap nt' !! rm x) as [p|] eqn:Ex'; [exfalso|reflexivity]].
      * apply S3 in Ex as [E1 E2]. apply S3'. split; [assumption|apply rc_choose; assumption].
      * apply S3' in Ex' as [E1 E2]. apply rc_choose_back in E2 as (y & E & E2). apply rm_inj in E as <-. rewrite (proj2 (S3 x p) (conj E1 E2)) in Ex. discriminate.
    + intros x' [p Hp]. apply S3' in Hp as [_ Hp]. apply rc_choose_back in Hp as (x & -> & _). eauto.
  - exfalso. destruct (proj2 R2 (proj1 R1 ltac:(eexists; reflexivity))). discriminate.
  - exfalso. destruct (proj2 R1 (proj1 R2 ltac:(eexists; reflexivity))). discriminate.
  - exact Logic.I.
Qed.
End data.

(** ** Simulation *)
Section run.
Context (g : char -> char) (Hg : one_to_one g) (H H' : HashOrder) (vm : VM) (Rv : vm_state vm -> vm_state vm -> Prop) (Hvm : vm_recodes g vm Rv) (n : nat).
Context (ps ps' : Parser (vm_instr vm)).
Hypothesis (Ht : forall A, match rules_with_steuermaps ps !! A, rules_with_steuermaps ps' !! A with
  | Some nt, Some nt' => nt_instruction nt' = nt_instruction nt /\ recoded_map g (steuermap nt) (steuermap nt')
  | None, None => True
  | _, _ => False
  end).
Hypothesis (He : forall e, p_elements ps' !! e = option_map (recode_el g) (p_elements ps !! e)).
Notation rm := (recode_member g).
Record sim (s s' : PS vm) : Prop := {
  sim_in : exists rest pos, ps_in s = mkPP rest pos None None false /\ ps_in s' = mkPP (map g rest) pos None None false /\ pos + length rest = n;
  sim_vm : Rv (ps_vm s) (ps_vm s');
  sim_tree : ps_tree s' = recoded_tree g (ps_tree s);
}.
Definition rel {A B} (RA : A -> B -> Prop) (x : outcome ParserError A * PS vm) (y : outcome ParserError B * PS vm) : Prop :=
  sim x.2 y.2 /\ match x.1, y.1 with
  | Ok a, Ok b => RA a b
  | Err e, Err e' => recoded_error g n e e'
  | Panic, Panic | Diverge, Diverge => True
  | _, _ => False
  end.
Lemma bind_rel {A A' B B'} (RA : A -> A' -> Prop) (RB : B -> B' -> Prop) (m : st (PS vm) ParserError A) m' (k : A -> st (PS vm) ParserError B) k' s s' :
  rel RA (m s) (m' s') -> (forall a a' s s', RA a a' -> sim s s' -> rel RB (k a s) (k' a' s')) -> rel RB (sbind m k s) (sbind m' k' s').
Proof.
  unfold sbind, rel. intros [H1 H2] Hk. destruct (m s) as [[a|e| |] s1], (m' s') as [[a'|e'| |] s1']; cbn in *; try contradiction; try (split; assumption).
  apply Hk; assumption.
Qed.
Lemma ret_rel {A B} (RA : A -> B -> Prop) a b s s' : RA a b -> sim s s' -> rel RA (sret a s) (sret b s').
Proof. split; assumption. Qed.
Notation state rest pos v t := (mkPS (mkPP rest pos None None false) v t).
Lemma sim_cases s s' : sim s s' -> exists rest pos v v' t, s = state rest pos v t /\ s' = state (map g rest) pos v' (recoded_tree g t) /\ pos + length rest = n /\ Rv v v'.
Proof. intros [(rest & pos & E & E' & Hn) Hv Htr]. destruct s as [i v t], s' as [i' v' t']. cbn in *. subst. exists rest, pos, v, v', t. auto. Qed.
Lemma sim_state rest pos v v' t : pos + length rest = n -> Rv v v' -> sim (state rest pos v t) (state (map g rest) pos v' (recoded_tree g t)).
Proof. intros Hn Hv. split; cbn; [exists rest, pos; auto|assumption|reflexivity]. Qed.
(** Trees. *)
Notation rn := (recoded_node g).
Lemma rt_len t : length (t_nodes (recoded_tree g t)) = length (t_nodes t).
Proof. apply map_length. Qed.
Lemma add_rel data parent t : add_node (map g data) parent (recoded_tree g t) =
  let '(r, t') := add_node data parent t in (r, recoded_tree g t').
Proof.
  unfold add_node. change (t_free (recoded_tree g t)) with (t_free t). rewrite rt_len.
  destruct (match pop_last (t_free t) with None => _ | Some _ => _ end) as [[next reused] free'].
  cbn [t_nodes t_counter]. change (t_counter (recoded_tree g t)) with (t_counter t). change (t_nodes (recoded_tree g t)) with (map rn (t_nodes t)).
  assert (forall nodes m, place (map rn nodes) reused next (rn m) = match place nodes reused next m with Ok l => Ok (map rn l) | Err e => Err e | Panic => Panic | Diverge => Diverge end) as Hplace.
  { intros nodes m. unfold place. rewrite map_length. destruct reused; [destruct (next <? length nodes)|]; try reflexivity; f_equal; [symmetry; apply (list_fmap_insert rn)|symmetry; apply map_app]. }
  destruct parent as [pid|].
  - unfold node_exists, get_node_mut. cbn [t_nodes t_free]. rewrite map_length. change (map rn (t_nodes t) !! node_ptr pid) with ((rn <$> t_nodes t) !! node_ptr pid). rewrite list_lookup_fmap.
    destruct (length (t_nodes t) <=? node_ptr pid); [reflexivity|]. destruct (contains (node_pk pid) free'); [reflexivity|].
    destruct (t_nodes t !! node_ptr pid) as [nd|]; cbn [fmap option_fmap option_map]; [|reflexivity]. cbn [rn n_pk]. destruct (n_pk nd =? node_pk pid); [|reflexivity]. cbn [negb].
    destruct (contains (node_ptr pid) free'); [reflexivity|]. cbn [n_last n_first recoded_node].
    set (p2 := with_last (match n_first nd with None => with_first nd (Some next) | Some _ => nd end) (Some next)).
    replace (with_last _ (Some next)) with (rn p2) by (unfold p2; destruct nd as [? ? ? [|] ? ? ?]; reflexivity).
    rewrite <- (list_fmap_insert rn : forall l i x, map rn (<[i:=x]> l) = <[i:=rn x]> (map rn l)).
    destruct (n_last nd) as [lci|].
    + change (map rn ?l !! lci) with ((rn <$> l) !! lci). rewrite list_lookup_fmap. destruct (_ !! lci) as [ln|]; cbn [fmap option_fmap option_map]; [|reflexivity].
      change (with_next (rn ln) (Some next)) with (rn (with_next ln (Some next))).
      rewrite <- (list_fmap_insert rn : forall l i x, map rn (<[i:=x]> l) = <[i:=rn x]> (map rn l)).
      match goal with |- context [place _ _ _ (node_new ?a (map g data) ?b ?c)] => change (node_new a (map g data) b c) with (rn (node_new a data b c)) end.
      rewrite Hplace. destruct (place _ _ _ _); reflexivity.
    + match goal with |- context [place _ _ _ (node_new ?a (map g data) ?b ?c)] => change (node_new a (map g data) b c) with (rn (node_new a data b c)) end.
      rewrite Hplace. destruct (place _ _ _ _); reflexivity.
  - match goal with |- context [place _ _ _ (node_new ?a (map g data) ?b ?c)] => change (node_new a (map g data) b c) with (rn (node_new a data b c)) end.
    rewrite Hplace. destruct (place _ _ _ _); reflexivity.
Qed.
Lemma node_rel data parent s s' : sim s s' -> rel eq (ps_add_node vm data parent s) (ps_add_node vm (map g data) parent s').
Proof.
  intros [Hin Hv Htr]. unfold ps_add_node. rewrite Htr, add_rel. destruct (add_node data parent (ps_tree s)) as [r t']. cbn.
  split; [split; assumption || reflexivity|]. cbn. destruct r; cbn; auto. apply re_other. discriminate.
Qed.
Lemma ignored_rel data parent s s' : sim s s' -> rel eq (ps_add_node_ignored vm data parent s) (ps_add_node_ignored vm (map g data) parent s').
Proof.
  intros Hs. unfold ps_add_node_ignored. destruct (node_rel data parent s s' Hs) as [H1 H2]. destruct (ps_add_node vm data parent s) as [[| | |] s1], (ps_add_node vm (map g data) parent s') as [[| | |] s1'];
    cbn in *; try contradiction; split; cbn; auto.
Qed.
Lemma terminal_step c l x rest pos v t : terminal_chars vm (c :: l) (state (x :: rest) pos v t) =
  if (x =? c)%N then terminal_chars vm l (state rest (pos + 1) v t) else (Err (UnexpectedCharError x pos [c]), state (x :: rest) pos v t).
Proof. cbn. unfold sbind, ps_peek, ps_pos. cbn. destruct (x =? c)%N; reflexivity. Qed.
Lemma terminal_rel l : forall s s', sim s s' -> rel eq (terminal_chars vm l s) (terminal_chars vm (map g l) s').
Proof.
  induction l as [|c l IH]; intros s s' Hs; [apply ret_rel; [reflexivity|exact Hs]|].
  destruct (sim_cases s s' Hs) as ([|x rest] & pos & v & v' & t & -> & -> & Hn & Hv).
  - split; [exact Hs|]. cbn. apply re_other. discriminate.
  - cbn [map]. rewrite !terminal_step.
    assert ((g x =? g c)%N = (x =? c)%N) as ->. { destruct (N.eqb_spec x c) as [->|Hne]; [apply N.eqb_refl|]. apply N.eqb_neq. intros E. apply Hne, Hg, E. }
    destruct (x =? c)%N.
    + apply IH. apply (sim_state rest (pos + 1)); [cbn in Hn; lia|exact Hv].
    + split; [exact Hs|]. cbn. apply (re_char g n x pos [MChar c] [MChar (g c)]); [cbn in Hn; lia|reflexivity].
Qed.
Lemma script_terminal_rel l s s' : sim s s' -> rel (fun a b => a = l /\ b = map g l) (parse_script_terminal vm l s) (parse_script_terminal vm (map g l) s').
Proof. intros Hs. unfold parse_script_terminal. eapply bind_rel; [apply terminal_rel, Hs|]. intros a a' s1 s1' _ Hs1. apply ret_rel; auto. Qed.
Lemma instr_rel id is : forall s s', sim s s' -> rel eq (run_instructions vm id is s) (run_instructions vm id is s').
Proof.
  induction is as [|i is IH]; intros s s' Hs; [apply ret_rel; [reflexivity|exact Hs]|]. cbn [run_instructions]. eapply bind_rel with (RA := eq); [|intros a a' s1 s1' _ Hs1; apply IH, Hs1].
  unfold run_one. destruct (sim_cases s s' Hs) as (rest & pos & v & v' & t & -> & -> & Hn & Hv). cbn [ps_tree ps_vm ps_in].
  pose proof (Hvm t id i v v' Hv) as Hx. destruct (vm_execute vm t id i v) as [[t1 v1]|[]| |], (vm_execute vm (recoded_tree g t) id i v') as [[t2 v2]|[]| |]; try contradiction.
  - destruct Hx as [-> Hx]. split; [apply sim_state; assumption|reflexivity].
  - split; [exact Hs|exact Logic.I].
  - split; [exact Hs|exact Logic.I].
Qed.
Lemma keys_in (m : Steuermap) x : x ∈ (map_to_list m).*1 <-> is_Some (m !! x).
Proof.
  rewrite elem_of_list_fmap. split.
  - intros ([k p] & -> & Hin). apply elem_of_map_to_list in Hin. eauto.
  - intros [p Hp]. exists (x, p). split; [reflexivity|]. apply elem_of_map_to_list. assumption.
Qed.
Lemma keys_perm sm sm' site site' : recoded_map g sm sm' -> @ho_iter H' site' _ (map_to_list sm').*1 ≡ₚ map rm (@ho_iter H site _ (map_to_list sm).*1).
Proof.
  intros [H1 H2]. rewrite !ho_perm. apply NoDup_Permutation; [apply NoDup_fst_map_to_list| |].
  - apply (NoDup_fmap_2_strong rm); [|apply NoDup_fst_map_to_list]. intros x y _ _. apply rm_inj, Hg.
  - intros x'. rewrite keys_in. setoid_rewrite elem_of_list_fmap. setoid_rewrite keys_in. split.
    + intros Hx. destruct (H2 x' Hx) as [x ->]. rewrite H1 in Hx. eauto.
    + intros (x & -> & Hx). rewrite H1. assumption.
Qed.
Lemma parse_rel f : forall e node s s', sim s s' -> rel eq (@parse_nonterminal H vm ps f e node s) (@parse_nonterminal H' vm ps' f e node s').
Proof.
  induction f as [|f IH]; intros e node s s' Hs; [split; [exact Hs|exact Logic.I]|]. rewrite !parse_unfold.
  destruct (sim_cases s s' Hs) as (rest & pos & v & v' & t & -> & -> & Hn & Hv).
  assert (forall s0 : PS vm, ps_in s0 = mkPP rest pos None None false -> ps_peek vm s0 = (Ok (head rest), s0)) as Pk.
  { intros [i0 v0 t0] E. cbn in E. subst i0. destruct rest; reflexivity. }
  assert (forall s0 : PS vm, ps_in s0 = mkPP (map g rest) pos None None false -> ps_peek vm s0 = (Ok (option_map g (head rest)), s0)) as Pk'.
  { intros [i0 v0 t0] E. cbn in E. subst i0. destruct rest; reflexivity. }
  rewrite (sbind_ok _ _ _ _ _ (Pk (state rest pos v t) eq_refl)), (sbind_ok _ _ _ _ _ (Pk' (state (map g rest) pos v' (recoded_tree g t)) eq_refl)).
  pose proof (Ht e) as Hte. destruct (rules_with_steuermaps ps !! e) as [nt|] eqn:Hnt, (rules_with_steuermaps ps' !! e) as [nt'|] eqn:Hnt'; try contradiction.
  2:{ split; [exact Hs|]. apply re_other. discriminate. }
  destruct Hte as [Hi [Hm1 Hm2]]. assert (member_of_peek (option_map g (head rest)) = rm (member_of_peek (head rest))) as -> by (destruct rest; reflexivity).
  eapply bind_rel with (RA := eq).
  - unfold get_fitting_production. rewrite Hnt, Hnt', Hm1. destruct (steuermap nt !! member_of_peek (head rest)) as [p|]; [split; [exact Hs|reflexivity]|].
    rewrite (sbind_ok _ _ _ _ _ (Pk (state rest pos v t) eq_refl)), (sbind_ok _ _ _ _ _ (Pk' (state (map g rest) pos v' (recoded_tree g t)) eq_refl)).
    split; [exact Hs|]. cbn. unfold expected_text. rewrite !join_joined. destruct rest as [|c rest]; cbn in *.
    + rewrite Nat.add_0_r in Hn. rewrite Hn. apply re_end, keys_perm. split; assumption.
    + apply re_char; [lia|]. apply keys_perm. split; assumption.
  - intros p p' s1 s1' <- Hs1. eapply bind_rel with (RA := eq); [apply (node_rel [] node); assumption|]. intros id id' s2 s2' <- Hs2.
    eapply bind_rel with (RA := eq); [|intros a a' s3 s3' _ Hs3; rewrite Hi; apply instr_rel, Hs3].
    destruct p as [els|]; [|apply ret_rel; [reflexivity|assumption]]. clear -IH Hs2 He Hg Hvm. revert s2 s2' Hs2.
    induction els as [|e els IHe]; intros s2 s2' Hs2; [apply ret_rel; [reflexivity|assumption]|]. rewrite !els_loop_cons. rewrite He. destruct (p_elements ps !! e) as [[x []]|]; cbn [option_map recode_el].
    + eapply bind_rel; [apply script_terminal_rel, Hs2|]. intros a a' s3 s3' [-> ->] Hs3. eapply bind_rel; [apply ignored_rel, Hs3|]. intros _ _ s4 s4' _ Hs4. apply IHe, Hs4.
    + eapply bind_rel; [apply IH, Hs2|]. intros _ _ s3 s3' _ Hs3. apply IHe, Hs3.
    + split; [exact Hs2|exact Logic.I].
Qed.
Lemma recode_parse fuel text v v' : n = length text -> Rv v v' -> recoded_result g vm Rv n (@parse H vm ps fuel text v) (@parse H' vm ps' fuel (map g text) v').
Proof.
  intros Hn Hv. unfold parse, parse_run.
  assert (position_of (lit "start", NonTerminal) (p_elements ps') = position_of (lit "start", NonTerminal) (p_elements ps)) as ->.
  { assert (p_elements ps' = map (recode_el g) (p_elements ps)) as ->.
    { apply list_eq. intros e. rewrite He. change (map (recode_el g)) with (fmap (M := list) (recode_el g)). rewrite list_lookup_fmap. reflexivity. }
    generalize (p_elements ps). intros l. induction l as [|[x k] l IHl]; [reflexivity|]. cbn [map position_of]. rewrite IHl. destruct k; cbn [recode_el]; [|reflexivity].
    rewrite !decide_False by discriminate. reflexivity. }
  destruct (position_of _ _) as [start|]; [|cbn; auto].
  destruct (parse_rel fuel start None (mkPS (pp_new text None None) v tree_new) (mkPS (pp_new (map g text) None None) v' tree_new)) as [H1 H2]; [apply (sim_state text 0 v v' tree_new); [auto|assumption]|].
  destruct (@parse_nonterminal H vm ps fuel start None _) as [o s1], (@parse_nonterminal H' vm ps' fuel start None _) as [o' s1']. cbn [fst snd] in H1, H2.
  destruct H1 as [_ Hv1 Ht1]. destruct o as [|e| |], o' as [|e'| |]; try contradiction; cbn; auto.
Qed.
End run.

(** ** Rules *)
Section rules.
Context {I : Type} (g : char -> char) (Hg : one_to_one g) (rs : list (arule I)).
Notation qs := (map (recoded g) rs).
Lemma recode_el_inj : forall a b, recode_el g a = recode_el g b -> a = b.
Proof.
  assert (forall s t, map g s = map g t -> s = t) as Hm.
  { induction s as [|c s IH]; intros [|d t] E; try discriminate; [reflexivity|]. injection E as E1 E2. f_equal; auto. }
  intros [x []] [y []] E; try discriminate; injection E as E; [|congruence]. f_equal. auto.
Qed.
Lemma rco_rules_for x : rules_for x qs = map (recoded g) (rules_for x rs).
Proof.
  unfold rules_for. induction rs as [|r l IH]; [reflexivity|]. cbn [map]. rewrite !filter_cons. change (ar_name (recoded g r)) with (ar_name r).
  destruct (decide (ar_name r = x)); [cbn [map]; f_equal|]; exact IH.
Qed.
Lemma rco_defined x : defined qs x <-> defined rs x.
Proof. unfold defined. rewrite rco_rules_for. destruct (rules_for x rs); cbn; split; intros; congruence || discriminate. Qed.
Lemma rco_alternatives x : alternatives_for qs x = map (map (recode_el g)) (alternatives_for rs x).
Proof. unfold alternatives_for. rewrite rco_rules_for, concat_map, !map_map. reflexivity. Qed.
Lemma rco_ignores x y : ignores qs x y <-> ignores rs x y.
Proof.
  unfold ignores. rewrite rco_rules_for. destruct (rules_for x rs) as [|r0 l]; cbn; split; intros (r1 & m & E & Ho); try discriminate; injection E as <- <-; eexists _, _; (split; [reflexivity|exact Ho]).
Qed.
Lemma rco_uses x y : uses qs x y <-> uses rs x y.
Proof.
  unfold uses. rewrite rco_alternatives. split.
  - intros (w & Hw & Hy). apply elem_of_list_fmap in Hw as (w0 & -> & Hw). apply elem_of_list_fmap in Hy as ([y0 []] & E & Hy); [discriminate|]. injection E as ->. eauto.
  - intros (w & Hw & Hy). exists (map (recode_el g) w). split; [apply elem_of_list_fmap_1; assumption|]. apply (elem_of_list_fmap_1 (recode_el g) w (y, NonTerminal)). assumption.
Qed.
Lemma rco_mentioned : concat (map mentioned qs) = map (recode_el g) (concat (map mentioned rs)).
Proof.
  rewrite concat_map, !map_map. f_equal. apply map_ext. intros r. unfold mentioned. cbn [map recoded ar_name ar_override ar_alts recode_el]. f_equal.
  rewrite map_app, concat_map. f_equal. destruct (ar_override r); reflexivity.
Qed.
Lemma rco_firsts l : forall seen, firsts (map (recode_el g) seen) (map (recode_el g) l) = map (recode_el g) (firsts seen l).
Proof.
  induction l as [|e l IH]; intros seen; [reflexivity|]. cbn [firsts map]. destruct (decide (e ∈ seen)) as [Hi|Hi].
  - rewrite decide_True by (apply elem_of_list_fmap_1; assumption). apply IH.
  - rewrite decide_False. { cbn [map]. f_equal. apply (IH (e :: seen)). }
    intros Hin. apply elem_of_list_fmap in Hin as (e' & E & Hin). apply recode_el_inj in E. congruence.
Qed.
End rules.

Section recode_data.
Context {I : Type} (g : char -> char) (Hg : one_to_one g).
Definition recode_entry (d : ElementData) (k : ElementType) : ElementData :=
  match k with Terminal => mkElementData (keep_data d) (map g (ed_name d)) | NonTerminal => d end.
Definition recode_data (pd : ParserData I) : ParserData I :=
  mkPD (parse_rules pd) (element_types pd) (kmap (recode_el g) (element_verbose_map pd)) (zip_with recode_entry (element_data pd) (element_types pd)).
Lemma rcd_verbose pd e : get_element_verbose (recode_data pd) e = option_map (recode_el g) (get_element_verbose pd e).
Proof.
  unfold get_element_verbose. cbn [recode_data element_data element_types]. rewrite lookup_zip_with.
  destruct (element_data pd !! e) as [d|], (element_types pd !! e) as [[]|]; reflexivity.
Qed.
Lemma rcd_index pd key : get_element_index (recode_data pd) (recode_el g key) = get_element_index pd key.
Proof. unfold get_element_index. cbn [recode_data element_verbose_map]. apply lookup_kmap. intros a b. apply recode_el_inj. assumption. Qed.
Lemma rcd_described pd rs : described pd rs -> described (recode_data pd) (map (recoded g) rs).
Proof.
  intros [D1 D2 D3 D4 D5]. split.
  - rewrite rco_mentioned. change (@nil (str * ElementType)) with (map (recode_el g) []). rewrite rco_firsts by assumption. clear -D1 Hg.
    revert D1. unfold get_elements_verbose. cbn [recode_data element_data element_types]. generalize (firsts [] (concat (map mentioned rs))). generalize (element_types pd).
    induction (element_data pd) as [|d l IH]; intros [|k ts] els; cbn [zip_elements zip_with map]; try discriminate; try (intros [= <-]; reflexivity).
    destruct (zip_elements l ts) as [els0| | |] eqn:E; try discriminate. cbn [obind]. intros [= <-]. rewrite (IH ts els0 E). cbn [obind map]. destruct k; reflexivity.
  - intros key ix. rewrite rcd_verbose. unfold get_element_index. cbn [recode_data element_verbose_map]. split.
    + intros E. apply lookup_kmap_Some in E as (key0 & -> & E); [|intros a b; apply recode_el_inj; assumption]. apply D2 in E. rewrite E. reflexivity.
    + destruct (get_element_verbose pd ix) as [key0|] eqn:E; [|discriminate]. intros [= <-]. apply D2 in E. rewrite lookup_kmap; [exact E|intros a b; apply recode_el_inj; assumption].
  - intros A HA. destruct (D3 A HA) as (r & Hr & E). exists (recoded g r). split; [apply elem_of_list_fmap_1; assumption|]. rewrite rcd_verbose, E. reflexivity.
  - intros x r0 more Hx. rewrite rco_rules_for in Hx. destruct (rules_for x rs) as [|q l] eqn:Eq; [discriminate|]. injection Hx as <- <-.
    destruct (D4 x q l Eq) as (nr & Hn & Hp & Hi0 & Hi). exists nr. split; [|split; [|split; [|exact Hi]]].
    + unfold get_rule_by_element_verbose in *. change (x, NonTerminal) with (recode_el g (x, NonTerminal)). rewrite rcd_index. exact Hn.
    + cbn [map ar_alts recoded] in *. rewrite map_map. cbn [ar_alts recoded].
      replace (concat (map (map (recode_el g)) (ar_alts q) :: map (fun r : arule I => map (map (recode_el g)) (ar_alts r)) l))
        with (map (map (recode_el g)) (concat (ar_alts q :: map ar_alts l))) by (rewrite concat_map; cbn [map]; rewrite map_map; reflexivity).
      apply Forall2_fmap_l. eapply Forall2_impl; [exact Hp|]. intros a p (ixs & Ha & Hix). exists ixs. split; [assumption|].
      apply Forall2_fmap_l. eapply Forall2_impl; [exact Hix|]. intros e ix E. cbn. rewrite rcd_verbose, E. reflexivity.
    + unfold ignore_is in *. cbn [recoded ar_override]. destruct (ar_override q); try exact Hi0.
      destruct Hi0 as (ix & Hix & E). exists ix. split; [assumption|]. rewrite rcd_verbose, E. reflexivity.
  - exact D5.
Qed.
Lemma rcd_can_derive pd a b : can_derive (recode_data pd) a b <-> can_derive pd a b.
Proof. unfold can_derive, has_rule. assert (forall u w, derives (recode_data pd) u w <-> derives pd u w) as E; [|setoid_rewrite E; reflexivity].
  intros u w. split; apply ow_derives; intros A w0; exact (fun h => h). Qed.
Lemma rcd_edited_data pd pe : edited_data pd pe -> edited_data (recode_data pd) (recode_data pe).
Proof.
  intros [E1 E2 E3 E4 E5 E6]. split.
  - intros A r'. change (pd_rules (recode_data pe)) with (pd_rules pe). change (pd_rules (recode_data pd)) with (pd_rules pd). rewrite E1.
    assert (forall r, edited (recode_data pd) A r r' <-> edited pd A r r') as E; [|setoid_rewrite E; reflexivity].
    intros r. split; intros [Hn|ig Hn Hc|ig Hn Hc]; [apply ed_none|eapply ed_inside|eapply ed_woven|apply ed_none|eapply ed_inside|eapply ed_woven]; try eassumption.
    all: rewrite rcd_can_derive in *; assumption.
  - intros A. apply E2.
  - cbn. congruence.
  - cbn. congruence.
  - cbn. congruence.
  - exact E6.
Qed.
Lemma rcd_wf pd : wf_grammar pd -> wf_grammar (recode_data pd).
Proof.
  intros [W1 W2]. split; [cbn; rewrite zip_with_length; lia|]. intros A HA. apply (rc_nonterminal g pd (recode_data pd) (rcd_verbose pd)), W2, HA.
Qed.
Lemma rcd_start pd start : start_element pd start -> start_element (recode_data pd) start.
Proof.
  intros Hst e. rewrite rcd_verbose. split.
  - destruct (get_element_verbose pd e) as [[x []]|] eqn:E; try discriminate. cbn [option_map recode_el]. intros [= ->]. apply Hst. exact E.
  - intros ->. rewrite (proj2 (Hst start) eq_refl). reflexivity.
Qed.
End recode_data.
