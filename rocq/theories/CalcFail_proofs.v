(** * The calculator grammar on texts that are not programs *)
From Verif Require Import Base Peekables Tree Errors Sets ParserData Vm SimpleStackVm StackVm
  SpecText SpecGrammar SpecTree SpecScript SpecNames SpecMath SpecVm SpecRpn SpecCalc
  Grammar_proofs Tree_proofs Script_proofs Parse_proofs Names_proofs ParseFuncs_proofs Vm_proofs Rpn_proofs Props_vm.

(** ** evaluation along a failed derivation *)
Section evaluation.
Context (m : ovf_mode) (lo : Z) (lab : ptree -> str) (ops : nat -> list op).
Inductive stuck_run : stuck -> mach -> option mach -> Prop :=
| sr_choice A s : stuck_run (StuckChoice A) s (Some s)
| sr_term t k s : stuck_run (StuckTerm t k) s (Some s)
| sr_in A subs stk after s s1 r : trees_run m lo lab ops subs s (Some s1) -> stuck_run stk s1 r -> stuck_run (StuckIn A subs stk after) s r
| sr_panic A subs stk after s : trees_run m lo lab ops subs s None -> stuck_run (StuckIn A subs stk after) s None.
Lemma stuck_run_det stk s r : stuck_run stk s r -> forall r', stuck_run stk s r' -> r = r'.
Proof.
  induction 1 as [| |A subs stk after s s1 r Ht _ IH|A subs stk after s Ht]; intros r' H'; inversion H' as [| |? ? ? ? ? s1' ? Ht' Hs'|? ? ? ? ? Ht']; subst; auto.
  - pose proof (proj2 (tree_run_det m lo lab ops) _ _ _ Ht _ Ht') as E. injection E as <-. auto.
  - pose proof (proj2 (tree_run_det m lo lab ops) _ _ _ Ht _ Ht'). discriminate.
  - pose proof (proj2 (tree_run_det m lo lab ops) _ _ _ Ht _ Ht'). discriminate.
Qed.
End evaluation.

Section actions.
Context (vm : VM) (pd : ParserData (vm_instr vm)) (m : ovf_mode) (lo : Z) (view : vm_state vm -> mach) (opof : vm_instr vm -> op).
Context (Hfol : forall h n i s, grown h -> n < length h ->
  follows lo view m h n (opof i) s (vm_execute vm (snd (do_adds h tree_new)) (id_of n) i s)).
Notation ops A := (map opof (instructions_of pd A)).
Notation lab := (label pd).
Notation runs := (run_actions (vm := vm) pd).
Lemma stuck_actions stk : forall pre parent s, grown pre -> (forall q, parent = Some q -> q < length pre) ->
  agrees vm view (stuck_run m lo lab (fun A => ops A) stk (view s)) (runs (pre ++ stuck_history pd (length pre) parent stk) (stuck_post_order (length pre) stk) s).
Proof.
  induction stk as [A|t k|A subs stk IH after]; intros pre parent s Hg Hp; [constructor|constructor|].
  rewrite stuck_history_in, stuck_post_in, runs_app.
  set (pre1 := pre ++ [(parent, [])]).
  assert (length pre1 = S (length pre)) as Hl1 by (unfold pre1; rewrite app_length; simpl; lia).
  assert (grown pre1) as Hg1 by (apply grown_app; assumption).
  assert (forall q, Some (length pre) = Some q -> q < length pre1) as Hq by (intros q [= <-]; lia).
  pose proof (grown_forest pd pre1 (Some (length pre)) subs Hg1 Hq) as Hg2.
  set (h2 := pre1 ++ forest_history pd (length pre1) (Some (length pre)) subs) in *.
  assert (length h2 = S (length pre) + forest_count subs) as Hl2 by (unfold h2; rewrite app_length, forest_history_length; lia).
  assert (pre ++ (parent, []) :: forest_history pd (S (length pre)) (Some (length pre)) subs ++ stuck_history pd (S (length pre) + forest_count subs) (Some (length pre)) stk
    = h2 ++ stuck_history pd (length h2) (Some (length pre)) stk) as ->.
  { rewrite Hl2. unfold h2, pre1. rewrite <- !app_assoc. rewrite app_length. simpl. rewrite Nat.add_1_r. reflexivity. }
  eapply agrees_bind.
  - rewrite runs_prefix.
    + rewrite <- Hl1. apply (forest_from_trees vm pd m lo view opof subs); [|exact Hg2]. apply Forall_forall. intros pt _. apply trees_actions. exact Hfol.
    + rewrite Hl2. eapply within_le, forest_within.
  - intros s1 _ H1. rewrite <- Hl2. specialize (IH h2 (Some (length pre)) s1 Hg2 ltac:(intros q [= <-]; lia)).
    destruct (runs _ _ s1); simpl in *; try contradiction; eapply sr_in; eauto.
  - intros H1. apply sr_panic. assumption.
Qed.
Lemma whole_stuck_actions stk s : 
  agrees vm view (stuck_run m lo lab (fun A => ops A) stk (view s)) (runs (stuck_history pd 0 None stk) (stuck_post_order 0 stk) s).
Proof. apply (stuck_actions stk [] None s); [intros i p d Hi; destruct i; discriminate|discriminate]. Qed.
End actions.

(** no completed subtree: no effect *)
Inductive quiet : stuck -> Prop :=
| q_choice A : quiet (StuckChoice A)
| q_term t k : quiet (StuckTerm t k)
| q_in A stk after : quiet stk -> quiet (StuckIn A [] stk after).
Lemma quiet_run m lo lab ops stk s : quiet stk -> stuck_run m lo lab ops stk s (Some s).
Proof. induction 1; [constructor|constructor|]. eapply sr_in; [constructor|assumption]. Qed.

Section math.
Context {I : Type} (pd : ParserData I) (ins : str -> list I) (opof : I -> op).
Context (Hm : math_grammar pd ins) (Hu : names_unique pd) (Hops : forall x, map opof (ins x) = math_ops x).
Context (start : nat) (Hwf : wf_grammar pd) (Hcon : constructible pd start).
Notation named e nm := (get_element_verbose pd e = Some nm).
Context (Hstart : named start (nt (lit "start"))).
Notation ops := (fun A => map opof (instructions_of pd A)).
Context (m : ovf_mode) (lo : Z) (Hlo : (lo = 0 \/ lo = - 2 ^ 63)%Z).
Notation TR := (tree_run m lo (label pd) ops).
Notation TRS := (trees_run m lo (label pd) ops).
Notation SR := (stuck_run m lo (label pd) ops).
Notation pred := (pred pd start).
Notation preds := (preds pd start).
Notation fails := (fails pd start).
Notation fol := (fol pd start).
Let Hpr : proper pd := all_defined_proper _ (con_defined _ _ Hcon).
Let wfr := wf_rules pd Hwf.
Let disj := con_disjoint pd start Hcon.

(** *** alternatives by name *)
Lemma alt_intro x alts alt : assoc x = Some alts -> alt ∈ alts -> exists A w, named A (nt x) /\ alternative pd A w /\ called pd alt w.
Proof.
  intros Hx Ha. apply assoc_ok in Hx. destruct (proj2 (Hm x alts (ins x)) (conj Hx eq_refl)) as (A & r & HA & Hr & Halts & Hi).
  apply elem_of_list_lookup in Ha as [k Hk]. destruct (Forall2_lookup_l _ _ _ _ _ Halts Hk) as (p & Hp & Hc).
  exists A, (right_side p). split; [exact HA|]. split; [|exact Hc]. exists r, p. split; [exact Hr|]. split; [eapply elem_of_list_lookup_2; exact Hp|reflexivity].
Qed.
Lemma alt_elim x alts A w : named A (nt x) -> assoc x = Some alts -> alternative pd A w -> exists alt, alt ∈ alts /\ called pd alt w.
Proof.
  intros HA Hx Ha. destruct (alt_names pd ins Hm Hpr Hwf A w Ha) as (x' & alts' & alt & Hx' & Has & Hin & Hc).
  assert (x' = x) as -> by (unfold nt in *; congruence). assert (alts' = alts) as -> by congruence. eauto.
Qed.
Lemma called_unique alt w w' : called pd alt w -> called pd alt w' -> w = w'.
Proof.
  unfold called. intros Hc. revert w'. induction Hc as [|y e alt w Hy _ IH]; intros w' Hc'; inversion Hc'; subst; [reflexivity|]. f_equal; [eapply Hu; eauto|auto].
Qed.

(** *** the choice of an alternative that stands for a text *)
Definition selects (A : nat) (subs : list ptree) (x : SetMember) : Prop :=
  (exists c y, yield pd (PNode A subs) = c :: y /\ x = MChar c) \/ (yield pd (PNode A subs) = [] /\ fol A x).
Lemma choose_any A subs x : derivation pd (PNode A subs) -> selects A subs x ->
  exists r p, pd_rules pd !! A = Some r /\ p ∈ possible_productions r /\ right_side p = map root subs /\ CHOOSE pd start A p x.
Proof.
  intros Hd Hs. inversion Hd as [|? ? (r & p & Hr & Hp & Hrs) Hf]; subst. exists r, p. split; [exact Hr|]. split; [exact Hp|]. split; [auto|].
  eapply select_choose; [exact Hr|exact Hp|eapply (proj1 (con_defined pd start Hcon)); eauto|]. unfold SELECT. rewrite <- Hrs.
  destruct Hs as [(c & y & E & ->)|[E Hx]].
  - left. exists c. split; [reflexivity|]. apply FIRST_fsts. eapply forest_fsts; eauto.
  - right. split; [apply NULLABLE_nuls, empty_nuls; assumption|]. apply FOLLOW_fol. assumption.
Qed.
Lemma fails_inv x alts A text stk rest : named A (nt x) -> assoc x = Some alts -> fails A text stk rest ->
  (stk = StuckChoice A /\ rest = text /\ forall subs, derivation pd (PNode A subs) -> ~ selects A subs (look text)) \/
  exists alt1 y alt2 es e after subs mid stk', alt1 ++ y :: alt2 ∈ alts /\ stk = StuckIn A subs stk' after /\
    called pd alt1 es /\ named e y /\ preds es text subs mid /\ fails e mid stk' rest /\
    forall subs', derivation pd (PNode A subs') -> selects A subs' (look text) -> called pd (alt1 ++ y :: alt2) (map root subs').
Proof.
  intros HA Hx Hf. inversion Hf as [? r ? Hr Hn|? ? ? ? Ht|? r p ? es subs mid e stk' after ? Hr Hp Hc He Hs Hf']; subst.
  - left. split; [reflexivity|]. split; [reflexivity|]. intros subs Hd Hs. destruct (choose_any _ _ _ Hd Hs) as (r' & p & Hr' & Hp & _ & Hc).
    assert (r' = r) as -> by congruence. exact (Hn p Hp Hc).
  - unfold is_terminal in Ht. unfold nt in HA. congruence.
  - right. assert (alternative pd A (es ++ e :: after)) as Ha by (exists r, p; auto).
    destruct (alt_elim _ _ _ _ HA Hx Ha) as (alt & Hin & Hcl). unfold called in Hcl. pose proof Hcl as Hcl0.
    apply Forall2_app_inv_r in Hcl as (alt1 & alt' & H1 & H2 & ->). inversion H2 as [|y ? alt2 ? Hy H3]; subst.
    exists alt1, y, alt2, es, e, after, subs, mid, stk'. do 6 (split; [assumption || reflexivity|]).
    intros subs' Hd Hsel. destruct (choose_any _ _ _ Hd Hsel) as (r' & p' & Hr' & Hp' & Hrs & Hc').
    assert (r' = r) as -> by congruence. assert (p' = p) as -> by (eapply (choice_unique pd start disj); eauto). rewrite <- Hrs, He. exact Hcl0.
Qed.
Lemma fails_terminal w e text stk rest : named e (tm w) -> fails e text stk rest ->
  quiet stk /\ exists k, k < length w /\ text = take k w ++ rest /\ w !! k <> head rest.
Proof.
  intros He Hf. inversion Hf as [? r ? Hr Hn|? s k ? Ht Hk Hne|? r p ? es subs mid e' stk' after ? Hr]; subst.
  - exfalso. destruct (wfr e) as [y Hy]; [exists r; exact Hr|]. unfold tm in He. congruence.
  - unfold is_terminal in Ht. assert (s = w) as -> by (unfold tm in He; congruence). split; [constructor|]. eauto.
  - exfalso. destruct (wfr e) as [y Hy]; [exists r; exact Hr|]. unfold tm in He. congruence.
Qed.
Lemma pred_inv x alts A text pt mid : named A (nt x) -> assoc x = Some alts -> pred A text pt mid ->
  exists alt es subs, alt ∈ alts /\ called pd alt es /\ pt = PNode A subs /\ preds es text subs mid /\ (alt = [] -> fol A (look text)).
Proof.
  intros HA Hx Hp. inversion Hp as [? ? ? Ht|? r p ? subs ? Hr Hpp Hc Hs]; subst.
  - unfold is_terminal in Ht. unfold nt in HA. congruence.
  - assert (alternative pd A (right_side p)) as Ha by (exists r, p; auto). destruct (alt_elim _ _ _ _ HA Hx Ha) as (alt & Hin & Hcl).
    exists alt, (right_side p), subs. do 4 (split; [assumption || reflexivity|]). intros ->. inversion Hcl as [E|].
    destruct p as [els|]; simpl in *; [subst els; exfalso; exact (proj1 (con_defined pd start Hcon) _ _ _ Hr Hpp eq_refl)|]. apply FOLLOW_fol. exact Hc.
Qed.

(** *** trees *)
Definition has_tree (x w : str) : Prop := exists A subs, named A (nt x) /\ derivation pd (PNode A subs) /\ yield pd (PNode A subs) = w.
Lemma grows_tree x w E : grows pd opof m lo x w E -> has_tree x w.
Proof.
  intros (pt & P1 & P2 & P3 & _). destruct pt as [t|A subs]; [|exists A, subs; auto].
  inversion P2 as [? s Ht|]; subst. simpl in P1. unfold is_terminal in Ht. unfold nt in P1. congruence.
Qed.
Lemma tree_selects x A c w text : named A (nt x) -> has_tree x (c :: w) -> exists subs,
  derivation pd (PNode A subs) /\ yield pd (PNode A subs) = c :: w /\ selects A subs (look (c :: text)).
Proof.
  intros HA (B & subs & HB & Hd & Hy). assert (B = A) as -> by (eapply Hu; eauto). exists subs. split; [assumption|]. split; [assumption|].
  left. eauto.
Qed.

(** *** what can follow *)
Lemma tree_nul x : has_tree x [] -> forall e, named e (nt x) -> nul pd e.
Proof. intros (A & subs & HA & Hd & Hy) e He. assert (A = e) as -> by (eapply Hu; eauto). exact (empty_nul pd _ Hd Hy). Qed.
Lemma fol_up x alts u y v A z : assoc x = Some alts -> u ++ y :: v ∈ alts -> named A y -> Forall (fun n => forall e, named e n -> nul pd e) v ->
  (forall B, named B (nt x) -> fol B z) -> fol A z.
Proof.
  intros Hx Hin HA Hv HB. destruct (alt_intro x alts _ Hx Hin) as (B & w & HBn & Ha & Hc). unfold called in Hc.
  apply Forall2_app_inv_l in Hc as (w1 & w' & _ & H2 & ->). inversion H2 as [|? A' ? w2 HA' H3]; subst.
  assert (A' = A) as -> by (eapply Hu; eauto). eapply fol_prop; [exact Ha| |auto]. clear -Hv H3.
  induction H3 as [|n e v w Hn _ IH]; [constructor|]. apply Forall_cons in Hv as [Hv1 Hv]. constructor; [auto|auto].
Qed.
Lemma fol_here x alts u y z v A c w : assoc x = Some alts -> u ++ y :: nt z :: v ∈ alts -> named A y -> has_tree z (c :: w) -> fol A (MChar c).
Proof.
  intros Hx Hin HA (C & subs & HC & Hd & Hy). destruct (alt_intro x alts _ Hx Hin) as (B & ws & HBn & Ha & Hc). unfold called in Hc.
  apply Forall2_app_inv_l in Hc as (w1 & w' & _ & H2 & ->). inversion H2 as [|? A' ? w2 HA' H3]; subst. inversion H3 as [|? C' ? w3 HC' H4]; subst.
  assert (A' = A) as -> by (eapply Hu; eauto). assert (C' = C) as -> by (eapply Hu; eauto).
  eapply fol_first; [exact Ha|]. apply fsts_cons. left. exact (yield_fst pd (PNode C subs) Hd _ _ Hy).
Qed.
Lemma tree_empty x alts : assoc x = Some alts -> [] ∈ alts -> has_tree x [].
Proof. intros Hx Ha. exact (grows_tree _ _ _ (grows_empty pd ins opof Hm Hu Hops m lo x alts Hx Ha)). Qed.
Lemma tree_program l w : program l w -> (Z.of_nat (length w) < 2 ^ 63)%Z -> has_tree (lit "start") w.
Proof. intros Hp Hl. exact (grows_tree _ _ _ (grows_program pd ins opof Hm Hu Hops m lo Hlo l w Hp Hl)). Qed.
Lemma tree_terms_s l : Forall good_item l -> Forall fits_len l -> has_tree (lit "terms_s") (spaced l).
Proof. intros H1 H2. exact (grows_tree _ _ _ (grows_terms_s pd ins opof Hm Hu Hops m lo Hlo l H1 H2)). Qed.
Lemma tree_term i : good_item i -> fits_len i -> has_tree (lit "term") (item_text i).
Proof. intros H1 H2. exact (grows_tree _ _ _ (grows_term pd ins opof Hm Hu Hops m lo Hlo i H1 H2)). Qed.
Definition ends_item (x : SetMember) : Prop := x = MTerminate \/ x = MChar 32%N.
Lemma fol_tail x A : x ∈ [lit "start"; lit "terms"; lit "terms_s"] -> named A (nt x) -> fol A MTerminate.
Proof.
  intros Hx HA.
  assert (forall B, named B (nt (lit "start")) -> fol B MTerminate) as H0 by (intros B HB; assert (B = start) as -> by (eapply Hu; eauto); constructor).
  assert (forall B, named B (nt (lit "terms")) -> fol B MTerminate) as H1.
  { intros B HB. eapply (fol_up (lit "start") _ [] _ [] B MTerminate); [vm_compute; reflexivity|left|exact HB|constructor|exact H0]. }
  repeat (apply elem_of_cons in Hx as [->|Hx]; [|]); [exact (H0 A HA)|exact (H1 A HA)| |apply elem_of_nil in Hx; contradiction].
  eapply (fol_up (lit "terms") _ [nt (lit "term")] _ [] A MTerminate); [vm_compute; reflexivity|left|exact HA|constructor|exact H1].
Qed.
Lemma fol_term_pos A x : named A (nt (lit "term")) -> ends_item x -> fol A x.
Proof.
  intros HA [->| ->].
  - eapply (fol_up (lit "terms") _ [] _ [nt (lit "terms_s")] A); [vm_compute; reflexivity|left|exact HA| |intros B HB; eapply (fol_tail (lit "terms")); [right; left|exact HB]].
    constructor; [|constructor]. apply tree_nul. eapply tree_empty; [vm_compute; reflexivity|right; left].
  - eapply (fol_here (lit "terms") _ [] _ (lit "terms_s") [] A); [vm_compute; reflexivity|left|exact HA|].
    apply (tree_terms_s [Plus]); [constructor; [exact Logic.I|constructor]|constructor; [exact Logic.I|constructor]].
Qed.
Lemma fol_number_s_pos A x : named A (nt (lit "number_s")) -> ends_item x -> fol A x.
Proof.
  intros HA Hx.
  assert (forall B, named B (nt (lit "number")) -> fol B x) as H1.
  { intros B HB. eapply (fol_up (lit "term") _ [] _ [] B x); [vm_compute; reflexivity|right; right; left|exact HB|constructor|intros C HC; exact (fol_term_pos C x HC Hx)]. }
  eapply (fol_up (lit "number") _ [nt (lit "digit")] _ [] A x); [vm_compute; reflexivity|left|exact HA|constructor|exact H1].
Qed.
Lemma fol_digit_pos A : named A (nt (lit "digit")) -> fol A MTerminate.
Proof.
  intros HA.
  assert (forall B, named B (nt (lit "number")) -> fol B MTerminate) as H1.
  { intros B HB. eapply (fol_up (lit "term") _ [] _ [] B MTerminate); [vm_compute; reflexivity|right; right; left|exact HB|constructor|intros C HC; apply (fol_term_pos C _ HC); left; reflexivity]. }
  eapply (fol_up (lit "number") _ [] _ [nt (lit "number_s")] A MTerminate); [vm_compute; reflexivity|left|exact HA| |exact H1].
  constructor; [|constructor]. apply tree_nul. eapply tree_empty; [vm_compute; reflexivity|right; left].
Qed.

(** and what can not *)
Lemma not_alternative e w w' : named e (tm w) -> ~ alternative pd e w'.
Proof. intros He (r & p & Hr & _). destruct (wfr e) as [y Hy]; [exists r; exact Hr|]. unfold tm in He. congruence. Qed.
Lemma whitespace_alt A w : named A (nt (lit "whitespace")) -> alternative pd A w -> exists e, w = [e] /\ named e (tm (lit " ")).
Proof.
  intros HA Ha. destruct (alt_elim (lit "whitespace") [[tm (lit " ")]] A w HA ltac:(vm_compute; reflexivity) Ha) as (alt & Hin & Hc).
  apply elem_of_list_singleton in Hin as ->. inversion Hc as [|? e ? ? He Hn]; subst. inversion Hn; subst. eauto.
Qed.
Lemma terms_s_alt A w : named A (nt (lit "terms_s")) -> alternative pd A w -> w = [] \/
  exists e1 e2 e3, w = [e1; e2; e3] /\ named e1 (nt (lit "whitespace")).
Proof.
  intros HA Ha. destruct (alt_elim (lit "terms_s") [[nt (lit "whitespace"); nt (lit "term"); nt (lit "terms_s")]; []] A w HA ltac:(vm_compute; reflexivity) Ha) as (alt & Hin & Hc).
  apply elem_of_cons in Hin as [->|Hin].
  - right. inversion Hc as [|? e1 ? ? He1 Hc1]; subst. inversion Hc1 as [|? e2 ? ? He2 Hc2]; subst. inversion Hc2 as [|? e3 ? ? He3 Hc3]; subst. inversion Hc3; subst. eauto.
  - left. apply elem_of_list_singleton in Hin as ->. inversion Hc. reflexivity.
Qed.
Lemma whitespace_not_nul A : named A (nt (lit "whitespace")) -> ~ nul pd A.
Proof.
  intros HA Hn. inversion Hn as [? Ht|? w Ha Hw]; subst; [unfold is_terminal in Ht; unfold nt in HA; congruence|].
  destruct (whitespace_alt A w HA Ha) as (e & -> & He). inversion Hw as [|? ? He' _]; subst.
  inversion He' as [? Ht|? w Ha' _]; subst; [unfold is_terminal in Ht; unfold tm in He; rewrite He in Ht; discriminate|exact (not_alternative _ _ _ He Ha')].
Qed.
Lemma terms_s_first A c : named A (nt (lit "terms_s")) -> fst_of pd A c -> c = 32%N.
Proof.
  intros HA Hf. inversion Hf as [? ? s Ht|? u e v ? Ha Hn Hf']; subst; [unfold is_terminal in Ht; unfold nt in HA; congruence|].
  destruct (terms_s_alt A _ HA Ha) as [E|(e1 & e2 & e3 & E & He1)]; [destruct u; discriminate|].
  destruct u as [|x u]; injection E as -> E.
  - inversion Hf' as [? ? s Ht|? u e v' ? Ha' Hn' Hf2]; subst; [unfold is_terminal in Ht; unfold nt in He1; congruence|].
    destruct (whitespace_alt _ _ He1 Ha') as (e0 & E' & He). destruct u as [|x u]; [injection E' as -> _|destruct u; discriminate].
    inversion Hf2 as [? ? s Ht|? u e' v2 ? Ha2]; subst; [|exfalso; exact (not_alternative _ _ _ He Ha2)].
    unfold is_terminal in Ht. unfold tm in He. rewrite He in Ht. vm_compute in Ht. congruence.
  - exfalso. inversion Hn; subst. eapply whitespace_not_nul; eauto.
Qed.
Definition inner : list (str * ElementType) := [nt (lit "number_s"); nt (lit "number_s_"); nt (lit "number"); nt (lit "term")].
Fixpoint inner_ok (x : str * ElementType) (alt : list (str * ElementType)) : bool :=
  match alt with
  | [] => true
  | y :: alt' => (negb (bool_decide (y ∈ inner)) || ((bool_decide (alt' = []) && bool_decide (x ∈ inner)) || (bool_decide (alt' = [nt (lit "terms_s")]) && bool_decide (x ∈ tails)))) && inner_ok x alt'
  end.
Lemma math_inner x alts alt : assoc x = Some alts -> alt ∈ alts -> inner_ok (nt x) alt = true.
Proof.
  assert (forallb (fun e : str * list (list (str * ElementType)) => forallb (inner_ok (nt e.1)) e.2) math_rules = true) as Hc by (vm_compute; reflexivity).
  intros Hx Ha. apply assoc_ok in Hx. rewrite forallb_forall in Hc. apply elem_of_list_In, Hc in Hx. rewrite forallb_forall in Hx.
  apply elem_of_list_In, Hx in Ha. exact Ha.
Qed.
Lemma inner_position B u A v y : alternative pd B (u ++ A :: v) -> named A y -> y ∈ inner ->
  (v = [] /\ exists z, named B z /\ z ∈ inner) \/ (exists e, v = [e] /\ named e (nt (lit "terms_s")) /\ is_tail pd B).
Proof.
  intros Ha Hy Ht. apply (alt_names pd ins Hm Hpr Hwf) in Ha as (x & alts & alt & Hx & Has & Hin & Hc). pose proof (math_inner x alts alt Has Hin) as Hl.
  clear Has Hin. revert u Hc Hl. induction alt as [|z alt IH]; intros u Hc Hl; unfold called in Hc; inversion Hc as [|? e ? w Hz Hc' E1 E2]; subst; [destruct u; discriminate|].
  cbn [inner_ok] in Hl. apply andb_prop in Hl as [Hl1 Hl2]. destruct u as [|e' u]; injection E2 as -> ->; [|eapply IH; eauto].
  assert (z = y) as -> by congruence. rewrite (bool_decide_eq_true_2 _ Ht) in Hl1. cbn [negb orb] in Hl1.
  apply orb_prop in Hl1 as [Hl1|Hl1]; apply andb_prop in Hl1 as [H1 H2]; apply bool_decide_eq_true in H1, H2; subst alt.
  - inversion Hc'; subst. left. split; [reflexivity|]. eauto.
  - inversion Hc' as [|? e ? w' He Hn]; subst. inversion Hn; subst. right. exists e. split; [reflexivity|]. split; [exact He|]. exists (nt x). auto.
Qed.
Lemma inner_follow A x y : fol A x -> named A y -> y ∈ inner -> ends_item x.
Proof.
  intros Hf. revert y. induction Hf as [|B u A v c Ha Hf|B u A v x Ha Hn Hf IH]; intros y Hy Hin; [left; reflexivity|..];
    destruct (inner_position _ _ _ _ _ Ha Hy Hin) as [(-> & z & Hz & Hzi)|(e & -> & He & Ht)].
  - exfalso. exact (fsts_nil pd c Hf).
  - right. f_equal. apply fsts_cons in Hf as [Hf|[_ Hf]]; [exact (terms_s_first e c He Hf)|exfalso; exact (fsts_nil pd c Hf)].
  - exact (IH z Hz Hzi).
  - left. exact (tail_follow pd ins Hm Hpr Hwf start B x Hstart Hf Ht).
Qed.

(** *** failures *)
Lemma called_nil w : called pd [] w -> w = []. Proof. intros H. inversion H. reflexivity. Qed.
Lemma preds_nil text subs mid : preds [] text subs mid -> subs = [] /\ mid = text.
Proof. intros H. inversion H; subst. auto. Qed.
Lemma called_one y w : called pd [y] w -> exists e, w = [e] /\ named e y.
Proof. intros H. inversion H as [|? e ? ? He Hn]; subst. inversion Hn; subst. eauto. Qed.
Lemma preds_one e text subs mid : preds [e] text subs mid -> exists pt, subs = [pt] /\ pred e text pt mid.
Proof. intros H. inversion H as [|? ? ? pt mid' pts ? P1 P2]; subst. inversion P2; subst. eauto. Qed.
(** a rule all of whose alternatives are one terminal of one char *)
Lemma fails_single x alts A text stk rest : named A (nt x) -> assoc x = Some alts -> Forall (fun alt => exists d, alt = [tm [d]]) alts ->
  fails A text stk rest -> quiet stk /\ rest = text /\ forall c t, text = c :: t -> [tm [c]] ∉ alts.
Proof.
  intros HA Hx Hall Hf.
  assert (forall c, [tm [c]] ∈ alts -> has_tree x [c]) as Htree.
  { intros c Hc. exact (grows_tree _ _ _ (grows_leaf pd ins opof Hm Hu Hops m lo x alts [c] Hx Hc)). }
  destruct (fails_inv x alts A text stk rest HA Hx Hf) as [(-> & -> & Hno)|(alt1 & y & alt2 & es & e & after & subs & mid & stk' & Hin & -> & Hc & He & Hp & Hf' & Hsel)].
  - split; [constructor|]. split; [reflexivity|]. intros c t -> Hc. destruct (tree_selects x A c [] t HA (Htree c Hc)) as (subs & Hd & _ & Hs). exact (Hno subs Hd Hs).
  - rewrite Forall_forall in Hall. destruct (Hall _ Hin) as [d Hd]. destruct alt1 as [|y1 alt1]; [|destruct alt1; discriminate]. injection Hd as -> ->.
    apply called_nil in Hc as ->. apply preds_nil in Hp as [-> ->]. destruct (fails_terminal [d] e text stk' rest He Hf') as (Hq & k & Hk & -> & Hne).
    cbn [length] in Hk. assert (k = 0) as -> by lia. cbn [take app]. split; [constructor; assumption|]. split; [reflexivity|].
    intros c t -> Hct. apply Hne. destruct (tree_selects x A c [] t HA (Htree c Hct)) as (subs & Hd & Hy & Hs). specialize (Hsel subs Hd Hs). cbn [app] in Hsel.
    apply called_one in Hsel as (e' & E & He'). destruct subs as [|pt [|]]; try discriminate. injection E as E.
    inversion Hd as [|? ? _ Hds]; subst. apply Forall_cons in Hds as [Hds _]. pose proof (terminal_yield pd Hwf pt [d] He' Hds) as Hy'. simpl in Hy. rewrite Hy', app_nil_r in Hy. injection Hy as ->. reflexivity.
Qed.
Ltac singles := repeat (apply Forall_cons; split; [eexists; reflexivity|]); apply Forall_nil; exact Logic.I.
Lemma fails_digit A text stk rest : named A (nt (lit "digit")) -> fails A text stk rest ->
  quiet stk /\ rest = text /\ not_starting digit_char text.
Proof.
  intros HA Hf. destruct (fails_single (lit "digit") (default [] (assoc (lit "digit"))) A text stk rest HA ltac:(vm_compute; reflexivity) ltac:(vm_compute; singles) Hf) as (H1 & H2 & H3).
  split; [assumption|]. split; [assumption|]. destruct text as [|c t]; [exact Logic.I|]. intros Hc. exact (H3 c t eq_refl (digit_alt c Hc)).
Qed.
Lemma fails_plus A text stk rest : named A (nt (lit "add")) -> fails A text stk rest ->
  quiet stk /\ rest = text /\ not_starting (fun c => [c] = lit "+") text.
Proof.
  intros HA Hf. destruct (fails_single (lit "add") (default [] (assoc (lit "add"))) A text stk rest HA ltac:(vm_compute; reflexivity) ltac:(vm_compute; singles) Hf) as (H1 & H2 & H3).
  split; [assumption|]. split; [assumption|]. destruct text as [|c t]; [exact Logic.I|]. intros Hc. apply (H3 c t eq_refl). rewrite Hc. left.
Qed.
Lemma fails_minus A text stk rest : named A (nt (lit "sub")) -> fails A text stk rest ->
  quiet stk /\ rest = text /\ not_starting (fun c => [c] = lit "-") text.
Proof.
  intros HA Hf. destruct (fails_single (lit "sub") (default [] (assoc (lit "sub"))) A text stk rest HA ltac:(vm_compute; reflexivity) ltac:(vm_compute; singles) Hf) as (H1 & H2 & H3).
  split; [assumption|]. split; [assumption|]. destruct text as [|c t]; [exact Logic.I|]. intros Hc. apply (H3 c t eq_refl). rewrite Hc. left.
Qed.
Lemma fails_space A text stk rest : named A (nt (lit "whitespace")) -> fails A text stk rest ->
  quiet stk /\ rest = text /\ not_starting (fun c => [c] = lit " ") text.
Proof.
  intros HA Hf. destruct (fails_single (lit "whitespace") (default [] (assoc (lit "whitespace"))) A text stk rest HA ltac:(vm_compute; reflexivity) ltac:(vm_compute; singles) Hf) as (H1 & H2 & H3).
  split; [assumption|]. split; [assumption|]. destruct text as [|c t]; [exact Logic.I|]. intros Hc. apply (H3 c t eq_refl). rewrite Hc. left.
Qed.
Lemma fails_print A text stk rest : named A (nt (lit "print")) -> fails A text stk rest ->
  quiet stk /\ exists k, k < 5 /\ text = take k (lit "print") ++ rest /\ lit "print" !! k <> head rest.
Proof.
  intros HA Hf. destruct (fails_inv (lit "print") [[tm (lit "print")]] A text stk rest HA ltac:(vm_compute; reflexivity) Hf)
    as [(-> & -> & Hno)|(alt1 & y & alt2 & es & e & after & subs & mid & stk' & Hin & -> & Hc & He & Hp & Hf' & Hsel)].
  - split; [constructor|]. exists 0. split; [lia|]. split; [reflexivity|]. intros E. destruct text as [|c t]; [discriminate|]. change (lit "print" !! 0) with (Some 112%N) in E. injection E as <-.
    destruct (tree_selects (lit "print") A 112%N (lit "rint") t HA) as (subs & Hd & _ & Hs).
    { exact (grows_tree _ _ _ (grows_leaf pd ins opof Hm Hu Hops m lo (lit "print") [[tm (lit "print")]] (lit "print") ltac:(vm_compute; reflexivity) ltac:(left))). }
    exact (Hno subs Hd Hs).
  - apply elem_of_list_singleton in Hin. destruct alt1 as [|y1 alt1]; [|destruct alt1; discriminate]. injection Hin as -> ->.
    apply called_nil in Hc as ->. apply preds_nil in Hp as [-> ->]. destruct (fails_terminal _ e text stk' rest He Hf') as (Hq & k & Hk & -> & Hne).
    split; [constructor; assumption|]. exists k. auto.
Qed.

(** the digits *)
Lemma unique_tree pt pt' x : derivation pd pt -> derivation pd pt' -> root pt = root pt' -> yield pd pt = yield pd pt' -> fol (root pt) x -> pt = pt'.
Proof.
  intros Hd Hd' Hr Hy Hx. assert (exists rest, look rest = x) as [rest <-] by (destruct x as [c|]; [exists [c]|exists []]; reflexivity).
  pose proof (complete pd start Hwf Hcon pt Hd rest (fun _ => Hx)) as C1. rewrite Hr in Hx. pose proof (complete pd start Hwf Hcon pt' Hd' rest (fun _ => Hx)) as C2.
  rewrite <- Hr, <- Hy in C2. exact (proj1 (proj1 (pred_deterministic pd start disj wfr) _ _ _ _ C1 _ _ C2)).
Qed.
Lemma pred_digit A text pt mid : named A (nt (lit "digit")) -> pred A text pt mid ->
  exists c, digit_char c /\ text = c :: mid /\ forall s, TR pt s (Some (stacked s (1%Z :: digit c :: stack s))).
Proof.
  intros HA Hp. apply pred_sound in Hp as (Hd & Hr & ->). assert (named (root pt) (nt (lit "digit"))) as Hn by (rewrite Hr; exact HA).
  destruct (digit_yield pd ins Hm Hpr Hwf pt Hn Hd) as (c & Hc & Hy). exists c. split; [assumption|]. rewrite Hy. split; [reflexivity|].
  destruct (grows_digit pd ins opof Hm Hu Hops m lo Hlo c Hc) as (pt' & P1 & P2 & P3 & P4).
  assert (pt = pt') as ->; [|intros s; apply P4; reflexivity].
  apply (unique_tree pt pt' MTerminate Hd P2); [eapply Hu; eauto|congruence|]. apply fol_digit_pos. exact Hn.
Qed.
Definition stops_number (rest : str) : Prop := exists c t, rest = c :: t /\ ~ digit_char c /\ [c] <> lit " ".
Lemma fails_number_s n : forall A text stk rest, length text < n -> (Z.of_nat (length text) < 2 ^ 63)%Z -> named A (nt (lit "number_s")) -> fails A text stk rest ->
  exists ds, Forall digit_char ds /\ text = ds ++ rest /\ stops_number rest /\ forall s, SR stk s (Some (unfinished ds s)).
Proof.
  induction n as [|n IH]; intros A text stk rest Hn Hlen HA Hf; [lia|].
  assert (forall c, digit_char c -> has_tree (lit "number_s") [c]) as Htree.
  { intros c Hc. exact (grows_tree _ _ _ (grows_number_s pd ins opof Hm Hu Hops m lo Hlo [c] ltac:(constructor; [assumption|constructor]) c Hc ltac:(simpl; lia))). }
  assert (exists subs, derivation pd (PNode A subs) /\ yield pd (PNode A subs) = [] /\ forall x, ends_item x -> selects A subs x) as (subs0 & Hd0 & Hy0 & Hs0).
  { destruct (tree_empty (lit "number_s") [[nt (lit "number_s_")]; []]) as (A' & subs & HA' & Hd & Hy); [vm_compute; reflexivity|right; left|].
    assert (A' = A) as -> by (eapply Hu; eauto). exists subs. split; [assumption|]. split; [assumption|]. intros x Hx. right. split; [assumption|].
    apply fol_number_s_pos; assumption. }
  destruct (fails_inv (lit "number_s") [[nt (lit "number_s_")]; []] A text stk rest HA ltac:(vm_compute; reflexivity) Hf)
    as [(-> & -> & Hno)|(alt1 & y & alt2 & es & e & after & subs & mid & stk' & Hin & -> & Hc & He & Hp & Hf' & Hsel)].
  - exists []. split; [constructor|]. split; [reflexivity|]. split; [|intros s; constructor].
    destruct text as [|c t]; [exfalso; apply (Hno subs0 Hd0), Hs0; left; reflexivity|]. exists c, t. split; [reflexivity|]. split.
    + intros Hc. destruct (tree_selects (lit "number_s") A c [] t HA (Htree c Hc)) as (subs & Hd & _ & Hs). exact (Hno subs Hd Hs).
    + intros Hc. injection Hc as ->. apply (Hno subs0 Hd0), Hs0. right. reflexivity.
  - assert (~ ends_item (look text)) as Hni.
    { intros Hx. specialize (Hsel subs0 Hd0 (Hs0 _ Hx)). destruct subs0 as [|p0 subs0]; [inversion Hsel as [E|]; destruct alt1; discriminate|].
      inversion Hd0 as [|? ? Ha0 _]; subst. destruct (alt_elim (lit "number_s") [[nt (lit "number_s_")]; []] A _ HA ltac:(vm_compute; reflexivity) Ha0) as (alt & Halt & Hcl).
      apply elem_of_cons in Halt as [->|Halt]; [|apply elem_of_list_singleton in Halt as ->; inversion Hcl].
      apply called_one in Hcl as (e1 & E1 & He1). destruct subs0; [|discriminate]. injection E1 as E1.
      simpl in Hy0. rewrite app_nil_r in Hy0. inversion Hd0 as [|? ? _ Hds]; subst. apply Forall_cons in Hds as [Hds _].
      destruct (node_elim pd ins Hm Hpr (lit "number_s_") p0 He1 Hds) as (B & subsB & altsB & altB & -> & HasB & HinB & HfB & HsB).
      vm_compute in HasB. injection HasB as <-. apply elem_of_list_singleton in HinB as ->. inversion HfB as [|? q1 ? qs Hq1 Hqs]; subst.
      apply Forall_cons in HsB as [HsB _]. destruct (digit_yield pd ins Hm Hpr Hwf q1 Hq1 HsB) as (c & _ & Hyc). simpl in Hy0. rewrite Hyc in Hy0. discriminate. }
    apply elem_of_cons in Hin as [Hin|Hin]; [|apply elem_of_list_singleton in Hin; destruct alt1; discriminate].
    destruct alt1 as [|y1 alt1]; [|destruct alt1; discriminate]. injection Hin as -> ->.
    apply called_nil in Hc as ->. apply preds_nil in Hp as [-> ->]. clear Hsel.
    assert (quiet stk' -> rest = text -> not_starting digit_char text ->
      exists ds, Forall digit_char ds /\ text = ds ++ rest /\ stops_number rest /\ forall s, SR (StuckIn A [] stk' after) s (Some (unfinished ds s))) as Hquiet.
    { intros Hq -> Hns. exists []. split; [constructor|]. split; [reflexivity|]. split; [|intros s; apply quiet_run; constructor; assumption].
      destruct text as [|c t]; [exfalso; apply Hni; left; reflexivity|]. exists c, t. split; [reflexivity|]. split; [exact Hns|]. intros Hc. injection Hc as ->. apply Hni. right. reflexivity. }
    assert (forall c, digit_char c -> has_tree (lit "number_s_") [c]) as Htree'.
    { intros c Hc. destruct (Htree c Hc) as (B & subs & HB & Hd & Hy).
      destruct (node_elim pd ins Hm Hpr (lit "number_s") (PNode B subs) HB Hd) as (B' & subs' & altsB & altB & E & HasB & HinB & HfB & HsB). injection E as -> ->.
      vm_compute in HasB. injection HasB as <-. apply elem_of_cons in HinB as [->|HinB].
      - inversion HfB as [|? q1 ? qs Hq1 Hqs]; subst. inversion Hqs; subst. apply Forall_cons in HsB as [HsB _]. simpl in Hy. rewrite app_nil_r in Hy.
        destruct q1 as [t|C subsC]; [simpl in Hq1; inversion HsB as [? ? Ht|]; subst; unfold is_terminal in Ht; congruence|]. exists C, subsC. auto.
      - apply elem_of_list_singleton in HinB as ->. inversion HfB; subst. discriminate. }
    destruct (fails_inv (lit "number_s_") [[nt (lit "digit"); nt (lit "number_s")]] e text stk' rest He ltac:(vm_compute; reflexivity) Hf')
      as [(-> & -> & Hno)|(alt1 & y & alt2 & es & e2 & after2 & subs & mid & stk2 & Hin & -> & Hc & He2 & Hp & Hf2 & _)].
    + apply Hquiet; [constructor|reflexivity|]. destruct text as [|c t]; [exact Logic.I|]. intros Hc.
      destruct (tree_selects (lit "number_s_") e c [] t He (Htree' c Hc)) as (subs & Hd & _ & Hs). exact (Hno subs Hd Hs).
    + apply elem_of_list_singleton in Hin. destruct alt1 as [|y1 alt1]; injection Hin as E1 Hin.
      * subst y. apply called_nil in Hc as ->. apply preds_nil in Hp as [-> ->]. destruct (fails_digit _ _ _ _ He2 Hf2) as (Hq & E & Hns).
        apply Hquiet; [constructor; assumption|assumption|assumption].
      * subst y1. destruct alt1 as [|y2 alt1]; [|destruct alt1; discriminate]. injection Hin as -> ->.
        apply called_one in Hc as (ed & -> & Hed). apply preds_one in Hp as (pt & -> & Hp).
        destruct (pred_digit _ _ _ _ Hed Hp) as (c & Hc & -> & Htr).
        destruct (IH e2 mid stk2 rest ltac:(simpl in Hn; lia) ltac:(simpl in Hlen; lia) He2 Hf2) as (ds & Hds & -> & Hst & Hsr).
        exists (c :: ds). split; [constructor; assumption|]. split; [reflexivity|]. split; [assumption|]. intros s.
        eapply sr_in; [constructor|]. eapply sr_in; [eapply trs_cons; [apply Htr|constructor]|]. apply Hsr.
Qed.
Definition number_stuck (text : str) (stk : stuck) (rest : str) : Prop :=
  exists ds, ds <> [] /\ Forall digit_char ds /\ text = ds ++ rest /\ stops_number rest /\ forall s, SR stk s (Some (unfinished ds s)).
Lemma number_stuck_in A text stk after rest : number_stuck text stk rest -> number_stuck text (StuckIn A [] stk after) rest.
Proof. intros (ds & H1 & H2 & H3 & H4 & H5). exists ds. do 4 (split; [assumption|]). intros s. eapply sr_in; [constructor|apply H5]. Qed.
Lemma fails_number A text stk rest : (Z.of_nat (length text) < 2 ^ 63)%Z -> named A (nt (lit "number")) -> fails A text stk rest ->
  (quiet stk /\ rest = text /\ not_starting digit_char text) \/ number_stuck text stk rest.
Proof.
  intros Hlen HA Hf.
  destruct (fails_inv (lit "number") [[nt (lit "digit"); nt (lit "number_s")]] A text stk rest HA ltac:(vm_compute; reflexivity) Hf)
    as [(-> & -> & Hno)|(alt1 & y & alt2 & es & e2 & after2 & subs & mid & stk2 & Hin & -> & Hc & He2 & Hp & Hf2 & _)].
  - left. split; [constructor|]. split; [reflexivity|]. destruct text as [|c t]; [exact Logic.I|]. intros Hc.
    destruct (tree_selects (lit "number") A c [] t HA) as (subs & Hd & _ & Hs); [|exact (Hno subs Hd Hs)].
    exact (grows_tree _ _ _ (grows_number pd ins opof Hm Hu Hops m lo Hlo c [] Hc ltac:(constructor) ltac:(simpl; lia))).
  - apply elem_of_list_singleton in Hin. destruct alt1 as [|y1 alt1]; injection Hin as E1 Hin.
    + subst y. apply called_nil in Hc as ->. apply preds_nil in Hp as [-> ->]. destruct (fails_digit _ _ _ _ He2 Hf2) as (Hq & E & Hns).
      left. split; [constructor; assumption|]. auto.
    + subst y1. destruct alt1 as [|y2 alt1]; [|destruct alt1; discriminate]. injection Hin as -> ->.
      apply called_one in Hc as (ed & -> & Hed). apply preds_one in Hp as (pt & -> & Hp).
      destruct (pred_digit _ _ _ _ Hed Hp) as (c & Hc & -> & Htr).
      destruct (fails_number_s _ e2 mid stk2 rest (Nat.lt_succ_diag_r _) ltac:(simpl in Hlen; lia) He2 Hf2) as (ds & Hds & -> & Hst & Hsr).
      right. exists (c :: ds). split; [discriminate|]. split; [constructor; assumption|]. split; [reflexivity|]. split; [assumption|]. intros s.
      eapply sr_in; [eapply trs_cons; [apply Htr|constructor]|]. apply Hsr.
Qed.

(** an item *)
Definition kind_char (y : str * ElementType) (c : char) : Prop :=
  (y = nt (lit "add") -> c = 43%N) /\ (y = nt (lit "sub") -> c = 45%N) /\ (y = nt (lit "number") -> digit_char c) /\ (y = nt (lit "print") -> c = 112%N).
Lemma term_kind y pt c w : named (root pt) y -> derivation pd pt -> yield pd pt = c :: w -> kind_char y c.
Proof.
  intros Hy Hd Hyd.
  assert (forall x z, assoc x = Some [[tm z]] -> y = nt x -> yield pd pt = z) as Hone.
  { intros x z Hx ->. destruct (node_elim pd ins Hm Hpr x pt Hy Hd) as (B & subs & alts & alt & -> & Has & Hin & Hf & Hs).
    assert (alts = [[tm z]]) as -> by congruence. apply elem_of_list_singleton in Hin as ->. inversion Hf as [|? q ? qs Hq Hqs]; subst. inversion Hqs; subst.
    apply Forall_cons in Hs as [Hs _]. simpl. rewrite app_nil_r. exact (terminal_yield pd Hwf q z Hq Hs). }
  split; [|split; [|split]]; intros E.
  - rewrite (Hone (lit "add") (lit "+") ltac:(vm_compute; reflexivity) E) in Hyd. vm_compute in Hyd. congruence.
  - rewrite (Hone (lit "sub") (lit "-") ltac:(vm_compute; reflexivity) E) in Hyd. vm_compute in Hyd. congruence.
  - subst y. destruct (number_yield pd ins Hm Hpr Hwf pt Hy Hd) as [_ Hds]. rewrite Hyd in Hds. apply Forall_cons in Hds as [Hds _]. exact Hds.
  - rewrite (Hone (lit "print") (lit "print") ltac:(vm_compute; reflexivity) E) in Hyd. vm_compute in Hyd. congruence.
Qed.
Definition first_char (c : char) : Prop := digit_char c \/ c = 43%N \/ c = 45%N \/ c = 112%N.
Lemma first_item c : first_char c -> exists i w, good_item i /\ fits_len i /\ item_text i = c :: w /\ (length (item_text i) <= 5)%nat.
Proof.
  intros [Hc|[->|[->| ->]]].
  - exists (Num [c]), []. split; [split; [discriminate|constructor; [assumption|constructor]]|]. split; [simpl; lia|]. split; [reflexivity|simpl; lia].
  - exists Plus, []. split; [exact Logic.I|]. split; [exact Logic.I|]. split; [reflexivity|simpl; lia].
  - exists Minus, []. split; [exact Logic.I|]. split; [exact Logic.I|]. split; [reflexivity|simpl; lia].
  - exists Print, (lit "rint"). split; [exact Logic.I|]. split; [exact Logic.I|]. split; [reflexivity|simpl; lia].
Qed.
Definition item_stuck (text : str) (stk : stuck) (rest : str) : Prop :=
  quiet stk /\ exists k, k < 5 /\ text = take k (lit "print") ++ rest /\ lit "print" !! k <> head rest /\
    (forall c rest', k = 0 -> rest = c :: rest' -> ~ digit_char c /\ [c] <> lit "+" /\ [c] <> lit "-").
Lemma no_first text stk : quiet stk -> not_starting first_char text -> item_stuck text stk text.
Proof.
  intros Hq Hns. split; [assumption|]. exists 0. split; [lia|]. split; [reflexivity|]. split.
  - change (lit "print" !! 0) with (Some 112%N). intros E. destruct text as [|c t]; [discriminate|]. injection E as <-. apply Hns. right. right. right. reflexivity.
  - intros c t _ ->. simpl in Hns. split; [intros Hc; apply Hns; left; assumption|]. split; intros Hc; injection Hc as ->; apply Hns; [right; left; reflexivity|right; right; left; reflexivity].
Qed.
Lemma fails_term A text stk rest : (Z.of_nat (length text) < 2 ^ 63)%Z -> named A (nt (lit "term")) -> fails A text stk rest ->
  item_stuck text stk rest \/ number_stuck text stk rest.
Proof.
  intros Hlen HA Hf.
  assert (forall c t, first_char c -> text = c :: t -> exists subs w, derivation pd (PNode A subs) /\ yield pd (PNode A subs) = c :: w /\ selects A subs (look text)) as Htree.
  { intros c t Hc ->. destruct (first_item c Hc) as (i & w & Hg & Hfl & Hi & _). pose proof (tree_term i Hg Hfl) as Ht. rewrite Hi in Ht.
    destruct (tree_selects (lit "term") A c w t HA Ht) as (subs & H1 & H2 & H3). eauto. }
  destruct (fails_inv (lit "term") [[nt (lit "add")]; [nt (lit "sub")]; [nt (lit "number")]; [nt (lit "print")]] A text stk rest HA ltac:(vm_compute; reflexivity) Hf)
    as [(-> & -> & Hno)|(alt1 & y & alt2 & es & e & after & subs & mid & stk' & Hin & -> & Hc & He & Hp & Hf' & Hsel)].
  - left. apply no_first; [constructor|]. destruct text as [|c t]; [exact Logic.I|]. intros Hc. destruct (Htree c t Hc eq_refl) as (subs & w & Hd & _ & Hs). exact (Hno subs Hd Hs).
  - assert (alt1 = [] /\ alt2 = [] /\ [y] ∈ [[nt (lit "add")]; [nt (lit "sub")]; [nt (lit "number")]; [nt (lit "print")]]) as (-> & -> & Hin').
    { destruct alt1 as [|y1 alt1]; [|exfalso; repeat (apply elem_of_cons in Hin as [Hin|Hin]; [destruct alt1; discriminate|]); apply elem_of_nil in Hin; exact Hin].
      destruct alt2 as [|y2 alt2]; [auto|exfalso; repeat (apply elem_of_cons in Hin as [Hin|Hin]; [discriminate|]); apply elem_of_nil in Hin; exact Hin]. }
    clear Hin. apply called_nil in Hc as ->. apply preds_nil in Hp as [-> ->]. cbn [app] in Hsel.
    assert (forall c t, text = c :: t -> first_char c -> kind_char y c) as Hk.
    { intros c t E Hc. destruct (Htree c t Hc E) as (subs & w & Hd & Hy & Hs). specialize (Hsel subs Hd Hs).
      apply called_one in Hsel as (e' & E' & He'). destruct subs as [|pt [|]]; try discriminate. injection E' as E'.
      inversion Hd as [|? ? _ Hds]; subst. apply Forall_cons in Hds as [Hds _]. simpl in Hy. rewrite app_nil_r in Hy. eapply term_kind; eauto. }
    clear Hsel Htree Hf.
    apply elem_of_cons in Hin' as [E|Hin']; [injection E as ->|apply elem_of_cons in Hin' as [E|Hin']; [injection E as ->|
      apply elem_of_cons in Hin' as [E|Hin']; [injection E as ->|apply elem_of_list_singleton in Hin'; injection Hin' as ->]]].
    + destruct (fails_plus _ _ _ _ He Hf') as (Hq & -> & Hns). left. apply no_first; [constructor; assumption|]. destruct text as [|c t]; [exact Logic.I|].
      intros Hc. apply Hns. destruct (Hk c t eq_refl Hc) as (Hk1 & _). rewrite (Hk1 eq_refl). reflexivity.
    + destruct (fails_minus _ _ _ _ He Hf') as (Hq & -> & Hns). left. apply no_first; [constructor; assumption|]. destruct text as [|c t]; [exact Logic.I|].
      intros Hc. apply Hns. destruct (Hk c t eq_refl Hc) as (_ & Hk1 & _). rewrite (Hk1 eq_refl). reflexivity.
    + destruct (fails_number _ _ _ _ Hlen He Hf') as [(Hq & -> & Hns)|Hnum]; [|right; apply number_stuck_in; exact Hnum].
      left. apply no_first; [constructor; assumption|]. destruct text as [|c t]; [exact Logic.I|].
      intros Hc. apply Hns. destruct (Hk c t eq_refl Hc) as (_ & _ & Hk1 & _). exact (Hk1 eq_refl).
    + destruct (fails_print _ _ _ _ He Hf') as (Hq & k & Hk5 & E & Hne). left. split; [constructor; assumption|]. exists k. split; [assumption|]. split; [assumption|]. split; [assumption|].
      intros c t -> ->. cbn [take app] in E. specialize (Hk c t E). 
      assert (first_char c -> c = 112%N) as Hk1 by (intros Hc; destruct (Hk Hc) as (_ & _ & _ & Hk1); exact (Hk1 eq_refl)).
      split; [|split].
      * intros Hc. specialize (Hk1 (or_introl Hc)). subst c. unfold digit_char in Hc. lia.
      * intros Hc. injection Hc as ->. specialize (Hk1 ltac:(right; left; reflexivity)). discriminate.
      * intros Hc. injection Hc as ->. specialize (Hk1 ltac:(right; right; left; reflexivity)). discriminate.
Qed.

(** completed parts *)
Lemma called_two y1 y2 w : called pd [y1; y2] w -> exists e1 e2, w = [e1; e2] /\ named e1 y1 /\ named e2 y2.
Proof. intros H. inversion H as [|? e ? ? He Hn]; subst. apply called_one in Hn as (e2 & -> & He2). eauto. Qed.
Lemma preds_two e1 e2 text subs mid : preds [e1; e2] text subs mid -> exists pt1 pt2 mid1, subs = [pt1; pt2] /\ pred e1 text pt1 mid1 /\ pred e2 mid1 pt2 mid.
Proof. intros H. inversion H as [|? ? ? pt mid' pts ? P1 P2]; subst. apply preds_one in P2 as (pt2 & -> & P2). eauto 10. Qed.
Lemma pred_number_s_end n : forall A text pt mid, length text < n -> named A (nt (lit "number_s")) -> pred A text pt mid -> ends_item (look mid).
Proof.
  induction n as [|n IH]; intros A text pt mid Hn HA Hp; [lia|].
  destruct (pred_inv (lit "number_s") [[nt (lit "number_s_")]; []] A text pt mid HA ltac:(vm_compute; reflexivity) Hp) as (alt & es & subs & Hin & Hc & -> & Hs & Hf).
  apply elem_of_cons in Hin as [->|Hin].
  - apply called_one in Hc as (e & -> & He). apply preds_one in Hs as (pt & -> & Hs).
    destruct (pred_inv (lit "number_s_") [[nt (lit "digit"); nt (lit "number_s")]] e text pt mid He ltac:(vm_compute; reflexivity) Hs) as (alt & es & subs & Hin & Hc & -> & Hs' & _).
    apply elem_of_list_singleton in Hin as ->. apply called_two in Hc as (e1 & e2 & -> & He1 & He2). apply preds_two in Hs' as (pt1 & pt2 & mid1 & -> & Hp1 & Hp2).
    destruct (pred_digit _ _ _ _ He1 Hp1) as (c & _ & -> & _). eapply (IH e2); [|exact He2|exact Hp2]. simpl in Hn. lia.
  - apply elem_of_list_singleton in Hin as ->. apply called_nil in Hc as ->. apply preds_nil in Hs as [-> ->].
    eapply inner_follow; [exact (Hf eq_refl)|exact HA|left].
Qed.
Lemma pred_number_end A text pt mid : named A (nt (lit "number")) -> pred A text pt mid -> ends_item (look mid).
Proof.
  intros HA Hp.
  destruct (pred_inv (lit "number") [[nt (lit "digit"); nt (lit "number_s")]] A text pt mid HA ltac:(vm_compute; reflexivity) Hp) as (alt & es & subs & Hin & Hc & -> & Hs' & _).
  apply elem_of_list_singleton in Hin as ->. apply called_two in Hc as (e1 & e2 & -> & He1 & He2). apply preds_two in Hs' as (pt1 & pt2 & mid1 & -> & Hp1 & Hp2).
  eapply pred_number_s_end; [apply Nat.lt_succ_diag_r|exact He2|exact Hp2].
Qed.
Lemma pred_term A text pt mid : (Z.of_nat (length text) < 2 ^ 63)%Z -> named A (nt (lit "term")) -> pred A text pt mid ->
  exists i, good_item i /\ text = item_text i ++ mid /\ (forall s r, does m lo i s r -> TR pt s r) /\ (is_number i -> ends_item (look mid)).
Proof.
  intros Hlen HA Hp. pose proof Hp as Hp0. apply pred_sound in Hp0 as (Hd & Hr & Htext).
  assert (named (root pt) (nt (lit "term"))) as Hn by (rewrite Hr; exact HA).
  destruct (term_yield pd ins Hm Hpr Hwf pt Hn Hd) as (i & Hi & Hy). exists i. split; [assumption|].
  rewrite Hy in Htext. split; [assumption|].
  assert (fits_len i) as Hfit by (destruct i as [ds| | |]; try exact Logic.I; simpl in *; subst text; rewrite app_length in Hlen; lia).
  split.
  - destruct (grows_term pd ins opof Hm Hu Hops m lo Hlo i Hi Hfit) as (pt' & P1 & P2 & P3 & P4).
    assert (pt = pt') as ->; [|exact P4].
    apply (unique_tree pt pt' MTerminate Hd P2); [eapply Hu; eauto|congruence|]. apply fol_term_pos; [exact Hn|left; reflexivity].
  - intros Hnum. destruct i as [ds| | |]; try contradiction. destruct Hi as [Hne Hds]. simpl in Hy, Htext.
    destruct (pred_inv (lit "term") [[nt (lit "add")]; [nt (lit "sub")]; [nt (lit "number")]; [nt (lit "print")]] A text pt mid HA ltac:(vm_compute; reflexivity) Hp)
      as (alt & es & subs & Hin & Hc & -> & Hs & _).
    destruct ds as [|d ds]; [congruence|]. apply Forall_cons in Hds as [Hdd _].
    assert (exists y, alt = [y] /\ y ∈ [nt (lit "add"); nt (lit "sub"); nt (lit "number"); nt (lit "print")]) as (y & -> & Hyin).
    { repeat (apply elem_of_cons in Hin as [->|Hin]; [eexists; split; [reflexivity|]|]); [left|right; left|right; right; left|right; right; right; left|].
      apply elem_of_nil in Hin; contradiction. }
    apply called_one in Hc as (e & -> & He). apply preds_one in Hs as (q & -> & Hs). pose proof Hs as Hs0. apply pred_sound in Hs0 as (Hdq & Hrq & _).
    assert (yield pd q = d :: ds) as Hyq by (simpl in Hy; rewrite app_nil_r in Hy; exact Hy).
    assert (named (root q) y) as Hnq by (rewrite Hrq; exact He).
    destruct (term_kind y q d ds Hnq Hdq Hyq) as (K1 & K2 & _ & K4).
    apply elem_of_cons in Hyin as [->|Hyin]; [specialize (K1 eq_refl); subst d; unfold digit_char in Hdd; lia|].
    apply elem_of_cons in Hyin as [->|Hyin]; [specialize (K2 eq_refl); subst d; unfold digit_char in Hdd; lia|].
    apply elem_of_cons in Hyin as [->|Hyin]; [|apply elem_of_list_singleton in Hyin as ->; specialize (K4 eq_refl); subst d; unfold digit_char in Hdd; lia].
    exact (pred_number_end e text q mid He Hs).
Qed.
Lemma pred_space A text pt mid : named A (nt (lit "whitespace")) -> pred A text pt mid -> text = lit " " ++ mid /\ forall s, TR pt s (Some s).
Proof.
  intros HA Hp. pose proof Hp as Hp0. apply pred_sound in Hp0 as (Hd & Hr & Htext).
  destruct (pred_inv (lit "whitespace") [[tm (lit " ")]] A text pt mid HA ltac:(vm_compute; reflexivity) Hp) as (alt & es & subs & Hin & Hc & -> & Hs & _).
  apply elem_of_list_singleton in Hin as ->. apply called_one in Hc as (e & -> & He). apply preds_one in Hs as (q & -> & Hs).
  apply pred_sound in Hs as (Hdq & Hrq & Ht). assert (named (root q) (tm (lit " "))) as Hnq by (rewrite Hrq; exact He).
  rewrite (terminal_yield pd Hwf q _ Hnq Hdq) in Ht. split; [exact Ht|].
  destruct (grows_space pd ins opof Hm Hu Hops m lo) as (pt' & P1 & P2 & P3 & P4).
  intros s. specialize (P4 s _ eq_refl). destruct (node_elim pd ins Hm Hpr (lit "whitespace") pt' P1 P2) as (B & subs & alts & alt & -> & Has & Hin & Hf & Hs').
  vm_compute in Has. injection Has as <-. apply elem_of_list_singleton in Hin as ->. inversion Hf as [|? q' ? qs Hq' Hqs]; subst. inversion Hqs; subst.
  apply Forall_cons in Hs' as [Hs' _]. simpl in P1. assert (B = A) as -> by (eapply Hu; eauto).
  assert (q = q') as ->; [|exact P4].
  inversion Hdq as [t1 ? T1|C1 ? (r1 & p1 & Hr1 & _) _]; subst; [|exfalso; destruct (wfr C1) as [y1 Hy1]; [exists r1; exact Hr1|]; simpl in Hnq; unfold tm in Hnq; congruence].
  inversion Hs' as [t2 ? T2|C2 ? (r2 & p2 & Hr2 & _) _]; subst; [|exfalso; destruct (wfr C2) as [y2 Hy2]; [exists r2; exact Hr2|]; simpl in Hq'; unfold tm in Hq'; congruence].
  f_equal. eapply Hu; [exact Hnq|exact Hq'].
Qed.

(** behind an item *)
Inductive tail_broken : list item -> str -> str -> str -> Prop :=
| tb_here c rest : [c] <> lit " " -> tail_broken [] [] [] (c :: rest)
| tb_more l ds read rest : broken l ds read rest -> tail_broken l ds (lit " " ++ read) rest.
Lemma item_broken i l ds read rest : good_item i -> (is_number i -> ends_item (look (read ++ rest))) -> tail_broken l ds read rest ->
  broken (i :: l) ds (item_text i ++ read) rest.
Proof.
  intros Hi Hnum Ht. inversion Ht as [c rest' Hc|? ? read' ? Hb]; subst.
  - rewrite app_nil_r. apply (br_after [] i c rest'); [constructor|assumption| |assumption]. intros Hn. destruct (Hnum Hn) as [E|E]; [discriminate|].
    simpl in E. injection E as ->. apply Hc. reflexivity.
  - assert (forall l, each_spaced (i :: l) = item_text i ++ lit " " ++ each_spaced l) as He.
    { intros l0. unfold each_spaced. cbn [map concat]. rewrite <- !app_assoc. reflexivity. }
    inversion Hb as [l0 k rest0 Hl Hk Hne Hf|l0 ds0 c rest0 Hl Hne Hds Hc1 Hc2|l0 j c rest0 Hl Hj Hjn Hc]; subst.
    + pose proof (br_item (i :: l) k rest ltac:(constructor; assumption) Hk Hne Hf) as R. rewrite He, <- !app_assoc in R. exact R.
    + pose proof (br_number (i :: l) ds c rest0 ltac:(constructor; assumption) Hne Hds Hc1 Hc2) as R. rewrite He, <- !app_assoc in R. exact R.
    + pose proof (br_after (i :: l0) j c rest0 ltac:(constructor; assumption) Hj Hjn Hc) as R. rewrite He, <- !app_assoc in R. exact R.
Qed.
Lemma first_broken text stk rest : item_stuck text stk rest \/ number_stuck text stk rest ->
  exists ds read, text = read ++ rest /\ broken [] ds read rest /\ forall s, SR stk s (Some (unfinished ds s)).
Proof.
  intros [(Hq & k & Hk & -> & Hne & Hf)|(ds & Hne & Hds & -> & (c & t & -> & Hc1 & Hc2) & Hs)].
  - exists [], (take k (lit "print")). split; [reflexivity|]. split; [|intros s; apply quiet_run; assumption].
    exact (br_item [] k rest ltac:(constructor) Hk Hne Hf).
  - exists ds, ds. split; [reflexivity|]. split; [|assumption]. exact (br_number [] ds c t ltac:(constructor) Hne Hds Hc1 Hc2).
Qed.
Lemma fails_terms_s n : forall A text stk rest, length text < n -> (Z.of_nat (length text) < 2 ^ 63)%Z -> named A (nt (lit "terms_s")) -> fails A text stk rest ->
  exists l ds read, tail_broken l ds read rest /\ text = read ++ rest /\ forall s r, does_all m lo l s r -> SR stk s (option_map (unfinished ds) r).
Proof.
  induction n as [|n IH]; intros A text stk rest Hn Hlen HA Hf; [lia|].
  assert (derivation pd (PNode A []) /\ yield pd (PNode A []) = []) as [Hd0 Hy0].
  { destruct (alt_intro (lit "terms_s") [[nt (lit "whitespace"); nt (lit "term"); nt (lit "terms_s")]; []] [] ltac:(vm_compute; reflexivity) ltac:(right; left)) as (B & w & HB & Ha & Hc).
    apply called_nil in Hc as ->. assert (B = A) as -> by (eapply Hu; eauto). split; [|reflexivity]. constructor; [exact Ha|constructor]. }
  assert (text = [] -> selects A [] (look text)) as Hs0.
  { intros ->. right. split; [assumption|]. apply (fol_tail (lit "terms_s")); [right; right; left|exact HA]. }
  destruct (fails_inv (lit "terms_s") [[nt (lit "whitespace"); nt (lit "term"); nt (lit "terms_s")]; []] A text stk rest HA ltac:(vm_compute; reflexivity) Hf)
    as [(-> & -> & Hno)|(alt1 & y & alt2 & es & e & after & subs & mid & stk' & Hin & -> & Hc & He & Hp & Hf' & Hsel)].
  - exists [], [], []. split; [|split; [reflexivity|intros s r Hr; inversion Hr; subst; constructor]].
    destruct text as [|c t]; [exfalso; exact (Hno [] Hd0 (Hs0 eq_refl))|]. constructor. intros Hc. injection Hc as ->.
    destruct (tree_selects (lit "terms_s") A 32%N (lit "+") t HA) as (subs & Hd & _ & Hs); [|exact (Hno subs Hd Hs)].
    apply (tree_terms_s [Plus]); [constructor; [exact Logic.I|constructor]|constructor; [exact Logic.I|constructor]].
  - assert (text <> []) as Hne.
    { intros E. specialize (Hsel [] Hd0 (Hs0 E)). inversion Hsel as [E'|]. destruct alt1; discriminate. }
    clear Hsel. apply elem_of_cons in Hin as [Hin|Hin]; [|apply elem_of_list_singleton in Hin; destruct alt1; discriminate].
    destruct alt1 as [|y1 alt1]; injection Hin as E1 Hin.
    + subst y. apply called_nil in Hc as ->. apply preds_nil in Hp as [-> ->]. destruct (fails_space _ _ _ _ He Hf') as (Hq & -> & Hns).
      exists [], [], []. split; [|split; [reflexivity|intros s r Hr; inversion Hr; subst; apply quiet_run; constructor; assumption]].
      destruct text as [|c t]; [congruence|]. constructor. exact Hns.
    + subst y1. destruct alt1 as [|y2 alt1]; injection Hin as E2 Hin.
      * subst y. apply called_one in Hc as (ew & -> & Hew). apply preds_one in Hp as (pw & -> & Hpw).
        destruct (pred_space _ _ _ _ Hew Hpw) as [-> Htw]. rewrite app_length in Hlen, Hn. simpl in Hlen, Hn.
        destruct (first_broken mid stk' rest (fails_term e mid stk' rest ltac:(lia) He Hf')) as (ds & read & -> & Hb & Hs).
        exists [], ds, (lit " " ++ read). split; [constructor; assumption|]. split; [rewrite <- app_assoc; reflexivity|].
        intros s r Hr. inversion Hr; subst. eapply sr_in; [eapply trs_cons; [apply Htw|constructor]|]. apply Hs.
      * subst y2. destruct alt1 as [|y3 alt1]; [|destruct alt1; discriminate]. injection Hin as -> ->.
        apply called_two in Hc as (ew & et & -> & Hew & Het). apply preds_two in Hp as (pw & pt & mid1 & -> & Hpw & Hpt).
        destruct (pred_space _ _ _ _ Hew Hpw) as [-> Htw]. rewrite app_length in Hlen, Hn. simpl in Hlen, Hn.
        destruct (pred_term et mid1 pt mid ltac:(lia) Het Hpt) as (i & Hi & -> & Hti & Hnum). rewrite app_length in Hlen, Hn.
        destruct (IH e mid stk' rest ltac:(lia) ltac:(lia) He Hf') as (l & ds & read & Htb & -> & Hs).
        exists (i :: l), ds, (lit " " ++ item_text i ++ read). split; [constructor; apply item_broken; assumption|].
        split; [rewrite <- !app_assoc; reflexivity|]. intros s r Hr. inversion Hr as [|? ? ? s1 ? D1 D2|? ? ? D1]; subst.
        -- eapply sr_in; [eapply trs_cons; [apply Htw|eapply trs_cons; [apply Hti; exact D1|constructor]]|]. apply Hs. exact D2.
        -- apply sr_panic. eapply trs_cons; [apply Htw|]. apply trs_panic. apply Hti. exact D1.
Qed.
Definition text_broken (l : list item) (ds text : str) (stk : stuck) (rest : str) : Prop :=
  exists read, broken l ds read rest /\ text = read ++ rest /\ forall s r, does_all m lo l s r -> SR stk s (option_map (unfinished ds) r).
Lemma first_text text stk rest : item_stuck text stk rest \/ number_stuck text stk rest -> exists l ds, text_broken l ds text stk rest.
Proof.
  intros H. destruct (first_broken text stk rest H) as (ds & read & -> & Hb & Hs). exists [], ds, read. split; [assumption|]. split; [reflexivity|].
  intros s r Hr. inversion Hr; subst. apply Hs.
Qed.
Lemma fails_terms A text stk rest : (Z.of_nat (length text) < 2 ^ 63)%Z -> named A (nt (lit "terms")) -> fails A text stk rest ->
  exists l ds, text_broken l ds text stk rest.
Proof.
  intros Hlen HA Hf.
  assert (forall c t, first_char c -> exists subs, derivation pd (PNode A subs) /\ selects A subs (look (c :: t))) as Htree.
  { intros c t Hc. destruct (first_item c Hc) as (i & w & Hg & Hfl & Hi & Hl5).
    destruct (tree_program [i] (item_text i)) as (B & subs & HB & Hd & Hy); [split; [discriminate|split; [constructor; [assumption|constructor]|reflexivity]]|lia|].
    destruct (node_elim pd ins Hm Hpr (lit "start") (PNode B subs) HB Hd) as (B' & subs' & alts & alt & E & Has & Hin & Hfi & Hs). injection E as -> ->.
    vm_compute in Has. injection Has as <-. apply elem_of_list_singleton in Hin as ->. inversion Hfi as [|? q ? qs Hq Hqs]; subst. inversion Hqs; subst.
    apply Forall_cons in Hs as [Hs _]. simpl in Hy. rewrite app_nil_r, Hi in Hy.
    destruct q as [t0|C subsC]; [simpl in Hq; inversion Hs as [? ? Ht|]; subst; unfold is_terminal in Ht; congruence|].
    simpl in Hq. assert (C = A) as -> by (eapply Hu; eauto). exists subsC. split; [assumption|]. left. eauto. }
  destruct (fails_inv (lit "terms") [[nt (lit "term"); nt (lit "terms_s")]] A text stk rest HA ltac:(vm_compute; reflexivity) Hf)
    as [(-> & -> & Hno)|(alt1 & y & alt2 & es & e & after & subs & mid & stk' & Hin & -> & Hc & He & Hp & Hf' & _)].
  - apply first_text. left. apply no_first; [constructor|]. destruct text as [|c t]; [exact Logic.I|]. intros Hc. destruct (Htree c t Hc) as (subs & Hd & Hs). exact (Hno subs Hd Hs).
  - apply elem_of_list_singleton in Hin. destruct alt1 as [|y1 alt1]; injection Hin as E1 Hin.
    + subst y. apply called_nil in Hc as ->. apply preds_nil in Hp as [-> ->].
      destruct (first_text text stk' rest (fails_term e text stk' rest Hlen He Hf')) as (l & ds & read & Hb & -> & Hs).
      exists l, ds, read. split; [assumption|]. split; [reflexivity|]. intros s r Hr. eapply sr_in; [constructor|]. apply Hs. exact Hr.
    + subst y1. destruct alt1 as [|y2 alt1]; [|destruct alt1; discriminate]. injection Hin as -> ->.
      apply called_one in Hc as (et & -> & Het). apply preds_one in Hp as (pt & -> & Hpt).
      destruct (pred_term et text pt mid Hlen Het Hpt) as (i & Hi & -> & Hti & Hnum). rewrite app_length in Hlen.
      destruct (fails_terms_s _ e mid stk' rest (Nat.lt_succ_diag_r _) ltac:(lia) He Hf') as (l & ds & read & Htb & -> & Hs).
      exists (i :: l), ds, (item_text i ++ read). split; [apply item_broken; assumption|].
      split; [rewrite <- !app_assoc; reflexivity|]. intros s r Hr. inversion Hr as [|? ? ? s1 ? D1 D2|? ? ? D1]; subst.
      * eapply sr_in; [eapply trs_cons; [apply Hti; exact D1|constructor]|]. apply Hs. exact D2.
      * apply sr_panic. apply trs_panic. apply Hti. exact D1.
Qed.
Lemma fails_start text stk rest : (Z.of_nat (length text) < 2 ^ 63)%Z -> fails start text stk rest ->
  exists l ds, text_broken l ds text stk rest.
Proof.
  intros Hlen Hf.
  destruct (fails_inv (lit "start") [[nt (lit "terms")]] start text stk rest Hstart ltac:(vm_compute; reflexivity) Hf)
    as [(-> & -> & Hno)|(alt1 & y & alt2 & es & e & after & subs & mid & stk' & Hin & -> & Hc & He & Hp & Hf' & _)].
  - apply first_text. left. apply no_first; [constructor|]. destruct text as [|c t]; [exact Logic.I|]. intros Hc. destruct (first_item c Hc) as (i & w & Hg & Hfl & Hi & Hl5).
    destruct (tree_selects (lit "start") start c w t Hstart) as (subs & Hd & _ & Hs); [|exact (Hno subs Hd Hs)].
    rewrite <- Hi. apply (tree_program [i]); [split; [discriminate|split; [constructor; [assumption|constructor]|reflexivity]]|lia].
  - apply elem_of_list_singleton in Hin. destruct alt1 as [|y1 alt1]; [|destruct alt1; discriminate]. injection Hin as -> ->.
    apply called_nil in Hc as ->. apply preds_nil in Hp as [-> ->].
    destruct (fails_terms e text stk' rest Hlen He Hf') as (l & ds & read & Hb & -> & Hs).
    exists l, ds, read. split; [assumption|]. split; [reflexivity|]. intros s r Hr. eapply sr_in; [constructor|]. apply Hs. exact Hr.
Qed.
End math.
