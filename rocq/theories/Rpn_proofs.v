(** * The calculator examples: derivation trees of programs and their evaluation *)
From Verif Require Import Base Peekables Tree Errors Sets ParserData Vm SimpleStackVm StackVm
  SpecText SpecGrammar SpecTree SpecScript SpecNames SpecMath SpecVm SpecRpn
  Grammar_proofs Tree_proofs Script_proofs Parse_proofs Names_proofs ParseFuncs_proofs Vm_proofs Props_vm.

(** ** sequences of operations, and evaluation along a derivation tree *)
Section evaluation.
Context (m : ovf_mode) (lo : Z).
Inductive ops_run (child : option str) : list op -> mach -> option mach -> Prop :=
| or_nil s : ops_run child [] s (Some s)
| or_cons o l s s1 r : step m lo child o s (Some s1) -> ops_run child l s1 r -> ops_run child (o :: l) s r
| or_panic o l s : step m lo child o s None -> ops_run child (o :: l) s None.
Lemma ops_run_det child l s r : ops_run child l s r -> forall r', ops_run child l s r' -> r = r'.
Proof.
  induction 1 as [s|o l s s1 r H1 _ IH|o l s H1]; intros r' H'; inversion H' as [|? ? ? s1' ? H1' H2'|? ? ? H1']; subst; auto.
  - pose proof (step_det _ _ _ _ _ _ _ H1 H1') as E. injection E as <-. auto.
  - pose proof (step_det _ _ _ _ _ _ _ H1 H1'). discriminate.
  - pose proof (step_det _ _ _ _ _ _ _ H1 H1'). discriminate.
Qed.
Context (lab : ptree -> str) (ops : nat -> list op).
Definition child_label (subs : list ptree) : option str := match subs with [] => None | s :: _ => Some (lab s) end.
Inductive tree_run : ptree -> mach -> option mach -> Prop :=
| tr_leaf t s : tree_run (PLeaf t) s (Some s)
| tr_node A subs s s1 r : trees_run subs s (Some s1) -> ops_run (child_label subs) (ops A) s1 r -> tree_run (PNode A subs) s r
| tr_panic A subs s : trees_run subs s None -> tree_run (PNode A subs) s None
with trees_run : list ptree -> mach -> option mach -> Prop :=
| trs_nil s : trees_run [] s (Some s)
| trs_cons pt pts s s1 r : tree_run pt s (Some s1) -> trees_run pts s1 r -> trees_run (pt :: pts) s r
| trs_panic pt pts s : tree_run pt s None -> trees_run (pt :: pts) s None.
Scheme tree_run_ind' := Minimality for tree_run Sort Prop
  with trees_run_ind' := Minimality for trees_run Sort Prop.
Combined Scheme tree_run_both from tree_run_ind', trees_run_ind'.
Lemma tree_run_det :
  (forall pt s r, tree_run pt s r -> forall r', tree_run pt s r' -> r = r') /\
  (forall pts s r, trees_run pts s r -> forall r', trees_run pts s r' -> r = r').
Proof.
  apply tree_run_both.
  - intros t s r' H'. inversion H'; auto.
  - intros A subs s s1 r _ IH Ho r' H'. inversion H' as [|? ? ? s1' ? Ht' Ho'|? ? ? Ht']; subst.
    + specialize (IH _ Ht'). injection IH as <-. eapply ops_run_det; eauto.
    + specialize (IH _ Ht'). discriminate.
  - intros A subs s _ IH r' H'. inversion H' as [|? ? ? s1' ? Ht' Ho'|? ? ? Ht']; subst; auto. specialize (IH _ Ht'). discriminate.
  - intros s r' H'. inversion H'; auto.
  - intros pt pts s s1 r _ IH1 _ IH2 r' H'. inversion H' as [|? ? ? s1' ? Ht' Ho'|? ? ? Ht']; subst.
    + specialize (IH1 _ Ht'). injection IH1 as <-. auto.
    + specialize (IH1 _ Ht'). discriminate.
  - intros pt pts s _ IH r' H'. inversion H' as [|? ? ? s1' ? Ht' Ho'|? ? ? Ht']; subst; auto. specialize (IH _ Ht'). discriminate.
Qed.
End evaluation.

(** ** the semantic actions are the evaluation along the tree *)
Section actions.
Context (vm : VM) (pd : ParserData (vm_instr vm)) (m : ovf_mode) (lo : Z) (view : vm_state vm -> mach) (opof : vm_instr vm -> op).
Context (Hfol : forall h n i s, grown h -> n < length h ->
  follows lo view m h n (opof i) s (vm_execute vm (snd (do_adds h tree_new)) (id_of n) i s)).
Notation ops A := (map opof (instructions_of pd A)).
Notation lab := (label pd).

Lemma first_child_det h n c c' : first_child h n c -> first_child h n c' -> c = c'.
Proof. unfold first_child. destruct (kids h n); [congruence|]. intros (p & d & H1 & ->) (p' & d' & H2 & ->). congruence. Qed.
Definition agrees (P : option mach -> Prop) (r : outcome Empty_set (vm_state vm)) : Prop :=
  match r with Ok s' => P (Some (view s')) | Panic => P None | _ => False end.
Lemma run_list_agrees child h n : grown h -> n < length h -> first_child h n child -> forall l s,
  agrees (ops_run m lo child (map opof l) (view s)) (run_list (vm := vm) (snd (do_adds h tree_new)) (id_of n) l s).
Proof.
  intros Hg Hn Hc. induction l as [|i l IH]; intros s; [constructor|]. unfold run_list. cbn [ofold map].
  destruct (Hfol h n i s Hg Hn) as (child' & Hc' & Hs). rewrite (first_child_det _ _ _ _ Hc Hc').
  destruct (vm_execute vm _ _ i s) as [[t s1]|[]| |]; cbn [obind]; [|apply or_panic; assumption|contradiction].
  destruct Hs as [_ Hs]. specialize (IH s1). unfold run_list in IH. rewrite (first_child_det _ _ _ _ Hc Hc') in IH.
  destruct (ofold _ s1 l); cbn in *; try contradiction; eapply or_cons; eauto.
Qed.

Lemma kids_prefix (h1 h2 : history str) n : exists l, kids (h1 ++ h2) n = kids h1 n ++ l.
Proof.
  induction h2 as [|[p d] h2 [l IH]] using rev_ind; [exists []; rewrite !app_nil_r; reflexivity|].
  rewrite app_assoc, kids_app, IH, <- app_assoc. eauto.
Qed.
Lemma kids_empty (h : history str) n : grown h -> length h <= S n -> kids h n = [].
Proof.
  intros Hg Hl. destruct (kids h n) as [|i l] eqn:E; [reflexivity|]. exfalso. assert (i ∈ kids h n) as Hi by (rewrite E; left).
  pose proof (kids_lt _ _ _ Hi). pose proof (kids_gt _ _ _ Hg Hi). lia.
Qed.
Lemma tree_history_head n parent pt : exists rest, tree_history pd n parent pt = (parent, lab pt) :: rest.
Proof. destruct pt as [t|A subs]; [eexists; reflexivity|]. rewrite tree_history_node. eexists; reflexivity. Qed.
Lemma first_child_node pre parent A subs : grown (pre ++ tree_history pd (length pre) parent (PNode A subs)) ->
  first_child (pre ++ tree_history pd (length pre) parent (PNode A subs)) (length pre) (child_label lab subs).
Proof.
  rewrite tree_history_node. set (n := length pre). intros Hg. unfold first_child.
  assert (grown (pre ++ [(parent, [])])) as Hg0 by (eapply grown_prefix; rewrite <- app_assoc; exact Hg).
  assert (kids (pre ++ [(parent, [])]) n = []) as Hk0 by (apply kids_empty; [assumption|rewrite app_length; simpl; lia]).
  destruct subs as [|s subs]; cbn [forest_history child_label].
  - rewrite Hk0. reflexivity.
  - destruct (tree_history_head (S n) (Some n) s) as [rest Hr]. rewrite Hr.
    set (tail := rest ++ forest_history pd (S n + nodes_count s) (Some n) subs).
    assert (pre ++ (parent, []) :: ((Some n, lab s) :: rest) ++ forest_history pd (S n + nodes_count s) (Some n) subs
      = ((pre ++ [(parent, [])]) ++ [(Some n, lab s)]) ++ tail) as Heq by (unfold tail; rewrite <- !app_assoc; reflexivity).
    rewrite Heq. destruct (kids_prefix ((pre ++ [(parent, [])]) ++ [(Some n, lab s)]) tail n) as [l ->].
    rewrite kids_app, Hk0. rewrite decide_True by reflexivity. cbn [app].
    exists (Some n), (lab s). split; [|reflexivity]. rewrite lookup_app_l by (rewrite !app_length; simpl; lia).
    rewrite lookup_app_r by lia. rewrite Nat.sub_diag. reflexivity.
Qed.

Notation runs := (run_actions (vm := vm) pd).
Lemma agrees_bind (P Q : option mach -> Prop) o (k : vm_state vm -> outcome Empty_set (vm_state vm)) :
  agrees P o -> (forall s, o = Ok s -> P (Some (view s)) -> agrees Q (k s)) -> (P None -> Q None) -> agrees Q (let* s := o in k s).
Proof. destruct o; simpl; intros; auto. Qed.
Definition forest_ok (subs : list ptree) := forall pre parent s, grown (pre ++ forest_history pd (length pre) parent subs) ->
  agrees (trees_run m lo lab (fun A => ops A) subs (view s)) (runs (pre ++ forest_history pd (length pre) parent subs) (forest_post (length pre) subs) s).
Definition tree_ok (pt : ptree) := forall pre parent s, grown (pre ++ tree_history pd (length pre) parent pt) ->
  agrees (tree_run m lo lab (fun A => ops A) pt (view s)) (runs (pre ++ tree_history pd (length pre) parent pt) (post_order (length pre) pt) s).
Lemma forest_from_trees subs : Forall tree_ok subs -> forest_ok subs.
Proof.
  induction 1 as [|pt subs Ht _ IH]; intros pre parent s Hg; [constructor|]. cbn [forest_history forest_post] in *.
  rewrite runs_app. rewrite app_assoc in Hg |- *.
  assert (length (pre ++ tree_history pd (length pre) parent pt) = length pre + nodes_count pt) as Hl by (rewrite app_length, tree_history_length; reflexivity).
  eapply agrees_bind.
  - rewrite runs_prefix.
    + apply Ht. eapply grown_prefix. exact Hg.
    + rewrite Hl. eapply within_le, post_within.
  - intros s1 _ H1. rewrite <- Hl in Hg |- *. specialize (IH (pre ++ tree_history pd (length pre) parent pt) parent s1 Hg).
    destruct (runs _ _ s1); simpl in *; try contradiction; eapply trs_cons; eauto.
  - intros H1. apply trs_panic. assumption.
Qed.
Lemma trees_actions pt : tree_ok pt.
Proof.
  induction pt as [t|A subs IH] using ptree_rect'; intros pre parent s Hg; [constructor|].
  pose proof (first_child_node _ _ _ _ Hg) as Hc. pose proof (forest_from_trees _ IH) as Hf. clear IH.
  rewrite post_order_node, runs_app. set (h := pre ++ tree_history pd (length pre) parent (PNode A subs)) in *.
  assert (h = (pre ++ [(parent, [])]) ++ forest_history pd (length (pre ++ [(parent, [])])) (Some (length pre)) subs) as Hh.
  { unfold h. rewrite tree_history_node, <- app_assoc, app_length. simpl. rewrite Nat.add_1_r. reflexivity. }
  assert (length h = length pre + S (forest_count subs)) as Hl by (unfold h; rewrite app_length, tree_history_length; reflexivity).
  eapply agrees_bind.
  - specialize (Hf (pre ++ [(parent, [])]) (Some (length pre)) s). rewrite <- Hh in Hf. rewrite app_length, Nat.add_1_r in Hf. apply Hf. exact Hg.
  - intros s1 _ H1. unfold run_actions. cbn [ofold]. rewrite firstn_all2 by lia.
    pose proof (run_list_agrees _ h (length pre) Hg ltac:(lia) Hc (instructions_of pd A) s1) as Hr.
    destruct (run_list _ _ _ s1); simpl in *; try contradiction; eapply tr_node; eauto.
  - intros H1. apply tr_panic. assumption.
Qed.
Lemma whole_tree_actions pt s : 
  agrees (tree_run m lo lab (fun A => ops A) pt (view s)) (runs (tree_history pd 0 None pt) (post_order 0 pt) s).
Proof.
  apply (trees_actions pt [] None s). apply (grown_tree pd [] None pt); [intros i p d Hi; destruct i; discriminate|discriminate].
Qed.
End actions.

(** ** derivation trees of the calculator grammar, by name *)
Definition math_ops (x : str) : list op :=
  if decide (x = lit "print") then [OPopReg; OPrintReg]
  else if decide (x = lit "add") then [OPopReg; OAdd]
  else if decide (x = lit "sub") then [OPopReg; OSub]
  else if decide (x = lit "number") then [ODrop]
  else if decide (x = lit "number_s_") then [OPopReg; OPopReg2; ODrop; OPow 10; OAddConst 1; OPushReg]
  else if decide (x = lit "digit") then [OPushChild; OPush 1]
  else [].
Lemma stack_math_ops x : map stack_op (stack_instrs x) = math_ops x.
Proof. unfold stack_instrs, math_ops. repeat (destruct (decide _); [reflexivity|]). reflexivity. Qed.
Lemma simple_math_ops x : map simple_op (simple_instrs x) = math_ops x.
Proof.
  unfold simple_instrs, math_ops.
  destruct (decide (x = lit "add")) as [->|]; [reflexivity|]. destruct (decide (x = lit "sub")) as [->|]; [reflexivity|].
  destruct (decide (x = lit "number")) as [->|]; [reflexivity|]. destruct (decide (x = lit "digit")) as [->|]; [reflexivity|].
  destruct (decide (x = lit "number_s_")) as [->|]; [reflexivity|]. destruct (decide (x = lit "print")) as [->|]; reflexivity.
Qed.

(** the rule of a name *)
Definition assoc (x : str) : option (list (list (str * ElementType))) :=
  match filter (fun e : str * list (list (str * ElementType)) => e.1 = x) math_rules with e :: _ => Some e.2 | [] => None end.
Lemma assoc_ok x alts : (x, alts) ∈ math_rules <-> assoc x = Some alts.
Proof.
  split.
  - assert (forallb (fun e : str * list (list (str * ElementType)) => bool_decide (assoc e.1 = Some e.2)) math_rules = true) as Hc by (vm_compute; reflexivity).
    intros Hin. rewrite forallb_forall in Hc. apply elem_of_list_In, Hc, bool_decide_eq_true in Hin. exact Hin.
  - unfold assoc. destruct (filter _ math_rules) as [|[y a] l] eqn:E; [discriminate|]. intros Ha. injection Ha as <-.
    assert ((y, a) ∈ filter (fun e : str * list (list (str * ElementType)) => e.1 = x) math_rules) as Hin by (rewrite E; left).
    apply elem_of_list_filter in Hin as [Hy Hin]. simpl in Hy. subst. exact Hin.
Qed.

Section math.
Context {I : Type} (pd : ParserData I) (ins : str -> list I) (opof : I -> op).
Context (Hm : math_grammar pd ins) (Hu : names_unique pd) (Hpr : proper pd) (Hops : forall x, map opof (ins x) = math_ops x).
Notation named e nm := (get_element_verbose pd e = Some nm).
Notation ops := (fun A => map opof (instructions_of pd A)).
Notation fits alt subs := (Forall2 (fun nm pt => named (root pt) nm) alt subs).

(** a node for an alternative *)
Lemma node_intro x alts alt subs : assoc x = Some alts -> alt ∈ alts -> fits alt subs ->
  Forall (derivation pd) subs -> exists A, named A (nt x) /\ derivation pd (PNode A subs) /\ ops A = math_ops x.
Proof.
  intros Hx Ha Hn Hd. apply assoc_ok in Hx. destruct (proj2 (Hm x alts (ins x)) (conj Hx eq_refl)) as (A & r & HA & Hr & Halts & Hi).
  exists A. split; [exact HA|]. split.
  - apply der_node; [|assumption]. apply elem_of_list_lookup in Ha as [k Hk]. destruct (Forall2_lookup_l _ _ _ _ _ Halts Hk) as (p & Hp & Hc).
    exists r, p. split; [assumption|]. split; [eapply elem_of_list_lookup_2; exact Hp|].
    clear -Hn Hc Hu. unfold called in Hc. revert Hc. generalize (right_side p). induction Hn as [|nm pt alt subs H1 _ IH]; intros ixs Hc; inversion Hc; subst; [reflexivity|].
    simpl. f_equal; [eapply Hu; eauto|auto].
  - unfold instructions_of. rewrite Hr, Hi. apply Hops.
Qed.
Lemma leaf_intro x alts alt y : assoc x = Some alts -> alt ∈ alts -> tm y ∈ alt -> exists t, named t (tm y).
Proof.
  intros Hx Ha Hy. apply assoc_ok in Hx. destruct (proj2 (Hm x alts (ins x)) (conj Hx eq_refl)) as (A & r & HA & Hr & Halts & Hi).
  apply elem_of_list_lookup in Ha as [k Hk]. destruct (Forall2_lookup_l _ _ _ _ _ Halts Hk) as (p & Hp & Hc).
  apply elem_of_list_lookup in Hy as [j Hj]. destruct (Forall2_lookup_l _ _ _ _ _ Hc Hj) as (t & Ht & Hn). eauto.
Qed.
Lemma node_elim x pt : named (root pt) (nt x) -> derivation pd pt ->
  exists A subs alts alt, pt = PNode A subs /\ assoc x = Some alts /\ alt ∈ alts /\ fits alt subs /\ Forall (derivation pd) subs.
Proof.
  intros HA Hd. inversion Hd as [t s Ht|A subs (r & p & Hr & Hp & Hrs) Hf]; subst; simpl in HA; [unfold is_terminal in Ht; unfold nt in HA; congruence|].
  destruct (alts_exist pd r A Hpr Hr) as [alts Halts].
  assert (rule_named pd x alts (instruction r)) as Hrn by (exists A, r; auto). apply Hm in Hrn as [Hx _]. apply assoc_ok in Hx.
  apply elem_of_list_lookup in Hp as [k Hk]. destruct (Forall2_lookup_r _ _ _ _ _ Halts Hk) as (alt & Ha & Hc).
  exists A, subs, alts, alt. split; [reflexivity|]. split; [exact Hx|]. split; [eapply elem_of_list_lookup_2; exact Ha|]. split; [|assumption].
  clear -Hc Hrs. rewrite <- Hrs in Hc. clear Hrs. revert alt Hc. induction subs as [|pt subs IH]; intros alt Hc; simpl in Hc; inversion Hc; subst; constructor; auto.
Qed.

Context (m : ovf_mode) (lo : Z).
Notation TR := (tree_run m lo (label pd) ops).
Notation TRS := (trees_run m lo (label pd) ops).
(** [grows x w E]: the name [x] has a tree for the text [w] whose evaluation is [E] *)
Definition grows (x : str) (w : str) (E : mach -> option mach -> Prop) : Prop :=
  exists pt, named (root pt) (nt x) /\ derivation pd pt /\ yield pd pt = w /\ forall s r, E s r -> TR pt s r.

Lemma grows_leaf x alts y : assoc x = Some alts -> [tm y] ∈ alts -> grows x y (fun s r => ops_run m lo (Some y) (math_ops x) s r).
Proof.
  intros Hx Ha. destruct (leaf_intro x alts [tm y] y Hx Ha) as [t Ht]; [left|].
  destruct (node_intro x alts [tm y] [PLeaf t] Hx Ha) as (A & HA & Hd & Ho).
  { constructor; [assumption|constructor]. }
  { constructor; [econstructor; exact Ht|constructor]. }
  exists (PNode A [PLeaf t]). split; [assumption|]. split; [assumption|].
  assert (text_of pd t = y) as Hy by (apply text_of_terminal; exact Ht).
  split; [simpl; rewrite app_nil_r; assumption|]. intros s r Hr.
  eapply tr_node; [eapply trs_cons; [apply tr_leaf|apply trs_nil]|]. rewrite Ho. unfold child_label, label. rewrite Hy. exact Hr.
Qed.
Lemma grows_empty x alts : assoc x = Some alts -> [] ∈ alts -> grows x [] (fun s r => ops_run m lo None (math_ops x) s r).
Proof.
  intros Hx Ha. destruct (node_intro x alts [] [] Hx Ha) as (A & HA & Hd & Ho); [constructor|constructor|].
  exists (PNode A []). split; [assumption|]. split; [assumption|]. split; [reflexivity|]. intros s r Hr.
  eapply tr_node; [apply trs_nil|]. rewrite Ho. exact Hr.
Qed.
(** a node over one, two, three nonterminals; its own operations do not look at the child *)
Fixpoint chain (Es : list (mach -> option mach -> Prop)) (s : mach) (r : option mach) : Prop :=
  match Es with
  | [] => r = Some s
  | E :: Es' => (exists s1, E s (Some s1) /\ chain Es' s1 r) \/ (E s None /\ r = None)
  end.
Definition childless (o : op) : bool := match o with OPushChild => false | _ => true end.
Lemma step_childless o c c' s r : childless o = true -> step m lo c o s r -> step m lo c' o s r.
Proof. intros Ho H. inversion H; subst; try discriminate; econstructor; eauto. Qed.
Lemma ops_childless l c c' s r : forallb childless l = true -> ops_run m lo c l s r -> ops_run m lo c' l s r.
Proof.
  intros Hl H. revert Hl. induction H as [s|o l s s1 r H1 _ IH|o l s H1]; intros Hl; [constructor|..]; apply andb_prop in Hl as [Ho Hl];
    [eapply or_cons; eauto using step_childless|apply or_panic; eauto using step_childless].
Qed.
Lemma grows_node x alts (parts : list (str * str * (mach -> option mach -> Prop))) w :
  w = concat (map (fun e => e.1.2) parts) ->
  assoc x = Some alts -> map (fun e => nt e.1.1) parts ∈ alts -> forallb childless (math_ops x) = true ->
  Forall (fun e => grows e.1.1 e.1.2 e.2) parts ->
  grows x w (fun s r =>
    (exists s1, chain (map snd parts) s (Some s1) /\ ops_run m lo None (math_ops x) s1 r) \/ (chain (map snd parts) s None /\ r = None)).
Proof.
  intros -> Hx Ha Hcl Hp.
  assert (exists subs, fits (map (fun e => nt e.1.1) parts) subs /\ Forall (derivation pd) subs /\ concat (map (yield pd) subs) = concat (map (fun e => e.1.2) parts) /\
    forall s r, chain (map snd parts) s r -> TRS subs s r) as (subs & H1 & H2 & H3 & H4).
  { clear Ha. induction Hp as [|[[y w] E] parts (pt & P1 & P2 & P3 & P4) _ (subs & H1 & H2 & H3 & H4)].
    - exists []. split; [constructor|]. split; [constructor|]. split; [reflexivity|]. intros s r ->. constructor.
    - exists (pt :: subs). simpl in *. split; [constructor; assumption|]. split; [constructor; assumption|]. split; [congruence|].
      intros s r [(s1 & E1 & E2)|[E1 ->]]; [eapply trs_cons; eauto|apply trs_panic; auto]. }
  destruct (node_intro x alts _ subs Hx Ha H1 H2) as (A & HA & Hd & Ho).
  exists (PNode A subs). split; [assumption|]. split; [assumption|]. split; [exact H3|].
  intros s r [(s1 & C1 & O1)|[C1 ->]]; [|apply tr_panic; auto].
  eapply tr_node; [apply H4; exact C1|]. rewrite Ho. eapply ops_childless; eauto.
Qed.
Lemma grows_weaken x w (E E' : mach -> option mach -> Prop) : grows x w E -> (forall s r, E' s r -> E s r) -> grows x w E'.
Proof. intros (pt & P1 & P2 & P3 & P4) H. exists pt. auto 10. Qed.

(** *** numbers *)
Local Open Scope Z_scope.
Context (Hlo : lo = 0 \/ lo = - 2 ^ 63).
Lemma small_word z : 0 <= z < 2 ^ 63 -> in_word lo z.
Proof. unfold in_word. destruct Hlo as [-> | ->]; lia. Qed.
Lemma digit_range c : digit_char c -> 0 <= digit c <= 9.
Proof. unfold digit_char, digit. lia. Qed.
Lemma digit_reads c : digit_char c -> reads_number lo [c] (digit c).
Proof.
  intros Hc. pose proof (digit_range c Hc). split; [apply small_word; lia|]. exists [c]. split; [discriminate|]. split; [apply Forall_cons; split; [assumption|apply Forall_nil; exact Logic.I]|].
  left. split; [left; reflexivity|]. reflexivity.
Qed.
Lemma digit_alt c : digit_char c -> [tm [c]] ∈ default [] (assoc (lit "digit")).
Proof.
  unfold digit_char. intros Hc. assert (exists k, (k < 10)%nat /\ c = (48 + N.of_nat k)%N) as (k & Hk & ->) by (exists (N.to_nat (c - 48)); lia).
  do 10 (destruct k as [|k]; [vm_compute; repeat constructor|]). lia.
Qed.
Lemma grows_digit c : digit_char c -> grows (lit "digit") [c] (fun s r => r = Some (stacked s (1 :: digit c :: stack s))).
Proof.
  intros Hc. eapply grows_weaken; [eapply (grows_leaf (lit "digit") _ [c]); [vm_compute; reflexivity|apply (digit_alt c Hc)]|].
  intros s r ->. eapply or_cons; [eapply s_push_child; [reflexivity|apply digit_reads; assumption]|].
  eapply or_cons; [apply s_push|apply or_nil].
Qed.

Lemma literal_nil r : ~ literal m lo [] r. Proof. intros H. inversion H. Qed.
Lemma literal_det ds r : literal m lo ds r -> forall r', literal m lo ds r' -> r = r'.
Proof.
  induction 1 as [c|c ds v r Hn Hl IH Hp|c ds Hl IH]; intros r' H'; inversion H' as [|? ? v' ? Hn' Hl' Hp'|? ? Hl']; subst; try congruence.
  - apply literal_nil in Hl'. contradiction.
  - specialize (IH _ Hl'). injection IH as <-. eapply power_det; eauto.
  - specialize (IH _ Hl'). discriminate.
  - apply literal_nil in Hl. contradiction.
  - specialize (IH _ Hl'). discriminate.
Qed.
Lemma bits_exist z : exists q, same_bits q z /\ in_word lo q.
Proof.
  exists (lo + (z - lo) mod 2 ^ 64). split.
  - exists (- ((z - lo) / 2 ^ 64)). pose proof (Z.div_mod (z - lo) (2 ^ 64)). lia.
  - unfold in_word. pose proof (Z.mod_pos_bound (z - lo) (2 ^ 64)). lia.
Qed.
Lemma power_exists b x y v : exists r, power m lo b x y v r.
Proof.
  destruct (word_exists m 0 (b ^ (x mod 2 ^ 32))) as [[p|] Hp]; [|eexists; apply p_power; exact Hp].
  destruct (bits_exist p) as (q & Hq1 & Hq2). destruct (word_exists m lo (v * q)) as [[z|] Hz]; [|eexists; eapply p_product; eauto].
  destruct (word_exists m lo (z + y)) as [r Hr]. exists r. eapply p_sum; eauto.
Qed.
Lemma literal_exists ds : ds <> [] -> exists r, literal m lo ds r.
Proof.
  induction ds as [|c ds IH]; [congruence|]. intros _. destruct ds as [|c' ds]; [eexists; apply lit_one|].
  destruct (IH ltac:(discriminate)) as [[v|] Hv]; [|eexists; apply lit_fail; exact Hv].
  destruct (power_exists 10 (Z.of_nat (length (c' :: ds))) v (digit c)) as [r Hr]. exists r. eapply lit_more; eauto.
Qed.
Lemma literal_tail c c' ds v : literal m lo (c :: c' :: ds) (Some v) -> 
  exists t, literal m lo (c' :: ds) (Some t) /\ power m lo 10 (Z.of_nat (length (c' :: ds))) t (digit c) (Some v).
Proof. intros H. inversion H; subst; eauto. Qed.
Definition number_tail (c0 : char) (ds : str) (s : mach) (r : option mach) : Prop :=
  exists st, stack s = 1 :: digit c0 :: st /\
  ((ds = [] /\ r = Some s) \/
   (exists t v, literal m lo ds (Some t) /\ literal m lo (c0 :: ds) (Some v) /\
      r = Some (mkMach (Z.of_nat (length (c0 :: ds)) :: v :: st) (Z.of_nat (length (c0 :: ds))) t (err s) (printed s))) \/
   (literal m lo (c0 :: ds) None /\ r = None)).
Lemma grows_number_s ds : Forall digit_char ds -> forall c0, digit_char c0 -> Z.of_nat (length (c0 :: ds)) < 2 ^ 63 ->
  grows (lit "number_s") ds (number_tail c0 ds).
Proof.
  induction 1 as [|c1 ds Hc1 Hds IH]; intros c0 Hc0 Hlen.
  - eapply grows_weaken; [eapply (grows_empty (lit "number_s")); [vm_compute; reflexivity|right; left]|].
    intros s r (st & Hst & [[_ ->]|[(t & v & Ht & _)|[Hn ->]]]); [apply or_nil|apply literal_nil in Ht; contradiction|].
    inversion Hn as [|? ? ? ? Hx _ _|? ? Hx]; [congruence|apply literal_nil in Hx; contradiction].
  - assert (grows (lit "number_s_") (c1 :: ds) (number_tail c0 (c1 :: ds))) as Hg.
    { specialize (IH c1 Hc1). assert (Z.of_nat (length (c1 :: ds)) < 2 ^ 63) as Hlen' by (simpl in *; lia). specialize (IH Hlen').
      eapply grows_weaken; [eapply (grows_node (lit "number_s_") _ [(lit "digit", [c1], _); (lit "number_s", ds, _)]);
        [simpl; rewrite ?app_nil_r; reflexivity|vm_compute; reflexivity|left|reflexivity|repeat constructor; [apply (grows_digit c1 Hc1)|exact IH]]|].
      intros s r (st & Hst & [[? _]|[(t & v & Ht & Hv & ->)|[Hn ->]]]); [discriminate| |].
      + (* the tail has the value [t] *)
        apply literal_tail in Hv as (t' & Ht' & Hp). pose proof (literal_det _ _ Ht _ Ht') as E. injection E as <-. clear Ht'.
        assert (exists s1, number_tail c1 ds (stacked s (1 :: digit c1 :: stack s)) (Some s1) /\
          stack s1 = Z.of_nat (length (c1 :: ds)) :: t :: 1 :: digit c0 :: st /\ err s1 = err s /\ printed s1 = printed s) as (s1 & Hs1 & E1 & E2 & E3).
        { destruct ds as [|c2 ds].
          - inversion Ht as [|? ? ? ? Hnn _|]; subst; [|congruence]. eexists. split; [eexists; split; [reflexivity|left; auto]|].
            simpl. rewrite Hst. auto.
          - destruct (literal_tail _ _ _ _ Ht) as (t2 & Ht2 & _). eexists. split; [eexists; split; [reflexivity|right; left; exists t2, t; auto]|].
            simpl. rewrite Hst. auto. }
        left. exists s1. split.
        { left. eexists. split; [reflexivity|]. left. exists s1. split; [exact Hs1|reflexivity]. }
        set (L := Z.of_nat (length (c1 :: ds))) in *. assert (Z.of_nat (length (c0 :: c1 :: ds)) = L + 1) as HL by (unfold L; simpl; lia). rewrite HL in Hlen |- *.
        assert (0 <= L) as HL0 by (unfold L; lia).
        eapply or_cons; [apply s_pop_reg; exact E1|]. eapply or_cons; [apply s_pop_reg2; reflexivity|].
        eapply or_cons; [eapply s_drop; reflexivity|]. eapply or_cons; [eapply (s_pow m lo None 10 _ _ _ (Some v)); [reflexivity|exact Hp]|].
        eapply or_cons; [eapply (s_add_const m lo None 1 _ (Some _)); apply w_fits; apply small_word; simpl; lia|].
        eapply or_cons; [apply s_push_reg|]. simpl. rewrite E2, E3. apply or_nil.
      + assert (ds = [] \/ exists c2 ds', ds = c2 :: ds') as Hcase by (destruct ds; eauto).
        inversion Hn as [|? ? t ? _ Ht Hp|? ? Ht]; subst.
        * assert (exists s1, number_tail c1 ds (stacked s (1 :: digit c1 :: stack s)) (Some s1) /\
            stack s1 = Z.of_nat (length (c1 :: ds)) :: t :: 1 :: digit c0 :: st) as (s1 & Hs1 & E1).
          { destruct ds as [|c2 ds].
            - inversion Ht as [|? ? ? ? Hnn _|]; subst; [|congruence]. eexists. split; [eexists; split; [reflexivity|left; auto]|].
              simpl. rewrite Hst. auto.
            - destruct (literal_tail _ _ _ _ Ht) as (t2 & Ht2 & _). eexists. split; [eexists; split; [reflexivity|right; left; exists t2, t; auto]|].
              simpl. rewrite Hst. auto. }
          left. exists s1. split.
          { left. eexists. split; [reflexivity|]. left. exists s1. split; [exact Hs1|reflexivity]. }
          eapply or_cons; [apply s_pop_reg; exact E1|]. eapply or_cons; [apply s_pop_reg2; reflexivity|].
          eapply or_cons; [eapply s_drop; reflexivity|]. eapply or_panic. eapply (s_pow m lo None 10 _ _ _ None); [reflexivity|exact Hp].
        * right. split; [|reflexivity]. left. eexists. split; [reflexivity|]. right. split; [|reflexivity].
          eexists. split; [reflexivity|]. right. right. auto. }
    eapply grows_weaken; [eapply (grows_node (lit "number_s") _ [(lit "number_s_", c1 :: ds, _)]);
      [simpl; rewrite ?app_nil_r; reflexivity|vm_compute; reflexivity|left|reflexivity|repeat constructor; exact Hg]|].
    simpl. intros s r Hr. destruct r as [s1|].
    + left. exists s1. split; [|apply or_nil]. left. exists s1. auto.
    + right. split; [|reflexivity]. right. auto.
Qed.

(** *** items and programs *)
Definition fits_len (i : item) : Prop := match i with Num ds => Z.of_nat (length ds) < 2 ^ 63 | _ => True end.
Lemma grows_number c ds : digit_char c -> Forall digit_char ds -> Z.of_nat (length (c :: ds)) < 2 ^ 63 ->
  grows (lit "number") (c :: ds) (does m lo (Num (c :: ds))).
Proof.
  intros Hc Hds Hlen.
  eapply grows_weaken; [eapply (grows_node (lit "number") _ [(lit "digit", [c], _); (lit "number_s", ds, _)]);
    [simpl; rewrite ?app_nil_r; reflexivity|vm_compute; reflexivity|left|reflexivity|repeat constructor; [apply (grows_digit c Hc)|exact (grows_number_s ds Hds c Hc Hlen)]]|].
  intros s r Hr. inversion Hr as [c' s'|c' ds' t v s' Ht Hv|ds' s' Hn| | | | | | | |]; subst.
  - left. exists (stacked s (1 :: digit c :: stack s)). split.
    + left. eexists. split; [reflexivity|]. left. eexists. split; [|reflexivity]. eexists. split; [reflexivity|]. left. auto.
    + eapply or_cons; [eapply s_drop; reflexivity|apply or_nil].
  - left. eexists. split.
    + left. eexists. split; [reflexivity|]. left. eexists. split; [|reflexivity]. eexists. split; [reflexivity|]. right. left. exists t, v. auto.
    + eapply or_cons; [eapply s_drop; reflexivity|apply or_nil].
  - right. split; [|reflexivity]. left. eexists. split; [reflexivity|]. right. split; [|reflexivity]. eexists. split; [reflexivity|]. right. right. auto.
Qed.
Lemma grows_term i : good_item i -> fits_len i -> grows (lit "term") (item_text i) (does m lo i).
Proof.
  intros Hi Hlen.
  assert (forall x w, [nt x] ∈ default [] (assoc (lit "term")) -> grows x w (does m lo i) -> grows (lit "term") w (does m lo i)) as Hwrap.
  { intros x w Hx Hg. rewrite <- (app_nil_r w). eapply grows_weaken; [eapply (grows_node (lit "term") _ [(x, w, _)]);
      [simpl; rewrite ?app_nil_r; reflexivity|vm_compute; reflexivity|exact Hx|reflexivity|repeat constructor; exact Hg]|].
    intros s [s1|] Hr; [left; exists s1; split; [left; exists s1; split; [exact Hr|reflexivity]|apply or_nil]|right; split; [right; auto|reflexivity]]. }
  destruct i as [ds| | |].
  - destruct Hi as [Hn Hds]. destruct ds as [|c ds]; [congruence|]. apply Forall_cons in Hds as [Hc Hds].
    apply (Hwrap (lit "number")); [vm_compute; repeat constructor|]. apply grows_number; assumption.
  - apply (Hwrap (lit "add")); [vm_compute; repeat constructor|].
    eapply grows_weaken; [eapply (grows_leaf (lit "add") _ (lit "+")); [vm_compute; reflexivity|left]|].
    intros s r Hr. inversion Hr as [| | |a b st s' rr Hs Hw| |b s' Hs| |s' Hs| | |]; subst.
    + eapply or_cons; [eapply s_pop_reg; exact Hs|]. destruct rr as [v|]; simpl.
      * eapply or_cons; [eapply (s_add _ _ _ _ _ _ (Some v)); [reflexivity|exact Hw]|apply or_nil].
      * eapply or_panic. eapply (s_add _ _ _ _ _ _ None); [reflexivity|exact Hw].
    + eapply or_cons; [eapply s_pop_reg; exact Hs|]. eapply or_cons; [eapply s_empty; [exact Logic.I|reflexivity]|apply or_nil].
    + eapply or_cons; [eapply s_empty; [exact Logic.I|exact Hs]|]. eapply or_cons; [eapply s_empty; [exact Logic.I|exact Hs]|].
      unfold failing. simpl. rewrite Hs. apply or_nil.
  - apply (Hwrap (lit "sub")); [vm_compute; repeat constructor|].
    eapply grows_weaken; [eapply (grows_leaf (lit "sub") _ (lit "-")); [vm_compute; reflexivity|left]|].
    intros s r Hr. inversion Hr as [| | | |a b st s' rr Hs Hw| |b s' Hs| |s' Hs| |]; subst.
    + eapply or_cons; [eapply s_pop_reg; exact Hs|]. destruct rr as [v|]; simpl.
      * eapply or_cons; [eapply (s_sub _ _ _ _ _ _ (Some v)); [reflexivity|exact Hw]|apply or_nil].
      * eapply or_panic. eapply (s_sub _ _ _ _ _ _ None); [reflexivity|exact Hw].
    + eapply or_cons; [eapply s_pop_reg; exact Hs|]. eapply or_cons; [eapply s_empty; [exact Logic.I|reflexivity]|apply or_nil].
    + eapply or_cons; [eapply s_empty; [exact Logic.I|exact Hs]|]. eapply or_cons; [eapply s_empty; [exact Logic.I|exact Hs]|].
      unfold failing. simpl. rewrite Hs. apply or_nil.
  - apply (Hwrap (lit "print")); [vm_compute; repeat constructor|].
    eapply grows_weaken; [eapply (grows_leaf (lit "print") _ (lit "print")); [vm_compute; reflexivity|left]|].
    intros s r Hr. inversion Hr as [| | | | | | | | |v st s' Hs|s' Hs]; subst.
    + eapply or_cons; [eapply s_pop_reg; exact Hs|]. eapply or_cons; [apply s_print_reg|apply or_nil].
    + eapply or_cons; [eapply s_empty; [exact Logic.I|exact Hs]|]. eapply or_cons; [apply s_print_reg|]. unfold printing, failing. simpl. rewrite Hs. apply or_nil.
Qed.
Lemma grows_space : grows (lit "whitespace") (lit " ") (fun s r => r = Some s).
Proof.
  eapply grows_weaken; [eapply (grows_leaf (lit "whitespace") _ (lit " ")); [vm_compute; reflexivity|left]|]. intros s r ->. apply or_nil.
Qed.
Definition spaced (l : list item) : str := concat (map (fun i => lit " " ++ item_text i) l).
Lemma joined_spaced i l : joined (lit " ") (map item_text (i :: l)) = item_text i ++ spaced l.
Proof.
  revert i. induction l as [|j l IH]; intros i; [simpl; rewrite app_nil_r; reflexivity|].
  change (item_text i ++ lit " " ++ joined (lit " ") (map item_text (j :: l)) = item_text i ++ spaced (j :: l)). rewrite IH. 
  unfold spaced. simpl. reflexivity.
Qed.
Lemma grows_terms_s l : Forall good_item l -> Forall fits_len l -> grows (lit "terms_s") (spaced l) (does_all m lo l).
Proof.
  intros Hg. induction Hg as [|i l Hi _ IH]; intros Hl.
  - eapply grows_weaken; [eapply (grows_empty (lit "terms_s")); [vm_compute; reflexivity|right; left]|].
    intros s r Hr. inversion Hr; subst. apply or_nil.
  - apply Forall_cons in Hl as [Hli Hl]. specialize (IH Hl).
    assert (spaced (i :: l) = concat [lit " "; item_text i; spaced l]) as -> by (unfold spaced; simpl; rewrite app_nil_r; reflexivity).
    eapply grows_weaken; [eapply (grows_node (lit "terms_s") _ [(lit "whitespace", lit " ", _); (lit "term", item_text i, _); (lit "terms_s", spaced l, _)]);
      [simpl; rewrite ?app_nil_r; reflexivity|vm_compute; reflexivity|left|reflexivity|]|].
    + constructor; [apply grows_space|]. constructor; [exact (grows_term i Hi Hli)|]. constructor; [exact IH|constructor].
    + intros s r Hr. inversion Hr as [|? ? ? s1 ? H1 H2|? ? ? H1]; subst.
      * destruct r as [s2|].
        -- left. exists s2. split; [|apply or_nil]. left. exists s. split; [reflexivity|]. left. exists s1. split; [assumption|]. left. exists s2. split; [assumption|reflexivity].
        -- right. split; [|reflexivity]. left. exists s. split; [reflexivity|]. left. exists s1. split; [assumption|]. right. auto.
      * right. split; [|reflexivity]. left. exists s. split; [reflexivity|]. right. auto.
Qed.
Lemma grows_program l text : program l text -> Z.of_nat (length text) < 2 ^ 63 -> grows (lit "start") text (does_all m lo l).
Proof.
  intros (Hn & Hg & ->) Hlen. destruct l as [|i l]; [congruence|]. clear Hn.
  assert (Forall fits_len (i :: l)) as Hl.
  { rewrite joined_spaced in Hlen. clear Hg. revert i Hlen. induction l as [|j l IH]; intros i Hlen.
    - constructor; [|constructor]. destruct i; try exact Logic.I. simpl in *. rewrite app_length in Hlen. lia.
    - constructor; [destruct i; try exact Logic.I; simpl in *; rewrite app_length in Hlen; lia|].
      apply IH. change (spaced (j :: l)) with (lit " " ++ item_text j ++ spaced l) in Hlen. rewrite (app_length (item_text i)), (app_length (lit " ")), (app_length (item_text j)) in Hlen. rewrite (app_length (item_text j)). lia. }
  rewrite joined_spaced. apply Forall_cons in Hg as [Hi Hg]. apply Forall_cons in Hl as [Hli Hl].
  assert (grows (lit "terms") (item_text i ++ spaced l) (does_all m lo (i :: l))) as Ht.
  { rewrite <- (app_nil_r (spaced l)).
    eapply grows_weaken; [eapply (grows_node (lit "terms") _ [(lit "term", item_text i, _); (lit "terms_s", spaced l, _)]);
      [simpl; rewrite ?app_nil_r; reflexivity|vm_compute; reflexivity|left|reflexivity|]|].
    - constructor; [exact (grows_term i Hi Hli)|]. constructor; [exact (grows_terms_s l Hg Hl)|constructor].
    - intros s r Hr. inversion Hr as [|? ? ? s1 ? H1 H2|? ? ? H1]; subst.
      + destruct r as [s2|].
        * left. exists s2. split; [|apply or_nil]. left. exists s1. split; [assumption|]. left. exists s2. split; [assumption|reflexivity].
        * right. split; [|reflexivity]. left. exists s1. split; [assumption|]. right. auto.
      + right. split; [|reflexivity]. right. auto. }
  rewrite <- (app_nil_r (item_text i ++ spaced l)).
  eapply grows_weaken; [eapply (grows_node (lit "start") _ [(lit "terms", _, _)]); [simpl; rewrite ?app_nil_r; reflexivity|vm_compute; reflexivity|left|reflexivity|]|].
  - constructor; [exact Ht|constructor].
  - intros s [s1|] Hr; [left; exists s1; split; [left; exists s1; split; [exact Hr|reflexivity]|apply or_nil]|right; split; [right; auto|reflexivity]].
Qed.
(** every program does something, and only one thing *)
Lemma does_exists i s : good_item i -> exists r, does m lo i s r.
Proof.
  intros Hi. destruct i as [ds| | |].
  - destruct ds as [|c ds]; [destruct Hi; congruence|]. destruct ds as [|c' ds]; [eexists; apply do_digit|].
    destruct (literal_exists (c :: c' :: ds)) as [[v|] Hv]; [discriminate| |eexists; apply do_number_overflow; exact Hv].
    destruct (literal_tail _ _ _ _ Hv) as (t & Ht & _). eexists. eapply do_number; eauto.
  - destruct (stack s) as [|b [|a st]] eqn:Hs; [eexists; apply do_plus_none; exact Hs|eexists; eapply do_plus_one; exact Hs|].
    destruct (word_exists m lo (a + b)) as [r Hr]. eexists. eapply do_plus; eauto.
  - destruct (stack s) as [|b [|a st]] eqn:Hs; [eexists; apply do_minus_none; exact Hs|eexists; eapply do_minus_one; exact Hs|].
    destruct (word_exists m lo (a - b)) as [r Hr]. eexists. eapply do_minus; eauto.
  - destruct (stack s) as [|b st] eqn:Hs; eexists; [apply do_print_none|eapply do_print]; eassumption.
Qed.
Lemma does_all_exists l : Forall good_item l -> forall s, exists r, does_all m lo l s r.
Proof.
  induction 1 as [|i l Hi _ IH]; intros s; [eexists; constructor|]. destruct (does_exists i s Hi) as [[s1|] H1]; [|eexists; apply da_panic; exact H1].
  destruct (IH s1) as [r Hr]. exists r. eapply da_cons; eauto.
Qed.

(** *** only programs are sentences *)
Local Open Scope nat_scope.
Ltac elim_name H Hd A subs Hfits Hsubs :=
  let alts := fresh "alts" in let alt := fresh "alt" in let Has := fresh "Has" in let Hin := fresh "Hin" in
  destruct (node_elim _ _ H Hd) as (A & subs & alts & alt & -> & Has & Hin & Hfits & Hsubs);
  vm_compute in Has; injection Has as <-; repeat (apply elem_of_cons in Hin as [->|Hin]; [|]); try (apply elem_of_nil in Hin; contradiction);
  repeat match goal with
  | H : Forall2 _ (_ :: _) _ |- _ => inversion H; clear H; subst
  | H : Forall2 _ [] _ |- _ => inversion H; clear H; subst
  | H : Forall _ (_ :: _) |- _ => apply Forall_cons in H as [? H]
  end.
Context (Hwf : wf_grammar pd).
Lemma terminal_yield pt x : named (root pt) (tm x) -> derivation pd pt -> yield pd pt = x.
Proof.
  intros Hx Hd. inversion Hd as [t s Ht|A subs (r & p & Hr & _) _]; subst; simpl in *.
  - unfold is_terminal in Ht. apply text_of_terminal. exact Hx.
  - exfalso. destruct (wf_rules pd Hwf A) as [y Hy]; [exists r; exact Hr|]. unfold tm in Hx. congruence.
Qed.
Lemma digit_yield pt : named (root pt) (nt (lit "digit")) -> derivation pd pt -> exists c, digit_char c /\ yield pd pt = [c].
Proof.
  intros Hx Hd. elim_name Hx Hd A subs Hf Hs.
  all: match goal with H : named (root ?p) _, D : derivation pd ?p |- _ => pose proof (terminal_yield _ _ H D) as Hy end.
  all: simpl; rewrite Hy, app_nil_r; eexists; (split; [|reflexivity]); unfold digit_char; simpl; lia.
Qed.
Ltac yields := simpl; repeat match goal with H : yield pd _ = _ |- _ => rewrite H end; rewrite ?app_nil_r.
Lemma number_s_yield n : forall pt, nodes_count pt < n -> named (root pt) (nt (lit "number_s")) -> derivation pd pt -> Forall digit_char (yield pd pt).
Proof.
  induction n as [|n IH]; intros pt Hn Hx Hd; [lia|]. elim_name Hx Hd A subs Hf Hs; [|constructor].
  match goal with H : named (root ?p) _, D : derivation pd ?p |- _ => rename p into q; rename H into Hq; rename D into Dq end.
  elim_name Hq Dq B subs2 Hf2 Hs2.
  match goal with H : named (root ?p) (_, NonTerminal), D : derivation pd ?p, H' : named (root ?p') (_, NonTerminal), D' : derivation pd ?p' |- _ =>
    first [destruct (digit_yield p H D) as (c & Hc & Hy); pose proof (fun Hlt => IH p' Hlt H' D') as Hy'] end.
  simpl in Hn. simpl. rewrite Hy, !app_nil_r. simpl. constructor; [assumption|apply Hy'; lia].
Qed.
Lemma number_yield pt : named (root pt) (nt (lit "number")) -> derivation pd pt -> yield pd pt <> [] /\ Forall digit_char (yield pd pt).
Proof.
  intros Hx Hd. elim_name Hx Hd A subs Hf Hs.
  match goal with H : named (root ?p) (_, NonTerminal), D : derivation pd ?p, H' : named (root ?p') (_, NonTerminal), D' : derivation pd ?p' |- _ =>
    first [destruct (digit_yield p H D) as (c & Hc & Hy); pose proof (number_s_yield _ p' (Nat.lt_succ_diag_r _) H' D') as Hy'] end.
  simpl. rewrite Hy, !app_nil_r. simpl. split; [discriminate|]. constructor; assumption.
Qed.
Lemma term_yield pt : named (root pt) (nt (lit "term")) -> derivation pd pt -> exists i, good_item i /\ yield pd pt = item_text i.
Proof.
  intros Hx Hd. elim_name Hx Hd A subs Hf Hs.
  all: match goal with H : named (root ?p) _, D : derivation pd ?p |- _ => rename p into q; rename H into Hq; rename D into Dq end.
  3:{ exists (Num (yield pd q)). split; [exact (number_yield q Hq Dq)|]. simpl. apply app_nil_r. }
  all: elim_name Hq Dq B subs2 Hf2 Hs2.
  all: match goal with H : named (root ?p) _, D : derivation pd ?p |- _ => pose proof (terminal_yield _ _ H D) as Hy end.
  - exists Plus. split; [exact Logic.I|]. yields. reflexivity.
  - exists Minus. split; [exact Logic.I|]. yields. reflexivity.
  - exists Print. split; [exact Logic.I|]. yields. reflexivity.
Qed.
Lemma terms_s_yield n : forall pt, nodes_count pt < n -> named (root pt) (nt (lit "terms_s")) -> derivation pd pt ->
  exists l, Forall good_item l /\ yield pd pt = spaced l.
Proof.
  induction n as [|n IH]; intros pt Hn Hx Hd; [lia|]. elim_name Hx Hd A subs Hf Hs; [|exists []; split; [constructor|reflexivity]].
  match goal with |- context [PNode A [?a; ?b; ?c]] => rename a into t1; rename b into t2; rename c into t3 end.
  destruct (term_yield t2) as (i & Hi & Hy2); [assumption..|].
  assert (yield pd t1 = lit " ") as Hy1.
  { match goal with H : named (root t1) _, D : derivation pd t1 |- _ => rename H into Hq; rename D into Dq end.
    elim_name Hq Dq B subs2 Hf2 Hs2.
    match goal with H : named (root ?p) (_, Terminal), D : derivation pd ?p |- _ => pose proof (terminal_yield _ _ H D) as Hy end.
    yields. reflexivity. }
  destruct (IH t3) as (l & Hl & Hy3); [simpl in Hn; lia|assumption..|].
  exists (i :: l). split; [constructor; assumption|]. simpl. rewrite Hy1, Hy2, Hy3, app_nil_r. reflexivity.
Qed.
Lemma start_yield pt : named (root pt) (nt (lit "start")) -> derivation pd pt -> exists l, program l (yield pd pt).
Proof.
  intros Hx Hd. elim_name Hx Hd A subs Hf Hs.
  match goal with H : named (root ?p) _, D : derivation pd ?p |- _ => rename p into q; rename H into Hq; rename D into Dq end.
  elim_name Hq Dq B subs2 Hf2 Hs2.
  match goal with |- context [PNode B [?a; ?b]] => rename a into t1; rename b into t2 end.
  destruct (term_yield t1) as (i & Hi & Hy1); [assumption..|].
  destruct (terms_s_yield _ t2 (Nat.lt_succ_diag_r _)) as (l & Hl & Hy2); [assumption..|].
  exists (i :: l). split; [discriminate|]. split; [constructor; assumption|]. rewrite joined_spaced. simpl. rewrite Hy1, Hy2, !app_nil_r. reflexivity.
Qed.

(** *** a sentence is never only a prefix of the script: what comes last is followed by the end only *)
Definition tails : list (str * ElementType) := [nt (lit "start"); nt (lit "terms"); nt (lit "terms_s")].
Fixpoint tail_last (x : str * ElementType) (alt : list (str * ElementType)) : bool :=
  match alt with
  | [] => true
  | y :: alt' => (negb (bool_decide (y ∈ tails)) || (bool_decide (alt' = []) && bool_decide (x ∈ tails))) && tail_last x alt'
  end.
Definition ends_tail (alt : list (str * ElementType)) : bool := match last alt with Some y => bool_decide (y ∈ tails) | None => true end.
Lemma math_tails x alts alt : assoc x = Some alts -> alt ∈ alts ->
  tail_last (nt x) alt = true /\ (nt x ∈ tails -> ends_tail alt = true).
Proof.
  assert (forallb (fun e : str * list (list (str * ElementType)) => forallb (fun alt => tail_last (nt e.1) alt && (negb (bool_decide (nt e.1 ∈ tails)) || ends_tail alt)) e.2) math_rules = true) as Hc by (vm_compute; reflexivity).
  intros Hx Ha. apply assoc_ok in Hx. rewrite forallb_forall in Hc. apply elem_of_list_In, Hc in Hx. rewrite forallb_forall in Hx.
  apply elem_of_list_In, Hx in Ha. apply andb_prop in Ha as [H1 H2]. split; [assumption|]. intros Ht. simpl in H2. 
  apply orb_prop in H2 as [H2|H2]; [|assumption]. apply negb_true_iff, bool_decide_eq_false in H2. contradiction.
Qed.
Lemma alt_names B w : alternative pd B w -> exists x alts alt, named B (nt x) /\ assoc x = Some alts /\ alt ∈ alts /\ called pd alt w.
Proof.
  intros (r & p & Hr & Hp & ->). destruct (alts_exist pd r B Hpr Hr) as [alts Halts].
  destruct (wf_rules pd Hwf B) as [x Hx]; [exists r; exact Hr|].
  assert (rule_named pd x alts (instruction r)) as Hrn by (exists B, r; auto). apply Hm in Hrn as [Hx' _]. apply assoc_ok in Hx'.
  apply elem_of_list_lookup in Hp as [k Hk]. destruct (Forall2_lookup_r _ _ _ _ _ Halts Hk) as (alt & Ha & Hc).
  exists x, alts, alt. split; [assumption|]. split; [assumption|]. split; [eapply elem_of_list_lookup_2; exact Ha|assumption].
Qed.
Definition is_tail (A : nat) : Prop := exists y, named A y /\ y ∈ tails.
Lemma tail_position B u A v : alternative pd B (u ++ A :: v) -> is_tail A -> v = [] /\ is_tail B.
Proof.
  intros Ha (y & Hy & Ht). apply alt_names in Ha as (x & alts & alt & Hx & Has & Hin & Hc). pose proof (proj1 (math_tails x alts alt Has Hin)) as Hl.
  clear Has Hin. revert u Hc Hl. induction alt as [|z alt IH]; intros u Hc Hl; unfold called in Hc; inversion Hc as [|? e ? w Hz Hc' E1 E2]; subst; [destruct u; discriminate|].
  apply andb_prop in Hl as [Hl1 Hl2]. destruct u as [|e' u]; injection E2 as -> ->.
  - assert (z = y) as -> by congruence. rewrite (bool_decide_eq_true_2 _ Ht) in Hl1. apply andb_prop in Hl1 as [H1 H2].
    apply bool_decide_eq_true in H1, H2. subst alt. inversion Hc'. split; [reflexivity|]. exists (nt x). auto.
  - eapply IH; eauto.
Qed.
Lemma tail_follow start A x : named start (nt (lit "start")) -> fol pd start A x -> is_tail A -> x = MTerminate.
Proof.
  intros _. induction 1 as [|B u A v c Ha Hf|B u A v x Ha Hn Hf IH]; intros Ht; [reflexivity|..]; destruct (tail_position _ _ _ _ Ha Ht) as [-> HB]; [exfalso; exact (fsts_nil pd c Hf)|exact (IH HB)].
Qed.
Lemma whole_text start : named start (nt (lit "start")) ->
  (forall A text pt rest, pred pd start A text pt rest -> is_tail A -> rest = []) /\
  (forall es text pts rest, preds pd start es text pts rest -> forall e, last es = Some e -> is_tail e -> rest = []).
Proof.
  intros Hst. apply pred_both.
  - intros t s rest Ht (y & Hy & Hin). unfold is_terminal in Ht. exfalso. assert (y = (s, Terminal)) as -> by congruence.
    vm_compute in Hin. repeat (apply elem_of_cons in Hin as [Hin|Hin]; [discriminate|]). apply elem_of_nil in Hin. exact Hin.
  - intros A r p text subs rest Hr Hp Hc Hps IH Ht.
    destruct (right_side p) as [|e0 es0] eqn:E.
    + inversion Hps; subst. destruct p as [els|]; [destruct (proj1 Hpr _ _ _ Hr Hp); simpl in E; congruence|].
      apply FOLLOW_fol, (tail_follow start A _ Hst) in Hc; [|assumption]. destruct rest; [reflexivity|discriminate].
    + assert (is_Some (last (e0 :: es0))) as [e He] by (clear; revert e0; induction es0 as [|e1 es0 IH]; intros e0; [eexists; reflexivity|exact (IH e1)]).
      apply (IH e He). assert (alternative pd A (e0 :: es0)) as Ha by (exists r, p; auto).
      destruct (alt_names _ _ Ha) as (x & alts & alt & Hx & Has & Hin & Hcl).
      destruct Ht as (y & Hy & Hyt). assert (y = nt x) as -> by congruence. pose proof (proj2 (math_tails x alts alt Has Hin) Hyt) as He'.
      unfold ends_tail in He'. clear -Hcl He He'. unfold called in Hcl. revert e He. induction Hcl as [|z w alt l Hz Hcl IH]; intros e He; [discriminate|].
      destruct Hcl as [|z' w' alt l Hz' Hcl].
      * simpl in *. injection He as <-. apply bool_decide_eq_true in He'. exists z. auto.
      * apply IH; assumption.
  - intros text e He. discriminate.
  - intros e0 es text pt mid pts rest _ IH1 Hps IH2 e He Ht. destruct es as [|e1 es]; [|apply (IH2 e He Ht)].
    injection He as <-. inversion Hps; subst. auto.
Qed.
End math.

(** ** reverse Polish evaluation *)
Section rpn.
Local Open Scope Z_scope.
Context (m : ovf_mode) (lo : Z) (Hlo : lo = 0 \/ lo = - 2 ^ 63).
Lemma dec_value_from ds : forall a, foldl (fun a c => a * 10 + (c - 48))%N a ds = (a * 10 ^ N.of_nat (length ds) + dec_value ds)%N.
Proof.
  induction ds as [|c ds IH]; intros a; [simpl; unfold dec_value; simpl; lia|]. unfold dec_value. simpl foldl. rewrite !IH.
  change (length (c :: ds)) with (S (length ds)). rewrite Nat2N.inj_succ, N.pow_succ_r'. lia.
Qed.
Lemma dec_value_cons c ds : Z.of_N (dec_value (c :: ds)) = digit c * 10 ^ Z.of_nat (length ds) + Z.of_N (dec_value ds).
Proof.
  unfold dec_value at 1. simpl foldl. rewrite dec_value_from. unfold digit.
  rewrite N2Z.inj_add, N2Z.inj_mul, N2Z.inj_pow, nat_N_Z. reflexivity.
Qed.
Lemma dec_value_bound ds : Forall digit_char ds -> 0 <= Z.of_N (dec_value ds) < 10 ^ Z.of_nat (length ds).
Proof.
  induction 1 as [|c ds Hc _ IH]; [unfold dec_value; simpl; lia|]. rewrite dec_value_cons. change (length (c :: ds)) with (S (length ds)).
  rewrite Nat2Z.inj_succ, Z.pow_succ_r by lia. pose proof (digit_range c Hc). nia.
Qed.
Lemma same_bits_trans a b c : same_bits a b -> same_bits b c -> same_bits a c.
Proof. intros [i Hi] [j Hj]. exists (i + j). lia. Qed.
Lemma same_bits_sym a b : same_bits a b -> same_bits b a.
Proof. intros [i Hi]. exists (- i). lia. Qed.
Lemma same_bits_add a b c d : same_bits a b -> same_bits c d -> same_bits (a + c) (b + d).
Proof. intros [i Hi] [j Hj]. exists (i + j). lia. Qed.
Lemma same_bits_mul a b c d : same_bits a b -> same_bits c d -> same_bits (a * c) (b * d).
Proof. intros [i ->] [j ->]. exists (i * d + b * j + i * j * 2 ^ 64). ring. Qed.
Lemma word_fits z : in_word lo z -> word m lo z (Some z).
Proof. intros H. apply w_fits. exact H. Qed.
Lemma word_in z v : word m lo z (Some v) -> in_word lo v.
Proof. intros H. inversion H; subst; assumption. Qed.
Lemma word_bits z v : word m lo z (Some v) -> same_bits v z.
Proof. intros H. inversion H; subst; [apply same_bits_refl|assumption]. Qed.
Lemma wrapping_word l z v : in_word l v -> same_bits v z -> word Wrapping l z (Some v).
Proof.
  intros Hv Hs. destruct (in_word_dec l z) as [Hz|Hz]; [|apply w_wraps; auto].
  rewrite (same_word l v z z Hv Hz Hs (same_bits_refl z)). apply w_fits. exact Hz.
Qed.
Lemma pow10_le a b : 0 <= a <= b -> 10 ^ a <= 10 ^ b.
Proof. intros H. apply Z.pow_le_mono_r; lia. Qed.

(** a literal has its decimal value *)
Lemma literal_value ds : ds <> [] -> Forall digit_char ds -> short_literal m ds -> forall v,
  word m lo (Z.of_N (dec_value ds)) (Some v) -> literal m lo ds (Some v).
Proof.
  intros Hn Hds. induction Hds as [|c ds Hc Hds IH]; [congruence|]. clear Hn. intros Hsh v Hv.
  destruct ds as [|c' ds].
  { assert (v = digit c) as ->; [|constructor]. pose proof (digit_range c Hc) as Hr.
    assert (word m lo (Z.of_N (dec_value [c])) (Some (digit c))) as Hw.
    { rewrite dec_value_cons. simpl length. change (10 ^ Z.of_nat 0) with 1. rewrite Z.mul_1_r. change (Z.of_N (dec_value [])) with 0. rewrite Z.add_0_r.
      apply w_fits. apply small_word; [assumption|lia]. }
    pose proof (word_det _ _ _ _ _ Hv Hw). congruence. }
  set (t := c' :: ds) in *. assert (t <> []) as Ht by discriminate. specialize (IH Ht).
  pose proof (digit_range c Hc) as Hr. pose proof (dec_value_bound t Hds) as Hb. rewrite dec_value_cons in Hv.
  assert (Z.of_nat (length (c :: t)) = Z.of_nat (length t) + 1) as HL by (simpl length; lia).
  assert (1 <= Z.of_nat (length t)) as HL1 by (unfold t; simpl length; lia).
  set (L := Z.of_nat (length t)) in *. assert (1 <= 10 ^ L) as Hp1 by (change 1 with (10 ^ 0); apply pow10_le; lia).
  destruct m eqn:Em; unfold short_literal in Hsh, IH; rewrite HL in Hsh; fold L in IH.
  - (* debug *)
    apply word_some in Hv as [-> Hin].
    assert (in_word lo (Z.of_N (dec_value t))) as Hint by (unfold in_word in *; destruct Hlo as [-> | ->]; nia).
    eapply lit_more; [exact Ht|apply IH; [lia|apply w_fits; exact Hint]|]. fold L.
    assert (10 ^ L <= 10 ^ 19) as Hp19 by (apply pow10_le; lia).
    assert (in_word 0 (10 ^ L)) as Hw0 by (unfold in_word; lia).
    assert (L mod 2 ^ 32 = L) as HLm by (apply Z.mod_small; lia).
    destruct (bits_exist lo (10 ^ L)) as (q & Hq1 & Hq2).
    assert (digit c * q = digit c * 10 ^ L) as Hmul.
    { destruct (in_word_dec lo (10 ^ L)) as [Hi|Hi]; [rewrite (same_word lo q (10 ^ L) (10 ^ L) Hq2 Hi Hq1 (same_bits_refl _)); reflexivity|].
      destruct Hlo as [-> | ->]; [contradiction|]. unfold in_word in *. assert (digit c = 0) as -> by nia. lia. }
    eapply p_sum; [rewrite HLm; apply w_fits; exact Hw0|exact Hq1|exact Hq2|apply w_fits; rewrite Hmul|].
    + unfold in_word in *. destruct Hlo as [-> | ->]; nia.
    + rewrite Hmul. apply w_fits. exact Hin.
  - (* release *)
    assert (in_word lo v /\ same_bits v (digit c * 10 ^ L + Z.of_N (dec_value t))) as [Hin Hbits].
    { inversion Hv; subst; [split; [assumption|apply same_bits_refl]|auto]. }
    destruct (bits_exist lo (Z.of_N (dec_value t))) as (w & Hw1 & Hw2). destruct (bits_exist 0 (10 ^ L)) as (p & Hp2 & Hp3).
    destruct (bits_exist lo p) as (q & Hq1 & Hq2). destruct (bits_exist lo (digit c * q)) as (x & Hx1 & Hx2).
    eapply lit_more; [exact Ht|apply IH; [lia|apply wrapping_word; [exact Hw2|exact Hw1]]|]. fold L.
    assert (L mod 2 ^ 32 = L) as HLm by (apply Z.mod_small; lia).
    eapply p_sum; [rewrite HLm; apply wrapping_word; [exact Hp3|exact Hp2]|exact Hq1|exact Hq2|apply wrapping_word; [exact Hx2|exact Hx1]|].
    apply wrapping_word; [assumption|]. eapply same_bits_trans; [exact Hbits|]. apply same_bits_sym, same_bits_add; [|assumption].
    eapply same_bits_trans; [exact Hx1|]. apply same_bits_mul; [apply same_bits_refl|]. eapply same_bits_trans; eauto.
Qed.

Definition literals_short (l : list item) : Prop := Forall (fun i => match i with Num ds => short_literal m ds | _ => True end) l.
Lemma rpn_does l st st' out : rpn m lo l st st' out -> Forall good_item l -> forall s, stack s = st ->
  exists s', does_all m lo l s (Some s') /\ stack s' = st' /\ printed s' = printed s ++ out /\ err s' = err s.
Proof.
  induction 1 as [st|ds l v st st' out Hsh Hw _ IH|l a b v st st' out Hw _ IH|l a b v st st' out Hw _ IH|l v st st' out _ IH];
    intros Hg s Hs.
  - exists s. split; [constructor|]. rewrite app_nil_r. auto.
  - apply Forall_cons in Hg as [[Hn Hd] Hg]. pose proof (literal_value ds Hn Hd Hsh v Hw) as Hl.
    assert (exists s1, does m lo (Num ds) s (Some s1) /\ stack s1 = v :: st /\ printed s1 = printed s /\ err s1 = err s) as (s1 & D1 & E1 & E2 & E3).
    { destruct ds as [|c [|c' ds]]; [congruence| |].
      - inversion Hl as [|? ? ? ? Hx _ _|]; subst; [|congruence]. eexists. split; [apply do_digit|]. simpl. auto.
      - destruct (literal_tail _ _ _ _ _ _ Hl) as (t & Ht & _). eexists. split; [eapply do_number; eauto|]. simpl. rewrite Hs. auto. }
    destruct (IH Hg s1 E1) as (s' & D & F1 & F2 & F3). exists s'. split; [eapply da_cons; eauto|]. rewrite F2, F3, E2, E3. auto.
  - apply Forall_cons in Hg as [_ Hg]. destruct (IH Hg (mkMach (v :: st) b (reg2 s) (err s) (printed s)) eq_refl) as (s' & D & F1 & F2 & F3).
    exists s'. split; [eapply da_cons; [exact (do_plus m lo a b st s (Some v) Hs Hw)|exact D]|]. auto.
  - apply Forall_cons in Hg as [_ Hg]. destruct (IH Hg (mkMach (v :: st) b (reg2 s) (err s) (printed s)) eq_refl) as (s' & D & F1 & F2 & F3).
    exists s'. split; [eapply da_cons; [exact (do_minus m lo a b st s (Some v) Hs Hw)|exact D]|]. auto.
  - apply Forall_cons in Hg as [_ Hg]. destruct (IH Hg (mkMach st v (reg2 s) (err s) (printed s ++ [v])) eq_refl) as (s' & D & F1 & F2 & F3).
    exists s'. split; [eapply da_cons; [exact (do_print m lo v st s Hs)|exact D]|]. simpl in F2. rewrite F2, <- app_assoc. auto.
Qed.

(** the error register *)
Lemma does_err i s s' : does m lo i s (Some s') -> err s' = err s \/ err s' = 1.
Proof. inversion 1; subst; auto; destruct r; simplify_eq/=; auto. Qed.
Lemma does_all_err_stays l s r : does_all m lo l s r -> err s = 1 -> forall s', r = Some s' -> err s' = 1.
Proof.
  induction 1 as [s|i l s s1 r H1 _ IH|i l s H1]; intros E s' Hr; [congruence| |discriminate]. apply IH; [|assumption].
  destruct (does_err _ _ _ H1); congruence.
Qed.
Lemma does_all_err l : forall s s', does_all m lo l s (Some s') -> err s' = if operands l (length (stack s)) then err s else 1.
Proof.
  induction l as [|i l IH]; intros s s' H; inversion H as [|? ? ? s1 ? H1 H2|]; subst; [reflexivity|].
  assert (forall k, stack s1 = k -> err s1 = err s -> operands (i :: l) (length (stack s)) = operands l (length k) -> err s' = if operands (i :: l) (length (stack s)) then err s else 1) as Hok.
  { intros k <- E ->. rewrite <- E. auto. }
  assert (err s1 = 1 -> operands (i :: l) (length (stack s)) = false -> err s' = if operands (i :: l) (length (stack s)) then err s else 1) as Hbad.
  { intros E ->. exact (does_all_err_stays _ _ _ H2 E s' eq_refl). }
  inversion H1 as [c s0|c ds t v s0 Ht Hv| |a b st s0 r Hs Hw|a b st s0 r Hs Hw|b s0 Hs|b s0 Hs|s0 Hs|s0 Hs|v st s0 Hs|s0 Hs]; subst.
  - eapply Hok; reflexivity.
  - eapply Hok; reflexivity.
  - destruct r; simplify_eq/=. eapply Hok; [reflexivity..|]. rewrite Hs. reflexivity.
  - destruct r; simplify_eq/=. eapply Hok; [reflexivity..|]. rewrite Hs. reflexivity.
  - apply Hbad; [reflexivity|]. rewrite Hs. reflexivity.
  - apply Hbad; [reflexivity|]. rewrite Hs. reflexivity.
  - apply Hbad; [reflexivity|]. rewrite Hs. reflexivity.
  - apply Hbad; [reflexivity|]. rewrite Hs. reflexivity.
  - eapply Hok; [reflexivity..|]. rewrite Hs. reflexivity.
  - apply Hbad; [reflexivity|]. rewrite Hs. reflexivity.
Qed.

(** conversely: what the examples compute is reverse Polish evaluation, for literals of
    at most 2^32 digits (at most 19 for signed words in a debug build) *)
Definition exact_literal (ds : str) : Prop :=
  Z.of_nat (length ds) <= 2 ^ 32 /\ (m = Checked -> lo < 0 -> Z.of_nat (length ds) <= 19).
Lemma pow10_lt a : 0 <= a -> 10 ^ a < 2 ^ 64 -> a <= 19.
Proof. intros H0 Ha. destruct (Z.le_gt_cases a 19) as [|Hgt]; [assumption|]. pose proof (pow10_le 20 a ltac:(lia)). lia. Qed.
Lemma literal_sound ds : Forall digit_char ds -> exact_literal ds -> forall v, literal m lo ds (Some v) ->
  word m lo (Z.of_N (dec_value ds)) (Some v) /\ short_literal m ds.
Proof.
  destruct m eqn:Em.
  - intros Hds. induction Hds as [|c ds Hc Hds IH]; intros Hex v Hl; [inversion Hl|].
    pose proof (digit_range c Hc) as Hr. pose proof (dec_value_bound ds Hds) as Hb.
    inversion Hl as [|? ? t ? Hn Ht Hp|]; subst.
    + split; [|unfold short_literal; simpl; lia]. rewrite dec_value_cons. simpl length. change (10 ^ Z.of_nat 0) with 1. rewrite Z.mul_1_r.
      change (Z.of_N (dec_value [])) with 0. rewrite Z.add_0_r. apply w_fits, small_word; [assumption|lia].
    + assert (exact_literal ds) as Hex' by (destruct Hex as [H1 H2]; split; [simpl length in H1; lia|intros E1 E2; specialize (H2 E1 E2); simpl length in H2; lia]).
      destruct (IH Hex' t Ht) as [Hw Hs]. apply word_some in Hw as [-> Hin]. clear IH Hex'.
      destruct Hex as [Hex1 Hex2]. assert (Z.of_nat (length (c :: ds)) = Z.of_nat (length ds) + 1) as HL by (simpl length; lia). rewrite HL in *.
      set (L := Z.of_nat (length ds)) in *. rewrite dec_value_cons. fold L.
      assert (L mod 2 ^ 32 = L) as HLm by (apply Z.mod_small; lia). assert (1 <= 10 ^ L) as Hp1 by (change 1 with (10 ^ 0); apply pow10_le; lia).
      inversion Hp as [|? ? ? ? ? ? Hx|p q x y Hpw Hq1 Hq2 Hx Hy]; subst; try congruence. rewrite HLm in Hpw. apply word_some in Hpw as [-> Hp0].
      assert (L <= 19) as HL19 by (apply pow10_lt; [lia|unfold in_word in Hp0; lia]).
      assert (q = 10 ^ L) as ->.
      { apply (same_word lo _ _ (10 ^ L)); [assumption| |assumption|apply same_bits_refl]. destruct Hlo as [E|E]; [subst; assumption|].
        specialize (Hex2 ltac:(first [reflexivity|assumption]) ltac:(lia)). assert (10 ^ L <= 10 ^ 18) by (apply pow10_le; lia). subst lo. unfold in_word. lia. }
      apply word_some in Hx as [-> Hx]. apply word_some in Hy as [-> Hy]. split; [apply w_fits; assumption|]. unfold short_literal. rewrite HL. lia.
  - intros Hds Hex v Hl. assert (ds <> []) as Hn by (intros ->; inversion Hl).
    assert (short_literal Wrapping ds) as Hs by (destruct Hex; assumption). split; [|assumption].
    destruct (bits_exist lo (Z.of_N (dec_value ds))) as (w & Hw1 & Hw2).
    assert (word Wrapping lo (Z.of_N (dec_value ds)) (Some w)) as Hw by (apply wrapping_word; assumption).
    pose proof literal_value as Hlv. rewrite Em in Hlv. pose proof (Hlv ds Hn Hds Hs w Hw) as Hl'.
    pose proof (literal_det _ _ _ _ Hl _ Hl') as E. injection E as ->. exact Hw.
Qed.
End rpn.
Section rpn2.
Local Open Scope Z_scope.
Context (m : ovf_mode) (lo : Z) (Hlo : lo = 0 \/ lo = - 2 ^ 63).
Lemma does_rpn l : Forall good_item l -> Forall (fun i => match i with Num ds => exact_literal m lo ds | _ => True end) l ->
  forall s s', does_all m lo l s (Some s') -> operands l (length (stack s)) = true ->
  exists out, rpn m lo l (stack s) (stack s') out /\ printed s' = printed s ++ out.
Proof.
  intros Hg. induction Hg as [|i l Hi _ IH]; intros Hex s s' H Hop; inversion H as [|? ? ? s1 ? H1 H2|]; subst.
  - exists []. split; [constructor|]. symmetry. apply app_nil_r.
  - apply Forall_cons in Hex as [He Hex]. specialize (IH Hex s1 s' H2).
    inversion H1 as [c s0|c ds t v s0 Ht Hv| |a b st s0 r Hs Hw|a b st s0 r Hs Hw|b s0 Hs|b s0 Hs|s0 Hs|s0 Hs|v st s0 Hs|s0 Hs]; subst;
      try (rewrite Hs in Hop; discriminate).
    + destruct (IH Hop) as (out & R & E). exists out. split; [|exact E]. destruct Hi as [_ Hd].
      destruct (literal_sound m lo Hlo [c] Hd He (digit c) (lit_one _ _ _)) as [Hw Hsh]. eapply rpn_num; eauto.
    + destruct (IH Hop) as (out & R & E). exists out. split; [|exact E]. destruct Hi as [_ Hd].
      destruct (literal_sound m lo Hlo (c :: ds) Hd He v Hv) as [Hw Hsh]. eapply rpn_num; eauto.
    + destruct r as [v|]; simplify_eq/=. rewrite Hs in Hop. destruct (IH Hop) as (out & R & E). exists out. split; [|exact E]. rewrite Hs. eapply rpn_plus; eauto.
    + destruct r as [v|]; simplify_eq/=. rewrite Hs in Hop. destruct (IH Hop) as (out & R & E). exists out. split; [|exact E]. rewrite Hs. eapply rpn_minus; eauto.
    + rewrite Hs in Hop. destruct (IH Hop) as (out & R & E). exists (v :: out). simpl in *. split; [rewrite Hs; apply rpn_print; exact R|]. rewrite E, <- app_assoc. reflexivity.
Qed.
Lemma rpn_operands l st st' out : rpn m lo l st st' out -> operands l (length st) = true.
Proof. induction 1; simpl; auto. Qed.
Lemma rpn_short l st st' out : rpn m lo l st st' out -> literals_short m l.
Proof. induction 1; constructor; auto. Qed.
Lemma does_all_det l s : forall r r', does_all m lo l s r -> does_all m lo l s r' -> r = r'.
Proof.
  assert (forall i s r r', does m lo i s r -> does m lo i s r' -> r = r') as Hdet.
  { intros i s0 r r' H H'. inversion H; subst; inversion H'; subst; try congruence;
      repeat match goal with
      | H1 : literal m lo ?d ?a, H2 : literal m lo ?d ?b |- _ => lazymatch a with b => fail | _ => pose proof (literal_det _ _ _ _ H1 _ H2); clear H2 end
      | H : literal m lo [] _ |- _ => apply literal_nil in H; contradiction
      | H : stack s0 = _, H' : stack s0 = _ |- _ => rewrite H in H'; simplify_eq
      | H1 : word m lo ?z ?a, H2 : word m lo ?z ?b |- _ => lazymatch a with b => fail | _ => pose proof (word_det _ _ _ _ _ H1 H2); clear H2 end
      end; simplify_eq; try congruence; try reflexivity.
    all: exfalso; match goal with H : literal m lo [_] None |- _ => pose proof (literal_det _ _ _ _ H _ (lit_one m lo _)) end; discriminate.
  }
  induction l as [|i l IH] in s |- *; intros r r' H H'; inversion H as [|? ? ? s1 ? H1 H2|? ? ? H1]; subst; inversion H' as [|? ? ? s1' ? H1' H2'|? ? ? H1']; subst; try congruence;
    pose proof (Hdet _ _ _ _ H1 H1') as E; try discriminate; injection E as <-; eauto.
Qed.
End rpn2.
