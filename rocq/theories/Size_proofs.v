(** * The size of derivation trees is linear in the length of their text *)
From Verif Require Import Base Peekables Tree Errors Sets ParserData Vm SteuerMap ScriptParser
  SpecGrammar SpecParser SpecTree SpecScript SpecSize Grammar_proofs First_proofs Tree_proofs Script_proofs.

Section size.
Context {I : Type} (pd : ParserData I) (Hwf : wf_grammar pd) (Hno : forall A, ~ left_recursive pd A).
Context (b : nat) (Hb : at_most_wide pd b).
Notation R := (size (pd_rules pd)).
(** nodes of a tree without text, of left depth [h] *)
Definition Zf (h : nat) : nat := (1 + b) ^ h.
Notation Zr := (Zf R).
Definition g (h : nat) : nat := 1 + h * (1 + b * Zr).
Notation M := (g R).
Lemma Zf_pos h : 1 <= Zf h.
Proof. unfold Zf. pose proof (Nat.pow_nonzero (1 + b) h ltac:(lia)). lia. Qed.
Lemma Zf_step h : 1 + b * Zf h <= Zf (S h).
Proof. pose proof (Zf_pos h). unfold Zf in *. rewrite Nat.pow_succ_r'. nia. Qed.
Lemma Zf_mono h h' : h <= h' -> Zf h <= Zf h'.
Proof. intros Hh. unfold Zf. apply Nat.pow_le_mono_r; lia. Qed.
Definition bound (h n : nat) : nat := match n with 0 => Zf h | S n => M * n + g h end.
Lemma bound_pos h n : 1 <= bound h n.
Proof. destruct n; cbn [bound]; [apply Zf_pos|unfold g; lia]. Qed.
Definition good_path (path : list nat) (e : nat) : Prop := NoDup path /\ forall A, A ∈ path -> has_rule pd A /\ tc (left_calls pd) A e.
Definition size_ok (pt : ptree) : Prop := derivation pd pt -> forall path, good_path path (root pt) ->
  nodes_count pt <= bound (R - length path) (length (yield pd pt)).

Lemma good_path_step path A B : good_path path A -> has_rule pd A -> left_calls pd A B -> good_path (A :: path) B /\ S (length path) <= R.
Proof.
  intros [Hn Hp] Hr Hc. assert (A ∉ path) as Hin by (intros Hin; apply (Hno A), Hp; assumption).
  split.
  - split; [constructor; assumption|]. intros C HC. apply elem_of_cons in HC as [->|HC]; [split; [assumption|apply tc_once; assumption]|].
    destruct (Hp C HC) as [H1 H2]. split; [assumption|]. eapply tc_r; eassumption.
  - change (S (length path)) with (length (A :: path)). apply path_bound; [constructor; assumption|].
    intros C HC. apply elem_of_cons in HC as [->|HC]; [assumption|apply Hp; assumption].
Qed.
Lemma good_path_len path A : good_path path A -> has_rule pd A -> S (length path) <= R.
Proof.
  intros [Hn Hp] Hr. assert (A ∉ path) as Hin by (intros Hin; apply (Hno A), Hp; assumption).
  change (S (length path)) with (length (A :: path)). apply path_bound; [constructor; assumption|].
  intros C HC. apply elem_of_cons in HC as [->|HC]; [assumption|apply Hp; assumption].
Qed.
Lemma good_nil e : good_path [] e.
Proof. split; [constructor|]. intros A HA. inversion HA. Qed.

(** any trees, wherever they stand *)
Lemma forest_any subs : Forall size_ok subs -> Forall (derivation pd) subs ->
  forest_count subs <= length subs * Zr + M * length (forest_yield pd subs).
Proof.
  induction 1 as [|s subs Hs _ IH]; intros Hd; [cbn; lia|]. apply Forall_cons in Hd as [Hd1 Hd2]. specialize (IH Hd2).
  rewrite forest_count_cons. unfold forest_yield in *. cbn [map concat length]. rewrite app_length.
  pose proof (Hs Hd1 [] (good_nil _)) as Hc. cbn [length] in Hc. rewrite Nat.sub_0_r in Hc.
  destruct (length (yield pd s)) as [|n]; cbn [bound] in Hc; nia.
Qed.
(** the trees below a node of [A]: those before the first text are left calls *)
Definition after_first (h : nat) (n : nat) : nat := match n with 0 => 0 | S n => M * n + g h end.
Lemma forest_left A path tail subs : has_rule pd A -> good_path path A -> Forall size_ok subs -> Forall (derivation pd) subs ->
  forall pre, alternative pd A (map root pre ++ map root subs ++ tail) -> Forall (derivation pd) pre -> forest_yield pd pre = [] ->
  forest_count subs <= length subs * Zr + after_first (R - S (length path)) (length (forest_yield pd subs)).
Proof.
  intros Hr Hp. induction 1 as [|s subs Hs Hss IH]; intros Hd pre Ha Hpre Hy; [cbn; lia|]. apply Forall_cons in Hd as [Hd1 Hd2].
  rewrite forest_count_cons.
  assert (nodes_count s <= bound (R - S (length path)) (length (yield pd s))) as Hc.
  { inversion Hd1 as [t st Ht E|B subs' Hb' Hf' E]; subst s; [apply bound_pos|].
    assert (left_calls pd A B) as Hlc.
    { apply left_calls_iff. exists (map root pre), (map root subs ++ tail). cbn in Ha. split; [exact Ha|]. split; [apply (empty_nuls pd); assumption|].
      apply (wf_rules _ Hwf). destruct Hb' as (r & p & HrB & _). eexists. exact HrB. }
    destruct (good_path_step path A B Hp Hr Hlc) as [Hg Hl]. exact (Hs Hd1 _ Hg). }
  assert (Zf (R - S (length path)) <= Zr) as Hz by (apply Zf_mono; lia).
  change (forest_yield pd (s :: subs)) with (yield pd s ++ forest_yield pd subs). rewrite app_length. cbn [length].
  destruct (yield pd s) as [|c y] eqn:Ey; cbn [length bound] in *.
  - specialize (IH Hd2 (pre ++ [s])). cbn [Nat.add].
    assert (forest_count subs <= length subs * Zr + after_first (R - S (length path)) (length (forest_yield pd subs))) as Hrest.
    { apply IH.
      - rewrite map_app, <- app_assoc. exact Ha.
      - apply Forall_app. auto.
      - unfold forest_yield in *. rewrite map_app, concat_app. cbn. rewrite Hy, Ey. reflexivity. }
    nia.
  - pose proof (forest_any subs Hss Hd2) as Hrest. cbn [Nat.add after_first]. nia.
Qed.
Lemma size_all pt : size_ok pt.
Proof.
  induction pt as [t|A subs IH] using ptree_rect'; intros Hd path Hp; [apply bound_pos|]. inversion Hd as [|? ? Ha Hf]; subst. cbn [root] in Hp.
  assert (has_rule pd A) as Hr by (destruct Ha as (r & p & Hr & _); eexists; exact Hr).
  pose proof (good_path_len path A Hp Hr) as Hl. pose proof (Hb _ _ Ha) as Hw. rewrite map_length in Hw.
  assert (forest_count subs <= length subs * Zr + after_first (R - S (length path)) (length (forest_yield pd subs))) as Hc.
  { apply (forest_left A path [] subs Hr Hp IH Hf []); [cbn; rewrite app_nil_r; exact Ha|constructor|reflexivity]. }
  rewrite nodes_count_node. change (yield pd (PNode A subs)) with (forest_yield pd subs).
  replace (R - length path) with (S (R - S (length path))) by lia. remember (R - S (length path)) as h eqn:Eh.
  assert (length subs * Zr <= b * Zr) as Hbz by (apply Nat.mul_le_mono_r; assumption).
  destruct (length (forest_yield pd subs)) as [|n] eqn:Ey; cbn [bound after_first] in *.
  - (* no text: the bound of the subtrees is smaller *)
    assert (Forall (fun s => nodes_count s <= Zf h) subs) as Hall.
    { assert (forest_yield pd subs = []) as Ey' by (destruct (forest_yield pd subs); [reflexivity|discriminate]). clear Hc Ey.
      assert (forall pre post, subs = pre ++ post -> Forall (fun s => nodes_count s <= Zf h) post) as Hgen; [|exact (Hgen [] subs eq_refl)].
      intros pre post. revert pre. induction post as [|s post IHp]; intros pre E; [constructor|]. constructor; [|apply (IHp (pre ++ [s])); rewrite <- app_assoc; exact E].
      rewrite E in *. unfold forest_yield in Ey'. rewrite map_app, concat_app in Ey'. cbn in Ey'. apply app_eq_nil in Ey' as [Y1 Y2]. apply app_eq_nil in Y2 as [Y2 Y3].
      apply Forall_app in Hf as [F1 F2]. apply Forall_cons in F2 as [F2 F3]. apply Forall_app in IH as [_ IH]. apply Forall_cons in IH as [IHs _].
      inversion F2 as [t st Ht Et|B subs' Hb' Hf' Et]; subst s; [apply Zf_pos|].
      assert (left_calls pd A B) as Hlc.
      { apply left_calls_iff. exists (map root pre), (map root post). rewrite map_app in Ha. split; [exact Ha|]. split; [apply (empty_nuls pd); assumption|].
        apply (wf_rules _ Hwf). destruct Hb' as (r & p & HrB & _). eexists. exact HrB. }
      destruct (good_path_step path A B Hp Hr Hlc) as [Hg _]. pose proof (IHs F2 _ Hg) as Hs. rewrite Y2 in Hs. cbn [length bound] in Hs. rewrite Eh. exact Hs. }
    assert (forest_count subs <= length subs * Zf h) as Hs by (clear -Hall; induction Hall as [|s subs Hs _ IH]; [cbn; lia|rewrite forest_count_cons; cbn [length]; nia]).
    pose proof (Zf_step h). nia.
  - assert (g (S h) = g h + (1 + b * Zr)) as -> by (unfold g; lia). lia.
Qed.

(** the nodes added before a failure *)
Fixpoint stuck_count (s : stuck) : nat :=
  match s with
  | StuckChoice _ | StuckTerm _ _ => 0
  | StuckIn _ completed s' _ => S (forest_count completed + stuck_count s')
  end.
Lemma stuck_size s : failed_derivation pd s -> forall path, good_path path (stuck_root s) ->
  stuck_count s <= M * length (consumed pd s) + g (R - length path).
Proof.
  induction 1 as [A Hr|t st k Ht Hk|A completed s after Ha Hf Hs IH]; intros path Hp; cbn [stuck_count]; try lia. cbn [stuck_root] in Hp.
  assert (has_rule pd A) as Hr by (destruct Ha as (r & p & Hr & _); eexists; exact Hr).
  pose proof (good_path_len path A Hp Hr) as Hl. pose proof (Hb _ _ Ha) as Hw. rewrite app_length, map_length in Hw. cbn [length] in Hw.
  assert (forest_count completed <= length completed * Zr + after_first (R - S (length path)) (length (forest_yield pd completed))) as Hc.
  { apply (forest_left A path (stuck_root s :: after) completed Hr Hp ltac:(apply Forall_forall; intros x _; apply size_all) Hf []); [exact Ha|constructor|reflexivity]. }
  replace (R - length path) with (S (R - S (length path))) by lia. remember (R - S (length path)) as h eqn:Eh.
  assert (length completed * Zr <= b * Zr) as Hbz by (apply Nat.mul_le_mono_r; lia).
  assert (g (S h) = g h + (1 + b * Zr)) as -> by (unfold g; lia).
  cbn [consumed]. change (concat (map (yield pd) completed)) with (forest_yield pd completed). rewrite app_length.
  destruct (length (forest_yield pd completed)) as [|n] eqn:Ey; cbn [after_first] in Hc.
  - assert (forest_yield pd completed = []) as Ey' by (destruct (forest_yield pd completed); [reflexivity|discriminate]).
    destruct s as [B|t k|B completed' s' after']; [cbn [stuck_count]; lia..|].
    assert (left_calls pd A B) as Hlc.
    { apply left_calls_iff. exists (map root completed), after. split; [exact Ha|]. split; [apply (empty_nuls pd); assumption|].
      apply (wf_rules _ Hwf). inversion Hs as [| |? ? ? ? (r & p & HrB & _)]; subst. eexists. exact HrB. }
    destruct (good_path_step path A B Hp Hr Hlc) as [Hg _]. pose proof (IH _ Hg) as Hst. cbn [length] in Hst. rewrite <- Eh in Hst. lia.
  - pose proof (IH [] (good_nil _)) as Hst. cbn [length] in Hst. rewrite Nat.sub_0_r in Hst. nia.
Qed.
Lemma M_factor : M = factor R b.
Proof. reflexivity. Qed.
Lemma tree_size pt : derivation pd pt -> nodes_count pt <= factor R b * (length (yield pd pt) + 1).
Proof.
  intros Hd. pose proof (size_all pt Hd [] (good_nil _)) as Hc. cbn [length] in Hc. rewrite Nat.sub_0_r in Hc. rewrite <- M_factor.
  destruct (length (yield pd pt)) as [|n] eqn:Ey; cbn [bound] in Hc; [|nia].
  assert (Zr <= M); [|lia]. unfold g. destruct (decide (R = 0)) as [E|E]; [rewrite E; cbn; lia|].
  destruct (decide (b = 0)) as [E2|E2]; 
  [|assert (1 * (1 + 1 * Zr) <= R * (1 + b * Zr)) by (apply Nat.mul_le_mono; [lia|]; apply le_n_S, Nat.mul_le_mono_r; lia); lia].
  unfold Zf. rewrite E2. rewrite Nat.pow_1_l. lia.
Qed.
Lemma stuck_nodes s : failed_derivation pd s -> stuck_count s <= factor R b * (length (consumed pd s) + 1).
Proof. intros Hs. pose proof (stuck_size s Hs [] (good_nil _)) as Hc. cbn [length] in Hc. rewrite Nat.sub_0_r, M_factor in Hc. lia. Qed.

(** nodes of the two post-orders *)
Lemma post_length pt : forall n, length (post_order n pt) <= nodes_count pt.
Proof.
  induction pt as [t|A subs IH] using ptree_rect'; intros n; [cbn; lia|]. rewrite post_order_node, app_length, nodes_count_node. cbn [length].
  assert (forall k, length (forest_post k subs) <= forest_count subs) as Hf; [|specialize (Hf (S n)); lia].
  induction IH as [|s subs Hs _ IHs]; intros k; [cbn; lia|]. cbn [forest_post]. rewrite app_length, forest_count_cons. specialize (Hs k). specialize (IHs (k + nodes_count s)). lia.
Qed.
Lemma forest_post_length subs : forall n, length (forest_post n subs) <= forest_count subs.
Proof.
  induction subs as [|s subs IHs]; intros k; [cbn; lia|]. cbn [forest_post]. rewrite app_length, forest_count_cons. pose proof (post_length s k). specialize (IHs (k + nodes_count s)). lia.
Qed.
Lemma stuck_post_length s : forall n, length (stuck_post_order n s) <= stuck_count s.
Proof.
  induction s as [A|t k|A completed s IH after]; intros n; [cbn; lia..|]. rewrite stuck_post_in, app_length. cbn [stuck_count].
  pose proof (forest_post_length completed (S n)). specialize (IH (S n + forest_count completed)). lia.
Qed.
End size.

(** ** The metered VM goes along with the VM *)
Section meter.
Context {H : HashOrder} (vm : VM) (ps : Parser (vm_instr vm)).
Notation mvm := (metered vm).
Definition along (s : PS vm) (s' : PS mvm) : Prop := ps_in s' = ps_in s /\ ps_tree s' = ps_tree s /\ fst (ps_vm s') = ps_vm s.
Definition sim {A} (f : st (PS vm) ParserError A) (f' : st (PS mvm) ParserError A) : Prop :=
  forall s s', along s s' -> fst (f' s') = fst (f s) /\ along (snd (f s)) (snd (f' s')).
Lemma sim_bind {A B} f f' (g : A -> st (PS vm) ParserError B) g' : sim f f' -> (forall a, sim (g a) (g' a)) -> sim (sbind f g) (sbind f' g').
Proof.
  intros Hf Hg s s' Ha. destruct (Hf s s' Ha) as [E1 E2]. unfold sbind. destruct (f s) as [o s1], (f' s') as [o' s1']. cbn in E1, E2. subst o'.
  destruct o; [apply Hg; assumption|split; [reflexivity|assumption]..].
Qed.
Lemma sim_const {A} (o : outcome ParserError A) : sim (fun s => (o, s)) (fun s => (o, s)).
Proof. intros s s' Ha. split; [reflexivity|assumption]. Qed.
Lemma sim_peek : sim (ps_peek vm) (ps_peek mvm).
Proof. intros s s' (A1 & A2 & A3). unfold ps_peek. rewrite A1. destruct (pp_peek base_tp (ps_in s)) as [o i]. split; [reflexivity|]. repeat split; assumption. Qed.
Lemma sim_next : sim (ps_next vm) (ps_next mvm).
Proof. intros s s' (A1 & A2 & A3). unfold ps_next. rewrite A1. destruct (pp_next base_tp (ps_in s)) as [o i]. split; [reflexivity|]. repeat split; assumption. Qed.
Lemma sim_pos : sim (ps_pos vm) (ps_pos mvm).
Proof. intros s s' (A1 & A2 & A3). unfold ps_pos. rewrite A1. split; [reflexivity|]. repeat split; assumption. Qed.
Lemma sim_fitting el cur : sim (get_fitting_production vm ps el cur) (get_fitting_production mvm ps el cur).
Proof.
  intros s s' Ha. unfold get_fitting_production. cbn [vm_instr metered] in *. destruct (rules_with_steuermaps ps !! el) as [nt|]; [|apply sim_const; assumption].
  destruct (steuermap nt !! cur); [apply sim_const; assumption|]. revert s s' Ha.
  apply sim_bind; [apply sim_peek|]. intros o. apply sim_bind; [apply sim_pos|intros n; apply sim_const].
Qed.
Lemma sim_chars l : sim (terminal_chars vm l) (terminal_chars mvm l).
Proof.
  induction l as [|c l IH]; [apply sim_const|]. cbn [terminal_chars]. apply sim_bind; [apply sim_pos|]. intros n. apply sim_bind; [apply sim_peek|]. intros [x|]; [|apply sim_const].
  destruct (negb (x =? c)%N); [apply sim_bind; [apply sim_pos|intros n2; apply sim_const]|]. apply sim_bind; [apply sim_next|intros _; exact IH].
Qed.
Lemma sim_run id l : sim (run_instructions vm id l) (run_instructions mvm id l).
Proof.
  induction l as [|i l IH]; [apply sim_const|]. cbn [run_instructions]. apply sim_bind; [|intros _; exact IH]. intros s s' (A1 & A2 & A3). unfold run_one. cbn [vm_execute metered].
  rewrite A1, A2, A3. destruct (vm_execute vm (ps_tree s) id i (ps_vm s)) as [[t v]|[]| |]; (split; [reflexivity|]); repeat split; assumption.
Qed.
Lemma sim_add d p : sim (ps_add_node vm d p) (ps_add_node mvm d p).
Proof. intros s s' (A1 & A2 & A3). unfold ps_add_node. rewrite A1, A2. destruct (add_node d p (ps_tree s)) as [r t]. split; [reflexivity|]. repeat split; assumption. Qed.
Lemma sim_add_ignored d p : sim (ps_add_node_ignored vm d p) (ps_add_node_ignored mvm d p).
Proof.
  intros s s' Ha. unfold ps_add_node_ignored. destruct (sim_add d p s s' Ha) as [E1 E2]. destruct (ps_add_node vm d p s) as [o s1], (ps_add_node mvm d p s') as [o' s1'].
  cbn in E1, E2. subst o'. destruct o; (split; [reflexivity|exact E2]).
Qed.
Lemma sim_nonterminal f : forall el node, sim (parse_nonterminal vm ps f el node) (parse_nonterminal mvm ps f el node).
Proof.
  induction f as [|f IH]; intros el node; [apply sim_const|]. cbn [parse_nonterminal]. apply sim_bind; [apply sim_peek|]. intros o.
  change (vm_instr mvm) with (vm_instr vm). destruct (rules_with_steuermaps ps !! el) as [nt|]; [|apply sim_const].
  apply sim_bind; [apply sim_fitting|]. intros prod. apply sim_bind; [apply sim_add|]. intros id. apply sim_bind; [|intros _; apply sim_run].
  destruct prod as [els|]; [|apply sim_const]. induction els as [|e els IHe]; [apply sim_const|].
  destruct (p_elements ps !! e) as [[name []]|]; [| |apply sim_const].
  - apply sim_bind; [|intros txt; apply sim_bind; [apply sim_add_ignored|intros _; exact IHe]].
    apply sim_bind; [apply sim_chars|intros _; apply sim_const].
  - apply sim_bind; [apply IH|intros _; exact IHe].
Qed.
Lemma sim_parse fuel text v n : fst (parse mvm ps fuel text (v, n)) = fst (parse vm ps fuel text v) /\ fst (snd (parse mvm ps fuel text (v, n))) = snd (parse vm ps fuel text v).
Proof.
  unfold parse, parse_run. change (vm_instr mvm) with (vm_instr vm). destruct (position_of (lit "start", NonTerminal) (p_elements ps)) as [start|]; [|split; reflexivity].
  destruct (sim_nonterminal fuel start None (mkPS (pp_new text None None) v tree_new) (mkPS (vm := mvm) (pp_new text None None) (v, n) tree_new)) as [E1 (A1 & A2 & A3)]; [repeat split|].
  destruct (parse_nonterminal vm ps fuel start None _) as [o s], (parse_nonterminal mvm ps fuel start None _) as [o' s']. cbn [fst snd] in *. subst o'. rewrite A2, A3. split; reflexivity.
Qed.
Lemma metered_list t id l : forall s n s' n', run_list (vm := mvm) t id l (s, n) = Ok (s', n') -> n' = n + length l.
Proof.
  unfold run_list. induction l as [|i l IH]; intros s n s' n' E; cbn [ofold] in E; [injection E as -> ->; cbn; lia|].
  cbn [vm_execute metered fst snd] in E. destruct (vm_execute vm t id i s) as [[t1 s1]|[]| |]; cbn [obind] in E; try discriminate.
  apply IH in E. cbn [length]. lia.
Qed.
Lemma metered_actions pd h L : (forall A, length (instructions_of pd A) <= L) -> forall l s n s' n', run_actions (vm := mvm) pd h l (s, n) = Ok (s', n') -> n' <= n + L * length l.
Proof.
  intros HL. unfold run_actions. induction l as [|[[i A] k] l IH]; intros s n s' n' E; cbn [ofold] in E; [injection E as -> ->; lia|].
  destruct (run_list (vm := mvm) _ _ _ (s, n)) as [[s1 n1]|[]| |] eqn:E1; cbn [obind] in E; try discriminate.
  apply IH in E. apply metered_list in E1. pose proof (HL A). change (vm_instr mvm) with (vm_instr vm) in *. cbn [length]. lia.
Qed.
Lemma metered_keeps : keeps_tree vm -> keeps_tree mvm.
Proof.
  intros Hk t id i [s n] t' s' E. cbn [vm_execute metered fst snd] in E. destruct (vm_execute vm t id i s) as [[t1 s1]|[]| |] eqn:E1; try discriminate. injection E as <- <-. eapply Hk. exact E1.
Qed.
End meter.
