(** * How often a parse reads the script (C103) *)
From Verif Require Import Base Peekables Tree Errors Sets ParserData Vm SteuerMap ScriptParser
  SpecGrammar SpecParser SpecTree SpecScript SpecSize SpecRules SpecLanguage SpecReads Grammar_proofs First_proofs Tree_proofs Script_proofs Parse_proofs Size_proofs Depth_proofs.

Section forget.
Context {H : HashOrder} (vm : VM) (ps : Parser (vm_instr vm)).
(** the counter aside, the same *)
Definition forgets {A} (f : st (PS vm) ParserError A) (f' : st (PS vm * nat) ParserError A) : Prop :=
  forall s n, exists k, f' (s, n) = (fst (f s), (snd (f s), k)).
Lemma fg_quiet {A} (f : st (PS vm) ParserError A) : forgets f (quiet vm f).
Proof. intros s n. unfold quiet. destruct (f s) as [r s']. eauto. Qed.
Lemma fg_reading {A} (f : st (PS vm) ParserError A) : forgets f (reading vm f).
Proof. intros s n. unfold reading. destruct (f s) as [r s']. eauto. Qed.
Lemma fg_const {A} (o : outcome ParserError A) : forgets (fun s => (o, s)) (fun s => (o, s)).
Proof. intros s n. eauto. Qed.
Lemma fg_bind {A B} f f' (g : A -> st (PS vm) ParserError B) g' : forgets f f' -> (forall a, forgets (g a) (g' a)) -> forgets (sbind f g) (sbind f' g').
Proof.
  intros Hf Hg s n. unfold sbind. destruct (Hf s n) as [k ->]. destruct (f s) as [[a|e| |] s']; cbn [fst snd]; [apply Hg|eauto..].
Qed.
Lemma fg_fitting el cur : forgets (get_fitting_production vm ps el cur) (reads_fitting vm ps el cur).
Proof.
  intros s n. unfold get_fitting_production, reads_fitting. destruct (rules_with_steuermaps ps !! el) as [nt|]; [|eauto].
  destruct (steuermap nt !! cur) as [p|]; [eauto|]. apply fg_bind; [apply fg_reading|]. intros o. apply fg_bind; [apply fg_quiet|]. intros pos. apply fg_const.
Qed.
Lemma fg_chars l : forgets (terminal_chars vm l) (reads_chars vm l).
Proof.
  induction l as [|c l IH]; [apply fg_const|]. cbn [terminal_chars reads_chars]. apply fg_bind; [apply fg_quiet|]. intros pos. apply fg_bind; [apply fg_reading|]. intros [x|]; [|apply fg_const].
  destruct (negb (x =? c)%N); apply fg_bind; [apply fg_quiet| |apply fg_reading|].
  - intros p2. apply fg_const.
  - intros _. exact IH.
Qed.
Lemma fg_elements f f' id : (forall e node, forgets (parse_nonterminal vm ps f e node) (f' e node)) -> forall els, forgets (els_loop vm ps f id els) (reads_elements vm ps f' id els).
Proof.
  intros Hf. induction els as [|e els IH]; [apply fg_const|]. rewrite els_loop_cons. cbn [reads_elements]. destruct (p_elements ps !! e) as [[name []]|]; [| |apply fg_const].
  - intros s n. unfold parse_script_terminal. unfold sbind. destruct (fg_chars name s n) as [k ->]. destruct (terminal_chars vm name s) as [[[]|er| |] s1]; cbn [fst snd sret]; [|eauto..].
    destruct (fg_quiet (ps_add_node_ignored vm name (Some id)) s1 k) as [k2 ->]. destruct (ps_add_node_ignored vm name (Some id) s1) as [[[]|er| |] s2]; cbn [fst snd]; [apply IH|eauto..].
  - apply fg_bind; [apply Hf|]. intros _. exact IH.
Qed.
Lemma fg_nonterminal f : forall el node, forgets (parse_nonterminal vm ps f el node) (reads_nonterminal vm ps f el node).
Proof.
  induction f as [|f IH]; intros el node; [apply fg_const|]. rewrite parse_unfold. cbn [reads_nonterminal]. apply fg_bind; [apply fg_reading|]. intros o.
  destruct (rules_with_steuermaps ps !! el) as [nt|]; [|apply fg_const]. apply fg_bind; [apply fg_fitting|]. intros p. apply fg_bind; [apply fg_quiet|]. intros id.
  apply fg_bind; [|intros _; apply fg_quiet]. destruct p as [els|]; [|apply fg_const]. apply fg_elements, IH.
Qed.
Lemma fg_parse fuel text v : fst (parse_reads vm ps fuel text v) = parse vm ps fuel text v.
Proof.
  unfold parse_reads, parse, parse_run. destruct (position_of _ _) as [st|]; [|reflexivity].
  destruct (fg_nonterminal fuel st None (mkPS (pp_new text None None) v tree_new) 0) as [k ->].
  destruct (parse_nonterminal vm ps fuel st None _) as [r s]. reflexivity.
Qed.
End forget.

(** ** the counter *)
Fixpoint calls_of (pt : ptree) : nat := match pt with PLeaf _ => 0 | PNode _ subs => S (list_sum (map calls_of subs)) end.
Fixpoint stuck_calls (s : stuck) : nat :=
  match s with StuckChoice _ => 1 | StuckTerm _ _ => 0 | StuckIn _ subs s _ => S (list_sum (map calls_of subs) + stuck_calls s) end.

Section parser.
Context {H : HashOrder} (vm : VM) (pd : ParserData (vm_instr vm)) (start : nat) (ps : Parser (vm_instr vm)).
Context (Hwf : wf_grammar pd) (Hcon : constructible pd start) (Htab : parser_table pd start ps) (Hvm : keeps_tree vm).
Notation det := (proj1 (pred_deterministic pd start (con_disjoint pd start Hcon) (wf_rules pd Hwf))).
Notation fdet := (fails_deterministic pd start (con_disjoint pd start Hcon) (wf_rules pd Hwf)).
Notation nopred := (fails_no_pred pd start (con_disjoint pd start Hcon) (wf_rules pd Hwf)).

Definition tree_reads (pt : ptree) : nat := calls_of pt + 2 * length (yield pd pt).
Definition forest_reads (pts : list ptree) : nat := list_sum (map calls_of pts) + 2 * length (forest_yield pd pts).
Definition stuck_reads (s : stuck) : nat := stuck_calls s + 2 * length (consumed pd s) + 1.
Lemma forest_reads_cons pt pts : forest_reads (pt :: pts) = tree_reads pt + forest_reads pts.
Proof. unfold forest_reads, tree_reads, forest_yield. cbn [map list_sum foldr concat]. unfold list_sum. cbn [foldr]. rewrite app_length. lia. Qed.
Lemma tree_reads_node A pts : tree_reads (PNode A pts) = S (forest_reads pts).
Proof. reflexivity. Qed.
Lemma stuck_reads_in A pts s after : stuck_reads (StuckIn A pts s after) = S (forest_reads pts + stuck_reads s).
Proof. unfold stuck_reads, forest_reads, forest_yield. cbn [stuck_calls consumed]. unfold forest_yield. rewrite app_length. lia. Qed.
Lemma chars_count l : forall text pos v h n,
  match reads_chars vm l (P vm text pos v h, n) with
  | (Ok _, (_, n')) => n' = n + 2 * length l
  | (Err _, (_, n')) => forall k rest, text = take k l ++ rest -> k < length l -> l !! k <> head rest -> n' = n + 2 * k + 1
  | _ => True
  end.
Proof.
  induction l as [|c l IH]; intros text pos v h n; cbn [reads_chars]; [cbn; lia|].
  unfold sbind at 1. cbn [quiet ps_pos]. unfold sbind at 1. unfold reading at 1. rewrite peek_P. destruct text as [|x text]; cbn [head].
  - intros k rest E Hk _. destruct k as [|k]; [lia|discriminate].
  - destruct (negb (N.eqb x c)) eqn:Ex.
    + intros k rest E Hk _. destruct k as [|k]; [lia|]. cbn [take app] in E. injection E as -> _. rewrite N.eqb_refl in Ex. discriminate.
    + apply negb_false_iff, N.eqb_eq in Ex as ->. unfold sbind at 1. unfold reading at 1. rewrite next_P. specialize (IH text (pos + 1) v h (S (S n))).
      destruct (reads_chars vm l _) as [[[]|er| |] [s' n']]; [cbn; lia| |exact Logic.I..].
      intros k rest E Hk Hne. destruct k as [|k]; [cbn in E, Hne; subst rest; cbn in Hne; congruence|]. cbn [take app] in E. injection E as ->.
      rewrite (IH k rest eq_refl); [lia|cbn in Hk; lia|exact Hne].
Qed.

Definition call_count (f A : nat) : Prop := forall par text pos v h n,
  has_rule pd A -> grown h -> (forall q, par = Some q -> q < length h) ->
  match reads_nonterminal vm ps f A (option_map id_of par) (P vm text pos v h, n) with
  | (Ok _, (_, n')) => forall pt rest, pred pd start A text pt rest -> n' = n + tree_reads pt
  | (Err _, (_, n')) => forall stk rest, fails pd start A text stk rest -> n' = n + stuck_reads stk
  | _ => True
  end.
Definition loop_count (f : nat) (els : list nat) : Prop := forall m text pos v h n,
  grown h -> m < length h ->
  (forall e, e ∈ els -> (exists s, is_terminal pd e s) \/ (is_nonterminal pd e /\ has_rule pd e)) ->
  match reads_elements vm ps (reads_nonterminal vm ps f) (id_of m) els (P vm text pos v h, n) with
  | (Ok _, (_, n')) => forall pts rest, preds pd start els text pts rest -> n' = n + forest_reads pts
  | (Err _, (_, n')) => forall pts stk, stops vm pd start els text pts stk -> n' = n + forest_reads pts + stuck_reads stk
  | _ => True
  end.
Lemma loop_count_ok f : (forall A, call_count f A) -> forall els, loop_count f els.
Proof.
  intros Hcall. induction els as [|e els IH]; intros m text pos v h n Hg Hn Hels; cbn [reads_elements].
  - intros pts rest Hp. inversion Hp; subst. cbn. lia.
  - rewrite (pt_elements pd start ps Htab e).
    assert (forall pt mid v1 n1, pred pd start e text pt mid -> n1 = n + tree_reads pt ->
      match reads_elements vm ps (reads_nonterminal vm ps f) (id_of m) els (P vm mid (pos + length (yield pd pt)) v1 (h ++ tree_history pd (length h) (Some m) pt), n1) with
      | (Ok _, (_, n')) => forall pts rest, preds pd start (e :: els) text pts rest -> n' = n + forest_reads pts
      | (Err _, (_, n')) => forall pts stk, stops vm pd start (e :: els) text pts stk -> n' = n + forest_reads pts + stuck_reads stk
      | _ => True
      end) as Hcont.
    { intros pt mid v1 n1 Hpt ->.
      assert (grown (h ++ tree_history pd (length h) (Some m) pt)) as Hg1 by (apply grown_tree; [assumption|]; intros q [= <-]; assumption).
      specialize (IH m mid (pos + length (yield pd pt)) v1 (h ++ tree_history pd (length h) (Some m) pt) (n + tree_reads pt) Hg1).
      rewrite app_length, tree_history_length in IH. specialize (IH ltac:(lia) ltac:(intros e0 He0; apply Hels; right; assumption)).
      destruct (reads_elements vm ps (reads_nonterminal vm ps f) (id_of m) els _) as [[[]|er| |] [s' n']].
      - intros pts rest Hp. inversion Hp as [|? ? ? pt' mm pts' ? P1 P2]; subst. destruct (det _ _ _ _ Hpt _ _ P1) as [<- <-].
        apply IH in P2. rewrite forest_reads_cons. lia.
      - intros pts stk Hs. apply stops_cons in Hs as [(_ & rest & Hf)|(pt' & mm & pts' & -> & P1 & P2)]; [destruct (nopred _ _ _ _ Hf _ _ Hpt)|].
        destruct (det _ _ _ _ Hpt _ _ P1) as [<- <-]. apply IH in P2. rewrite forest_reads_cons. lia.
      - exact Logic.I.
      - exact Logic.I. }
    destruct (Hels e (elem_of_list_here _ _)) as [[s Hs]|[[nm Hnm] Hrule]].
    + rewrite Hs. unfold sbind at 1. pose proof (chars_count s text pos v h n) as Hcc.
      destruct (fg_chars vm s (P vm text pos v h) n) as [k Ek]. rewrite Ek in *.
      pose proof (terminal_spec vm s text pos v h) as Ht. destruct (terminal_chars vm s (P vm text pos v h)) as [[[]|er| |] s1]; cbn [fst snd] in *; try contradiction.
      * destruct Ht as (rest & -> & ->). unfold sbind at 1. unfold quiet at 1.
        unfold ps_add_node_ignored, ps_add_node. cbn [ps_tree P ps_in ps_vm].
        assert (grown (h ++ [(Some m, s)])) as Hg1. { apply grown_app; [assumption|]. intros q [= <-]. assumption. }
        pose proof (tree_of_snoc h (Some m) s Hg1) as Hadd. cbn [option_map] in Hadd. rewrite Hadd. cbn [map_err sret].
        specialize (Hcont (PLeaf e) rest v k (pr_leaf pd start e s rest Hs)).
        unfold tree_reads in Hcont. cbn [SpecScript.tree_history yield calls_of] in Hcont. rewrite (text_of_terminal pd e s Hs) in Hcont. exact (Hcont Hcc).
      * destruct Ht as (j & rest & Hk & -> & Hh & _ & _).
        assert (fails pd start e (take j s ++ rest) (StuckTerm e j) rest) as Hf by (econstructor; eauto).
        intros pts stk Hst. apply stops_cons in Hst as [(-> & rest' & Hf')|(pt' & mm & pts' & -> & P1 & P2)]; [|destruct (nopred _ _ _ _ Hf _ _ P1)].
        destruct (fdet _ _ _ _ Hf _ _ Hf') as [<- _]. rewrite (Hcc j rest eq_refl Hk Hh).
        unfold stuck_reads, forest_reads. cbn. rewrite (text_of_terminal pd e s Hs), take_length_le by lia. lia.
    + rewrite Hnm. unfold sbind at 1. pose proof (Hcall e (Some m) text pos v h n Hrule Hg) as Hc.
      pose proof (call_ok vm pd start ps Hwf Hcon Htab Hvm f e (Some m) text pos v h Hrule Hg) as Hk. cbn [option_map] in Hc, Hk.
      assert (forall q, Some m = Some q -> q < length h) as Hq by (intros q [= <-]; assumption). specialize (Hc Hq). specialize (Hk Hq).
      destruct (fg_nonterminal vm ps f e (Some (id_of m)) (P vm text pos v h) n) as [k Ek]. rewrite Ek in *.
      destruct (parse_nonterminal vm ps f e (Some (id_of m)) (P vm text pos v h)) as [[[]|er| |] s1]; cbn [fst snd] in *.
      * destruct Hk as (pt & rest & v1 & C1 & -> & C3). apply Hcont; eauto.
      * destruct Hk as (stk & rest & v1 & C1 & _). intros pts stk' Hst.
        apply stops_cons in Hst as [(-> & rest' & Hf')|(pt' & mm & pts' & -> & P1 & P2)]; [|destruct (nopred _ _ _ _ C1 _ _ P1)]. apply Hc in Hf'. cbn. lia.
      * exact Logic.I.
      * exact Logic.I.
Qed.
Lemma call_count_ok f : forall A, call_count f A.
Proof.
  induction f as [|f IH]; intros A par text pos v h n [r Hr] Hg Hpar; cbn [reads_nonterminal]; [exact Logic.I|].
  unfold sbind at 1. unfold reading at 1. rewrite peek_P, look_peek.
  destruct (proj2 (pt_rules pd start ps Htab A) ltac:(eexists; exact Hr)) as [nt Hnt]. rewrite Hnt.
  destruct (pt_entry pd start ps Htab A r nt Hr Hnt) as (_ & Hins & Hsel).
  unfold sbind at 1. unfold reads_fitting. rewrite Hnt.
  destruct (steuermap nt !! look text) as [p|] eqn:Hp.
  2:{ unfold sbind at 1. unfold reading at 1. rewrite peek_P. cbn [sbind quiet ps_pos sfail P ps_in cur_pos].
      assert (fails pd start A text (StuckChoice A) text) as Hf.
      { eapply f_choice; [exact Hr|]. intros p Hpp Hc. pose proof (proj2 (Hsel _ _) (conj Hpp Hc)). congruence. }
      intros stk rest Hf'. destruct (fdet _ _ _ _ Hf _ _ Hf') as [<- _]. unfold stuck_reads. cbn. lia. }
  destruct (proj1 (Hsel _ _) Hp) as [Hpp Hc].
  assert (forall pt rest, pred pd start A text pt rest -> exists subs, pt = PNode A subs /\ preds pd start (right_side p) text subs rest) as Hpi.
  { intros pt rest Hpr. inversion Hpr as [t' s' r' Ht' E1 E2 E3|A' r' p' ? subs' ? Hr' Hp' Hc' Hs']; subst; [exfalso; eapply (terminal_not_rule pd (wf_rules pd Hwf)); eauto|].
    assert (r' = r) as -> by congruence. assert (p' = p) as -> by (eapply (choice_unique pd start (con_disjoint pd start Hcon)); eauto). eauto. }
  assert (forall stk rest, fails pd start A text stk rest -> exists subs s after, stk = StuckIn A subs s after /\ stops vm pd start (right_side p) text subs s) as Hfi.
  { intros stk rest Hf. inversion Hf as [? r' ? Hr' Hn'|? ? ? ? Ht'|? r' p' ? es' subs' mid' e' stk0 after' ? Hr' Hp' Hc' He' Hs' Hf0]; subst.
    - assert (r' = r) as -> by congruence. exfalso. eapply Hn'; eauto.
    - exfalso. eapply (terminal_not_rule pd (wf_rules pd Hwf)); eauto.
    - assert (r' = r) as -> by congruence. assert (p' = p) as -> by (eapply (choice_unique pd start (con_disjoint pd start Hcon)); eauto).
      exists subs', stk0, after'. split; [reflexivity|]. exists es', e', after', mid', rest. auto. }
  unfold sbind at 1. unfold quiet at 1. unfold ps_add_node. cbn [P ps_tree ps_in ps_vm].
  assert (grown (h ++ [(par, @nil N)])) as Hg1 by (apply grown_app; assumption).
  rewrite (tree_of_snoc h par [] Hg1). cbn [map_err].
  set (h1 := h ++ [(par, @nil N)]) in *. fold (P vm text pos v h1).
  assert (length h1 = S (length h)) as Hl1 by (unfold h1; rewrite app_length; simpl; lia).
  assert (forall (els : list nat), right_side p = els ->
    match (do _u <- reads_elements vm ps (reads_nonterminal vm ps f) (id_of (length h)) els; quiet vm (run_instructions vm (id_of (length h)) (nt_instruction nt))) (P vm text pos v h1, S n) with
    | (Ok _, (_, n')) => forall pt rest, pred pd start A text pt rest -> n' = n + tree_reads pt
    | (Err _, (_, n')) => forall stk rest, fails pd start A text stk rest -> n' = n + stuck_reads stk
    | _ => True
    end) as Hmain.
  { intros els Hels. rewrite Hels in Hpi, Hfi. assert (alternative pd A els) as Halt by (exists r, p; auto).
    assert (forall e, e ∈ els -> (exists s, is_terminal pd e s) \/ (is_nonterminal pd e /\ has_rule pd e)) as Hde.
    { intros e He. eapply (proj2 (con_defined pd start Hcon)); eauto. }
    pose proof (loop_count_ok f IH els (length h) text pos v h1 (S n) Hg1 ltac:(lia) Hde) as Hd.
    pose proof (loop_ok vm pd start ps Hwf Hcon Htab f (call_ok vm pd start ps Hwf Hcon Htab Hvm f) els (length h) text pos v h1 Hg1 ltac:(lia) Hde) as Hk.
    rewrite Hl1 in Hk. unfold sbind at 1.
    destruct (fg_elements vm ps f (reads_nonterminal vm ps f) (id_of (length h)) (fg_nonterminal vm ps f) els (P vm text pos v h1) (S n)) as [k Ek]. rewrite Ek in *.
    destruct (els_loop vm ps f (id_of (length h)) els (P vm text pos v h1)) as [[[]|e| |] s1]; cbn [fst snd] in *.
    - destruct Hk as (pts & rest & v1 & L1 & -> & L3).
      pose proof (run_instructions_spec vm Hvm (nt_instruction nt) (length h) rest (pos + length (forest_yield pd pts)) v1
        (h1 ++ forest_history pd (S (length h)) (Some (length h)) pts)) as Hri.
      specialize (Hri ltac:(rewrite <- Hl1; apply grown_forest; [assumption|]; intros q [= <-]; lia) ltac:(rewrite app_length; lia)).
      unfold quiet. destruct (run_instructions vm (id_of (length h)) (nt_instruction nt) _) as [[[]|[]| |] s2]; try contradiction; try exact Logic.I.
      intros pt rest' Hpr. apply Hpi in Hpr as (subs & -> & Hs). apply Hd in Hs. rewrite tree_reads_node. lia.
    - intros stk rest Hf. apply Hfi in Hf as (subs & s & after & -> & Hs). apply Hd in Hs. rewrite stuck_reads_in. lia.
    - exact Logic.I.
    - exact Logic.I. }
  destruct p as [els|].
  - exact (Hmain els eq_refl).
  - exact (Hmain [] eq_refl).
Qed.
Lemma parse_count st fuel text v : start_element pd st -> has_rule pd st ->
  match parse_reads vm ps fuel text v with
  | (Ok _, _, n) => forall pt rest, pred pd start st text pt rest -> n = tree_reads pt
  | (Err _, _, n) => forall stk rest, fails pd start st text stk rest -> n = stuck_reads stk
  | _ => True
  end.
Proof.
  intros Hst Hr. unfold parse_reads.
  rewrite (position_start vm pd start ps Htab st Hst).
  change (mkPS (pp_new text None None) v tree_new) with (P vm text 0 v []).
  assert (grown (@nil (option nat * str))) as Hg by (intros i p d Hi; rewrite lookup_nil in Hi; discriminate).
  pose proof (call_count_ok fuel st None text 0 v [] 0 Hr Hg ltac:(discriminate)) as Hc. cbn [option_map] in Hc.
  destruct (reads_nonterminal vm ps fuel st None _) as [[[]|e| |] [s n]]; exact Hc.
Qed.
End parser.
