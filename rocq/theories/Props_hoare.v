(** * Property theorems: contracts for the instructions of a grammar (C115) *)
From Verif Require Import Base Peekables Tree Errors Sets ParserData Vm SimpleStackVm StackVm RuleParsing FirstSets FollowSets SteuerMap ScriptParser
  SpecText SpecData SpecGrammar SpecParser SpecTree SpecScript SpecContract SpecWeave SpecRules SpecNames SpecLanguage SpecIgnore SpecSyntax SpecEffect SpecFailed SpecVm SpecHeights SpecHoare Grammar_proofs Construct_proofs Checks Tree_proofs Script_proofs Parse_proofs
  Weave_proofs Names_proofs RuleBuild_proofs RuleText_proofs Language_proofs Attr_proofs Ignore_proofs Accept_proofs Effect_proofs Failed_proofs Vm_proofs Heights_proofs Props_steuer Props_script Props_weave Props_rules Props_vm Props_names Props_language Props_errors Props_main Props_effect Props_failed Props_heights Samples.

Section contracts.
Context {vm : VM} (Hc : looks_at_first_child vm) (rs : list (arule (vm_instr vm))).
Lemma instructions_same x subs v : instructions_on rs x (map nroot subs) v = own_instructions rs (NNode x subs) v.
Proof.
  unfold instructions_on. apply (own_first Hc rs rs x); [reflexivity|]. destruct subs as [|[b|y ss] subs]; reflexivity.
Qed.
Section sound.
Context (C : contract vm) (P : Prop) (x0 : str) (HC : kept rs C P x0).
Notation fine o K := (match o with Ok v' => K v' | Panic => P | _ => False end).
Definition does_well (nt : ntree) : Prop := nderivation rs nt -> forall x, nroot nt = (x, NonTerminal) -> part_of rs x0 x -> forall v, pre C x v -> fine (effect rs nt v) (post C x v).
Lemma along_app w w' v v1 v2 : along C w v v1 -> along C w' v1 v2 -> along C (w ++ w') v v2.
Proof. induction 1; intros; [assumption|constructor; auto|econstructor; eauto]. Qed.
Lemma parts_well x i v : part_of rs x0 x -> pre C x v -> forall subs, Forall does_well subs -> Forall (nderivation rs) subs ->
  forall done more v1, says rs x i (done ++ map nroot subs ++ more) -> along C done v v1 -> fine (effect_all rs subs v1) (fun v2 => along C (done ++ map nroot subs) v v2).
Proof.
  intros Hp Hpre. induction 1 as [|s subs Hs _ IH]; intros Hds done more v1 Hw Ha; [cbn; rewrite app_nil_r; exact Ha|]. apply Forall_cons in Hds as [Hd1 Hd2].
  cbn [map app] in Hw. unfold effect_all. cbn [ofold].
  assert (fine (effect rs s v1) (fun v2 => along C (done ++ [nroot s]) v v2)) as Hone.
  { destruct s as [b|y ss].
    - cbn. eapply along_app; [exact Ha|]. repeat constructor.
    - cbn [nroot] in *. destruct (HC x i _ v Hp Hw Hpre) as [H1 _]. pose proof (H1 done y _ v1 eq_refl Ha) as Hy.
      pose proof (Hs Hd1 y eq_refl ltac:(eapply part_child; [exact Hp|exact Hw|apply elem_of_app; right; left]) v1 Hy) as Hx.
      destruct (effect rs (NNode y ss) v1) as [v2|[]| |]; try exact Hx. eapply along_app; [exact Ha|]. econstructor; [exact Hx|constructor]. }
  destruct (effect rs s v1) as [v2|[]| |]; cbn [obind]; try exact Hone. change (nroot s :: map nroot subs ++ more) with ([nroot s] ++ map nroot subs ++ more) in Hw. rewrite app_assoc in Hw.
  pose proof (IH Hd2 (done ++ [nroot s]) more v2 Hw Hone) as Hx. unfold effect_all in Hx. destruct (ofold _ v2 subs) as [v3|[]| |]; try exact Hx. rewrite <- app_assoc in Hx. exact Hx.
Qed.
Lemma tree_well nt : does_well nt.
Proof.
  induction nt as [b|y subs IH] using ntree_ind'; intros Hd x Hx Hp v Hpre; [discriminate|]. injection Hx as ->. inversion Hd as [|? i ? Hw Hds]; subst.
  rewrite effect_node. pose proof (parts_well x i v Hp Hpre subs IH Hds [] [] v ltac:(cbn [app]; rewrite app_nil_r; exact Hw) (al_nil C v)) as Ha. cbn [app] in Ha.
  unfold effects. unfold effect_all in Ha. destruct (ofold _ v subs) as [v1|[]| |]; cbn [obind]; try exact Ha.
  destruct (HC x i _ v Hp Hw Hpre) as [_ H2]. specialize (H2 v1 Ha). rewrite instructions_same in H2. exact H2.
Qed.
Lemma unfinished_well x parts read : unfinished rs x parts read -> part_of rs x0 x -> forall v, pre C x v -> fine (effect_all rs parts v) (begun rs C x v).
Proof.
  induction 1 as [x Hx|x i parts b more k Hw Hds Hk|x i parts y more later read Hw Hds Hu IH]; intros Hp v Hpre.
  - apply be_choice.
  - pose proof (parts_well x i v Hp Hpre parts ltac:(apply Forall_forall; intros s _; apply tree_well) Hds [] _ v Hw (al_nil C v)) as Ha.
    destruct (effect_all rs parts v) as [v1|[]| |]; try exact Ha. apply (be_text rs C x i _ b more v v1 Hw Ha).
  - pose proof (parts_well x i v Hp Hpre parts ltac:(apply Forall_forall; intros s _; apply tree_well) Hds [] _ v Hw (al_nil C v)) as Ha.
    unfold effect_all in *. rewrite ofold_app. destruct (ofold _ v parts) as [v1|[]| |]; cbn [obind]; try exact Ha. cbn [app] in Ha.
    destruct (HC x i _ v Hp Hw Hpre) as [H1 _]. pose proof (H1 _ y _ v1 eq_refl Ha) as Hy.
    pose proof (IH ltac:(eapply part_child; [exact Hp|exact Hw|apply elem_of_app; right; left]) v1 Hy) as Hx. destruct (ofold _ v1 later) as [v2|[]| |]; try exact Hx.
    exact (be_inside rs C x i _ y more v v1 v2 Hw Ha Hx).
Qed.
End sound.
(** the effects themselves as a contract *)
Definition effects_contract : contract vm := mkContract (fun _ _ => True) (fun x v v' => exists nt, nderivation rs nt /\ nroot nt = (x, NonTerminal) /\ effect rs nt v = Ok v').
Lemma along_trees (C : contract vm) (HC : forall x v v', post C x v v' -> post effects_contract x v v') w v v1 : along C w v v1 -> exists subs, map nroot subs = w /\ Forall (nderivation rs) subs /\ effects rs subs v = Ok v1.
Proof.
  induction 1 as [v|b w v v' _ (subs & <- & Hd & He)|y w v v1 v' (nt & N1 & N2 & N3)%HC _ (subs & <- & Hd & He)].
  - exists []. repeat constructor.
  - exists (NLeaf b :: subs). split; [reflexivity|]. split; [constructor; [constructor|assumption]|]. exact He.
  - exists (nt :: subs). split; [cbn; congruence|]. split; [constructor; assumption|]. unfold effects. cbn [ofold]. rewrite N3. exact He.
Qed.
Lemma along_effects w v v1 : along effects_contract w v v1 -> exists subs, map nroot subs = w /\ Forall (nderivation rs) subs /\ effects rs subs v = Ok v1.
Proof. apply along_trees. auto. Qed.
(** the effects, with names begun only where no tree of theirs panics *)
Definition quiet_contract : contract vm := mkContract (fun x v => forall nt, nderivation rs nt -> nroot nt = (x, NonTerminal) -> effect rs nt v <> Panic) (post effects_contract).
Lemma own_never v : forall x subs, always_returns vm -> own_instructions rs (NNode x subs) v <> Diverge.
Proof.
  intros x subs Hret. cbn [own_instructions]. revert v. induction (instructions_for rs x) as [|ins l IH]; intros v; [discriminate|]. cbn [ofold].
  destruct (vm_execute vm (own_tree (NNode x subs)) (mkNodeId 0 0) ins v) as [[t s]|[]| |] eqn:E; cbn [obind]; [apply IH|discriminate|].
  exfalso. apply (Hret (nhistory 0 None (NNode x subs)) 0 ins v); [apply nhistory_grown|rewrite nhistory_length; apply ncount_pos|exact E].
Qed.
Lemma effects_kept x : always_returns vm -> kept rs effects_contract True x.
Proof.
  intros Hret y i w v Hp Hw _. split; [intros; exact Logic.I|]. intros v1 Ha. apply along_effects in Ha as (subs & <- & Hd & He). rewrite instructions_same.
  destruct (own_instructions rs (NNode y subs) v1) as [v2|[]| |] eqn:E; [|exact Logic.I|destruct (own_never _ _ _ Hret E)].
  exists (NNode y subs). split; [apply (nder_node rs y i); assumption|]. split; [reflexivity|]. rewrite effect_node, He. exact E.
Qed.
Lemma trees_for x0 x i w : (forall y, part_of rs x0 y -> exists part, nderivation rs part /\ nroot part = (y, NonTerminal)) -> part_of rs x0 x -> forall w1, says rs x i (w1 ++ w) ->
  exists subs, map nroot subs = w /\ Forall (nderivation rs) subs.
Proof.
  intros Hall Hp. induction w as [|e w IH]; intros w1 Hw; [exists []; repeat constructor|]. destruct (IH (w1 ++ [e])) as (subs & <- & Hd); [rewrite <- app_assoc; exact Hw|].
  destruct e as [b [|]].
  - exists (NLeaf b :: subs). split; [reflexivity|]. constructor; [constructor|assumption].
  - destruct (Hall b) as (nt & N1 & N2); [eapply rtc_r; [exact Hp|]; exists i; eexists; split; [exact Hw|apply elem_of_app; right; left]|]. exists (nt :: subs). split; [cbn; congruence|constructor; assumption].
Qed.
Lemma quiet_kept x : always_returns vm -> (forall y, part_of rs x y -> exists part, nderivation rs part /\ nroot part = (y, NonTerminal)) -> kept rs quiet_contract False x.
Proof.
  intros Hret Hall y i w v Hp Hw Hq. split.
  - intros w1 z w2 v1 -> Ha nt N1 N2 E. apply (along_trees quiet_contract ltac:(auto)) in Ha as (subs1 & <- & Hd1 & He1).
    destruct (trees_for x y i w2 Hall Hp (map nroot subs1 ++ [(z, NonTerminal)])) as (subs2 & <- & Hd2); [rewrite <- app_assoc; exact Hw|].
    apply (Hq (NNode y (subs1 ++ nt :: subs2))); [|reflexivity|].
    + apply (nder_node rs y i); [rewrite map_app; cbn [map]; rewrite N2; exact Hw|]. apply Forall_app. split; [assumption|constructor; assumption].
    + rewrite effect_node. unfold effects in *. rewrite ofold_app, He1. cbn [obind ofold]. rewrite E. reflexivity.
  - intros v1 Ha. apply (along_trees quiet_contract ltac:(auto)) in Ha as (subs & <- & Hd & He). rewrite instructions_same.
    assert (nderivation rs (NNode y subs)) as Hn by (apply (nder_node rs y i); assumption).
    destruct (own_instructions rs (NNode y subs) v1) as [v2|[]| |] eqn:E; [| |destruct (own_never _ _ _ Hret E)].
    + exists (NNode y subs). split; [assumption|]. split; [reflexivity|]. rewrite effect_node, He. exact E.
    + apply (Hq _ Hn eq_refl). rewrite effect_node, He. exact E.
Qed.
End contracts.

(** ** C115.  Whoever has checked, one alternative at a time, that a contract is kept, may rely
    on it for every parse: a parse that succeeds does what the contract says of start, a parse
    that fails has got there along an unfinished start, and no parse panics, unless that is
    allowed. *)
Theorem C115_contracts : forall (U : Unicode) (H : HashOrder) m (vm : VM) rs t ps, read_from m vm rs t ps -> looks_at_first_child vm ->
  forall (C : contract vm) (panics_allowed : Prop), kept rs C panics_allowed (lit "start") ->
  forall fuel script v, (length script + 1) * length t <= fuel -> pre C (lit "start") v ->
  match parse vm ps fuel script v with
  | (Ok _, v') => post C (lit "start") v v'
  | (Err _, v') => begun rs C (lit "start") v v'
  | (Panic, _) => panics_allowed
  | (Diverge, _) => False
  end.
Proof.
  intros U H m vm rs t ps Hr Hc C P HC fuel script v Hfuel Hpre. pose proof (child_looks_down vm Hc) as Hl. destruct (accepts_or_not script Hr) as [(nt & rest & Ha)|Hno].
  - pose proof Ha as (Hd & Hroot & _). pose proof (tree_well Hc rs C P (lit "start") HC nt Hd (lit "start") Hroot (rtc_refl _ _) v Hpre) as Hw.
    destruct (C88_state_after_a_parse _ _ _ _ _ _ _ Hr Hl fuel script v Hfuel) as [A1 A2]. destruct (effect rs nt v) as [v'|[]| |] eqn:Ee; [| |contradiction].
    + destruct (proj2 (A1 v')) as [tr ->]; [exists nt, rest; auto|]. exact Hw.
    + pose proof (A2 nt rest Ha ltac:(intros ?; rewrite Ee; discriminate)) as E. destruct (parse vm ps fuel script v) as [[| | |] ?]; try discriminate. exact Hw.
  - destruct (C113_failed_parse _ _ _ _ _ _ _ Hr Hl script Hno) as (parts & read & rest & Hu & Hsc & Hp). specialize (Hp fuel v Hfuel).
    pose proof (unfinished_well Hc rs C P (lit "start") HC _ _ _ Hu (rtc_refl _ _) v Hpre) as Hw. destruct (effect_all rs parts v) as [v'|[]| |]; [| |contradiction].
    + destruct Hp as (e & -> & _). exact Hw.
    + destruct (parse vm ps fuel script v) as [[| | |] ?]; try discriminate. exact Hw.
Qed.
Print Assumptions C115_contracts.

(** Sessions: what holds of the state at the beginning and is not lost by a start that is
    done, nor by one that is left unfinished, holds after any number of parses, and none of
    them panics. *)
Theorem C115_sessions : forall (U : Unicode) (H : HashOrder) m (vm : VM) rs t ps, read_from m vm rs t ps -> looks_at_first_child vm ->
  forall C : contract vm, kept rs C False (lit "start") ->
  forall Inv : vm_state vm -> Prop, (forall v, Inv v -> pre C (lit "start") v) -> (forall v v', Inv v -> post C (lit "start") v v' \/ begun rs C (lit "start") v v' -> Inv v') ->
  forall fuel scripts v, Forall (fun script => (length script + 1) * length t <= fuel) scripts -> Inv v ->
  exists v', in_a_row (parse vm ps fuel) scripts v = Some v' /\ Inv v'.
Proof.
  intros U H m vm rs t ps Hr Hc C HC Inv H1 H2 fuel scripts v Hf. revert v. induction Hf as [|script more Hl _ IH]; intros v Hv; [exists v; split; [reflexivity|assumption]|].
  pose proof (C115_contracts U H m vm rs t ps Hr Hc C False HC fuel script v Hl (H1 v Hv)) as Hx. cbn [in_a_row].
  destruct (parse vm ps fuel script v) as [[tr|e| |] v']; [|
    |contradiction..]; apply IH; apply (H2 v v' Hv); auto.
Qed.
Print Assumptions C115_sessions.

(** Nothing true is out of reach: whatever holds of every parse of a sentence that succeeds
    follows from some contract that is kept. *)
Theorem C115_complete : forall (U : Unicode) (H : HashOrder) m (vm : VM) rs t ps, read_from m vm rs t ps -> looks_at_first_child vm ->
  forall Q : vm_state vm -> vm_state vm -> Prop,
  (forall script, sentence rs script -> forall fuel v tr v', (length script + 1) * length t <= fuel -> parse vm ps fuel script v = (Ok tr, v') -> Q v v') ->
  exists C : contract vm, kept rs C True (lit "start") /\ (forall v, pre C (lit "start") v) /\ forall v v', post C (lit "start") v v' -> Q v v'.
Proof.
  intros U H m vm rs t ps Hr Hc Q HQ. exists (effects_contract rs). split; [|split].
  - apply effects_kept; [assumption|]. apply (read_from_vm m vm rs t ps Hr).
  - intros v. exact Logic.I.
  - intros v v' (nt & N1 & N2 & N3).
    pose proof (C88_sentences U H m vm rs t ps Hr (child_looks_down vm Hc) nt v ((length (nyield nt) + 1) * length t) N1 N2 (le_n _)) as Hs. rewrite N3 in Hs.
    destruct Hs as (tr & Hp & _). apply (HQ (nyield nt) ltac:(exists nt; auto) _ v tr v' (le_n _) Hp).
Qed.
Print Assumptions C115_complete.

(** ... also that there are no panics, if every part can stand for some text: what holds of
    the parses of sentences from states in [P], none of which panics, follows from a contract
    that allows no panic. *)
Theorem C115_complete_without_panics : forall (U : Unicode) (H : HashOrder) m (vm : VM) rs t ps, read_from m vm rs t ps -> looks_at_first_child vm ->
  (forall y, part_of rs (lit "start") y -> exists s, derives_text rs y s) ->
  forall (P : vm_state vm -> Prop) (Q : vm_state vm -> vm_state vm -> Prop),
  (forall script, sentence rs script -> forall fuel v, (length script + 1) * length t <= fuel -> P v -> match parse vm ps fuel script v with (Ok _, v') => Q v v' | _ => False end) ->
  exists C : contract vm, kept rs C False (lit "start") /\ (forall v, P v -> pre C (lit "start") v) /\ forall v v', P v -> post C (lit "start") v v' -> Q v v'.
Proof.
  intros U H m vm rs t ps Hr Hc Hall P Q HQ. exists (quiet_contract rs). split; [|split].
  - apply quiet_kept; [assumption|apply (read_from_vm m vm rs t ps Hr)|]. intros y Hy. destruct (Hall y Hy) as (s & nt & N1 & N2 & _). eauto.
  - intros v Hv nt N1 N2 E. pose proof (C88_sentences U H m vm rs t ps Hr (child_looks_down vm Hc) nt v _ N1 N2 (le_n _)) as Hs. rewrite E in Hs.
    specialize (HQ (nyield nt) ltac:(exists nt; auto) _ v (le_n _) Hv). destruct (parse vm ps _ (nyield nt) v) as [[| | |] ?]; try discriminate Hs. exact HQ.
  - intros v v' Hv (nt & N1 & N2 & N3). pose proof (C88_sentences U H m vm rs t ps Hr (child_looks_down vm Hc) nt v _ N1 N2 (le_n _)) as Hs. rewrite N3 in Hs.
    destruct Hs as (tr & Hp & _). specialize (HQ (nyield nt) ltac:(exists nt; auto) _ v (le_n _) Hv). rewrite Hp in HQ. exact HQ.
Qed.
Print Assumptions C115_complete_without_panics.
(** So scripts that are not sentences panic only if sentences do. *)
Theorem C115_panics_from_sentences : forall (U : Unicode) (H : HashOrder) m (vm : VM) rs t ps, read_from m vm rs t ps -> looks_at_first_child vm ->
  (forall y, part_of rs (lit "start") y -> exists s, derives_text rs y s) ->
  forall P : vm_state vm -> Prop,
  (forall script, sentence rs script -> forall fuel v, (length script + 1) * length t <= fuel -> P v -> fst (parse vm ps fuel script v) <> Panic) ->
  forall fuel script v, (length script + 1) * length t <= fuel -> P v -> fst (parse vm ps fuel script v) <> Panic.
Proof.
  intros U H m vm rs t ps Hr Hc Hall P HP fuel script v Hfuel Hv.
  destruct (C115_complete_without_panics U H m vm rs t ps Hr Hc Hall P (fun _ _ => True)) as (C & HC & Hpre & _).
  - intros sc (nt & N1 & N2 & <-) f w Hf Hw. pose proof (C88_sentences U H m vm rs t ps Hr (child_looks_down vm Hc) nt w f N1 N2 Hf) as Hs.
    pose proof (HP (nyield nt) ltac:(exists nt; auto) f w Hf Hw) as Hno. destruct (effect rs nt w) as [w'|[]| |]; [|contradiction..]. destruct Hs as (tr & -> & _). exact Logic.I.
  - pose proof (C115_contracts U H m vm rs t ps Hr Hc C False HC fuel script v Hfuel (Hpre v Hv)) as Hx. destruct (parse vm ps fuel script v) as [[| | |] ?]; try discriminate. destruct Hx.
Qed.
Print Assumptions C115_panics_from_sentences.

(** ** Non-vacuity: each number is between 1 and 20, so their sum is between 2 and 40, and
    adding them never panics, however the machine was left by earlier parses. *)
Section example.
Local Existing Instance ascii_unicode.
Local Existing Instance plain_order.
Definition hx_between (lo hi : Z) (v v' : KState) : Prop := exists z, (lo <= z <= hi)%Z /\ ks_stack v' = z :: ks_stack v.
Definition hx_contract : contract (StackVm Checked) :=
  mkContract (vm := StackVm Checked) (fun _ _ => True) (fun x v v' => if decide (x = lit "start") then hx_between 2 40 v v' else hx_between 1 20 v v').
Lemma hx_says y i w : says hx_rules y i w ->
  y = lit "start" /\ w = [(lit "n", NonTerminal); (lit "n", NonTerminal)] \/ y = lit "n" /\ (w = [(lit "1", Terminal)] \/ w = [(lit "20", Terminal)]).
Proof.
  intros [w' E _|w' z _ Hi _]; [|destruct (hx_no_ignore _ _ Hi)]. 
  destruct (decide (y = lit "start")) as [->|Hs].
  { left. split; [reflexivity|]. vm_compute in E. destruct i as [|[|i]]; [injection E as <-; reflexivity|discriminate..]. }
  destruct (decide (y = lit "n")) as [->|Hn].
  { right. split; [reflexivity|]. vm_compute in E. destruct i as [|[|[|i]]]; try discriminate; injection E as <-; auto. }
  exfalso. apply elem_of_list_lookup_2 in E. unfold alternatives_for in E. apply elem_of_list_In, in_concat in E as (l & Hl & _). apply in_map_iff in Hl as (r & _ & Hr).
  apply elem_of_list_In, elem_of_list_filter in Hr as [Hy Hr]. apply elem_of_cons in Hr as [->|Hr]; [apply Hs; symmetry; exact Hy|]. apply elem_of_list_singleton in Hr as ->. apply Hn. symmetry. exact Hy.
Qed.
(** C114_smaller is not vacuous: two announcements that pass, and a tree for every part. *)
Lemma hx_nderivation_n : nderivation hx_rules (NNode (lit "n") [NLeaf (lit "1")]).
Proof. apply (nder_node hx_rules _ 0); [|repeat constructor]. constructor; [reflexivity|]. intros y Hy. destruct (hx_no_ignore _ _ Hy). Qed.
Example C114_smaller_example : heights_fit stack_op (- 2 ^ 63) hx_rules hx_types (lit "start") /\ heights_fit stack_op (- 2 ^ 63) hx_rules (fun _ => (1, 2)) (lit "start") /\
  forall y, part_of hx_rules (lit "start") y -> exists part, nderivation hx_rules part /\ nroot part = (y, NonTerminal).
Proof.
  split; [|split].
  - apply (checker_fits stack_op _ _ isize_number hx_rules hx_types); [apply hx_no_ignore|]. vm_compute. reflexivity.
  - apply (checker_fits stack_op _ _ isize_number hx_rules (fun _ => (1, 2))); [apply hx_no_ignore|]. vm_compute. reflexivity.
  - intros y Hy. assert (y = lit "start" \/ y = lit "n") as [-> | ->].
    { revert Hy. apply (rtc_ind_r (fun z => z = lit "start" \/ z = lit "n") (lit "start")); [left; reflexivity|]. intros a b _ (i & w & Hw & Hb) _. right.
      apply hx_says in Hw as [[_ ->]|[_ [-> | ->]]]; repeat (apply elem_of_cons in Hb as [E|Hb]; [try discriminate E; injection E as ->; reflexivity|]); inversion Hb. }
    + exists (NNode (lit "start") [NNode (lit "n") [NLeaf (lit "1")]; NNode (lit "n") [NLeaf (lit "1")]]). split; [|reflexivity].
      apply (nder_node hx_rules _ 0); [|repeat (constructor; [exact hx_nderivation_n|]); constructor]. constructor; [reflexivity|]. intros y Hi. destruct (hx_no_ignore _ _ Hi).
    + exists (NNode (lit "n") [NLeaf (lit "1")]). split; [exact hx_nderivation_n|reflexivity].
Qed.
Lemma hx_numbers v b z : str_parse_isize b = Some z -> instructions_on hx_rules (lit "n") [(b, Terminal)] v = Ok (k_set_stack v (z :: ks_stack v)).
Proof.
  intros E. unfold instructions_on, first_part. unfold own_instructions. change (instructions_for hx_rules (lit "n")) with [KPushFromTree]. cbn [ofold].
  unfold StackVm, vm_execute, stack_execute, stack_exec. replace (first_child_data (own_tree (NNode (lit "n") [NLeaf b])) (mkNodeId 0 0)) with (@Ok Empty_set _ (Some b)) by reflexivity.
  cbn [obind]. rewrite E. reflexivity.
Qed.
Lemma hx_post_n v v' : post hx_contract (lit "n") v v' -> hx_between 1 20 v v'.
Proof. intros Hp. exact Hp. Qed.
Lemma hx_kept : kept hx_rules hx_contract False (lit "start").
Proof.
  intros y i w v _ Hs _. split; [intros; exact Logic.I|]. intros v1 Ha. apply hx_says in Hs as [[-> ->]|[-> Hw]].
  - inversion Ha as [| |? ? ? v2 ? H1 Ha2]; subst. inversion Ha2 as [| |? ? ? v3 ? H2 Ha3]; subst. inversion Ha3; subst.
    apply hx_post_n in H1 as (z1 & Hz1 & E1). apply hx_post_n in H2 as (z2 & Hz2 & E2).
    unfold instructions_on, own_instructions. change (instructions_for hx_rules (lit "start")) with [KPopToReg; KAdd]. cbn [ofold].
    unfold StackVm, vm_execute, stack_execute, stack_exec, k_pop. cbn in E1, E2. rewrite E2, E1. cbn [obind k_set_stack ks_stack ks_reg ks_reg2 ks_error ks_out].
    assert (isize_result Checked (z2 + z1) = Ok (z2 + z1)%Z) as -> by (unfold isize_result; rewrite (proj2 (andb_true_iff _ _)) by (split; apply Z.leb_le; unfold isize_min, isize_max; lia); reflexivity).
    cbn. exists (z2 + z1)%Z. split; [lia|reflexivity].
  - assert (v1 = v) as -> by (destruct Hw as [-> | ->]; inversion Ha as [|? ? ? ? Ha2|]; subst; inversion Ha2; reflexivity).
    destruct Hw as [-> | ->]; [rewrite (hx_numbers v (lit "1") 1%Z) by reflexivity; exists 1%Z|rewrite (hx_numbers v (lit "20") 20%Z) by reflexivity; exists 20%Z]; (split; [lia|reflexivity]).
Qed.
(** The contract is met by a parser that exists, and its promise is used at a concrete text:
    any parse of any text with that parser leaves a value between 2 and 40, or fails. *)
Example C115_example : exists ps : Parser KInstr, read_from Checked (StackVm Checked) hx_rules hx_text ps /\ kept hx_rules hx_contract False (lit "start") /\
  (exists tr v, parse (StackVm Checked) ps 300 (lit "120") (mkKState [7] 0 0 0 [])%Z = (Ok tr, v) /\ ks_stack v = [21; 7]%Z) /\
  (forall script v fuel, (length script + 1) * length hx_text <= fuel -> match parse (StackVm Checked) ps fuel script v with (Ok _, v') => hx_between 2 40 v v' | (Err _, _) => True | _ => False end).
Proof.
  destruct C114_example as (ps & Hr & _ & Hrun & _). exists ps. split; [exact Hr|]. split; [exact hx_kept|]. split; [exact Hrun|].
  intros script v fuel Hf. pose proof (C115_contracts _ _ _ _ _ _ _ Hr (stack_looks Checked) hx_contract False hx_kept fuel script v Hf Logic.I) as Hx.
  destruct (parse (StackVm Checked) ps fuel script v) as [[| | |] v']; try exact Hx. exact Logic.I.
Qed.
(** C115_panics_from_sentences is not vacuous. *)
Example C115_panics_example : (forall y, part_of hx_rules (lit "start") y -> exists s, derives_text hx_rules y s) /\
  exists ps : Parser KInstr, read_from Checked (StackVm Checked) hx_rules hx_text ps /\
  forall script, sentence hx_rules script -> forall fuel v, (length script + 1) * length hx_text <= fuel -> True -> fst (parse (StackVm Checked) ps fuel script v) <> Panic.
Proof.
  split.
  - intros y Hy. destruct (proj2 (proj2 C114_smaller_example) y Hy) as (nt & N1 & N2). exists (nyield nt), nt. auto.
  - destruct C115_example as (ps & Hr & _ & _ & Hall). exists ps. split; [exact Hr|]. intros script _ fuel v Hf _ E. specialize (Hall script v fuel Hf).
    destruct (parse (StackVm Checked) ps fuel script v) as [[| | |] ?]; try discriminate. exact Hall.
Qed.
(** A session with the sums: as long as it lasts, the stack holds values from 0 to 40 only. *)
Lemma hx_along_n w v v' : along hx_contract w v v' -> w = [] \/ w = [(lit "n", NonTerminal)] -> v' = v \/ hx_between 1 20 v v'.
Proof.
  intros Ha [-> | ->]; [inversion Ha; auto|]. inversion Ha as [| |? ? ? v1 ? Hp Ha2]; subst. inversion Ha2; subst. right. exact (hx_post_n _ _ Hp).
Qed.
Lemma hx_begun y v v' : begun hx_rules hx_contract y v v' -> (y = lit "n" -> v' = v) /\ (y = lit "start" -> v' = v \/ hx_between 1 20 v v').
Proof.
  induction 1 as [x v|x i w1 b w2 v v' Hw Ha|x i w1 y w2 v v1 v' Hw Ha _ [IH _]]; [auto|..].
  - apply hx_says in Hw as [[-> E]|[-> E]].
    + destruct w1 as [|e1 [|e2 [|]]]; discriminate E.
    + destruct w1 as [|e1 [|]]; [|destruct E; discriminate..]. inversion Ha. auto.
  - apply hx_says in Hw as [[-> E]|[-> E]].
    + split; [discriminate|]. intros _. destruct w1 as [|e1 [|e2 w1]]; [injection E as -> _|injection E as -> -> _|destruct w1; discriminate E]; rewrite (IH eq_refl); eapply hx_along_n; eauto.
    + destruct w1 as [|e1 [|]]; destruct E as [E|E]; discriminate E.
Qed.
Example C115_sessions_example :
  (forall v, Forall (fun z => 0 <= z <= 40)%Z (ks_stack v) -> pre hx_contract (lit "start") v) /\
  (forall v v', Forall (fun z => 0 <= z <= 40)%Z (ks_stack v) -> post hx_contract (lit "start") v v' \/ begun hx_rules hx_contract (lit "start") v v' -> Forall (fun z => 0 <= z <= 40)%Z (ks_stack v')).
Proof.
  split; [intros; exact Logic.I|]. intros v v' Hv [(z & Hz & ->)|Hb]; [constructor; [lia|assumption]|].
  apply hx_begun in Hb as [_ Hb]. destruct (Hb eq_refl) as [->|(z & Hz & ->)]; [assumption|]. constructor; [lia|assumption].
Qed.
End example.
