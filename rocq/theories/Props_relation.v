(** * Property theorems: two sets of instructions for the same rules, compared (C116) *)
From Verif Require Import Base Peekables Tree Errors Sets ParserData Vm SimpleStackVm StackVm RuleParsing FirstSets FollowSets SteuerMap ScriptParser
  SpecText SpecData SpecGrammar SpecParser SpecTree SpecScript SpecContract SpecWeave SpecRules SpecNames SpecLanguage SpecIgnore SpecSyntax SpecSim SpecEffect SpecFailed SpecVm SpecHeights SpecHoare SpecRelation Grammar_proofs Construct_proofs Checks Tree_proofs Script_proofs Parse_proofs
  Weave_proofs Names_proofs RuleBuild_proofs RuleText_proofs Language_proofs Attr_proofs Ignore_proofs Accept_proofs Syntax_proofs Bare_proofs Sim_proofs Effect_proofs Failed_proofs Vm_proofs Heights_proofs Props_steuer Props_script Props_weave Props_rules Props_vm Props_names Props_language Props_errors Props_main Props_syntax Props_sim Props_effect Props_failed Props_heights Props_hoare Samples.

(** ** The same rules but for the instructions *)
Section syntax.
Context {I J : Type} (rs : list (arule I)) (rs' : list (arule J)) (Hrs : Forall2 rewritten rs rs').
Lemma rw_bare : map bare rs = (map bare rs' : list (arule (vm_instr NullVm))).
Proof.
  revert rs' Hrs. induction rs as [|r l IH]; intros [|r' l'] Hf; try (inversion Hf; fail); [reflexivity|]. apply Forall2_cons in Hf as [(H1 & H2 & H3) Hf]. cbn [map]. f_equal; [|apply IH, Hf].
  unfold bare. rewrite H1, H2, H3. reflexivity.
Qed.
Lemma rw_says x i w : says rs x i w <-> says rs' x i w.
Proof. rewrite <- (bare_says (J := vm_instr NullVm) rs), rw_bare, bare_says. reflexivity. Qed.
Lemma rw_defined x : defined rs x <-> defined rs' x.
Proof. rewrite <- (bare_defined (J := vm_instr NullVm) rs), rw_bare, bare_defined. reflexivity. Qed.
Lemma rw_syntax : same_syntax rs rs'.
Proof.
  intros x. split; [apply rw_defined|]. intros a a' Ha Ha'. replace a' with a; [reflexivity|]. apply list_eq. intros i.
  destruct (a !! i) as [w|] eqn:E.
  - apply Ha, rw_says, Ha' in E. congruence.
  - destruct (a' !! i) as [w|] eqn:E'; [|reflexivity]. apply Ha', rw_says, Ha in E'. congruence.
Qed.
Context (pd pe : ParserData I) (pd' pe' : ParserData J) (D : described pd rs) (D' : described pd' rs') (Ed : edited_data pd pe) (Ed' : edited_data pd' pe').
Lemma rw_data : (forall e, get_element_verbose pe e = get_element_verbose pe' e) /\
  forall A r, pd_rules pe !! A = Some r -> exists r', pd_rules pe' !! A = Some r' /\ possible_productions r' = possible_productions r.
Proof.
  pose proof (bare_described (J := vm_instr NullVm) pd rs D) as B. pose proof (bare_described (J := vm_instr NullVm) pd' rs' D') as B'. rewrite <- rw_bare in B'.
  pose proof (texts_same NullVm NullVm (fun _ _ => True) _ _ _ _ (map bare rs) (map bare rs) ltac:(apply Forall2_same_length_lookup_2; [reflexivity|];
    intros k r r' E E'; assert (r' = r) as -> by congruence; repeat split; apply list_lookup_fmap_Some in E as (q & _ & ->); constructor)
    B B' (bare_edited_data pd pe Ed) (bare_edited_data pd' pe' Ed')) as [V R]. split.
  - exact V.
  - intros A r HA. specialize (R A). rewrite !bare_lookup, HA in R. destruct (pd_rules pe' !! A) as [r'|]; [|contradiction]. exists r'. split; [reflexivity|]. symmetry. apply R.
Qed.
End syntax.
(** ** The same predictions and failures *)
Section transfer.
Context {I J : Type} (pd : ParserData I) (pd' : ParserData J) (Hv : forall e, get_element_verbose pd e = get_element_verbose pd' e).
Context (Hr : forall A r, pd_rules pd !! A = Some r -> exists r', pd_rules pd' !! A = Some r' /\ possible_productions r' = possible_productions r).
Context (Hr' : forall A r, pd_rules pd' !! A = Some r -> exists r', pd_rules pd !! A = Some r' /\ possible_productions r' = possible_productions r).
Lemma tf_pred start : (forall e text pt rest, pred pd start e text pt rest -> pred pd' start e text pt rest) /\
  (forall es text pts rest, preds pd start es text pts rest -> preds pd' start es text pts rest).
Proof.
  apply pred_both.
  - intros t s rest Ht. apply pr_leaf. apply (sd_terminal pd pd' Hv). exact Ht.
  - intros A r p text subs rest HA Hp Hch _ IH. destruct (Hr A r HA) as (r' & HA' & E). apply (pr_node pd' start A r' p); [assumption|rewrite E; assumption|apply (sd_choose pd pd' Hv Hr); assumption|assumption].
  - intros. constructor.
  - intros. econstructor; eassumption.
Qed.
Lemma tf_fails start e text stk rest : fails pd start e text stk rest -> fails pd' start e text stk rest.
Proof.
  induction 1 as [A r text HA Hno|t s k rest Ht Hk Hs|A r p text es subs mid e stk after rest HA Hp Hch He Hps _ IH].
  - destruct (Hr A r HA) as (r' & HA' & E). apply (f_choice pd' start A r'); [assumption|]. rewrite E. intros p Hp Hch. apply (Hno p Hp). apply (sd_choose pd' pd (fun e => eq_sym (Hv e)) Hr'). exact Hch.
  - apply f_term; auto. apply (sd_terminal pd pd' Hv). exact Ht.
  - destruct (Hr A r HA) as (r' & HA' & E). eapply (f_in pd' start A r' p text es subs mid e stk after rest); [assumption|rewrite E; assumption|apply (sd_choose pd pd' Hv Hr); assumption|assumption|apply (proj2 (tf_pred start)); assumption|assumption].
Qed.
Lemma tf_named pt : named pd pt = named pd' pt.
Proof.
  assert (forall e, text_of pd e = text_of pd' e) as Ht by (intros e; unfold text_of; rewrite Hv; reflexivity).
  induction pt as [t|A subs IH] using ptree_ind'; cbn [named]; rewrite Ht; [reflexivity|]. f_equal. apply map_ext_Forall'. exact IH.
Qed.
End transfer.

(** ** What a parse does, by its predictions and failures *)
Section runs.
Context {U : Unicode} {H : HashOrder} {m : ovf_mode} {vm : VM} {rs : list (arule (vm_instr vm))} {t : str} {ps : Parser (vm_instr vm)}.
Context (Hr : read_from m vm rs t ps) (Hl : looks_down vm).
Context {pd pd' : ParserData (vm_instr vm)} {st : nat} {fl : fuels} (Hd : described pd rs) (Hed : edited_data pd pd') (Hst : start_element pd' st) (Hb : built m vm fl pd' st ps).
Lemma run_predicted script pt rest : pred pd' st st script pt rest -> derivation pd' pt -> forall fuel v, (length script + 1) * length t <= fuel ->
  nderivation rs (named pd' pt) /\ nroot (named pd' pt) = (lit "start", NonTerminal) /\
  match effect rs (named pd' pt) v with Ok v' => exists tr, parse vm ps fuel script v = (Ok tr, v') | _ => fst (parse vm ps fuel script v) = Panic end.
Proof.
  intros Hp Hdp fuel v Hfuel. pose proof (built_spec _ _ _ _ _ _ Hb) as (Hwf & Hcon & _).
  assert (accepts_prefix rs script (named pd' pt) rest) as Ha by (apply (accepts_pred script _ rest Hd Hed Hwf Hcon Hst); eauto).
  pose proof Ha as (A1 & A2 & _). split; [assumption|]. split; [assumption|].
  destruct (C88_state_after_a_parse _ _ _ _ _ _ _ Hr Hl fuel script v Hfuel) as [H1 H2].
  destruct (effect rs (named pd' pt) v) as [v'|[]| |] eqn:E; [|apply (H2 _ _ Ha); rewrite E; discriminate..]. apply H1. eauto.
Qed.
Lemma run_failing script stk rest : size (pd_rules pd') <= length t -> fails pd' st st script stk rest -> forall fuel v, (length script + 1) * length t <= fuel ->
  (exists read, unfinished rs (lit "start") (map (named pd') (parts_of stk)) read) /\
  match effect_all rs (map (named pd') (parts_of stk)) v with Ok v' => exists e, parse vm ps fuel script v = (Err e, v') | _ => fst (parse vm ps fuel script v) = Panic end.
Proof.
  intros Hsz Hf fuel v Hfuel. destruct (read_from_vm m vm rs t ps Hr) as [Hk Hret]. pose proof (built_spec _ _ _ _ _ _ Hb) as (Hwf & Hcon & Htab).
  destruct (fails_sound pd' st st script stk rest Hf (wf_rules pd' Hwf st) (wf_rules pd' Hwf)) as (F1 & F2 & F3). split.
  { exists (piece_of pd' stk). apply (stuck_unfinished pd pd' rs Hd Hed stk F1). rewrite F2, <- (ed_verbose pd pd' Hed). apply Hst. reflexivity. }
  rewrite <- (stuck_effect pd pd' rs Hd Hed Hl stk v F1).
  pose proof (parse_run_spec vm pd' st ps Hwf Hcon Htab Hk st fuel script v Hst (con_start _ _ Hcon)) as Hs. unfold parse.
  destruct (parse_run vm ps fuel script v) as [[tr|e| |] s1]; cbn [fst].
  - destruct Hs as (pt & rest' & v' & Hpr & _). exfalso. eapply (fails_no_pred pd' st (con_disjoint pd' st Hcon) (wf_rules pd' Hwf)); eauto.
  - destruct Hs as (stk' & rest' & v' & Hf' & -> & Hrun & Hrep). destruct (fails_deterministic pd' st (con_disjoint pd' st Hcon) (wf_rules pd' Hwf) _ _ _ _ Hf _ _ Hf') as [<- <-].
    rewrite Hrun. exists e. reflexivity.
  - destruct Hs as (_ & _ & Hs). rewrite (Hs _ _ Hf). reflexivity.
  - destruct Hs as [Hs|Hs]; [|nia]. destruct Hs as (h & n & i & s & Hg & Hn & Hx). destruct (Hret h n i s Hg Hn Hx).
Qed.
End runs.

(** ** Contracts for two runs *)
Section contracts.
Context {vm vm' : VM} (Hc : looks_at_first_child vm) (Hc' : looks_at_first_child vm') (rs : list (arule (vm_instr vm))) (rs' : list (arule (vm_instr vm'))).
Context (C : rcontract vm vm') (P : Prop) (x0 : str) (HC : rkept rs rs' C P x0).
Lemma both_bind {A B A' B'} (K : A * B -> Prop) (K' : A' * B' -> Prop) o o' f g : both_do P K o o' -> (forall a b, K (a, b) -> both_do P K' (f a) (g b)) -> both_do P K' (obind o f) (obind o' g).
Proof.
  unfold both_do at 1. destruct o as [a|[]| |]; cbn [obind]; [|intros [-> |Hp] _; [left; reflexivity|right; exact Hp]|contradiction].
  destruct o' as [b|[]| |]; [|contradiction..]. intros HK Hf. cbn [obind]. apply Hf, HK.
Qed.
Definition does_both (nt : ntree) : Prop := nderivation rs nt -> forall x, nroot nt = (x, NonTerminal) -> part_of rs x0 x -> forall v v', rpre C x (v, v') ->
  both_do P (rpost C x (v, v')) (effect rs nt v) (effect rs' nt v').
Lemma ralong_app w w' s s1 s2 : ralong C w s s1 -> ralong C w' s1 s2 -> ralong C (w ++ w') s s2.
Proof. induction 1; intros; [assumption|constructor; auto|econstructor; eauto]. Qed.
Lemma parts_both x i s : part_of rs x0 x -> rpre C x s -> forall subs, Forall does_both subs -> Forall (nderivation rs) subs ->
  forall done more s1, says rs x i (done ++ map nroot subs ++ more) -> ralong C done s s1 ->
  both_do P (fun s2 => ralong C (done ++ map nroot subs) s s2) (effect_all rs subs s1.1) (effect_all rs' subs s1.2).
Proof.
  intros Hp Hpre. induction 1 as [|nt subs Hs _ IH]; intros Hds done more [v v'] Hw Ha; [cbn; rewrite app_nil_r; exact Ha|]. apply Forall_cons in Hds as [Hd1 Hd2].
  cbn [map app] in Hw. unfold effect_all. cbn [ofold fst snd].
  apply (both_bind (fun s2 => ralong C (done ++ [nroot nt]) s s2)).
  - destruct nt as [b|y ss].
    + cbn. eapply ralong_app; [exact Ha|]. repeat constructor.
    + cbn [nroot] in *. destruct (HC x i _ s Hp Hw Hpre) as [H1 _]. pose proof (H1 done y _ (v, v') eq_refl Ha) as Hy.
      pose proof (Hs Hd1 y eq_refl ltac:(eapply part_child; [exact Hp|exact Hw|apply elem_of_app; right; left]) v v' Hy) as Hx. unfold both_do in Hx |- *.
      destruct (effect rs (NNode y ss) v) as [v2|[]| |]; try exact Hx. destruct (effect rs' (NNode y ss) v') as [v2'|[]| |]; try exact Hx.
      eapply ralong_app; [exact Ha|]. econstructor; [exact Hx|constructor].
  - intros a b Hab. change (nroot nt :: map nroot subs ++ more) with ([nroot nt] ++ map nroot subs ++ more) in Hw. rewrite app_assoc in Hw.
    pose proof (IH Hd2 (done ++ [nroot nt]) more (a, b) Hw Hab) as Hx. rewrite <- app_assoc in Hx. exact Hx.
Qed.
Lemma tree_both nt : does_both nt.
Proof.
  induction nt as [b|y subs IH] using ntree_ind'; intros Hd x Hx Hp v v' Hpre; [discriminate|]. injection Hx as ->. inversion Hd as [|? i ? Hw Hds]; subst.
  rewrite !effect_node. pose proof (parts_both x i (v, v') Hp Hpre subs IH Hds [] [] (v, v') ltac:(cbn [app]; rewrite app_nil_r; exact Hw) (ral_nil C (v, v'))) as Ha. cbn [app fst snd] in Ha.
  unfold effects. unfold effect_all in Ha. eapply both_bind; [exact Ha|]. intros a b Hab.
  destruct (HC x i _ (v, v') Hp Hw Hpre) as [_ H2]. specialize (H2 (a, b) Hab). cbn [fst snd] in H2. rewrite (instructions_same Hc), (instructions_same Hc') in H2. exact H2.
Qed.
Lemma unfinished_both x parts read : unfinished rs x parts read -> part_of rs x0 x -> forall v v', rpre C x (v, v') ->
  both_do P (rbegun rs C x (v, v')) (effect_all rs parts v) (effect_all rs' parts v').
Proof.
  induction 1 as [x Hx|x i parts b more k Hw Hds Hk|x i parts y more later read Hw Hds Hu IH]; intros Hp v v' Hpre.
  - apply rbe_choice.
  - pose proof (parts_both x i (v, v') Hp Hpre parts ltac:(apply Forall_forall; intros s _; apply tree_both) Hds [] _ (v, v') Hw (ral_nil C (v, v'))) as Ha. cbn [app fst snd] in Ha.
    unfold both_do in *. destruct (effect_all rs parts v) as [v1|[]| |]; try exact Ha. destruct (effect_all rs' parts v') as [v1'|[]| |]; try exact Ha. apply (rbe_text rs C x i _ b more _ _ Hw Ha).
  - pose proof (parts_both x i (v, v') Hp Hpre parts ltac:(apply Forall_forall; intros s _; apply tree_both) Hds [] _ (v, v') Hw (ral_nil C (v, v'))) as Ha. cbn [app fst snd] in Ha.
    unfold effect_all in *. rewrite !ofold_app. eapply both_bind; [exact Ha|]. intros a b Hab.
    destruct (HC x i _ (v, v') Hp Hw Hpre) as [H1 _]. pose proof (H1 _ y _ (a, b) eq_refl Hab) as Hy.
    pose proof (IH ltac:(eapply part_child; [exact Hp|exact Hw|apply elem_of_app; right; left]) a b Hy) as Hx. unfold both_do in *.
    destruct (ofold (fun v s => effect rs s v) a later) as [v2|[]| |]; try exact Hx. destruct (ofold (fun v s => effect rs' s v) b later) as [v2'|[]| |]; try exact Hx.
    exact (rbe_inside rs C x i _ y more _ _ _ Hw Hab Hx).
Qed.
End contracts.

(** ** C116.  Two texts with the same rules but other instructions, each for its VM: whoever has
    checked, one alternative at a time, that both sets of instructions keep a contract about
    pairs of states, may rely on it for every parse of every script: both succeed, with the
    same tree, or both fail with the same error, and the pair of states is as the contract
    says; or both panic. *)
Theorem C116_contracts_for_two : forall (U : Unicode) (H H' : HashOrder) m m' (vm vm' : VM) rs rs' t t' ps ps',
  @read_from U H m vm rs t ps -> @read_from U H' m' vm' rs' t' ps' -> Forall2 rewritten rs rs' -> looks_at_first_child vm -> looks_at_first_child vm' ->
  forall (C : rcontract vm vm') (looser : Prop), rkept rs rs' C looser (lit "start") ->
  forall fuel script v v', (length script + 1) * length t <= fuel -> (length script + 1) * length t' <= fuel -> rpre C (lit "start") (v, v') ->
  match @parse H vm ps fuel script v, @parse H' vm' ps' fuel script v' with
  | (Ok tr, a), (Ok tr', b) => tr = tr' /\ rpost C (lit "start") (v, v') (a, b)
  | (Err e, a), (Err e', b) => same_error e e' /\ rbegun rs C (lit "start") (v, v') (a, b)
  | (Panic, _), (Panic, _) => True
  | (Panic, _), _ => looser
  | _, _ => False
  end.
Proof.
  intros U H H' m m' vm vm' rs rs' t t' ps ps' Hr Hr' Hrs Hc Hc' C P HC fuel script v v' Hfuel Hfuel' Hpre.
  pose proof (child_looks_down vm Hc) as Hl. pose proof (child_looks_down vm' Hc') as Hl'.
  pose proof (C73_texts U H H' m m' vm vm' rs rs' t t' ps ps' Hr Hr' (rw_syntax rs rs' Hrs) fuel script v v') as Hsame.
  destruct (@read_from_built U H m vm rs t ps Hr) as (pd & pe & st & fl & D & E & S & B & Z).
  destruct (@read_from_built U H' m' vm' rs' t' ps' Hr') as (pd' & pe' & st' & fl' & D' & E' & S' & B' & Z').
  destruct (rw_data rs rs' Hrs pd pe pd' pe' D D' E E') as [Hv Hrule].
  assert (Forall2 rewritten rs' rs) as Hrs' by (apply Forall2_flip; eapply Forall2_impl; [exact Hrs|]; intros r r' (X1 & X2 & X3); repeat split; congruence).
  destruct (rw_data rs' rs Hrs' pd' pe' pd pe D' D E' E) as [_ Hrule'].
  assert (st' = st) as -> by (apply S; rewrite Hv; apply S'; reflexivity).
  pose proof (@built_spec H _ _ _ _ _ _ B) as (Hwf & Hcon & Htab).
  destruct (pred_or_fails pe st H ps st script Hwf Hcon Htab S (con_start _ _ Hcon)) as [(pt & rest & Hpr)|(stk & rest & Hf)].
  - pose proof (proj1 (tf_pred pe pe' Hv Hrule st) _ _ _ _ Hpr) as Hpr'. pose proof (proj1 (pred_sound _ _) _ _ _ _ Hpr) as Hds. pose proof (proj1 (pred_sound _ _) _ _ _ _ Hpr') as Hds'.
    destruct (run_predicted Hr Hl D E S B script pt rest Hpr ltac:(tauto) fuel v Hfuel) as (N1 & N2 & N3).
    destruct (run_predicted Hr' Hl' D' E' S' B' script pt rest Hpr' ltac:(tauto) fuel v' Hfuel') as (_ & _ & N3'). rewrite <- (tf_named pe pe' Hv) in N3'.
    pose proof (tree_both Hc Hc' rs rs' C P (lit "start") HC (named pe pt) N1 (lit "start") N2 (rtc_refl _ _) v v' Hpre) as Hb. unfold both_do in Hb.
    destruct (effect rs (named pe pt) v) as [a|[]| |]; [| |contradiction].
    + destruct (effect rs' (named pe pt) v') as [b|[]| |]; [|contradiction..]. destruct N3 as [tr Etr], N3' as [tr' Etr']. rewrite Etr, Etr' in Hsame |- *. cbn [fst] in Hsame.
      split; [apply Hsame; exact Logic.I|exact Hb].
    + destruct (parse vm ps fuel script v) as [[| | |] ?]; try discriminate N3. destruct Hb as [Hb|Hb]; [rewrite Hb in N3'|]; destruct (parse vm' ps' fuel script v') as [[| | |] ?]; try discriminate N3'; try exact Hb; exact Logic.I.
  - pose proof (tf_fails pe pe' Hv Hrule Hrule' st _ _ _ _ Hf) as Hf'.
    destruct (run_failing Hr Hl D E S B script stk rest Z Hf fuel v Hfuel) as ((read & N1) & N3).
    destruct (run_failing Hr' Hl' D' E' S' B' script stk rest Z' Hf' fuel v' Hfuel') as (_ & N3').
    rewrite <- (map_ext _ _ (tf_named pe pe' Hv)) in N3'.
    pose proof (unfinished_both Hc Hc' rs rs' C P (lit "start") HC _ _ _ N1 (rtc_refl _ _) v v' Hpre) as Hb. unfold both_do in Hb.
    destruct (effect_all rs (map (named pe) (parts_of stk)) v) as [a|[]| |]; [| |contradiction].
    + destruct (effect_all rs' (map (named pe) (parts_of stk)) v') as [b|[]| |]; [|contradiction..]. destruct N3 as [e Ee], N3' as [e' Ee']. rewrite Ee, Ee' in Hsame |- *. cbn [fst] in Hsame.
      split; [apply Hsame; exact Logic.I|exact Hb].
    + destruct (parse vm ps fuel script v) as [[| | |] ?]; try discriminate N3. destruct Hb as [Hb|Hb]; [rewrite Hb in N3'|]; destruct (parse vm' ps' fuel script v') as [[| | |] ?]; try discriminate N3'; try exact Hb; exact Logic.I.
Qed.
Print Assumptions C116_contracts_for_two.

(** The special case of one relation between the states: if the instructions of each
    alternative on their own keep it, so does every parse, whether it succeeds or fails. *)
Section one_relation.
Context {vm vm' : VM} (R : vm_state vm -> vm_state vm' -> Prop).
Definition same_all_along : rcontract vm vm' := mkRContract (fun _ s => R s.1 s.2) (fun _ _ s' => R s'.1 s'.2).
Lemma along_related w s s' : ralong same_all_along w s s' -> R s.1 s.2 -> R s'.1 s'.2.
Proof. induction 1 as [| |y w s s1 s' Hp _ IH]; auto. Qed.
Lemma begun_related rs x s s' : rbegun rs same_all_along x s s' -> R s.1 s.2 -> R s'.1 s'.2.
Proof. induction 1 as [|x i w1 b w2 s s' _ Ha|x i w1 y w2 s s1 s' _ Ha _ IH]; intros HR; [assumption|eapply along_related; eassumption|]. apply IH. eapply along_related; eassumption. Qed.
End one_relation.
Theorem C116_one_relation : forall (U : Unicode) (H H' : HashOrder) m m' (vm vm' : VM) rs rs' t t' ps ps',
  @read_from U H m vm rs t ps -> @read_from U H' m' vm' rs' t' ps' -> Forall2 rewritten rs rs' -> looks_at_first_child vm -> looks_at_first_child vm' ->
  forall (R : vm_state vm -> vm_state vm' -> Prop),
  (forall x i w v v', part_of rs (lit "start") x -> says rs x i w -> R v v' -> both_do False (fun s => R s.1 s.2) (instructions_on rs x w v) (instructions_on rs' x w v')) ->
  forall fuel script v v', (length script + 1) * length t <= fuel -> (length script + 1) * length t' <= fuel -> R v v' ->
  match @parse H vm ps fuel script v, @parse H' vm' ps' fuel script v' with
  | (Ok tr, a), (Ok tr', b) => tr = tr' /\ R a b
  | (Err e, a), (Err e', b) => same_error e e' /\ R a b
  | (Panic, _), (Panic, _) => True
  | _, _ => False
  end.
Proof.
  intros U H H' m m' vm vm' rs rs' t t' ps ps' Hr Hr' Hrs Hc Hc' R HR fuel script v v' Hf Hf' Hv.
  assert (rkept rs rs' (same_all_along R) False (lit "start")) as HC.
  { intros y i w s Hp Hw Hpre. split; [intros w1 z w2 s1 _ Ha; exact (along_related R _ _ _ Ha Hpre)|]. intros s1 Ha. apply (HR y i w s1.1 s1.2 Hp Hw). exact (along_related R _ _ _ Ha Hpre). }
  pose proof (C116_contracts_for_two U H H' m m' vm vm' rs rs' t t' ps ps' Hr Hr' Hrs Hc Hc' _ False HC fuel script v v' Hf Hf' Hv) as Hx.
  destruct (parse vm ps fuel script v) as [[tr|e| |] a], (parse vm' ps' fuel script v') as [[tr'|e'| |] b]; try exact Hx.
  destruct Hx as [X1 X2]. split; [exact X1|]. exact (begun_related R rs _ _ _ X2 Hv).
Qed.
Print Assumptions C116_one_relation.

(** Instructions may be replaced by others that do the same. *)
Theorem C116_replaced : forall (U : Unicode) (H H' : HashOrder) m m' (vm : VM) (rs rs' : list (arule (vm_instr vm))) t t' ps ps',
  @read_from U H m vm rs t ps -> @read_from U H' m' vm rs' t' ps' -> Forall2 rewritten rs rs' -> looks_at_first_child vm ->
  (forall x i w v, part_of rs (lit "start") x -> says rs x i w -> instructions_on rs' x w v = instructions_on rs x w v) ->
  forall fuel script v, (length script + 1) * length t <= fuel -> (length script + 1) * length t' <= fuel ->
  match @parse H vm ps fuel script v, @parse H' vm ps' fuel script v with
  | (Ok tr, a), (Ok tr', b) => tr = tr' /\ a = b
  | (Err e, a), (Err e', b) => same_error e e' /\ a = b
  | (Panic, _), (Panic, _) => True
  | _, _ => False
  end.
Proof.
  intros U H H' m m' vm rs rs' t t' ps ps' Hr Hr' Hrs Hc He fuel script v Hf Hf'.
  apply (C116_one_relation U H H' m m' vm vm rs rs' t t' ps ps' Hr Hr' Hrs Hc Hc (fun a b => a = b)); [|assumption|assumption|reflexivity].
  intros x i w a b Hp Hw <-. rewrite (He x i w a Hp Hw). pose proof (own_never rs a x (first_part w) (proj2 (read_from_vm m vm rs t ps Hr))) as Hn. fold (instructions_on rs x w a) in Hn.
  unfold both_do. destruct (instructions_on rs x w a) as [a'|[]| |]; [reflexivity|left; reflexivity|contradiction].
Qed.
Print Assumptions C116_replaced.

(** ** Non-vacuity: the sum of C114 with a detour over the second register.  The two do the same
    but for that register, because two values are there when the sum is formed. *)
Section example.
Local Existing Instance ascii_unicode.
Local Existing Instance plain_order.
Ltac name := split; [reflexivity|repeat constructor].
Definition hy_rules : list (arule (vm_instr (StackVm Checked))) :=
  [mkARule (lit "start") OvAbsent [[(lit "n", NonTerminal); (lit "n", NonTerminal)]] [KPopToReg2; KPushReg2; KPopToReg; KAdd];
   mkARule (lit "n") OvAbsent [[(lit "1", Terminal)]; [(lit "20", Terminal)]] [KPushFromTree]].
Definition hy_text : str := lit "start->n n{PopToReg2;PushReg2;PopToReg;Add;};n->""1""|""20""{PushFromTree;};".
Lemma hy_text_ok : grammar_text stack_reads hy_rules hy_text.
Proof.
  apply (gr_cons stack_reads _ (lit "start->n n{PopToReg2;PushReg2;PopToReg;Add;};") [] _ (lit "n->""1""|""20""{PushFromTree;};")); [constructor| |].
  - apply (rule_intro stack_reads (mkARule (lit "start") OvAbsent [[(lit "n", NonTerminal); (lit "n", NonTerminal)]] [KPopToReg2; KPushReg2; KPopToReg; KAdd]) [] [] [] [] []
      [] (lit "n n") (lit "{PopToReg2;PushReg2;PopToReg;Add;}")); try (constructor; fail); try name.
    + apply alts_one, alt_elements, (els_cons _ (lit "n") (lit " ") _ (lit "n")); [apply el_name; name|repeat constructor|apply els_one, el_name; name|intros _ [E|E]; vm_compute in E; discriminate].
    + apply (sec_braces stack_reads _ [] (lit "PopToReg2;PushReg2;PopToReg;Add;")); [constructor|intros E; discriminate E|]. exists [], (lit "PopToReg2;PushReg2;PopToReg;Add;"). split; [constructor|]. split; [reflexivity|].
      apply (ins_cons [KPopToReg2] (lit "PopToReg2") [] [KPushReg2; KPopToReg; KAdd] (lit "PushReg2;PopToReg;Add;")); [apply in_plain; apply elem_of_list_In; cbn; tauto|constructor|].
      apply (ins_cons [KPushReg2] (lit "PushReg2") [] [KPopToReg; KAdd] (lit "PopToReg;Add;")); [apply in_plain; apply elem_of_list_In; cbn; tauto|constructor|].
      apply (ins_cons [KPopToReg] (lit "PopToReg") [] [KAdd] (lit "Add;")); [apply in_plain; apply elem_of_list_In; cbn; tauto|constructor|].
      apply (ins_cons [KAdd] (lit "Add") [] [] []); [apply in_plain; apply elem_of_list_In; cbn; tauto|constructor|constructor].
  - apply (gr_cons stack_reads _ (lit "n->""1""|""20""{PushFromTree;};") [] _ []); [constructor| |apply gr_end; constructor].
    apply (rule_intro stack_reads (mkARule (lit "n") OvAbsent [[(lit "1", Terminal)]; [(lit "20", Terminal)]] [KPushFromTree]) [] [] [] [] []
      [] (lit """1""|""20""") (lit "{PushFromTree;}")); try (constructor; fail); try name.
    + apply (alts_cons _ (lit """1""") [] [] _ (lit """20""")); [apply alt_elements, els_one, one_quoted; discriminate|constructor..|].
      apply alts_one, alt_elements, els_one, (el_quoted (lit "20")). apply qb_plain; [discriminate..|]. apply qb_plain; auto using qb_nil; discriminate.
    + apply (sec_braces stack_reads _ [] (lit "PushFromTree;")); [constructor|intros E; discriminate E|]. exists [], (lit "PushFromTree;"). split; [constructor|]. split; [reflexivity|].
      apply (ins_cons [KPushFromTree] (lit "PushFromTree") [] [] []); [apply in_plain; apply elem_of_list_In; cbn; tauto|constructor|constructor].
Qed.
Definition but_reg2 (a b : KState) : Prop := ks_stack a = ks_stack b /\ ks_reg a = ks_reg b /\ ks_error a = ks_error b /\ ks_out a = ks_out b.
Definition hy_contract : rcontract (StackVm Checked) (StackVm Checked) :=
  mkRContract (vm := StackVm Checked) (vm' := StackVm Checked) (fun _ s => but_reg2 s.1 s.2) (fun _ s s' => but_reg2 s'.1 s'.2 /\ exists z : Z, ks_stack s'.1 = z :: ks_stack s.1).
Lemma hy_numbers v b z : str_parse_isize b = Some z -> instructions_on hy_rules (lit "n") [(b, Terminal)] v = Ok (k_set_stack v (z :: ks_stack v)).
Proof. exact (hx_numbers v b z). Qed.
Lemma hy_kept : rkept hx_rules hy_rules hy_contract False (lit "start").
Proof.
  assert (forall w s s1, ralong hy_contract w s s1 -> but_reg2 s.1 s.2 -> but_reg2 s1.1 s1.2) as Hal by (induction 1 as [| |y w s s1 s' Hp _ IH]; intros; auto; apply IH, Hp).
  intros y i w [v v'] _ Hs Hpre. split; [intros w1 z w2 s1 _ Ha; exact (Hal _ _ _ Ha Hpre)|]. intros [v1 v1'] Ha. pose proof (Hal _ _ _ Ha Hpre) as (B1 & B2 & B3 & B4). apply hx_says in Hs as [[-> ->]|[-> Hw]].
  - inversion Ha as [| |? ? ? s2 ? [_ [z1 E1]] Ha2]; subst. inversion Ha2 as [| |? ? ? s3 ? [_ [z2 E2]] Ha3]; subst. inversion Ha3; subst. cbn [fst snd] in *.
    unfold instructions_on, own_instructions. change (instructions_for hx_rules (lit "start")) with [KPopToReg; KAdd]. change (instructions_for hy_rules (lit "start")) with [KPopToReg2; KPushReg2; KPopToReg; KAdd]. cbn [ofold].
    unfold StackVm, vm_execute, stack_execute, stack_exec, k_pop. rewrite <- B1, E2, E1. cbn [obind k_set_stack ks_stack ks_reg ks_reg2 ks_error ks_out].
    destruct (isize_result Checked (z2 + z1)) as [z|[]| |] eqn:Er; cbn [obind both_do]; [|left; reflexivity|unfold isize_result in Er; destruct (_ && _); discriminate].
    split; [|exists z; reflexivity]. split; [reflexivity|]. split; [reflexivity|]. split; assumption.
  - assert ((v1, v1') = (v, v')) as [= -> ->] by (destruct Hw as [-> | ->]; inversion Ha as [|? ? ? ? Ha2|]; subst; inversion Ha2; reflexivity).
    destruct Hw as [-> | ->]; cbn [fst snd].
    + rewrite (hx_numbers v (lit "1") 1%Z), (hy_numbers v' (lit "1") 1%Z) by reflexivity. split; [|exists 1%Z; reflexivity]. split; [cbn; f_equal; exact B1|]. repeat split; assumption.
    + rewrite (hx_numbers v (lit "20") 20%Z), (hy_numbers v' (lit "20") 20%Z) by reflexivity. split; [|exists 20%Z; reflexivity]. split; [cbn; f_equal; exact B1|]. repeat split; assumption.
Qed.
Lemma hy_parser : is_ok (new_from_text Checked (StackVm Checked) (mkFuels 90 (80 * 80)) hy_text) = true.
Proof. vm_compute. reflexivity. Qed.
Example C116_example : exists ps ps' : Parser KInstr, read_from Checked (StackVm Checked) hx_rules hx_text ps /\ read_from Checked (StackVm Checked) hy_rules hy_text ps' /\
  Forall2 rewritten hx_rules hy_rules /\ rkept hx_rules hy_rules hy_contract False (lit "start") /\ rpre hy_contract (lit "start") (mkKState [7] 0 0 0 [], mkKState [7] 0 3 0 [])%Z.
Proof.
  destruct C114_example as (ps & Hr & _). destruct (is_ok_some _ hy_parser) as [ps' Hps']. exists ps, ps'. split; [exact Hr|]. split; [|split; [|split; [exact hy_kept|repeat split]]].
  - exists stack_reads, (mkFuels 90 (80 * 80)). split; [constructor|]. split; [apply ascii_tables|]. split; [apply hy_text_ok|]. split; [vm_compute; reflexivity|].
    split; [split; cbn [first_fuel follow_fuel]; apply Nat.leb_le || apply Nat.ltb_lt; vm_compute; reflexivity|exact Hps'].
  - repeat constructor.
Qed.
End example.
