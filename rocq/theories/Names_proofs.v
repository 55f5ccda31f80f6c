(** * Renumbering the elements of a grammar *)
From Verif Require Import Base ParserData SpecGrammar SpecNames.
(** The nonterminal called [x] has the alternative whose elements are called [w]. *)
Definition alternative_named {I} (pd : ParserData I) (x : str) (w : list (str * ElementType)) : Prop :=
  exists A ixs, get_element_verbose pd A = Some (x, NonTerminal) /\ alternative pd A ixs /\
    Forall2 (fun e ix => get_element_verbose pd ix = Some e) w ixs.
(** The nonterminal called [x] has a rule, with the instructions [is]. *)
Definition instructions_named {I} (pd : ParserData I) (x : str) (is : list I) : Prop :=
  exists A r, get_element_verbose pd A = Some (x, NonTerminal) /\ pd_rules pd !! A = Some r /\ instruction r = is.
Definition same_sets {I} (pd pd' : ParserData I) : Prop :=
  (forall x w, alternative_named pd x w <-> alternative_named pd' x w) /\
  (forall x is, instructions_named pd x is <-> instructions_named pd' x is).
From Verif Require Import Base Peekables Tree Errors Sets ParserData Vm FirstSets FollowSets SteuerMap ScriptParser
  SpecData SpecGrammar SpecParser SpecTree SpecScript SpecNames Grammar_proofs Construct_proofs Tree_proofs Script_proofs Parse_proofs.

Lemma all_defined_proper {I} (pd : ParserData I) : all_defined pd -> proper pd.
Proof.
  intros [H1 H2]. split; [assumption|]. intros A w e Ha He. destruct (H2 A w e Ha He) as [[s Hs]|[[s Hs] _]]; unfold is_terminal in *; eauto.
Qed.

Section transport.
Context {I : Type} (pd pd' : ParserData I).
Hypothesis Hwf : wf_grammar pd.
Hypothesis Hdef : proper pd.
Hypothesis Hu' : names_unique pd'.
Hypothesis Halt : forall x w, alternative_named pd x w -> alternative_named pd' x w.

Definition rn (e e' : nat) : Prop := exists v, get_element_verbose pd e = Some v /\ get_element_verbose pd' e' = Some v.
Definition rn_prod (p p' : Production) : Prop :=
  match p, p' with
  | Empty, Empty => True
  | NotEmpty l, NotEmpty l' => Forall2 rn l l'
  | _, _ => False
  end.
Lemma rn_fun e a b : rn e a -> rn e b -> a = b.
Proof. intros (v & H1 & H2) (v' & H3 & H4). assert (v = v') as <- by congruence. eapply Hu'; eauto. Qed.
Lemma rn_terminal e e' s : rn e e' -> is_terminal pd e s -> is_terminal pd' e' s.
Proof. unfold is_terminal. intros (v & H1 & H2) Ht. congruence. Qed.
Lemma rn_nonterminal e e' : rn e e' -> is_nonterminal pd e -> is_nonterminal pd' e'.
Proof. intros (v & H1 & H2) [s Hs]. exists s. congruence. Qed.

Lemma defined_verbose A w e : alternative pd A w -> e ∈ w -> is_Some (get_element_verbose pd e).
Proof. apply (proj2 Hdef). Qed.
Lemma names_exist w : (forall e, e ∈ w -> is_Some (get_element_verbose pd e)) ->
  exists vs, Forall2 (fun e ix => get_element_verbose pd ix = Some e) vs w.
Proof.
  induction w as [|e w IH]; intros He; [exists []; constructor|].
  destruct (He e) as [v Hv]; [left|]. destruct IH as [vs Hvs]; [intros; apply He; right; assumption|]. exists (v :: vs). constructor; assumption.
Qed.
Lemma names_rn vs w w' : Forall2 (fun e ix => get_element_verbose pd ix = Some e) vs w ->
  Forall2 (fun e ix => get_element_verbose pd' ix = Some e) vs w' -> Forall2 rn w w'.
Proof.
  intros Hw. revert w'. induction Hw as [|v e vs w Hv _ IH]; intros w' Hw'; inversion Hw'; subst; constructor; [exists v; auto|auto].
Qed.
(** an alternative of [A] is one of the element with the same name *)
Lemma rn_some A w : alternative pd A w -> exists A' w', rn A A' /\ alternative pd' A' w' /\ Forall2 rn w w'.
Proof.
  intros Ha. assert (is_nonterminal pd A) as [x Hx]. { apply (wf_rules pd Hwf). destruct Ha as (r & p & Hr & _). eexists; exact Hr. }
  destruct (names_exist w) as [vs Hvs]; [intros e He; eapply defined_verbose; eauto|].
  destruct (Halt x vs) as (A' & w' & HA' & Ha' & Hw'); [exists A, w; auto|].
  exists A', w'. split; [exists (x, NonTerminal); auto|]. split; [assumption|]. eapply names_rn; eauto.
Qed.
Lemma rn_alternative A A' w : rn A A' -> alternative pd A w -> exists w', alternative pd' A' w' /\ Forall2 rn w w'.
Proof.
  intros HA Ha. destruct (rn_some A w Ha) as (A2 & w' & H2 & H3 & H4). rewrite (rn_fun A A' A2 HA H2). eauto.
Qed.
Lemma rn_step l k l' : step pd l k -> Forall2 rn l l' -> exists k', step pd' l' k' /\ Forall2 rn k k'.
Proof.
  intros [u A v w Ha] Hl. apply Forall2_app_inv_l in Hl as (u' & l2 & Hu & Hl & ->). inversion Hl as [|? A' ? v' HA Hv]; subst.
  destruct (rn_alternative A A' w HA Ha) as (w' & Ha' & Hw). exists (u' ++ w' ++ v'). split; [constructor; assumption|].
  apply Forall2_app; [assumption|]. apply Forall2_app; assumption.
Qed.
Lemma rn_derives l k : derives pd l k -> forall l', Forall2 rn l l' -> exists k', derives pd' l' k' /\ Forall2 rn k k'.
Proof.
  induction 1 as [l|l m k Hs _ IH]; intros l' Hl; [exists l'; split; [apply rtc_refl|assumption]|].
  destruct (rn_step l m l' Hs Hl) as (m' & Hs' & Hm). destruct (IH m' Hm) as (k' & Hk & Hk'). exists k'. split; [eapply rtc_l; eauto|assumption].
Qed.
Lemma rn_erased x x' : Forall2 rn x x' -> erased pd x -> erased pd' x'.
Proof.
  induction 1 as [|e e' x x' He _ IH]; intros Hx; [constructor|]. apply Forall_cons in Hx as [H1 H2]. apply Forall_cons. split; [|exact (IH H2)].
  eapply rn_terminal; eauto.
Qed.
Lemma rn_nullable w w' : Forall2 rn w w' -> NULLABLE pd w -> NULLABLE pd' w'.
Proof. intros Hw (x & Hx & He). destruct (rn_derives w x Hx w' Hw) as (x' & Hx' & Hr). exists x'. split; [assumption|]. eapply rn_erased; eauto. Qed.
Lemma rn_first w w' c : Forall2 rn w w' -> FIRST pd w c -> FIRST pd' w' c.
Proof.
  intros Hw (x & t & v & s & Hd & He & Ht). destruct (rn_derives w _ Hd w' Hw) as (k' & Hd' & Hk).
  apply Forall2_app_inv_l in Hk as (x' & l2 & Hx & Hl & ->). inversion Hl as [|? t' ? v' Ht2 Hv]; subst.
  exists x', t', v', s. split; [assumption|]. split; [eapply rn_erased; eauto|eapply rn_terminal; eauto].
Qed.
Lemma FIRST_nil c : ~ FIRST pd [] c.
Proof.
  intros (x & t & v & s & Hd & _). remember [] as l eqn:E. remember (x ++ t :: v) as k eqn:Ek. destruct Hd as [l|l m k Hs Hd].
  - subst. destruct x; discriminate.
  - destruct Hs as [u A v' w Ha]. destruct u; discriminate.
Qed.
Lemma rn_follow start start' A A' x : rn start start' -> rn A A' -> FOLLOW pd start A x -> FOLLOW pd' start' A' x.
Proof.
  intros Hst HA. assert (forall B B', rn B B' -> forall u v, derives pd [B] (u ++ A :: v) ->
    exists u' v', derives pd' [B'] (u' ++ A' :: v') /\ Forall2 rn v v') as Hd.
  { intros B B' HB u v Hd. destruct (rn_derives _ _ Hd [B']) as (k' & Hd' & Hk); [constructor; [assumption|constructor]|].
    apply Forall2_app_inv_l in Hk as (u' & l2 & Hu & Hl & ->). inversion Hl as [|? A2 ? v' HA2 Hv]; subst.
    rewrite <- (rn_fun A A' A2 HA HA2) in Hd'. eauto. }
  destruct x as [c|]; cbn.
  - intros (B & u & v & HB & Hder & Hf).
    assert (exists B' w', rn B B' /\ alternative pd' B' w') as (B' & w' & HBB & Ha').
    { inversion Hder as [? E1 E2|? m ? Hs Hm]; subst.
      - destruct u as [|? [|]]; try discriminate. injection E2 as _ <-. exfalso. exact (FIRST_nil c Hf).
      - assert (exists w, alternative pd B w) as [w Ha].
        { remember [B] as l eqn:E. destruct Hs as [u0 A0 v0 w Ha]. destruct u0 as [|? [|]]; try discriminate. injection E as -> ->. eauto. }
        destruct (rn_some B w Ha) as (B' & w' & ? & ? & ?). eauto. }
    destruct (Hd B B' HBB u v Hder) as (u' & v' & Hd' & Hv). exists B', u', v'. split; [|split; [assumption|eapply rn_first; eauto]].
    destruct Ha' as (r & p & Hr & _). eexists; exact Hr.
  - intros (u & v & Hder & Hn). destruct (Hd start start' Hst u v Hder) as (u' & v' & Hd' & Hv). exists u', v'. split; [assumption|].
    eapply rn_nullable; eauto.
Qed.
Lemma rn_choose start start' A A' p p' x : rn start start' -> rn A A' -> rn_prod p p' -> CHOOSE pd start A p x -> CHOOSE pd' start' A' p' x.
Proof.
  intros Hst HA Hp. destruct p as [l|], p' as [l'|]; cbn in Hp; try contradiction; [|apply rn_follow; assumption].
  destruct Hp as [|e e' l l' He Hl]; [exact id|]. cbn. intros [(c & -> & Hf)|[Hn Hf]].
  - left. exists c. split; [reflexivity|]. eapply rn_first; [|exact Hf]. constructor; [assumption|constructor].
  - right. split; [|eapply rn_follow; eauto]. eapply rn_nullable; [|exact Hn]. constructor; [assumption|constructor].
Qed.
(** the chosen alternative has a counterpart that is chosen *)
Hypothesis Hne' : forall A r p, pd_rules pd' !! A = Some r -> p ∈ possible_productions r -> p <> NotEmpty [].
Lemma rn_chosen start start' A A' r p x : rn start start' -> rn A A' -> pd_rules pd !! A = Some r -> p ∈ possible_productions r ->
  CHOOSE pd start A p x -> exists r' p', pd_rules pd' !! A' = Some r' /\ p' ∈ possible_productions r' /\ rn_prod p p' /\ CHOOSE pd' start' A' p' x.
Proof.
  intros Hst HA Hr Hp Hc. destruct (rn_alternative A A' (right_side p) HA) as (w' & (r' & p' & Hr' & Hp' & ->) & Hw); [exists r, p; auto|].
  assert (rn_prod p p') as Hpp.
  { pose proof (proj1 Hdef A r p Hr Hp) as N1. pose proof (Hne' A' r' p' Hr' Hp') as N2.
    destruct p as [l|], p' as [l'|]; cbn in *; [assumption| | |exact Logic.I].
    - inversion Hw; subst. congruence.
    - inversion Hw; subst. congruence. }
  exists r', p'. do 3 (split; [assumption|]). eapply rn_choose; eauto.
Qed.
End transport.

Lemma rn_sym {I} (pd pd' : ParserData I) e e' : rn pd pd' e e' <-> rn pd' pd e' e.
Proof. unfold rn. split; intros (v & H1 & H2); eauto. Qed.
Lemma rn_prod_sym {I} (pd pd' : ParserData I) p p' : rn_prod pd pd' p p' -> rn_prod pd' pd p' p.
Proof.
  destruct p as [l|], p' as [l'|]; cbn; auto. induction 1; constructor; [apply rn_sym; assumption|assumption].
Qed.

Section simulation.
Context (H H' : HashOrder) (vm : VM) (pd pd' : ParserData (vm_instr vm)) (start start' : nat) (ps ps' : Parser (vm_instr vm)).
Hypothesis (Hwf : wf_grammar pd) (Hwf' : wf_grammar pd') (Hcon : constructible pd start) (Hcon' : constructible pd' start').
Hypothesis (Htab : parser_table pd start ps) (Htab' : parser_table pd' start' ps').
Hypothesis (Hu : names_unique pd) (Hu' : names_unique pd') (Hsame : same_sets pd pd').
Hypothesis Hstart : rn pd pd' start start'.
Notation R := (rn pd pd').

Lemma table_fwd A A' r nt nt' x p : R A A' -> pd_rules pd !! A = Some r -> rules_with_steuermaps ps !! A = Some nt -> rules_with_steuermaps ps' !! A' = Some nt' ->
  steuermap nt !! x = Some p -> exists p', steuermap nt' !! x = Some p' /\ rn_prod pd pd' p p'.
Proof.
  intros HA Hr Hnt Hnt' Hp. destruct (pt_entry pd start ps Htab A r nt Hr Hnt) as (_ & _ & Hsel). apply Hsel in Hp as [Hp Hc].
  destruct (rn_chosen pd pd' Hwf (all_defined_proper _ (con_defined _ _ Hcon)) Hu' (fun x w => proj1 (proj1 Hsame x w)) (proj1 (con_defined _ _ Hcon'))
    start start' A A' r p x Hstart HA Hr Hp Hc) as (r' & p' & Hr' & Hp' & Hpp & Hc').
  exists p'. split; [|assumption]. destruct (pt_entry pd' start' ps' Htab' A' r' nt' Hr' Hnt') as (_ & _ & Hsel'). apply Hsel'. auto.
Qed.
End simulation.

Lemma sbind_ok {S E A B} (m : st S E A) (k : A -> st S E B) s a s' : m s = (Ok a, s') -> sbind m k s = k a s'.
Proof. unfold sbind. intros ->. reflexivity. Qed.
Section both.
Context (H H' : HashOrder) (vm : VM) (pd pd' : ParserData (vm_instr vm)) (start start' : nat) (ps ps' : Parser (vm_instr vm)).
Hypothesis (Hwf : wf_grammar pd) (Hwf' : wf_grammar pd') (Hcon : constructible pd start) (Hcon' : constructible pd' start').
Hypothesis (Htab : parser_table pd start ps) (Htab' : parser_table pd' start' ps').
Hypothesis (Hu : names_unique pd) (Hu' : names_unique pd') (Hsame : same_sets pd pd').
Hypothesis Hstart : rn pd pd' start start'.
Notation R := (rn pd pd').

Lemma same_sets_sym : same_sets pd' pd.
Proof. destruct Hsame as [H1 H2]. split; intros; symmetry; auto. Qed.
Lemma rn_rule A A' r : R A A' -> pd_rules pd !! A = Some r -> exists r', pd_rules pd' !! A' = Some r' /\ instruction r' = instruction r.
Proof.
  intros HA Hr. destruct (wf_rules pd Hwf A ltac:(eexists; exact Hr)) as [x Hx].
  destruct (proj1 (proj2 Hsame x (instruction r))) as (B & r' & HB & Hr' & Hi); [exists A, r; auto|].
  destruct HA as (v & H1 & H2). assert (v = (x, NonTerminal)) as -> by congruence. rewrite (Hu' A' B _ H2 HB). eauto.
Qed.
Lemma key_perm (nt nt' : NTRules (vm_instr vm)) (site site' : list nat) : (forall x, is_Some (steuermap nt !! x) <-> is_Some (steuermap nt' !! x)) ->
  @ho_iter H site _ (map_to_list (steuermap nt)).*1 ≡ₚ @ho_iter H' site' _ (map_to_list (steuermap nt')).*1.
Proof.
  intros Hk. rewrite !ho_perm. apply NoDup_Permutation; [apply NoDup_fst_map_to_list..|].
  intros x. assert (forall m : Steuermap, x ∈ (map_to_list m).*1 <-> is_Some (m !! x)) as Hm.
  { intros m. rewrite elem_of_list_fmap. split.
    - intros ([k p] & -> & Hin). apply elem_of_map_to_list in Hin. eauto.
    - intros [p Hp]. exists (x, p). split; [reflexivity|]. apply elem_of_map_to_list. assumption. }
  rewrite !Hm. apply Hk.
Qed.
Lemma parse_rn f : forall e e' node s, R e e' -> has_rule pd e ->
  hash_rel (@parse_nonterminal H vm ps f e node s) (@parse_nonterminal H' vm ps' f e' node s).
Proof.
  induction f as [|f IH]; intros e e' node s He [r Hr]; [apply hash_rel_refl|]. rewrite !parse_unfold.
  apply sbind_rel; [apply hash_rel_refl|]. intros o s1.
  destruct (rn_rule e e' r He Hr) as (r' & Hr' & Hi).
  destruct (proj2 (pt_rules pd start ps Htab e) ltac:(eexists; exact Hr)) as [nt Hnt].
  destruct (proj2 (pt_rules pd' start' ps' Htab' e') ltac:(eexists; exact Hr')) as [nt' Hnt']. rewrite Hnt, Hnt'.
  assert (forall x p, steuermap nt !! x = Some p -> exists p', steuermap nt' !! x = Some p' /\ rn_prod pd pd' p p') as Hfw
    by (intros x p; eapply (table_fwd vm pd pd' start start' ps ps'); eauto).
  assert (forall x p, steuermap nt' !! x = Some p -> exists p', steuermap nt !! x = Some p' /\ rn_prod pd' pd p p') as Hbw.
  { intros x p. eapply (table_fwd vm pd' pd start' start ps' ps); eauto; [apply same_sets_sym|apply rn_sym; assumption..]. }
  destruct (pt_entry pd start ps Htab e r nt Hr Hnt) as (_ & Hins & _). destruct (pt_entry pd' start' ps' Htab' e' r' nt' Hr' Hnt') as (_ & Hins' & _).
  destruct (steuermap nt !! member_of_peek o) as [p|] eqn:Ep.
  - destruct (Hfw _ _ Ep) as (p' & Ep' & Hpp).
    rewrite (sbind_ok (get_fitting_production vm ps e (member_of_peek o)) _ s1 p s1) by (unfold get_fitting_production; rewrite Hnt, Ep; reflexivity).
    rewrite (sbind_ok (get_fitting_production vm ps' e' (member_of_peek o)) _ s1 p' s1) by (unfold get_fitting_production; rewrite Hnt', Ep'; reflexivity).
    apply sbind_rel; [apply hash_rel_refl|]. intros id s3.
    apply sbind_rel; [|intros; rewrite Hins, Hins', Hi; apply hash_rel_refl].
    destruct p as [els|], p' as [els'|]; cbn in Hpp; try contradiction; [|apply hash_rel_refl].
    assert (forall e, e ∈ els -> is_nonterminal pd e -> has_rule pd e) as Hde.
    { intros e0 He0 [n0 Hn0]. apply (pt_entry pd start ps Htab e r nt Hr Hnt) in Ep as [Ep _].
      destruct (proj2 (con_defined pd start Hcon) e els e0 ltac:(exists r, (NotEmpty els); auto) He0) as [[s0 Hs0]|[_ ?]]; [|assumption].
      unfold is_terminal in Hs0. congruence. }
    clear Ep Ep'. induction Hpp as [|e0 e0' els els' He0 _ IHl] in s3, Hde |- *; [apply hash_rel_refl|]. rewrite !els_loop_cons.
    rewrite (pt_elements pd start ps Htab e0), (pt_elements pd' start' ps' Htab' e0'). pose proof He0 as (v & Hv & Hv'). rewrite Hv, Hv'.
    assert (forall e1, e1 ∈ els -> is_nonterminal pd e1 -> has_rule pd e1) as Hde1 by (intros; apply Hde; [right; assumption|assumption]).
    destruct v as [name []].
    + apply sbind_rel; [apply hash_rel_refl|]. intros a s'. apply sbind_rel; [apply hash_rel_refl|]. intros; apply IHl; assumption.
    + apply sbind_rel; [apply IH; [assumption|]|intros; apply IHl; assumption]. apply Hde; [left|eexists; exact Hv].
  - assert (steuermap nt' !! member_of_peek o = None) as Ep'.
    { destruct (steuermap nt' !! member_of_peek o) as [p'|] eqn:E'; [|reflexivity]. destruct (Hbw _ _ E') as (p & E & _). congruence. }
    unfold sbind, get_fitting_production. rewrite Hnt, Hnt', Ep, Ep'. unfold sbind, ps_peek, ps_pos, sfail.
    destruct (pp_peek base_tp (ps_in s1)) as [o2 p2]. split; [reflexivity|]. cbn. right. unfold expected_text. rewrite !join_joined. eexists _, _, _, _.
    split; [|split; reflexivity]. apply key_perm. intros x. split; intros [q Hq].
    + destruct (Hfw x q Hq) as (? & ? & _). eauto.
    + destruct (Hbw x q Hq) as (? & ? & _). eauto.
Qed.
End both.

(** ** from rules by name to alternatives by name *)
Section rules.
Context {I : Type} (pd pd' : ParserData I).
Lemma alts_exist r A : proper pd -> pd_rules pd !! A = Some r -> exists alts,
  Forall2 (fun a p => called pd a (right_side p)) alts (possible_productions r).
Proof.
  intros Hp Hr. assert (forall l, (forall p, p ∈ l -> p ∈ possible_productions r) -> exists alts, Forall2 (fun a p => called pd a (right_side p)) alts l) as Hl.
  { induction l as [|p l IH]; intros Hin; [exists []; constructor|]. destruct IH as [alts Halts]; [intros; apply Hin; right; assumption|].
    destruct (names_exist pd (right_side p)) as [vs Hvs].
    { intros e He. apply (proj2 Hp A (right_side p)); [|assumption]. exists r, p. split; [assumption|]. split; [apply Hin; left|reflexivity]. }
    exists (vs :: alts). constructor; assumption. }
  apply Hl. auto.
Qed.
Lemma called_unique (w w' : list (str * ElementType)) ixs : called pd w ixs -> called pd w' ixs -> w = w'.
Proof.
  intros H1. revert w'. induction H1 as [|e ix w ixs He _ IH]; intros w' H2; inversion H2; subst; [reflexivity|]. f_equal; [congruence|auto].
Qed.
Lemma half_sets : proper pd -> (forall x alts is, rule_named pd x alts is -> exists alts', alts' ≡ₚ alts /\ rule_named pd' x alts' is) ->
  (forall x w, alternative_named pd x w -> alternative_named pd' x w) /\ (forall x is, instructions_named pd x is -> instructions_named pd' x is).
Proof.
  intros Hp Hs. split.
  - intros x w (A & ixs & HA & (r & p & Hr & Hin & ->) & Hw). destruct (alts_exist r A Hp Hr) as [alts Halts].
    destruct (Hs x alts (instruction r)) as (alts' & Hperm & A' & r' & HA' & Hr' & Halts' & _); [exists A, r; auto|].
    apply elem_of_list_lookup in Hin as [i Hi]. destruct (Forall2_lookup_r _ _ _ _ _ Halts Hi) as (a & Ha & Hc).
    rewrite (called_unique w a (right_side p) Hw Hc). clear Hw.
    assert (a ∈ alts') as Ha' by (rewrite Hperm; eapply elem_of_list_lookup_2; exact Ha). apply elem_of_list_lookup in Ha' as [j Hj].
    destruct (Forall2_lookup_l _ _ _ _ _ Halts' Hj) as (p' & Hp' & Hc'). exists A', (right_side p'). split; [assumption|]. split; [|assumption].
    exists r', p'. split; [assumption|]. split; [eapply elem_of_list_lookup_2; exact Hp'|reflexivity].
  - intros x is (A & r & HA & Hr & Hi). destruct (alts_exist r A Hp Hr) as [alts Halts].
    destruct (Hs x alts (instruction r)) as (alts' & _ & A' & r' & HA' & Hr' & _ & Hi'); [exists A, r; auto|]. exists A', r'. rewrite <- Hi. auto.
Qed.
End rules.
Lemma same_grammar_sets {I} (pd pd' : ParserData I) : proper pd -> proper pd' -> same_grammar pd pd' -> same_sets pd pd'.
Proof.
  intros Hp Hp' [H1 H2]. destruct (half_sets pd pd' Hp H1), (half_sets pd' pd Hp' H2). split; split; auto.
Qed.
Lemma same_grammar_sym {I} (pd pd' : ParserData I) : same_grammar pd pd' -> same_grammar pd' pd.
Proof. intros [H1 H2]. split; assumption. Qed.

(** ** a grammar can be built iff its renumbering can *)
Section construct.
Context {I : Type} (pd pd' : ParserData I) (start start' : nat).
Hypothesis (Hwf : wf_grammar pd) (Hwf' : wf_grammar pd') (Hp : proper pd) (Hp' : proper pd').
Hypothesis (Hu : names_unique pd) (Hu' : names_unique pd') (Hsame : same_grammar pd pd').
Hypothesis Hstart : rn pd pd' start start'.
Let Hsets : same_sets pd pd' := same_grammar_sets pd pd' Hp Hp' Hsame.
Let Hfw : forall x w, alternative_named pd x w -> alternative_named pd' x w := fun x w => proj1 (proj1 Hsets x w).
Let Hbw : forall x w, alternative_named pd' x w -> alternative_named pd x w := fun x w => proj2 (proj1 Hsets x w).

Lemma rule_fwd A r : pd_rules pd !! A = Some r -> exists A' r', rn pd pd' A A' /\ pd_rules pd' !! A' = Some r'.
Proof.
  intros Hr. destruct (wf_rules pd Hwf A ltac:(eexists; exact Hr)) as [x Hx].
  destruct (proj1 (proj2 Hsets x (instruction r))) as (B & r' & HB & Hr' & _); [exists A, r; auto|]. exists B, r'. split; [exists (x, NonTerminal); auto|assumption].
Qed.
Lemma has_rule_fwd A A' : rn pd pd' A A' -> has_rule pd A -> has_rule pd' A'.
Proof.
  intros HA [r Hr]. destruct (rule_fwd A r Hr) as (B & r' & HB & Hr'). rewrite (rn_fun pd pd' Hu' A A' B HA HB). eexists; exact Hr'.
Qed.
Lemma alternative_back A' w' : alternative pd' A' w' -> exists A w, rn pd pd' A A' /\ alternative pd A w /\ Forall2 (rn pd pd') w w'.
Proof.
  intros Ha. destruct (rn_some pd' pd Hwf' Hp' Hbw A' w' Ha) as (A & w & HA & Haw & Hw). exists A, w.
  split; [apply rn_sym; assumption|]. split; [assumption|]. clear -Hw. induction Hw; constructor; [apply rn_sym; assumption|assumption].
Qed.
Lemma left_calls_back A A' B' : rn pd pd' A A' -> left_calls pd' A' B' -> exists B, rn pd pd' B B' /\ left_calls pd A B.
Proof.
  intros HA (u' & v' & Ha & Hn & Hnt). destruct (alternative_back _ _ Ha) as (A2 & w & HA2 & Haw & Hw).
  assert (A2 = A) as -> by (apply (rn_fun pd' pd Hu A' A2 A); apply rn_sym; assumption).
  apply Forall2_app_inv_r in Hw as (u & l2 & Hu2 & Hl & ->). inversion Hl as [|B ? v ? HB Hv]; subst.
  exists B. split; [assumption|]. exists u, v. split; [assumption|]. split.
  - eapply (rn_nullable pd' pd Hwf' Hp' Hu Hbw u' u); [|exact Hn]. clear -Hu2. induction Hu2; constructor; [apply rn_sym; assumption|assumption].
  - eapply (rn_nonterminal pd' pd); [apply rn_sym; exact HB|assumption].
Qed.
Lemma left_recursive_back A' : left_recursive pd' A' -> exists A, left_recursive pd A.
Proof.
  assert (forall X' Y', tc (left_calls pd') X' Y' -> forall X, rn pd pd' X X' -> exists Y, rn pd pd' Y Y' /\ tc (left_calls pd) X Y) as Htc.
  { induction 1 as [X' Y' H1|X' Y' Z' H1 _ IH]; intros X HX; destruct (left_calls_back X X' Y' HX H1) as (Y & HY & HXY).
    - exists Y. split; [assumption|]. apply tc_once. assumption.
    - destruct (IH Y HY) as (Z & HZ & HYZ). exists Z. split; [assumption|]. eapply tc_l; eauto. }
  intros Hrec. assert (exists A, rn pd pd' A A') as [A HA].
  { inversion Hrec as [? ? (u & v & Ha & _)|? ? ? (u & v & Ha & _)]; subst; destruct (alternative_back _ _ Ha) as (A & w & HA & _); eauto. }
  destruct (Htc A' A' Hrec A HA) as (B & HB & HAB). assert (B = A) as -> by (apply (rn_fun pd' pd Hu A'); apply rn_sym; assumption).
  exists A. assumption.
Qed.
Lemma called_rn_prod a p p' : p <> NotEmpty [] -> p' <> NotEmpty [] -> called pd a (right_side p) -> called pd' a (right_side p') -> rn_prod pd pd' p p'.
Proof.
  intros N1 N2 H1 H2. pose proof (names_rn pd pd' a _ _ H1 H2) as Hw. destruct p as [l|], p' as [l'|]; cbn in *; [assumption| | |exact Logic.I];
    inversion Hw; subst; congruence.
Qed.
Lemma constructible_fwd : constructible pd start -> constructible pd' start'.
Proof.
  intros Hcon. split.
  - split; [exact (proj1 Hp')|]. intros A' w' e' Ha He'. destruct (alternative_back _ _ Ha) as (A & w & HA & Haw & Hw).
    apply elem_of_list_lookup in He' as [i Hi]. destruct (Forall2_lookup_r _ _ _ _ _ Hw Hi) as (e & He & Hee).
    destruct (proj2 (con_defined _ _ Hcon) A w e Haw (elem_of_list_lookup_2 _ _ _ He)) as [[s Hs]|[Hn Hr]].
    + left. exists s. eapply rn_terminal; eauto.
    + right. split; [eapply rn_nonterminal; eauto|eapply has_rule_fwd; eauto].
  - intros A' Hrec. destruct (left_recursive_back A' Hrec) as [A HA]. exact (con_no_left_recursion _ _ Hcon A HA).
  - eapply has_rule_fwd; [exact Hstart|apply (con_start _ _ Hcon)].
  - intros A' r' p' Hr' Hin (e' & rest' & -> & Ht). destruct (alternative_back A' (e' :: rest')) as (A & w & HA & (r & p & Hr & Hpin & ->) & Hw).
    { exists r', (NotEmpty (e' :: rest')). auto. }
    destruct p as [l|]; [|inversion Hw]. inversion Hw as [|e ? rest ? Hee Hrest]; subst. cbn in *. subst.
    apply (con_no_empty_terminal _ _ Hcon A r _ Hr Hpin). exists e, rest. split; [reflexivity|]. eapply (rn_terminal pd' pd); [apply rn_sym; exact Hee|assumption].
  - intros A' r' i j p' q' x Hr' Hi Hj Hij Hcp Hcq. destruct (wf_rules pd' Hwf' A' ltac:(eexists; exact Hr')) as [n Hn].
    destruct (alts_exist pd' r' A' Hp' Hr') as [alts' Halts']. destruct (proj2 Hsame n alts' (instruction r')) as (alts & Hperm & A & r & HA & Hr & Halts & _); [exists A', r'; auto|].
    symmetry in Hperm. apply Permutation_inj in Hperm as (_ & f & Hf & Hlk).
    assert (forall k q', possible_productions r' !! k = Some q' -> CHOOSE pd' start' A' q' x ->
      exists q, possible_productions r !! f k = Some q /\ CHOOSE pd start A q x) as Hback.
    { intros k q0 Hk Hc. destruct (Forall2_lookup_r _ _ _ _ _ Halts' Hk) as (a & Hka & Ha). rewrite Hlk in Hka.
      destruct (Forall2_lookup_l _ _ _ _ _ Halts Hka) as (q & Hq & Hqa). exists q. split; [assumption|].
      eapply (rn_choose pd' pd Hwf' Hp' Hu Hbw start' start A' A q0 q x); [apply rn_sym; assumption|exists (n, NonTerminal); auto| |assumption].
      apply rn_prod_sym. eapply called_rn_prod; eauto.
      - apply (proj1 Hp A r q Hr). eapply elem_of_list_lookup_2; exact Hq.
      - apply (proj1 Hp' A' r' q0 Hr'). eapply elem_of_list_lookup_2; exact Hk. }
    destruct (Hback i p' Hi Hcp) as (p & Hpi & Hpc). destruct (Hback j q' Hj Hcq) as (q & Hqj & Hqc).
    eapply (con_disjoint _ _ Hcon A r (f i) (f j) p q x); eauto.
Qed.
End construct.
