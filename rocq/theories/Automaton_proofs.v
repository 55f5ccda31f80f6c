(** * Proofs for C90: finite automata written as grammars *)
From Verif Require Import Base Tree Sets ParserData Vm SpecText SpecTree SpecWeave SpecRules SpecLanguage SpecExtend SpecNaming SpecCompose SpecAutomaton
  Language_proofs Start_proofs Naming_proofs NamingAll_proofs Compose_proofs.

Lemma state_name_inj q q' : state_name q = state_name q' -> q = q'.
Proof.
  destruct q as [|q], q' as [|q']; cbn; intros E; [reflexivity|discriminate..|]. apply (f_equal length) in E. cbn in E. rewrite !replicate_length in E. assumption.
Qed.

Section automaton.
Context {I : Type} (A : automaton) (Hu : usable A).
Notation rs := (state_rules (I := I) A).
Lemma st_rules_for q st : A !! q = Some st -> rules_for (state_name q) rs = [mkARule (state_name q) OvAbsent (state_alternatives st) []].
Proof.
  unfold state_rules, rules_for. assert (forall (B : automaton) (f : nat -> nat), (forall i j, f i = f j -> i = j) -> forall q st, B !! q = Some st ->
    filter (fun r => ar_name r = state_name (f q)) (imap (fun q st => mkARule (I := I) (state_name (f q)) OvAbsent (state_alternatives st) []) B) = [mkARule (state_name (f q)) OvAbsent (state_alternatives st) []]) as Hgen.
  { induction B as [|s B IH]; intros f Hf q0 st0 Hq; [discriminate|]. rewrite imap_cons, filter_cons. cbn [ar_name]. destruct q0 as [|q0].
    - injection Hq as ->. rewrite decide_True by reflexivity. f_equal. clear IH. unfold compose.
      assert (forall (B : automaton) g, (forall i, g i <> f 0) -> filter (fun r => ar_name r = state_name (f 0)) (imap (fun q st => mkARule (I := I) (state_name (g q)) OvAbsent (state_alternatives st) []) B) = []) as Hnone.
      { induction B0 as [|s B0 IH]; intros g Hg; [reflexivity|]. rewrite imap_cons, filter_cons. cbn [ar_name]. rewrite decide_False by (intros E; apply state_name_inj in E; exact (Hg _ E)).
        apply (IH (fun i => g (S i))). intros i. apply Hg. }
      apply (Hnone B (fun i => f (S i))). intros i E. apply Hf in E. discriminate.
    - rewrite decide_False by (intros E; apply state_name_inj, Hf in E; discriminate). apply (IH (fun i => f (S i))); [|exact Hq]. intros i j E. apply Hf in E. congruence. }
  intros Hq. exact (Hgen A (fun q => q) (fun i j E => E) q st Hq).
Qed.
Lemma st_named x : defined rs x -> exists q st, x = state_name q /\ A !! q = Some st.
Proof.
  intros Hd. unfold defined in Hd. destruct (rules_for x rs) as [|r l] eqn:E; [destruct (Hd eq_refl)|]. assert (r ∈ rules_for x rs) as Hr by (rewrite E; left).
  unfold rules_for in Hr. apply elem_of_list_filter in Hr as [Hn Hr]. unfold state_rules in Hr. apply elem_of_lookup_imap in Hr as (q & st & -> & Hq). exists q, st. auto.
Qed.
Lemma st_defined q st : A !! q = Some st -> defined rs (state_name q).
Proof. intros Hq. unfold defined. rewrite (st_rules_for q st Hq). discriminate. Qed.
Lemma st_no_ignore x y : ~ ignores rs x y.
Proof.
  intros (r & more & E & Ho). assert (defined rs x) as Hd by (unfold defined; rewrite E; discriminate). apply st_named in Hd as (q & st & -> & Hq).
  rewrite (st_rules_for q st Hq) in E. injection E as <- _. discriminate.
Qed.
Lemma st_alternatives q st : A !! q = Some st -> alternatives_for rs (state_name q) = state_alternatives st.
Proof. intros Hq. unfold alternatives_for. rewrite (st_rules_for q st Hq). cbn. apply app_nil_r. Qed.
Lemma st_says q st i w : A !! q = Some st -> says rs (state_name q) i w <-> state_alternatives st !! i = Some w.
Proof.
  intros Hq. rewrite <- (st_alternatives q st Hq). split.
  - intros [w0 Hw _|w0 y _ Hy _]; [assumption|destruct (st_no_ignore _ _ Hy)].
  - intros Hw. apply says_plain; [assumption|]. intros y Hy. destruct (st_no_ignore _ _ Hy).
Qed.
Notation NTm x := (x, NonTerminal).
Lemma alts_cases st i w : state_alternatives st !! i = Some w ->
  (exists c q', edges st !! i = Some (c, q') /\ w = [([c], Terminal); NTm (state_name q')]) \/ (i = length (edges st) /\ w = [] /\ accepting st = true).
Proof.
  intros Hw. unfold state_alternatives in Hw. apply lookup_app_Some in Hw as [Hw|[Hi Hw]].
  - left. rewrite list_lookup_fmap in Hw. destruct (edges st !! i) as [[c q']|]; [|discriminate]. injection Hw as <-. eauto.
  - right. rewrite map_length in *. destruct (accepting st); [|rewrite lookup_nil in Hw; discriminate]. apply list_lookup_singleton_Some in Hw as [Hw ->]. split; [lia|auto].
Qed.
Lemma says_cases x i w : says rs x i w -> exists q st, x = state_name q /\ A !! q = Some st /\
  ((exists c q', edges st !! i = Some (c, q') /\ w = [([c], Terminal); NTm (state_name q')]) \/ (i = length (edges st) /\ w = [] /\ accepting st = true)).
Proof.
  intros Hs. destruct (st_named x (says_defined _ _ _ _ Hs)) as (q & st & -> & Hq). exists q, st. split; [reflexivity|]. split; [assumption|].
  apply (st_says q st i w Hq) in Hs. apply alts_cases, Hs.
Qed.
Lemma says_edge q st c q' : A !! q = Some st -> (c, q') ∈ edges st -> exists i, says rs (state_name q) i [([c], Terminal); NTm (state_name q')].
Proof.
  intros Hq He. apply elem_of_list_lookup in He as [i Hi]. exists i. apply (st_says q st _ _ Hq). unfold state_alternatives.
  apply lookup_app_l_Some. rewrite list_lookup_fmap, Hi. reflexivity.
Qed.
Lemma says_end q st : A !! q = Some st -> accepting st = true -> exists i, says rs (state_name q) i [].
Proof.
  intros Hq Ha. exists (length (edges st)). apply (st_says q st _ _ Hq). unfold state_alternatives. rewrite Ha, lookup_app_r by (rewrite map_length; lia).
  rewrite map_length, Nat.sub_diag. reflexivity.
Qed.
(** Chars, then at most one state. *)
Definition linear (w : list (str * ElementType)) : Prop := exists cs x, w = map (fun c => ([c], Terminal)) cs ++ x /\ (x = [] \/ exists y, x = [NTm y]).
Lemma linear_step w z : nstep rs w z -> linear w -> linear z.
Proof.
  intros [u x v i w' Hs] (cs & t & E & Ht). 
  assert (u = map (fun c => ([c], Terminal)) cs /\ v = []) as [-> ->].
  { revert u E. induction cs as [|c cs IH]; intros u E; cbn in E.
    - destruct Ht as [->|[y ->]]; [destruct u; discriminate|]. destruct u as [|? [|? ?]]; [injection E as _ ->; auto|discriminate..].
    - destruct u as [|e u]; [discriminate|]. injection E as -> E. apply IH in E as [-> ->]. auto. }
  apply says_cases in Hs as (q & st & -> & Hq & [(c & q' & _ & ->)|(_ & -> & _)]); rewrite app_nil_r.
  - exists (cs ++ [c]), [NTm (state_name q')]. split; [rewrite map_app, <- app_assoc; reflexivity|eauto].
  - exists cs, []. split; [rewrite ?app_nil_r; reflexivity|auto].
Qed.
Lemma linear_derives w z : nderives rs w z -> linear w -> linear z.
Proof. intros Hd. induction Hd as [|w w' z Hs _ IH]; [auto|]. intros Hl. eapply IH, linear_step; eassumption. Qed.
Lemma linear_one x : linear [NTm x].
Proof. exists [], [NTm x]. eauto. Qed.
Lemma linear_last u x v : linear (u ++ NTm x :: v) -> v = [].
Proof.
  intros (cs & t & E & Ht). revert u E. induction cs as [|c cs IH]; intros u E; cbn in E.
  - destruct Ht as [->|[y ->]]; [destruct u; discriminate|]. destruct u as [|? [|? ?]]; [injection E as _ ->; reflexivity|discriminate..].
  - destruct u as [|e u]; [discriminate|]. injection E as -> E. exact (IH _ E).
Qed.
Lemma st_follow x l : nfollow rs (NTm x) l -> l = MTerminate.
Proof.
  destruct l as [c|]; [|reflexivity]. intros (y & u & v & _ & Hd & Hc). apply linear_derives in Hd; [|apply linear_one]. apply linear_last in Hd as ->. destruct (nfirst_nil _ _ Hc).
Qed.
Lemma st_follow_end q st : A !! q = Some st -> (exists s, runs A 0 s q) -> nfollow rs (NTm (state_name q)) MTerminate.
Proof.
  intros Hq [s Hr]. exists (map (fun c => ([c], Terminal)) s), []. split; [|apply nnullable_nil]. clear Hq. change (lit "start") with (state_name 0).
  induction Hr as [q|q st' c q' s q'' Hq He _ IH]; [apply rtc_refl|]. destruct (says_edge q st' c q' Hq He) as [i Hs].
  eapply rtc_l; [apply (nstep_intro rs [] (state_name q) [] i _ Hs)|]. cbn [app map]. 
  assert (forall w z, nderives rs w z -> nderives rs (([c], Terminal) :: w) (([c], Terminal) :: z)) as Hcons.
  { intros w z Hd. induction Hd as [|w w' z [u x v j w0 Hj] _ IHd]; [apply rtc_refl|]. eapply rtc_l; [|exact IHd]. apply (nstep_intro rs (([c], Terminal) :: u) x v j w0 Hj). }
  apply Hcons, IH.
Qed.
Lemma terminal_stays b w z : nderives rs w z -> w = [(b, Terminal)] -> z = [(b, Terminal)].
Proof. intros Hd. induction Hd as [|w w' z Hs _ IH]; [auto|]. intros ->. inversion Hs as [u x v i w0 _ E]. destruct u as [|? [|? ?]]; discriminate. Qed.
Lemma term_nullable c : ~ nnullable rs [([c], Terminal)].
Proof. intros (x & Hd & He). rewrite (terminal_stays _ _ _ Hd eq_refl) in He. apply Forall_cons in He as [E _]. discriminate. Qed.
Lemma term_first c d : nfirst rs [([c], Terminal)] d -> d = c.
Proof.
  intros (x & s & v & Hd & He). apply terminal_stays with (b := [c]) in Hd; [|reflexivity]. symmetry in Hd. destruct x as [|e [|? ?]]; [injection Hd as -> _; reflexivity|discriminate..].
Qed.
Lemma automaton_parsable : parsable rs.
Proof.
  split.
  - destruct (us_first _ Hu) as [st Hst]. exact (st_defined 0 st Hst).
  - intros x y (w & Hw & Hy). assert (defined rs x) as Hd by (intros E; unfold alternatives_for in Hw; rewrite E in Hw; inversion Hw). apply st_named in Hd as (q & st & -> & Hq).
    rewrite (st_alternatives q st Hq) in Hw. apply elem_of_list_lookup in Hw as [i Hi]. apply alts_cases in Hi as [(c & q' & He & ->)|(_ & -> & _)]; [|inversion Hy].
    apply elem_of_cons in Hy as [Hy|Hy]; [discriminate|]. apply elem_of_list_singleton in Hy. injection Hy as ->. apply elem_of_list_lookup_2 in He.
    destruct (us_targets _ Hu q st c q' Hq He) as [st' Hst']. exact (st_defined q' st' Hst').
  - intros x y Hi. destruct (st_no_ignore _ _ Hi).
  - intros x Ht. assert (exists y, nleft_calls rs x y) as (y & i & u & v & Hs & Hn) by (inversion Ht; eauto).
    apply says_cases in Hs as (q & st & -> & Hq & [(c & q' & _ & E)|(_ & E & _)]); [|destruct u; discriminate].
    destruct u as [|e u]; [discriminate|]. injection E as -> _. change (([c], Terminal) :: u) with ([([c], Terminal)] ++ u) in Hn. apply nnullable_app in Hn as [Hn _]. exact (term_nullable _ Hn).
  - intros x i w Hs. apply says_cases in Hs as (q & st & -> & Hq & [(c & q' & _ & ->)|(_ & -> & _)]); discriminate.
  - intros x i j w w' l Hs Hs' Hij C C'. apply says_cases in Hs as (q & st & -> & Hq & Hw). apply says_cases in Hs' as (q2 & st2 & E & Hq2 & Hw'). apply state_name_inj in E as <-.
    rewrite Hq in Hq2. injection Hq2 as <-.
    assert (forall c y, nchoose rs (state_name q) [([c], Terminal); y] l -> l = MChar c) as Hc.
    { intros c y [(d & -> & Hd)|[Hn _]]; [apply term_first in Hd as ->; reflexivity|destruct (term_nullable _ Hn)]. }
    destruct Hw as [(c & q' & He & ->)|(-> & -> & _)]; destruct Hw' as [(c' & q'' & He' & ->)|(-> & -> & _)].
    + apply Hc in C. apply Hc in C'. rewrite C in C'. injection C' as <-. apply Hij.
      apply (proj1 (NoDup_alt _) (us_deterministic _ Hu q st Hq) i j c); rewrite list_lookup_fmap, ?He, ?He'; reflexivity.
    + apply Hc in C. cbn in C'. apply st_follow in C'. congruence.
    + apply Hc in C'. cbn in C. apply st_follow in C. congruence.
    + apply Hij. reflexivity.
Qed.
(** Trees and runs. *)
Lemma tree_run t : nderivation rs t -> forall q, nroot t = NTm (state_name q) -> t = run_nodes A q (nyield t) /\ exists q' st, runs A q (nyield t) q' /\ A !! q' = Some st /\ accepting st = true.
Proof.
  induction t as [b|x subs IH] using ntree_ind'; intros Hd q Hr; [discriminate|]. injection Hr as ->. inversion Hd as [|? i ? Hs Hsubs]; subst.
  apply says_cases in Hs as (q0 & st & E & Hq & Hw). apply state_name_inj in E as <-. destruct Hw as [(c & q' & He & E)|(_ & E & Ha)].
  - destruct subs as [|t1 [|t2 [|? ?]]]; try discriminate. injection E as E1 E2. destruct t1 as [b|]; [|discriminate]. injection E1 as ->.
    apply Forall_cons in IH as [_ IH]. apply Forall_cons in IH as [IH _]. apply Forall_cons in Hsubs as [_ Hsubs]. apply Forall_cons in Hsubs as [Hd2 _].
    destruct (IH Hd2 q' E2) as (Et & q2 & st2 & Hr2 & Hq2 & Ha2). cbn [nyield map concat]. rewrite app_nil_r. cbn [app]. apply elem_of_list_lookup_2 in He as He'. split.
    + cbn [run_nodes]. rewrite Hq. cbn [mbind option_bind]. destruct (list_find (fun e => e.1 = c) (edges st)) as [[k [c0 q0]]|] eqn:Ef.
      * apply list_find_Some in Ef as (Hk & Ec & _). cbn in Ec. subst c0. cbn. f_equal. f_equal. f_equal.
        assert (k = i) as ->. { apply (proj1 (NoDup_alt _) (us_deterministic _ Hu q st Hq) k i c); rewrite list_lookup_fmap, ?He, ?Hk; reflexivity. }
        rewrite He in Hk. injection Hk as <-. exact Et.
      * apply list_find_None in Ef. rewrite Forall_forall in Ef. destruct (Ef _ He'). reflexivity.
    + exists q2, st2. split; [|auto]. econstructor; eassumption.
  - destruct subs; [|discriminate]. cbn. split; [reflexivity|]. exists q, st. split; [constructor|auto].
Qed.
Lemma run_is_tree q s q' : runs A q s q' -> forall st, A !! q' = Some st -> accepting st = true -> exists t, nderivation rs t /\ nroot t = NTm (state_name q) /\ nyield t = s.
Proof.
  induction 1 as [q|q st c q' s q'' Hq He _ IH]; intros st0 Hq0 Ha.
  - destruct (says_end q st0 Hq0 Ha) as [i Hs]. exists (NNode (state_name q) []). split; [econstructor; [exact Hs|constructor]|auto].
  - destruct (IH st0 Hq0 Ha) as (t & Hd & Hr & Hy). destruct (says_edge q st c q' Hq He) as [i Hs]. exists (NNode (state_name q) [NLeaf [c]; t]). split; [|split; [reflexivity|]].
    + econstructor; [cbn [map nroot]; rewrite Hr; exact Hs|]. repeat constructor. assumption.
    + cbn. rewrite Hy, app_nil_r. reflexivity.
Qed.
Lemma automaton_sentence s : sentence rs s <-> recognised A s.
Proof.
  unfold sentence, derives_text. split.
  - intros (t & Hd & Hr & <-). destruct (tree_run t Hd 0 Hr) as (_ & q & st & X). exists q, st. exact X.
  - intros (q & st & Hr & Hq & Ha). exact (run_is_tree 0 s q Hr st Hq Ha).
Qed.
(** A derivation tree ends with the name of a state that stands for nothing. *)
Lemma tree_ends t : nderivation rs t -> forall q, nroot t = NTm (state_name q) -> exists q', ends_in_empty t (state_name q') [].
Proof.
  induction t as [b|x subs IH] using ntree_ind'; intros Hd q Hr; [discriminate|]. injection Hr as ->. inversion Hd as [|? i ? Hs Hsubs]; subst.
  apply says_cases in Hs as (q0 & st & _ & Hq & Hw). destruct Hw as [(c & q' & He & E)|(_ & E & Ha)].
  - destruct subs as [|t1 [|t2 [|? ?]]]; try discriminate. injection E as E1 E2. apply Forall_cons in IH as [_ IH]. apply Forall_cons in IH as [IH _]. apply Forall_cons in Hsubs as [_ Hsubs]. apply Forall_cons in Hsubs as [Hd2 _].
    destruct (IH Hd2 q' E2) as [q2 Hq2]. exists q2. apply (ee_inside _ [t1] t2 []); [reflexivity|assumption].
  - destruct subs; [|discriminate]. exists q. apply (ee_here _ []). reflexivity.
Qed.
End automaton.
