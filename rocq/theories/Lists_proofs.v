(** * Optional parts and lists with separators (C94): proofs *)
From Verif Require Import Base Sets ParserData Vm SpecGrammar SpecRules SpecLanguage SpecExtend SpecNaming SpecCompose SpecLists
  Language_proofs Naming_proofs Compose_proofs.
Notation NTm x := (x, NonTerminal).
Notation start := (lit "start").

Section optional.
Context {I : Type} (P : list (arule I)) (a : str) (HP : part P a) (is is1 : list I).
Notation W := (optional a is P).
Notation G1 := (alone a is1 P).
Lemma op_left : extends P W. Proof. apply st_extends, (pt_no_start _ _ HP). Qed.
Lemma op_start i w : says W start i w <-> (i = 0 /\ w = [NTm a]) \/ (i = 1 /\ w = []).
Proof.
  unfold optional. rewrite st_says by apply (pt_no_start _ _ HP). destruct i as [|[|[|i]]]; cbn [lookup list_lookup]; split; try discriminate; try (intros [[? ?]|[? ?]]; discriminate).
  - intros E. left. split; [reflexivity|congruence].
  - intros [[_ ->]|[? _]]; [reflexivity|discriminate].
  - intros E. right. split; [reflexivity|congruence].
  - intros [[? _]|[_ ->]]; [discriminate|reflexivity].
Qed.
Lemma op_cases x i w : says W x i w -> (x = start /\ ((i = 0 /\ w = [NTm a]) \/ (i = 1 /\ w = []))) \/ (defined P x /\ says P x i w).
Proof.
  intros Hs. pose proof (says_defined _ _ _ _ Hs) as Hd. apply st_defined in Hd as [->|Hd]; [| |apply (pt_no_start _ _ HP)].
  - left. split; [reflexivity|]. apply op_start, Hs.
  - right. split; [assumption|]. apply (pa_says P a HP W op_left x i w Hd), Hs.
Qed.
Lemma op_entry y i u x v : ~ defined P y -> says W y i (u ++ NTm x :: v) -> defined P x -> x = a.
Proof.
  intros Hy Hs Hx. apply op_cases in Hs as [[-> [[_ E]|[_ E]]]|[Hd _]]; [|destruct u; discriminate|destruct (Hy Hd)].
  symmetry in E. apply single in E as [E _]. congruence.
Qed.
Lemma op_uses_start y i u v : ~ says W y i (u ++ NTm start :: v).
Proof.
  intros Hs. apply op_cases in Hs as [[-> [[_ E]|[_ E]]]|[Hd Hs]]; [|destruct u; discriminate|].
  - symmetry in E. apply single in E as [E _]. apply (a_not_start P a HP). congruence.
  - destruct (pt_no_start _ _ HP). eapply mid_in; eassumption.
Qed.
Lemma op_fol_start l : nfol W start l -> l = MTerminate.
Proof. intros Hn. remember start as x eqn:E. destruct Hn as [|y i u x v c Hs Hf|y i u x v l Hs _ _]; [reflexivity|..]; subst x; destruct (op_uses_start _ _ _ _ Hs). Qed.
Lemma op_outer l : outer P a W l -> l = MTerminate.
Proof.
  intros (y & i & u & v & Hy & Hs & Hl). apply op_cases in Hs as [[-> [[_ E]|[_ E]]]|[Hd _]]; [|destruct u; discriminate|destruct (Hy Hd)].
  symmetry in E. apply single in E as (_ & -> & ->). destruct Hl as [(c & -> & Hc)|[_ Hf]]; [destruct (nfirst_nil _ _ Hc)|]. apply op_fol_start, Hf.
Qed.
Lemma op_fol_a : nfol W a MTerminate.
Proof. apply (nf_last W start 0 [] a []); [apply op_start; auto|exists []; split; constructor|constructor]. Qed.
Notation in_a := (re_in_a P a HP).
Lemma optional_parsable : parsable W <-> parsable G1 /\ ~ nnullable G1 [NTm a].
Proof.
  pose proof (pt_no_start _ _ HP) as Hns. split.
  - intros Hp. split; [exact (part_parsable P a HP is1 W op_left MTerminate Hp op_fol_a)|].
    intros Hn. apply (both_nullable P a HP is1 W op_left _ in_a) in Hn.
    apply (pa_distinct _ Hp start 0 1 [NTm a] [] MTerminate); [apply op_start; auto..|discriminate| |].
    + right. split; [assumption|]. apply nfol_follow, op_fol_a.
    + cbn [nchoose]. apply nfol_follow. constructor.
  - intros (H1 & Hn). split.
    + apply st_defined; auto.
    + intros x y (w & Hw & Hy). apply st_defined; [assumption|]. right. destruct (defined_dec P x) as [Hx|Hx].
      * apply (pt_uses _ _ HP x). rewrite (pa_alts P W op_left x Hx) in Hw. exists w. auto.
      * destruct (decide (x = start)) as [->|Hx'].
        -- unfold optional in Hw. rewrite st_alts in Hw by assumption. apply elem_of_cons in Hw as [->|Hw]; [|apply elem_of_list_singleton in Hw as ->; inversion Hy].
           apply elem_of_list_singleton in Hy. assert (y = a) as -> by congruence. apply (pt_entry _ _ HP).
        -- unfold alternatives_for, optional in Hw. rewrite st_rules in Hw by assumption. unfold defined in Hx. destruct (rules_for x P); [inversion Hw|destruct Hx; discriminate].
    + intros x y Hi. apply st_defined; [assumption|]. right. destruct (decide (x = start)) as [->|Hx']; [destruct (st_ignores _ _ _ Hns _ Hi)|].
      apply (pt_ignores _ _ HP x). unfold ignores in *. unfold optional in Hi. rewrite st_rules in Hi by assumption. assumption.
    + intros x Ht. assert (x = start \/ defined P x) as [->|Hx].
      { assert (exists z, nleft_calls W x z) as (z & i & u & v & Hs & _) by (inversion Ht; eauto). apply says_defined, st_defined in Hs; assumption. }
      * assert (forall x y, tc (nleft_calls W) x y -> y <> start) as Hl; [|apply (Hl _ _ Ht); reflexivity].
        intros x y Ht'. induction Ht' as [x y (i & u & v & Hs & Hu)|x y z _ _ IH]; [|assumption]. intros ->. destruct (op_uses_start _ _ _ _ Hs).
      * exact (part_no_left P a HP is1 W op_left H1 x Hx Ht).
    + intros x i w Hs. apply op_cases in Hs as [[-> [[_ ->]|[_ ->]]]|[Hx Hs]]; [discriminate..|].
      apply (pa_no_empty_terminal _ H1 x i). apply (pa_says P a HP G1 (al_extends P a HP is1) x i w Hx), Hs.
    + intros x i j w w' l S1 S2 Hij C1 C2. pose proof S1 as S1'. apply op_cases in S1' as [[-> _]|[Hx _]].
      * apply op_start in S1. apply op_start in S2.
        assert (forall l, nchoose W start [NTm a] l -> nchoose W start [] l -> False) as Hno.
        { clear l C1 C2. intros l C1 C2. cbn [nchoose] in C2. apply nfol_follow, op_fol_start in C2. subst l. destruct C1 as [(c & E & _)|[Hna _]]; [discriminate|].
          apply Hn, (both_nullable P a HP is1 W op_left _ in_a), Hna. }
        destruct S1 as [[-> ->]|[-> ->]], S2 as [[-> ->]|[-> ->]]; try (destruct (Hij eq_refl)); eauto.
      * refine (part_distinct P a HP is1 W op_left op_entry H1 _ x i j w w' l Hx S1 S2 Hij C1 C2).
        intros l' Ho. left. apply op_outer, Ho.
Qed.
Lemma op_tree t : nderivation W t /\ nroot t = NTm start <-> t = NNode start [] \/ (nderivation G1 t /\ nroot t = NTm start).
Proof.
  rewrite (al_tree P a HP). split.
  - intros [Hd Hr]. destruct (node_of _ _ _ Hd Hr) as (i & subs & -> & Hs & Hf). apply op_start in Hs as [[_ E]|[_ E]].
    + apply roots_one in E as (s & -> & Hs). inversion Hf; subst. right. exists s. split; [reflexivity|]. split; [|assumption].
      eapply (sub_same P a HP _ _ op_left (al_extends P a HP is1)); [|eassumption]. rewrite Hs. intros _. apply (pt_entry _ _ HP).
    + left. destruct subs; [reflexivity|discriminate].
  - intros [->|(s & -> & Hd & Hr)]; (split; [|reflexivity]).
    + apply (nder_node _ _ 1); [apply op_start; cbn; auto|constructor].
    + apply (nder_node _ _ 0); [apply op_start; cbn [map]; rewrite Hr; auto|]. constructor; [|constructor].
      eapply (sub_same P a HP _ _ (al_extends P a HP is1) op_left); [|eassumption]. rewrite Hr. intros _. apply (pt_entry _ _ HP).
Qed.
End optional.

Section separated.
Context {I : Type} (P : list (arule I)) (a mo sep : str) (HP : part P a) (Hmo : mo <> start) (Hfresh : ~ defined P mo) (Hsep : sep <> []) (is is' is1 : list I).
Notation W := (separated a mo sep is is' P).
Notation M := (more_rule a mo sep is' :: P).
Notation G1 := (alone a is1 P).
Notation again := [(sep, Terminal); NTm a; NTm mo].
Lemma M_rules x : x <> mo -> rules_for x M = rules_for x P.
Proof. intros Hx. unfold rules_for. rewrite filter_cons_False; [reflexivity|]. cbn [more_rule ar_name]. congruence. Qed.
Lemma M_more : rules_for mo M = [more_rule a mo sep is'].
Proof.
  unfold rules_for. rewrite filter_cons_True by reflexivity. f_equal. unfold defined, rules_for in Hfresh. destruct (filter _ P); [reflexivity|destruct Hfresh; discriminate].
Qed.
Lemma M_no_start : ~ defined M start.
Proof. unfold defined. rewrite M_rules by congruence. apply (pt_no_start _ _ HP). Qed.
Lemma W_defined x : defined W x <-> x = start \/ x = mo \/ defined P x.
Proof.
  unfold separated. rewrite st_defined by apply M_no_start. destruct (decide (x = mo)) as [->|Hx].
  - split; [auto|]. intros _. right. unfold defined. rewrite M_more. discriminate.
  - unfold defined. rewrite M_rules by assumption. tauto.
Qed.
Lemma W_left : extends P W.
Proof.
  intros x Hx. unfold separated. assert (x <> start) by (intros ->; exact (pt_no_start _ _ HP Hx)). rewrite st_rules by assumption. apply M_rules. intros ->. exact (Hfresh Hx).
Qed.
Lemma W_more_rules : rules_for mo W = [more_rule a mo sep is'].
Proof. unfold separated. rewrite st_rules by assumption. apply M_more. Qed.
Lemma W_start i w : says W start i w <-> i = 0 /\ w = [NTm a; NTm mo].
Proof.
  unfold separated. rewrite st_says by apply M_no_start. destruct i as [|i]; cbn [lookup list_lookup]; split.
  - intros E. split; [reflexivity|congruence].
  - intros [_ ->]. reflexivity.
  - destruct i; discriminate.
  - intros [? _]. discriminate.
Qed.
Lemma W_more i w : says W mo i w <-> (i = 0 /\ w = again) \/ (i = 1 /\ w = []).
Proof.
  assert (forall y, ~ ignores W mo y) as Hni. { intros y (r0 & l & E & Ho). rewrite W_more_rules in E. injection E as <- <-. discriminate. }
  assert (alternatives_for W mo = [again; []]) as Ha by (unfold alternatives_for; rewrite W_more_rules; reflexivity).
  transitivity (alternatives_for W mo !! i = Some w).
  - split; [intros [w' Hw _|w' y _ Hy _]; [assumption|destruct (Hni _ Hy)]|]. intros Hi. apply says_plain; [assumption|]. intros y Hy. destruct (Hni _ Hy).
  - rewrite Ha. destruct i as [|[|[|i]]]; cbn [lookup list_lookup]; split; try discriminate; try (intros [[? ?]|[? ?]]; discriminate).
    + intros E. left. split; [reflexivity|congruence].
    + intros [[_ ->]|[? _]]; [reflexivity|discriminate].
    + intros E. right. split; [reflexivity|congruence].
    + intros [[? _]|[_ ->]]; [discriminate|reflexivity].
Qed.
Lemma W_cases x i w : says W x i w -> (x = start /\ i = 0 /\ w = [NTm a; NTm mo]) \/ (x = mo /\ ((i = 0 /\ w = again) \/ (i = 1 /\ w = []))) \/ (defined P x /\ says P x i w).
Proof.
  intros Hs. pose proof (says_defined _ _ _ _ Hs) as Hd. apply W_defined in Hd as [->|[->|Hd]].
  - left. split; [reflexivity|]. apply W_start in Hs. assumption.
  - right. left. split; [reflexivity|]. apply W_more, Hs.
  - right. right. split; [assumption|]. apply (pa_says P a HP W W_left x i w Hd), Hs.
Qed.
Lemma a_not_mo : a <> mo. Proof. intros <-. apply Hfresh, (pt_entry _ _ HP). Qed.
Notation a_not_st := (a_not_start P a HP).
Lemma pair_at (u v : list (str * ElementType)) x : [NTm a; NTm mo] = u ++ NTm x :: v -> (x = a /\ u = [] /\ v = [NTm mo]) \/ (x = mo /\ u = [NTm a] /\ v = []).
Proof.
  clear HP. destruct u as [|e [|e' [|? ?]]]; cbn [app]; intros E.
  - left. split; [congruence|]. split; [reflexivity|congruence].
  - right. assert (v = []) as -> by congruence. assert (x = mo) as -> by congruence. split; [reflexivity|]. split; [congruence|reflexivity].
  - discriminate.
  - discriminate.
Qed.
Lemma again_at (u v : list (str * ElementType)) x : again = u ++ NTm x :: v -> (x = a /\ u = [(sep, Terminal)] /\ v = [NTm mo]) \/ (x = mo /\ u = [(sep, Terminal); NTm a] /\ v = []).
Proof.
  destruct u as [|e u]; cbn [app]; intros E; [discriminate|]. assert (e = (sep, Terminal)) as -> by congruence. assert ([NTm a; NTm mo] = u ++ NTm x :: v) as E' by congruence.
  apply pair_at in E' as [(-> & -> & ->)|(-> & -> & ->)]; auto.
Qed.
(** Uses of [a] outside, of [mo] and of start. *)
Lemma uses_entry y i u x v : ~ defined P y -> says W y i (u ++ NTm x :: v) -> (x = a /\ v = [NTm mo] /\ (u = [] \/ u = [(sep, Terminal)])) \/ (x = mo /\ v = [] /\ (u = [NTm a] \/ u = [(sep, Terminal); NTm a])).
Proof.
  intros Hy Hs. apply W_cases in Hs as [(_ & _ & E)|[[_ [[_ E]|[_ E]]]|[Hd _]]]; [symmetry in E; apply pair_at in E|symmetry in E; apply again_at in E|destruct u; discriminate|destruct (Hy Hd)].
  - destruct E as [(-> & -> & ->)|(-> & -> & ->)]; auto 6.
  - destruct E as [(-> & -> & ->)|(-> & -> & ->)]; auto 6.
Qed.
Lemma W_entry y i u x v : ~ defined P y -> says W y i (u ++ NTm x :: v) -> defined P x -> x = a.
Proof. intros Hy Hs Hx. apply uses_entry in Hs as [[-> _]|[-> _]]; [reflexivity|destruct (Hfresh Hx)|assumption]. Qed.
Lemma uses_mo y i u v : says W y i (u ++ NTm mo :: v) -> ~ defined P y /\ v = [] /\ (u = [NTm a] \/ u = [(sep, Terminal); NTm a]).
Proof.
  intros Hs. destruct (defined_dec P y) as [Hy|Hy].
  - apply (pa_says P a HP W W_left _ _ _ Hy) in Hs. destruct Hfresh. eapply mid_in; eassumption.
  - split; [assumption|]. apply uses_entry in Hs as [[E _]|[_ ?]]; [destruct (a_not_mo (eq_sym E))|assumption..].
Qed.
Lemma uses_st y i u v : ~ says W y i (u ++ NTm start :: v).
Proof.
  intros Hs. destruct (defined_dec P y) as [Hy|Hy].
  - apply (pa_says P a HP W W_left _ _ _ Hy) in Hs. destruct (pt_no_start _ _ HP). eapply mid_in; eassumption.
  - apply uses_entry in Hs as [[E _]|[E _]]; [destruct (a_not_st (eq_sym E))|destruct (Hmo (eq_sym E))|assumption].
Qed.
Lemma fol_top x l : nfol W x l -> x = start \/ x = mo -> l = MTerminate.
Proof.
  induction 1 as [|y i u x v c Hs Hf|y i u x v l Hs _ _ IH]; intros Hx; [reflexivity|..]; (destruct Hx as [->| ->]; [destruct (uses_st _ _ _ _ Hs)|]);
    pose proof (uses_mo _ _ _ _ Hs) as (Hy & -> & _).
  - destruct (nfirst_nil _ _ Hf).
  - apply IH. pose proof (says_defined _ _ _ _ Hs) as Hd. apply W_defined in Hd as [?|[?|Hd]]; [auto..|destruct (Hy Hd)].
Qed.
Lemma fol_mo : nfol W mo MTerminate.
Proof. apply (nf_last W start 0 [NTm a] mo []); [apply W_start; auto|exists []; split; constructor|constructor]. Qed.
Lemma mo_nullable : nnullable W [NTm mo].
Proof. exists []. split; [|constructor]. apply rtc_once. apply (nstep_intro W [] mo [] 1 []), W_more. auto. Qed.
Lemma fol_a : nfol W a MTerminate.
Proof. apply (nf_last W start 0 [] a [NTm mo]); [apply W_start; auto|apply mo_nullable|constructor]. Qed.
Lemma mo_first c : nfirst W [NTm mo] c <-> head sep = Some c.
Proof.
  split.
  - intros Hc. apply nfirst_unfold in Hc as (i & w & Hs & Hc). apply W_more in Hs as [[_ ->]|[_ ->]]; [|destruct (nfirst_nil _ _ Hc)].
    apply (nfirst_app W [(sep, Terminal)] [NTm a; NTm mo]) in Hc as [Hc|[Hc _]].
    + destruct Hc as (u & s & v & Hd & _). inversion Hd as [? E|? y z Hst _]; subst.
      * destruct u as [|? [|? ?]]; cbn [app] in *; try discriminate. assert (sep = c :: s) as -> by congruence. reflexivity.
      * inversion Hst as [p q r i0 k _ E]. destruct p as [|? [|? ?]]; discriminate.
    + apply terminal_nullable in Hc. destruct (Hsep Hc).
  - intros E. assert (exists s, sep = c :: s) as [s Es] by (destruct sep as [|c' s]; [discriminate|]; injection E as ->; eauto).
    exists [], s, [NTm a; NTm mo]. split; [|constructor]. rewrite <- Es. apply rtc_once. apply (nstep_intro W [] mo [] 0 again), W_more. auto.
Qed.
Lemma fol_a_sep c : head sep = Some c -> nfol W a (MChar c).
Proof. intros Hc. apply (nf_next W start 0 [] a [NTm mo]); [apply W_start; auto|apply mo_first, Hc]. Qed.
Lemma W_outer l : outer P a W l -> l = MTerminate \/ exists c, l = MChar c /\ head sep = Some c.
Proof.
  intros (y & i & u & v & Hy & Hs & Hl). pose proof (says_defined _ _ _ _ Hs) as Hd. apply uses_entry in Hs as [(_ & -> & _)|(E & _)]; [|destruct (a_not_mo E)|assumption].
  destruct Hl as [(c & -> & Hc)|[_ Hf]].
  - right. exists c. split; [reflexivity|]. apply mo_first, Hc.
  - left. apply (fol_top y); [assumption|]. apply W_defined in Hd as [?|[?|Hd]]; [auto..|destruct (Hy Hd)].
Qed.
Lemma separated_parsable : parsable W <-> parsable G1 /\ forall c, head sep = Some c -> ~ goes_on G1 c.
Proof.
  pose proof M_no_start as Hns. split.
  - intros Hp. split; [exact (part_parsable P a HP is1 W W_left MTerminate Hp fol_a)|]. intros c Hc. apply (part_goes_on P a HP is1 W W_left c Hp), fol_a_sep, Hc.
  - intros (H1 & Hg). split.
    + apply W_defined; auto.
    + intros x y (w & Hw & Hy). apply W_defined. destruct (defined_dec P x) as [Hx|Hx].
      * right. right. apply (pt_uses _ _ HP x). rewrite (pa_alts P W W_left x Hx) in Hw. exists w. auto.
      * assert (y = a \/ y = mo) as [->| ->]; [|right; right; apply (pt_entry _ _ HP)|auto].
        destruct (decide (x = start)) as [->|Hx']; [|destruct (decide (x = mo)) as [->|Hx'']].
        -- unfold separated in Hw. rewrite st_alts in Hw by assumption. apply elem_of_list_singleton in Hw as ->.
           apply elem_of_cons in Hy as [E|Hy]; [left; congruence|right]. apply elem_of_list_singleton in Hy. congruence.
        -- unfold alternatives_for in Hw. rewrite W_more_rules in Hw. cbn in Hw. apply elem_of_cons in Hw as [->|Hw]; [|apply elem_of_list_singleton in Hw as ->; inversion Hy].
           apply elem_of_cons in Hy as [E|Hy]; [discriminate|]. apply elem_of_cons in Hy as [E|Hy]; [left; congruence|right]. apply elem_of_list_singleton in Hy. congruence.
        -- exfalso. unfold alternatives_for, separated in Hw. rewrite st_rules, M_rules in Hw by assumption. unfold defined in Hx. destruct (rules_for x P); [inversion Hw|destruct Hx; discriminate].
    + intros x y Hi. apply W_defined. right. right. assert (defined W x) as Hd by (destruct Hi as (r & l & E & _); unfold defined; rewrite E; discriminate).
      apply W_defined in Hd as [->|[->|Hd]].
      * destruct (st_ignores _ _ _ Hns _ Hi).
      * destruct Hi as (r & l & E & Ho). rewrite W_more_rules in E. injection E as <- _. discriminate.
      * apply (pt_ignores _ _ HP x). apply (pa_ignores P W W_left x y Hd), Hi.
    + intros x Ht. assert (x = start \/ x = mo \/ defined P x) as Hx.
      { assert (exists z, nleft_calls W x z) as (z & i & u & v & Hs & _) by (inversion Ht; eauto). apply says_defined, W_defined in Hs; assumption. }
      assert (forall x y, tc (nleft_calls W) x y -> x = mo -> False) as Hm.
      { intros x0 y0 T0 ->. assert (exists z, nleft_calls W mo z) as (z & i & u & v & Hs & Hu) by (inversion T0; eauto). apply W_more in Hs as [[_ E]|[_ E]]; [|destruct u; discriminate].
        symmetry in E. assert (exists u', u = (sep, Terminal) :: u') as [u' ->] by (apply again_at in E as [(_ & -> & _)|(_ & -> & _)]; eauto).
        change ((sep, Terminal) :: u') with ([(sep, Terminal)] ++ u') in Hu. apply nnullable_app in Hu as [Hu _]. apply terminal_nullable in Hu. destruct (Hsep Hu). }
      destruct Hx as [->|[->|Hx]]; [|destruct (Hm _ _ Ht eq_refl)|exact (part_no_left P a HP is1 W W_left H1 x Hx Ht)].
      assert (forall x y, tc (nleft_calls W) x y -> y <> start) as Hl; [|apply (Hl _ _ Ht); reflexivity].
      intros x y Ht'. induction Ht' as [x y (i & u & v & Hs & Hu)|x y z _ _ IH]; [|assumption]. intros ->. destruct (uses_st _ _ _ _ Hs).
    + intros x i w Hs. apply W_cases in Hs as [(_ & _ & ->)|[[_ [[_ ->]|[_ ->]]]|[Hx Hs]]]; [discriminate|intros [= E]; destruct (Hsep E)|discriminate|].
      apply (pa_no_empty_terminal _ H1 x i). apply (pa_says P a HP G1 (al_extends P a HP is1) x i w Hx), Hs.
    + intros x i j w w' l S1 S2 Hij C1 C2. pose proof (says_defined _ _ _ _ S1) as Hd. apply W_defined in Hd as [->|[->|Hx]].
      * apply W_start in S1 as [-> _]. apply W_start in S2 as [-> _]. destruct (Hij eq_refl).
      * assert (forall l, nchoose W mo again l -> nchoose W mo [] l -> False) as Hno.
        { clear l C1 C2. intros l C1 C2. cbn [nchoose] in C2. apply nfol_follow in C2. apply fol_top in C2; [|auto]. subst l. destruct C1 as [(c & E & _)|[Hna _]]; [discriminate|].
          apply terminal_nullable in Hna. destruct (Hsep Hna). }
        apply W_more in S1. apply W_more in S2. destruct S1 as [[-> ->]|[-> ->]], S2 as [[-> ->]|[-> ->]]; try (destruct (Hij eq_refl)); eauto.
      * refine (part_distinct P a HP is1 W W_left W_entry H1 _ x i j w w' l Hx S1 S2 Hij C1 C2).
        intros l' Ho. apply W_outer in Ho as [->|(c & -> & Hc)]; eauto.
Qed.
(** Trees. *)
Lemma mo_tree t : nderivation W t /\ nroot t = NTm mo <-> exists ts, t = more_tree mo sep ts /\ Forall (fun s => nderivation G1 s /\ nroot s = NTm a) ts.
Proof.
  split.
  - induction t as [b|x subs IH] using ntree_ind'; intros [Hd Hr]; [discriminate|]. assert (x = mo) as -> by exact (f_equal fst Hr).
    inversion Hd as [|? i ? Hs Hf]; subst. apply W_more in Hs as [[_ E]|[_ E]].
    + destruct subs as [|s0 [|s1 [|s2 [|? ?]]]]; try discriminate. injection E as E0 E1 E2. apply Forall_cons in Hf as [F0 Hf]. apply Forall_cons in Hf as [F1 Hf]. apply Forall_cons in Hf as [F2 _].
      apply Forall_cons in IH as [_ IH]. apply Forall_cons in IH as [_ IH]. apply Forall_cons in IH as [IH _]. destruct IH as (ts & -> & Hts); [auto|].
      assert (s0 = NLeaf sep) as -> by (destruct s0; cbn in E0; congruence). exists (s1 :: ts). split; [reflexivity|]. constructor; [|assumption].
      split; [|assumption]. eapply (sub_same P a HP _ _ W_left (al_extends P a HP is1)); [|eassumption]. rewrite E1. intros _. apply (pt_entry _ _ HP).
    + destruct subs; [|discriminate]. exists []. split; [reflexivity|constructor].
  - intros (ts & -> & Hts). split; [|destruct ts; reflexivity]. induction Hts as [|s ts [Hd Hr] _ IH]; cbn [more_tree].
    + apply (nder_node _ _ 1); [apply W_more; cbn; auto|constructor].
    + apply (nder_node _ _ 0); [apply W_more; cbn [map]; rewrite Hr; left; split; [reflexivity|]; destruct ts; reflexivity|].
      constructor; [constructor|]. constructor; [|constructor; [assumption|constructor]]. eapply (sub_same P a HP _ _ (al_extends P a HP is1) W_left); [|eassumption]. rewrite Hr. intros _. apply (pt_entry _ _ HP).
Qed.
Lemma se_tree t : nderivation W t /\ nroot t = NTm start <->
  exists s ts, t = list_tree mo sep s ts /\ Forall (fun s => nderivation G1 s /\ nroot s = NTm a) (s :: ts).
Proof.
  split.
  - intros [Hd Hr]. destruct (node_of _ _ _ Hd Hr) as (i & subs & -> & Hs & Hf). apply W_start in Hs as [_ E]. apply roots_two in E as (s & s2 & -> & E1 & E2).
    apply Forall_cons in Hf as [F1 Hf]. apply Forall_cons in Hf as [F2 _]. destruct (proj1 (mo_tree s2) (conj F2 E2)) as (ts & -> & Hts). exists s, ts. split; [reflexivity|]. constructor; [|assumption].
    split; [|assumption]. eapply (sub_same P a HP _ _ W_left (al_extends P a HP is1)); [|eassumption]. rewrite E1. intros _. apply (pt_entry _ _ HP).
  - intros (s & ts & -> & Hts). apply Forall_cons in Hts as [[Hd Hr] Hts]. split; [|reflexivity]. destruct (proj2 (mo_tree (more_tree mo sep ts))) as [D2 R2]; [eauto|].
    apply (nder_node _ _ 0); [apply W_start; cbn [map]; rewrite Hr, R2; auto|]. constructor; [|constructor; [assumption|constructor]].
    eapply (sub_same P a HP _ _ (al_extends P a HP is1) W_left); [|eassumption]. rewrite Hr. intros _. apply (pt_entry _ _ HP).
Qed.
End separated.
Lemma list_yield mo sep t ts : nyield (list_tree mo sep t ts) = with_separator sep (nyield t) (map nyield ts).
Proof.
  unfold list_tree. cbn [nyield map concat]. rewrite app_nil_r. revert t. induction ts as [|t' ts IH]; intros t; cbn [more_tree nyield map concat with_separator]; [apply app_nil_r|].
  rewrite <- IH, app_nil_r. reflexivity.
Qed.
