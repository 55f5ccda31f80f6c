(** * Parts in brackets (C96): proofs *)
From Verif Require Import Base Sets ParserData Vm SpecGrammar SpecRules SpecLanguage SpecExtend SpecNaming SpecCompose SpecNested
  Language_proofs Naming_proofs Compose_proofs.
Notation NTm x := (x, NonTerminal).
Notation start := (lit "start").

Section nested.
Context {I : Type} (P : list (arule I)) (a op cl : str) (HP : part P a) (Hop : op <> []) (Hcl : cl <> []) (is is1 : list I).
Notation W := (nested a op cl is P).
Notation G1 := (alone a is1 P).
Notation inner := [(op, Terminal); NTm start; (cl, Terminal)].
Lemma ne_left : extends P W. Proof. apply st_extends, (pt_no_start _ _ HP). Qed.
Lemma ne_start i w : says W start i w <-> (i = 0 /\ w = inner) \/ (i = 1 /\ w = [NTm a]).
Proof.
  unfold nested. rewrite st_says by apply (pt_no_start _ _ HP). destruct i as [|[|[|i]]]; cbn [lookup list_lookup]; split; try discriminate; try (intros [[? ?]|[? ?]]; discriminate).
  - intros E. left. split; [reflexivity|congruence].
  - intros [[_ ->]|[? _]]; [reflexivity|discriminate].
  - intros E. right. split; [reflexivity|congruence].
  - intros [[? _]|[_ ->]]; [discriminate|reflexivity].
Qed.
Lemma ne_cases x i w : says W x i w -> (x = start /\ ((i = 0 /\ w = inner) \/ (i = 1 /\ w = [NTm a]))) \/ (defined P x /\ says P x i w).
Proof.
  intros Hs. pose proof (says_defined _ _ _ _ Hs) as Hd. apply st_defined in Hd as [->|Hd]; [| |apply (pt_no_start _ _ HP)].
  - left. split; [reflexivity|]. apply ne_start, Hs.
  - right. split; [assumption|]. apply (pa_says P a HP W ne_left x i w Hd), Hs.
Qed.
Notation a_not_st := (a_not_start P a HP).
Lemma inner_at (u v : list (str * ElementType)) x : inner = u ++ NTm x :: v -> x = start /\ u = [(op, Terminal)] /\ v = [(cl, Terminal)].
Proof. destruct u as [|e [|e' [|e'' [|? ?]]]]; cbn [app]; intros E; try discriminate. split; [congruence|]. split; [congruence|]. congruence. Qed.
Lemma ne_uses y i u x v : ~ defined P y -> says W y i (u ++ NTm x :: v) -> y = start /\ ((x = start /\ u = [(op, Terminal)] /\ v = [(cl, Terminal)]) \/ (x = a /\ u = [] /\ v = [])).
Proof.
  intros Hy Hs. apply ne_cases in Hs as [[-> [[_ E]|[_ E]]]|[Hd _]]; [| |destruct (Hy Hd)]; (split; [reflexivity|]); symmetry in E; [apply inner_at in E; auto|].
  apply single in E as (E & -> & ->). right. split; [congruence|auto].
Qed.
Lemma ne_entry y i u x v : ~ defined P y -> says W y i (u ++ NTm x :: v) -> defined P x -> x = a.
Proof. intros Hy Hs Hx. apply ne_uses in Hs as [_ [[-> _]|[-> _]]]; [destruct (pt_no_start _ _ HP Hx)|reflexivity|assumption]. Qed.
Lemma quoted_first (ps : list (arule I)) s w c : s <> [] -> nfirst ps ((s, Terminal) :: w) c <-> head s = Some c.
Proof.
  intros Hne. split.
  - intros Hc. apply (nfirst_app ps [(s, Terminal)] w) in Hc as [Hc|[Hc _]].
    + destruct Hc as (u & s' & v & Hd & _). inversion Hd as [? E|? y z Hst _]; subst.
      * destruct u as [|? [|? ?]]; cbn [app] in *; try discriminate. assert (s = c :: s') as -> by congruence. reflexivity.
      * inversion Hst as [p q r i0 k _ E]. destruct p as [|? [|? ?]]; discriminate.
    + apply terminal_nullable in Hc. destruct (Hne Hc).
  - destruct s as [|c' s]; [discriminate|]. intros [= ->]. exists [], s, w. split; [apply rtc_refl|constructor].
Qed.
Lemma ne_fol_start l : nfol W start l -> l = MTerminate \/ exists c, l = MChar c /\ head cl = Some c.
Proof.
  intros Hn. remember start as x eqn:E. induction Hn as [|y i u x v c Hs Hf|y i u x v l Hs Hv _ IH]; subst; [auto|..]; destruct (defined_dec P y) as [Hy|Hy].
  - apply (pa_says P a HP W ne_left _ _ _ Hy) in Hs. destruct (pt_no_start _ _ HP). eapply mid_in; eassumption.
  - right. exists c. split; [reflexivity|]. apply ne_uses in Hs as [-> [(_ & -> & ->)|(E & _)]]; [apply (quoted_first W cl []), Hf; assumption|destruct (a_not_st (eq_sym E))|assumption].
  - apply (pa_says P a HP W ne_left _ _ _ Hy) in Hs. destruct (pt_no_start _ _ HP). eapply mid_in; eassumption.
  - apply ne_uses in Hs as [-> [(_ & -> & ->)|(E & _)]]; [apply terminal_nullable in Hv; destruct (Hcl Hv)|destruct (a_not_st (eq_sym E))|assumption].
Qed.
Lemma ne_fol_cl c : head cl = Some c -> nfol W start (MChar c).
Proof. intros Hc. apply (nf_next W start 0 [(op, Terminal)] start [(cl, Terminal)]); [apply ne_start; auto|apply quoted_first; assumption]. Qed.
Lemma ne_fol_a l : nfol W start l -> nfol W a l.
Proof. intros Hl. apply (nf_last W start 1 [] a []); [apply ne_start; auto|exists []; split; constructor|assumption]. Qed.
Lemma ne_outer l : outer P a W l -> l = MTerminate \/ exists c, l = MChar c /\ head cl = Some c.
Proof.
  intros (y & i & u & v & Hy & Hs & Hl). apply ne_uses in Hs as [-> [(E & _)|(_ & -> & ->)]]; [destruct (a_not_st E)| |assumption].
  destruct Hl as [(c & -> & Hc)|[_ Hf]]; [destruct (nfirst_nil _ _ Hc)|]. apply ne_fol_start, Hf.
Qed.
Notation in_a := (re_in_a P a HP).
Lemma ne_fol_of_a l : nfol W a l -> (exists c, l = MChar c /\ nfol G1 a l) \/ l = MTerminate \/ exists c, l = MChar c /\ head cl = Some c.
Proof. intros Hl. apply (fol_out P a HP is1 W ne_left ne_entry) in Hl as [Hl|[_ Hl]]; [auto|right; apply ne_outer, Hl|apply (pt_entry _ _ HP)]. Qed.
Lemma ne_announces c : announces W a (MChar c) <-> announces G1 a (MChar c) \/ (nnullable G1 [NTm a] /\ head cl = Some c).
Proof.
  unfold announces. rewrite (both_nullable P a HP is1 W ne_left _ in_a). split.
  - intros [(c' & [= <-] & Hc)|[Hn Hf]]; [left; left; exists c; split; [reflexivity|]; apply (both_first P a HP is1 W ne_left _ c in_a), Hc|].
    apply nfol_follow, ne_fol_of_a in Hf as [(c' & _ & Hf)|[Hf|(c' & [= <-] & Hc)]]; [|discriminate|auto]. left. right. split; [assumption|]. apply nfol_follow, Hf.
  - intros [[(c' & [= <-] & Hc)|[Hn Hf]]|[Hn Hc]].
    + left. exists c. split; [reflexivity|]. apply (both_first P a HP is1 W ne_left _ c in_a), Hc.
    + right. split; [assumption|]. apply nfol_follow. apply nfol_follow in Hf. apply (fol_char P a HP is1 W ne_left a c Hf), (pt_entry _ _ HP).
    + right. split; [assumption|]. apply nfol_follow, ne_fol_a, ne_fol_cl, Hc.
Qed.
Lemma nested_parsable : parsable W <-> parsable G1 /\ (forall c, head op = Some c -> ~ announces G1 a (MChar c)) /\ (nnullable G1 [NTm a] -> head op <> head cl) /\ forall c, head cl = Some c -> ~ goes_on G1 c.
Proof.
  pose proof (pt_no_start _ _ HP) as Hns.
  assert ((forall c, head op = Some c -> ~ announces W a (MChar c)) <-> (forall c, head op = Some c -> ~ announces G1 a (MChar c)) /\ (nnullable G1 [NTm a] -> head op <> head cl)) as Han.
  { split.
    - intros Ha. split; [intros c Hc Hx; apply (Ha c Hc), ne_announces; auto|]. intros Hn E. destruct (head op) as [c|] eqn:Eo; [|destruct op; [destruct (Hop eq_refl)|discriminate]].
      apply (Ha c eq_refl), ne_announces. auto.
    - intros [H1 H2] c Hc Hx. apply ne_announces in Hx as [Hx|[Hn Hx]]; [exact (H1 c Hc Hx)|]. apply (H2 Hn). congruence. }
  split.
  - intros Hp. split; [exact (part_parsable P a HP is1 W ne_left MTerminate Hp (ne_fol_a _ (nf_start W)))|]. cut ((forall c, head op = Some c -> ~ announces G1 a (MChar c)) /\ (nnullable G1 [NTm a] -> head op <> head cl)); [intros [Q1 Q2]; split; [exact Q1|]; split; [exact Q2|]; intros c Hc; apply (part_goes_on P a HP is1 W ne_left c Hp), ne_fol_a, ne_fol_cl, Hc|].
    apply Han. intros c Hc Hx. apply (pa_distinct _ Hp start 0 1 inner [NTm a] (MChar c)); [apply ne_start; auto..|discriminate| |exact Hx].
    left. exists c. split; [reflexivity|]. apply quoted_first; assumption.
  - intros (H1 & Ha & Hn & Hg). pose proof (proj2 Han (conj Ha Hn)) as Ha'. clear Han Ha Hn. split.
    + apply st_defined; auto.
    + intros x y (w & Hw & Hy). apply st_defined; [assumption|]. destruct (defined_dec P x) as [Hx|Hx].
      * right. apply (pt_uses _ _ HP x). rewrite (pa_alts P W ne_left x Hx) in Hw. exists w. auto.
      * destruct (decide (x = start)) as [->|Hx'].
        -- unfold nested in Hw. rewrite st_alts in Hw by assumption. apply elem_of_cons in Hw as [->|Hw]; [|apply elem_of_list_singleton in Hw as ->].
           ++ left. apply elem_of_cons in Hy as [E|Hy]; [discriminate|]. apply elem_of_cons in Hy as [E|Hy]; [congruence|]. apply elem_of_list_singleton in Hy. discriminate.
           ++ right. apply elem_of_list_singleton in Hy. assert (y = a) as -> by congruence. apply (pt_entry _ _ HP).
        -- exfalso. unfold alternatives_for, nested in Hw. rewrite st_rules in Hw by assumption. unfold defined in Hx. destruct (rules_for x P); [inversion Hw|destruct Hx; discriminate].
    + intros x y Hi. apply st_defined; [assumption|]. right. destruct (decide (x = start)) as [->|Hx']; [destruct (st_ignores _ _ _ Hns _ Hi)|].
      apply (pt_ignores _ _ HP x). unfold ignores in *. unfold nested in Hi. rewrite st_rules in Hi by assumption. assumption.
    + intros x Ht. assert (x = start \/ defined P x) as [->|Hx].
      { assert (exists z, nleft_calls W x z) as (z & i & u & v & Hs & _) by (inversion Ht; eauto). apply says_defined, st_defined in Hs; assumption. }
      * assert (forall x y, tc (nleft_calls W) x y -> y <> start) as Hl; [|apply (Hl _ _ Ht); reflexivity].
        intros x y Ht'. induction Ht' as [x y (i & u & v & Hs & Hu)|x y z _ _ IH]; [|assumption]. intros ->. destruct (defined_dec P x) as [Hx|Hx].
        -- apply (pa_says P a HP W ne_left _ _ _ Hx) in Hs. apply Hns. eapply mid_in; eassumption.
        -- apply ne_uses in Hs as [-> [(_ & -> & _)|(E & _)]]; [apply terminal_nullable in Hu; destruct (Hop Hu)|destruct (a_not_st (eq_sym E))|assumption].
      * exact (part_no_left P a HP is1 W ne_left H1 x Hx Ht).
    + intros x i w Hs. apply ne_cases in Hs as [[-> [[_ ->]|[_ ->]]]|[Hx Hs]]; [intros [= E]; destruct (Hop E)|discriminate|].
      apply (pa_no_empty_terminal _ H1 x i). apply (pa_says P a HP G1 (al_extends P a HP is1) x i w Hx), Hs.
    + intros x i j w w' l S1 S2 Hij C1 C2. pose proof S1 as S1'. apply ne_cases in S1' as [[-> _]|[Hx _]].
      * apply ne_start in S1. apply ne_start in S2.
        assert (forall l, nchoose W start inner l -> nchoose W start [NTm a] l -> False) as Hno.
        { clear l C1 C2. intros l C1 C2. destruct C1 as [(c & -> & Hc)|[Hna _]]; [|apply terminal_nullable in Hna; destruct (Hop Hna)].
          apply quoted_first in Hc; [|assumption]. exact (Ha' c Hc C2). }
        destruct S1 as [[-> ->]|[-> ->]], S2 as [[-> ->]|[-> ->]]; try (destruct (Hij eq_refl)); eauto.
      * refine (part_distinct P a HP is1 W ne_left ne_entry H1 _ x i j w w' l Hx S1 S2 Hij C1 C2).
        intros l' Ho. apply ne_outer in Ho as [->|(c & -> & Hc)]; eauto.
Qed.
Lemma ne_tree t : nderivation W t /\ nroot t = NTm start <-> exists n s, t = nested_tree op cl n s /\ nderivation G1 s /\ nroot s = NTm a.
Proof.
  split.
  - induction t as [b|x subs IH] using ntree_ind'; intros [Hd Hr]; [discriminate|]. assert (x = start) as -> by exact (f_equal fst Hr).
    inversion Hd as [|? i ? Hs Hf]; subst. apply ne_start in Hs as [[_ E]|[_ E]].
    + destruct subs as [|s0 [|s1 [|s2 [|? ?]]]]; try discriminate. injection E as E0 E1 E2. apply Forall_cons in Hf as [F0 Hf]. apply Forall_cons in Hf as [F1 Hf]. apply Forall_cons in Hf as [F2 _].
      apply Forall_cons in IH as [_ IH]. apply Forall_cons in IH as [IH _]. destruct IH as (n & s & -> & Hs); [auto|].
      assert (s0 = NLeaf op) as -> by (destruct s0; cbn in E0; congruence). assert (s2 = NLeaf cl) as -> by (destruct s2; cbn in E2; congruence). exists (S n), s. auto.
    + apply roots_one in E as (s & -> & Hs). inversion Hf; subst. exists 0, s. split; [reflexivity|]. split; [|assumption].
      eapply (sub_same P a HP _ _ ne_left (al_extends P a HP is1)); [|eassumption]. rewrite Hs. intros _. apply (pt_entry _ _ HP).
  - intros (n & s & -> & Hd & Hr). split; [|destruct n; reflexivity]. induction n as [|n IH]; cbn [nested_tree].
    + apply (nder_node _ _ 1); [apply ne_start; cbn [map]; rewrite Hr; auto|]. constructor; [|constructor].
      eapply (sub_same P a HP _ _ (al_extends P a HP is1) ne_left); [|eassumption]. rewrite Hr. intros _. apply (pt_entry _ _ HP).
    + apply (nder_node _ _ 0); [apply ne_start; left; split; [reflexivity|]; destruct n; reflexivity|]. constructor; [constructor|]. constructor; [assumption|]. constructor; constructor.
Qed.
End nested.
Lemma nested_yield op cl n t : nyield (nested_tree op cl n t) = bracketed op cl n (nyield t).
Proof. induction n as [|n IH]; cbn [nested_tree nyield map concat bracketed]; [apply app_nil_r|]. rewrite IH, app_nil_r. reflexivity. Qed.
