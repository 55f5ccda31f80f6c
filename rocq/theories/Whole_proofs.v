(** * Proofs for C89 *)
From Verif Require Import Base Peekables Tree Errors Sets ParserData Vm SpecText SpecData SpecGrammar SpecTree SpecRules SpecNames SpecLanguage SpecExtend SpecEffect SpecCompose SpecWhole
  Naming_proofs Effect_proofs Compose_proofs.

Section whole.
Context {I : Type} (P : list (arule I)) (a e : str) (HP : part P a) (He : ~ defined P e) (Hes : e <> lit "start") (is : list I).
Notation Q := [end_rule (I := I) e].
Notation W := (whole a e is P).
Lemma end_rules x : rules_for x Q = if decide (e = x) then Q else [].
Proof. unfold rules_for. rewrite filter_cons. cbn [end_rule ar_name]. destruct (decide (e = x)); reflexivity. Qed.
Lemma end_defined x : defined Q x <-> x = e.
Proof. unfold defined. rewrite end_rules. destruct (decide (e = x)); split; congruence. Qed.
Lemma end_uses x y : ~ uses Q x y.
Proof.
  intros (w & Hw & Hy). unfold alternatives_for in Hw. rewrite end_rules in Hw. destruct (decide (e = x)); cbn in Hw; [|inversion Hw].
  apply elem_of_list_singleton in Hw as ->. inversion Hy.
Qed.
Lemma end_ignores x y : ~ ignores Q x y.
Proof. intros (r0 & more & E & Ho). rewrite end_rules in E. destruct (decide (e = x)); [|discriminate]. injection E as <- _. discriminate. Qed.
Lemma end_part : part Q e.
Proof.
  split.
  - apply end_defined. reflexivity.
  - rewrite end_defined. congruence.
  - intros x y Hu. destruct (end_uses x y Hu).
  - intros x y Hi. destruct (end_ignores x y Hi).
Qed.
Lemma end_apart : apart P Q.
Proof. intros x H1 H2. apply end_defined in H2 as ->. auto. Qed.
Lemma end_says i w : says Q e i w -> w = [].
Proof.
  intros [w0 Hw _|w0 z Hw Hz _].
  - unfold alternatives_for in Hw. rewrite end_rules, decide_True in Hw by reflexivity. cbn in Hw. destruct i as [|[|i]]; [injection Hw as <-; reflexivity|discriminate..].
  - exfalso. eapply end_ignores, Hz.
Qed.
Notation G2 := (alone e is Q).
Notation NTm x := (x, NonTerminal).
Lemma end_stays w z : nderives G2 w z -> w = [NTm e] \/ w = [] -> z = [NTm e] \/ z = [].
Proof.
  intros Hd. induction Hd as [w|w w' z Hs Hd IH]; intros Hw; [assumption|]. apply IH. destruct Hs as [u x v i w' Hs].
  destruct Hw as [E|E]; [|destruct u; discriminate]. symmetry in E. apply single in E as (E & -> & ->). injection E as <-. right.
  apply (al_cases _ _ end_part) in Hs as [[E _]|[_ Hs]]; [destruct (Hes E)|]. rewrite (end_says _ _ Hs). reflexivity.
Qed.
Lemma end_first c : ~ nfirst G2 [NTm e] c.
Proof. intros (x & s & v & Hd & _). apply end_stays in Hd as [E|E]; [|destruct x; discriminate|auto]. symmetry in E. destruct x as [|? [|? ?]]; discriminate. Qed.
Lemma end_says_0 : says Q e 0 [].
Proof. apply says_plain; [unfold alternatives_for; rewrite end_rules, decide_True by reflexivity; reflexivity|]. intros y Hy. destruct (end_ignores _ _ Hy). Qed.
Lemma end_nullable : nnullable G2 [NTm e].
Proof.
  exists []. split; [|constructor]. apply rtc_once. apply (nstep_intro G2 [] e [] 0 []).
  apply (pa_says _ _ end_part _ (al_extends _ _ end_part is)); [apply end_defined; reflexivity|apply end_says_0].
Qed.
Lemma end_all x i w : says G2 x i w -> (x = lit "start" /\ i = 0 /\ w = [NTm e]) \/ (x = e /\ i = 0 /\ w = []).
Proof.
  intros Hs. pose proof (al_cases _ _ end_part is x i w Hs) as [[-> _]|[Hd Hq]].
  - left. split; [reflexivity|]. apply (al_start _ _ end_part) in Hs. exact Hs.
  - right. apply end_defined in Hd as ->. split; [reflexivity|]. split; [|exact (end_says _ _ Hq)].
    destruct Hq as [w Hw _|w z Hw Hz _]; [|destruct (end_ignores _ _ Hz)]. unfold alternatives_for in Hw. rewrite end_rules, decide_True in Hw by reflexivity. cbn in Hw.
    destruct i as [|[|i]]; [reflexivity|discriminate..].
Qed.
Lemma end_parsable : parsable G2.
Proof.
  pose proof (pt_no_start _ _ end_part) as Hns. split.
  - apply st_defined; auto.
  - intros x y (w & Hw & Hy). apply st_defined; [assumption|]. right. destruct (decide (x = lit "start")) as [->|Hx].
    + unfold alone in Hw. rewrite st_alts in Hw by assumption. apply elem_of_list_singleton in Hw as ->. apply elem_of_list_singleton in Hy. injection Hy as ->. apply end_defined. reflexivity.
    + destruct (end_uses x y). exists w. split; [|assumption]. unfold alternatives_for in *. unfold alone in Hw. rewrite st_rules in Hw by assumption. exact Hw.
  - intros x y Hi. destruct (decide (x = lit "start")) as [->|Hx]; [destruct (st_ignores _ _ _ Hns _ Hi)|]. destruct (end_ignores x y).
    destruct Hi as (r & more & E & Ho). unfold alone in E. rewrite st_rules in E by assumption. exists r, more. auto.
  - assert (forall x y, tc (nleft_calls G2) x y -> x = lit "start" /\ y = e) as Hl; [|intros x Hx; apply Hl in Hx as [-> E]; exact (Hes (eq_sym E))].
    intros x y Ht. induction Ht as [x y (i & u & v & Hs & _)|x y z (i & u & v & Hs & _) _ IH].
    + apply end_all in Hs as [(-> & _ & E)|(_ & _ & E)]; [|destruct u; discriminate]. symmetry in E. apply single in E as (E & _). injection E as ->. auto.
    + destruct IH as [-> ->]. apply end_all in Hs as [(-> & _ & E)|(_ & _ & E)]; [|destruct u; discriminate]. auto.
  - intros x i w Hs. apply end_all in Hs as [(_ & _ & ->)|(_ & _ & ->)]; discriminate.
  - intros x i j w w' l H1 H2 Hij _ _. apply end_all in H1 as [(_ & -> & _)|(_ & -> & _)]; apply end_all in H2 as [(_ & -> & _)|(_ & -> & _)]; auto.
Qed.
(** The whole text is accepted iff the one without the end is. *)
Lemma whole_parsable is1 : parsable W <-> parsable (alone a is1 P).
Proof.
  unfold whole. fold (in_turn a e is P Q). rewrite (in_turn_parsable P Q a e HP end_part end_apart is is1 is).
  - split; [tauto|]. intros Hp. split; [assumption|]. split; [apply end_parsable|]. intros c Hc. destruct (end_first _ Hc).
  - intros _. left. apply end_nullable.
Qed.
(** Only the end of the script follows the end. *)
Lemma end_follow l : nfollow W (NTm e) l -> l = MTerminate.
Proof.
  intros Hf. apply nfol_follow in Hf. assert (forall y i u v, says W y i (u ++ NTm e :: v) -> y = lit "start" /\ v = []) as Huse.
  { intros y i u v Hs. destruct (decide (y = e)) as [->|Hy].
    - exfalso. apply (pa_says_in Q e end_part W (it_right P Q a e HP end_part end_apart is)) in Hs as Hin; [|apply end_defined; reflexivity].
      apply (pa_says Q e end_part W (it_right P Q a e HP end_part end_apart is)) in Hs; [|apply end_defined; reflexivity]. apply end_says in Hs. destruct u; discriminate.
    - assert (~ defined Q y) as Hd by (rewrite end_defined; assumption).
      destruct (two_outside_Q P Q a e HP end_part end_apart is [[NTm a; NTm e]] y i u v Hd Hs) as [-> _]. split; [reflexivity|].
      apply (it_start P Q a e HP end_part) in Hs as [_ E]. symmetry in E. apply (pair_split P Q a e HP end_part) in E as [(E & _)|(_ & _ & ->)]; [|reflexivity].
      destruct (a_not_b P Q a e HP end_part end_apart (eq_sym E)). }
  clear -Hf Huse HP Hes He. inversion Hf as [|y i u x0 v c Hs Hc|y i u x0 v l0 Hs _ Hf0]; [reflexivity|..]; subst; apply Huse in Hs as [-> ->].
  - destruct (nfirst_nil _ _ Hc).
  - exact (two_fol_start P Q a e HP end_part end_apart is _ (it_alts a e) l Hf0).
Qed.
(** The trees. *)
Lemma whole_tree is1 t : nderivation W t /\ nroot t = NTm (lit "start") <->
  exists n, t = NNode (lit "start") [n; NNode e []] /\ nderivation (alone a is1 P) n /\ nroot n = NTm a.
Proof.
  unfold whole. fold (in_turn a e is P Q). rewrite (it_tree P Q a e HP end_part end_apart is is1 is t). split.
  - intros (n1 & n2 & -> & [D1 R1] & D2 & R2). exists n1. split; [|auto]. destruct n2 as [b|x subs]; [discriminate|]. injection R2 as ->.
    inversion D2 as [|? i ? Hs _]; subst. apply end_all in Hs as [(E & _)|(_ & _ & E)]; [destruct (Hes E)|]. destruct subs; [reflexivity|discriminate].
  - intros (n & -> & D & R). exists n, (NNode e []). split; [reflexivity|]. split; [auto|]. split; [|reflexivity].
    econstructor; [|constructor]. apply (pa_says _ _ end_part _ (al_extends _ _ end_part is)); [apply end_defined; reflexivity|apply end_says_0].
Qed.
End whole.
