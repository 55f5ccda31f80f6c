(** * Quoted texts cut into pieces (C95): proofs *)
From Verif Require Import Base Errors Sets ParserData Vm SpecGrammar SpecParser SpecScript SpecRules SpecLanguage SpecAwaits SpecNaming SpecSpelling
  Language_proofs Naming_proofs Compose_proofs.
Notation NTm x := (x, NonTerminal).
Notation chars := (map (fun c : char => ([c], Terminal))).
Notation leaves := (map (fun c : char => NLeaf [c])).

Lemma spelled_cons e w : spelled (e :: w) = letters e ++ spelled w. Proof. reflexivity. Qed.
Lemma spelled_app w w' : spelled (w ++ w') = spelled w ++ spelled w'.
Proof. unfold spelled. rewrite map_app, concat_app. reflexivity. Qed.
Definition solid (e : element) : Prop := match e with (_ :: _, Terminal) => False | _ => True end.
Lemma solid_name x : solid (NTm x). Proof. destruct x; exact Logic.I. Qed.
Ltac so := first [exact Logic.I | apply solid_name].
Lemma letters_solid e : solid e -> letters e = [e]. Proof. destruct e as [[|c s] []]; cbn; tauto || reflexivity. Qed.
Lemma letters_cases e : (solid e /\ letters e = [e]) \/ exists c s, e = (c :: s, Terminal) /\ letters e = chars (c :: s).
Proof. destruct e as [[|c s] []]; [left; cbn; auto..|right; eauto|left; cbn; auto]. Qed.
Lemma letters_text s : s <> [] -> letters (s, Terminal) = chars s. Proof. destruct s; [intros []; reflexivity|reflexivity]. Qed.
Lemma spelled_nil w : spelled w = [] -> w = [].
Proof. destruct w as [|e w]; [reflexivity|]. rewrite spelled_cons. destruct (letters_cases e) as [[_ ->]|(c & s & _ & ->)]; discriminate. Qed.
Lemma split_solid w : forall p e q, spelled w = p ++ e :: q -> solid e -> exists u v, w = u ++ e :: v /\ spelled u = p /\ spelled v = q.
Proof.
  induction w as [|e0 w IH]; intros p e q E He; [destruct p; discriminate|]. rewrite spelled_cons in E. destruct (letters_cases e0) as [[_ El]|(c & s & -> & El)]; rewrite El in E.
  - destruct p as [|e1 p]; cbn [app] in E; injection E as <- E.
    + exists [], w. auto.
    + destruct (IH p e q E He) as (u & v & -> & <- & <-). exists (e0 :: u), v. split; [reflexivity|]. rewrite spelled_cons, El. auto.
  - symmetry in E. apply app_eq_inv in E as [(k & E1 & E2)|(k & E1 & E2)].
    + destruct (IH k e q E2 He) as (u & v & -> & <- & <-). exists ((c :: s, Terminal) :: u), v. split; [reflexivity|]. rewrite spelled_cons, El. auto.
    + destruct k as [|e1 k]; cbn [app] in E2.
      * assert (spelled w = [] ++ e :: q) as E3 by (cbn; congruence). destruct (IH [] e q E3 He) as (u & v & -> & Hu & <-). apply spelled_nil in Hu as ->.
        exists [(c :: s, Terminal) : element], v. split; [reflexivity|]. rewrite app_nil_r in E1. rewrite spelled_cons, El. split; [|reflexivity]. cbn [spelled map concat]. rewrite app_nil_r. exact E1.
      * assert (e1 ∈ chars (c :: s)) as Hin by (rewrite E1; apply elem_of_app; right; left). injection E2 as <- _. apply elem_of_list_fmap in Hin as (d & -> & _). destruct He.
Qed.
Lemma split_char w : forall p c q, spelled w = p ++ ([c], Terminal) :: q -> exists u b b' v, w = u ++ (b ++ c :: b', Terminal) :: v /\ p = spelled u ++ chars b /\ q = chars b' ++ spelled v.
Proof.
  induction w as [|e0 w IH]; intros p c q E; [destruct p; discriminate|]. rewrite spelled_cons in E. destruct (letters_cases e0) as [[Hs El]|(d & s & -> & El)]; rewrite El in E.
  - destruct p as [|e1 p]; cbn [app] in E; injection E as E0 E; subst; [destruct Hs|].
    destruct (IH p c q E) as (u & b & b' & v & -> & -> & ->). exists (e1 :: u), b, b', v. split; [reflexivity|]. rewrite spelled_cons, El. auto.
  - symmetry in E. apply app_eq_inv in E as [(k & E1 & E2)|(k & E1 & E2)].
    + destruct (IH k c q E2) as (u & b & b' & v & -> & -> & ->). exists ((d :: s, Terminal) :: u), b, b', v. split; [reflexivity|]. rewrite spelled_cons, El, <- app_assoc. auto.
    + destruct k as [|e1 k]; cbn [app] in E2.
      * assert (spelled w = [] ++ ([c], Terminal) :: q) as E3 by (cbn; congruence). destruct (IH [] c q E3) as (u & b & b' & v & -> & Hu & ->). symmetry in Hu. apply app_eq_nil in Hu as [Hu Hb].
        apply spelled_nil in Hu as ->. exists [(d :: s, Terminal) : element], b, b', v. split; [reflexivity|]. rewrite app_nil_r in E1. rewrite Hb. cbn [spelled map concat]. rewrite El, !app_nil_r. auto.
      * injection E2 as <- ->. apply map_eq_app in E1 as (b & b1 & Es & <- & Ek). destruct b1 as [|c1 b']; [discriminate|]. injection Ek as -> <-.
        exists [], b, b', w. rewrite Es. auto.
Qed.
Lemma spelled_erased w : nerased (spelled w) <-> nerased w.
Proof.
  induction w as [|e w IH]; [reflexivity|]. rewrite spelled_cons. unfold nerased in *. rewrite Forall_app, Forall_cons, IH. destruct (letters_cases e) as [[_ ->]|(c & s & -> & ->)].
  - rewrite Forall_cons, Forall_nil. tauto.
  - cbn [map]. rewrite Forall_cons. split; intros [H _]; [destruct H; discriminate|discriminate].
Qed.
Lemma chars_erased b : nerased (chars b) -> b = []. Proof. destruct b; [reflexivity|]. intros H. apply Forall_cons in H as [H _]. discriminate. Qed.

Section transfer.
Context {I : Type} (rs rs' : list (arule I)) (HS : forall x i w, says rs x i w -> exists w', says rs' x i w' /\ spelled w' = spelled w) (HD : forall x, defined rs x -> defined rs' x).
Lemma sp_derives w z : nderives rs w z -> forall w', spelled w' = spelled w -> exists z', nderives rs' w' z' /\ spelled z' = spelled z.
Proof.
  induction 1 as [w|w w1 z Hs _ IH]; intros w' E; [exists w'; split; [apply rtc_refl|assumption]|]. destruct Hs as [u x v i k Hk].
  rewrite spelled_app, spelled_cons, letters_solid in E by so. cbn [app] in E. apply split_solid in E as (u' & v' & -> & Eu & Ev); [|so].
  destruct (HS x i k Hk) as (k' & Hk' & Ek). destruct (IH (u' ++ k' ++ v')) as (z' & Hz & Ez); [rewrite !spelled_app; congruence|]. exists z'. split; [|assumption].
  eapply rtc_l; [|exact Hz]. constructor 1 with i. assumption.
Qed.
Lemma sp_nullable w w' : spelled w' = spelled w -> nnullable rs w -> nnullable rs' w'.
Proof. intros E (z & Hd & He). destruct (sp_derives w z Hd w' E) as (z' & Hd' & Ez). exists z'. split; [assumption|]. apply spelled_erased. rewrite Ez. apply spelled_erased, He. Qed.
Lemma sp_first w w' c : spelled w' = spelled w -> nfirst rs w c -> nfirst rs' w' c.
Proof.
  intros E (x & s & v & Hd & He). destruct (sp_derives w _ Hd w' E) as (z' & Hd' & Ez). rewrite spelled_app, spelled_cons in Ez. cbn [letters map app] in Ez.
  apply split_char in Ez as (u & b & b' & v' & -> & Eu & _). assert (nerased (spelled u ++ chars b)) as Hx by (rewrite <- Eu; apply spelled_erased, He). apply Forall_app in Hx as [H1 H2].
  apply chars_erased in H2 as ->. exists u, b', v'. split; [assumption|]. apply spelled_erased, H1.
Qed.
Lemma sp_follow e a : solid e -> nfollow rs e a -> nfollow rs' e a.
Proof.
  intros Hs. destruct a as [c|]; cbn [nfollow].
  - intros (x & u & v & Hx & Hd & Hf). destruct (sp_derives _ _ Hd [NTm x] eq_refl) as (z' & Hd' & Ez). rewrite spelled_app, spelled_cons, letters_solid in Ez by assumption.
    apply split_solid in Ez as (u' & v' & -> & _ & Ev); [|assumption]. exists x, u', v'. split; [auto|]. split; [assumption|]. eapply sp_first; eassumption.
  - intros (u & v & Hd & Hf). destruct (sp_derives _ _ Hd [NTm (lit "start")] eq_refl) as (z' & Hd' & Ez). rewrite spelled_app, spelled_cons, letters_solid in Ez by assumption.
    apply split_solid in Ez as (u' & v' & -> & _ & Ev); [|assumption]. exists u', v'. split; [assumption|]. eapply sp_nullable; eassumption.
Qed.
Lemma text_stays (ps : list (arule I)) w z b : nderives ps w z -> w = [(b, Terminal)] -> z = w.
Proof. intros Hd. induction Hd as [|w w' z Hs _ IH]; [auto|]. intros ->. inversion Hs as [u x v i w0 _ E]. destruct u as [|? [|? ?]]; discriminate. Qed.
Lemma text_first (ps : list (arule I)) c s d : nfirst ps [(c :: s, Terminal)] d <-> d = c.
Proof.
  split.
  - intros (x & s' & v & Hd & He). eapply text_stays in Hd; [|reflexivity]. destruct x as [|e [|? ?]]; [injection Hd as -> _; reflexivity|discriminate..].
  - intros ->. exists [], s, []. split; [apply rtc_refl|constructor].
Qed.
Lemma sp_choose x w w' a : spelled w' = spelled w -> nchoose rs x w a -> nchoose rs' x w' a.
Proof.
  intros E. destruct w as [|e w].
  - apply spelled_nil in E as ->. cbn [nchoose]. apply sp_follow. so.
  - rewrite spelled_cons in E. destruct (letters_cases e) as [[Hs El]|(c & s & -> & El)]; rewrite El in E.
    + apply (split_solid w' []) in E as (u & v & -> & Eu & _); [|assumption]. apply spelled_nil in Eu as ->. cbn [app nchoose].
      intros [(c & -> & Hc)|[Hn Hf]]; [left; exists c; split; [reflexivity|]; eapply sp_first; [|eassumption]; reflexivity|right].
      split; [eapply sp_nullable; [|eassumption]; reflexivity|]. apply sp_follow; assumption.
    + cbn [map app] in E. apply (split_char w' []) in E as (u & b & b' & v & -> & Eu & _). symmetry in Eu. apply app_eq_nil in Eu as [Eu Eb]. apply spelled_nil in Eu as ->.
      destruct b; [|discriminate]. cbn [app nchoose]. intros [(d & -> & Hd)|[Hn _]]; [left; exists d; split; [reflexivity|]|apply terminal_nullable in Hn; discriminate].
      apply text_first. apply text_first in Hd. assumption.
Qed.
Lemma sp_left_calls x y : nleft_calls rs x y -> nleft_calls rs' x y.
Proof.
  intros (i & u & v & Hs & Hu). destruct (HS _ _ _ Hs) as (w' & Hs' & E). rewrite spelled_app, spelled_cons, letters_solid in E by so. cbn [app] in E.
  apply split_solid in E as (u' & v' & -> & Eu & _); [|so]. exists i, u', v'. split; [assumption|]. eapply sp_nullable; eassumption.
Qed.
Lemma sp_left x y : tc (nleft_calls rs) x y -> tc (nleft_calls rs') x y.
Proof. induction 1 as [x y Hc|x y z Hc _ IH]; [apply tc_once, sp_left_calls, Hc|]. eapply tc_l; [apply sp_left_calls, Hc|exact IH]. Qed.
Lemma sp_head w w' : spelled w' = spelled w -> head w = Some ([], Terminal) -> head w' = Some ([], Terminal).
Proof.
  intros E Hw. destruct w as [|e w]; [discriminate|]. injection Hw as ->. rewrite spelled_cons, letters_solid in E by so.
  apply (split_solid w' []) in E as (u & v & -> & Eu & _); [|so]. apply spelled_nil in Eu as ->. reflexivity.
Qed.
End transfer.

(** ** From the rules *)
Section rules.
Context {I : Type} (rs rs' : list (arule I)) (HR : same_spelling rs rs').
Notation same_rule := (fun r r' : arule I => ar_name r = ar_name r' /\ ar_override r = ar_override r' /\ map spelled (ar_alts r) = map spelled (ar_alts r') /\ ar_instr r = ar_instr r').
Lemma sr_rules x : Forall2 same_rule (rules_for x rs) (rules_for x rs').
Proof.
  destruct HR as [H _]. clear HR. unfold rules_for. induction H as [|r r' l l' Hr _ IH]; [constructor|]. destruct Hr as (E & Hr). rewrite !filter_cons, <- E.
  destruct (decide _); [constructor; auto|assumption].
Qed.
Lemma sr_defined x : defined rs x <-> defined rs' x.
Proof. unfold defined. pose proof (sr_rules x) as H. split; intros Hd E; rewrite E in H; inversion H; congruence. Qed.
Lemma sr_no_ignore x y : ~ ignores rs x y.
Proof.
  intros (r & l & E & Ho). destruct HR as [_ H]. apply (H r) in Ho; [assumption|]. assert (r ∈ rules_for x rs) as Hr by (rewrite E; left). apply elem_of_list_filter in Hr. tauto.
Qed.
Lemma sr_no_ignore' x y : ~ ignores rs' x y.
Proof.
  intros (r & l & E & Ho). pose proof (sr_rules x) as H. rewrite E in H. inversion H as [|r0 ? l0 ? (_ & E' & _) _ E0]; subst. apply (sr_no_ignore x y). exists r0, l0. split; [congruence|congruence].
Qed.
Lemma sr_alts x : map spelled (alternatives_for rs x) = map spelled (alternatives_for rs' x).
Proof.
  unfold alternatives_for. induction (sr_rules x) as [|r r' l l' (_ & _ & E & _) _ IH]; [reflexivity|]. cbn [map concat]. rewrite !map_app, E, IH. reflexivity.
Qed.
Lemma sr_instr x : instructions_for rs x = instructions_for rs' x.
Proof. unfold instructions_for. destruct (sr_rules x) as [|r r' l l' (_ & _ & _ & E) _]; [reflexivity|assumption]. Qed.
Lemma sr_says x i w : says rs x i w <-> alternatives_for rs x !! i = Some w.
Proof.
  split; [intros [w0 Hw _|w0 y _ Hy _]; [assumption|destruct (sr_no_ignore _ _ Hy)]|]. intros Hw. apply says_plain; [assumption|]. intros y Hy. destruct (sr_no_ignore _ _ Hy).
Qed.
Lemma sr_says' x i w : says rs' x i w <-> alternatives_for rs' x !! i = Some w.
Proof.
  split; [intros [w0 Hw _|w0 y _ Hy _]; [assumption|destruct (sr_no_ignore' _ _ Hy)]|]. intros Hw. apply says_plain; [assumption|]. intros y Hy. destruct (sr_no_ignore' _ _ Hy).
Qed.
Lemma sr_forth x i w : says rs x i w -> exists w', says rs' x i w' /\ spelled w' = spelled w.
Proof.
  rewrite sr_says. intros Hw. pose proof (f_equal (fun l => l !! i) (sr_alts x)) as E. cbn beta in E. rewrite !list_lookup_fmap, Hw in E.
  destruct (alternatives_for rs' x !! i) as [w'|] eqn:E'; [|discriminate]. injection E as E. exists w'. split; [apply sr_says', E'|congruence].
Qed.
Lemma sr_symm : same_spelling rs' rs.
Proof.
  split.
  - destruct HR as [H _]. apply Forall2_flip. eapply Forall2_impl; [exact H|]. cbn. intros r r' (E1 & E2 & E3 & E4). auto.
  - destruct HR as [H H']. intros r' Hr' y Ho. apply elem_of_list_lookup in Hr' as [i Hi]. pose proof (Forall2_lookup_r _ _ _ _ _ H Hi) as (r & Hi' & _ & E & _).
    apply (H' r) with y; [eapply elem_of_list_lookup_2; exact Hi'|congruence].
Qed.
Lemma sr_uses x y : uses rs x y -> uses rs' x y.
Proof.
  intros (w & Hw & Hy). apply elem_of_list_lookup in Hw as [i Hi]. apply sr_says, sr_forth in Hi as (w' & Hw' & E). exists w'. split; [apply sr_says' in Hw'; eapply elem_of_list_lookup_2; exact Hw'|].
  apply elem_of_list_split in Hy as (u & v & ->). rewrite spelled_app, spelled_cons, letters_solid in E by so. apply split_solid in E as (u' & v' & -> & _); [|so]. apply elem_of_app. right. left.
Qed.
End rules.
Lemma spelling_parsable {I} (rs rs' : list (arule I)) : same_spelling rs rs' -> parsable rs -> parsable rs'.
Proof.
  intros HR Hp. pose proof (sr_symm _ _ HR) as HR'. pose proof (sr_forth _ _ HR) as F. pose proof (sr_forth _ _ HR') as B. pose proof (fun x => proj1 (sr_defined _ _ HR x)) as D. pose proof (fun x => proj1 (sr_defined _ _ HR' x)) as D'. split.
  - apply D, (pa_start _ Hp).
  - intros x y Hu. apply D, (pa_defined _ Hp x), (sr_uses _ _ HR' x y Hu).
  - intros x y Hi. destruct (sr_no_ignore _ _ HR' _ _ Hi).
  - intros x Ht. apply (pa_no_left_recursion _ Hp x). eapply sp_left; eassumption.
  - intros x i w Hs Hh. apply B in Hs as (w' & Hs' & E). apply (pa_no_empty_terminal _ Hp x i w' Hs'). eapply sp_head; eassumption.
  - intros x i j w w' a S1 S2 Hij C1 C2. destruct (B _ _ _ S1) as (w1 & S1' & E1). destruct (B _ _ _ S2) as (w2 & S2' & E2).
    apply (pa_distinct _ Hp x i j w1 w2 a S1' S2' Hij); eapply sp_choose; eassumption.
Qed.

(** ** Trees *)
Lemma cut_text s : s <> [] -> cut (NLeaf s) = leaves s. Proof. destruct s; [intros []; reflexivity|reflexivity]. Qed.
Lemma leaves_roots s : map nroot (leaves s) = chars s. Proof. rewrite map_map. reflexivity. Qed.
Lemma leaves_of l s : map nroot l = chars s -> l = leaves s.
Proof. revert s. induction l as [|t l IH]; intros [|c s] E; try discriminate; [reflexivity|]. injection E as E1 E2. rewrite (IH s E2). destruct t; [|discriminate]. injection E1 as ->. reflexivity. Qed.
Lemma leaves_yield s : concat (map nyield (leaves s)) = s. Proof. induction s as [|c s IH]; [reflexivity|]. cbn. f_equal. exact IH. Qed.
Lemma cut_cases t : (exists x subs, t = NNode x subs /\ cut t = [NNode x (concat (map cut subs))]) \/ t = NLeaf [] \/ exists c s, t = NLeaf (c :: s) /\ cut t = leaves (c :: s).
Proof. destruct t as [[|c s]|x subs]; [auto|right; right; eauto|left; eauto]. Qed.
Lemma cut_roots t : map nroot (cut t) = letters (nroot t).
Proof. destruct t as [[|c s]|x subs]; [reflexivity| |cbn [cut map nroot]; rewrite letters_solid by so; reflexivity]. rewrite cut_text, leaves_roots by discriminate. reflexivity. Qed.
Lemma cuts_roots ts : map nroot (concat (map cut ts)) = spelled (map nroot ts).
Proof. induction ts as [|t ts IH]; [reflexivity|]. cbn [map concat]. rewrite map_app, IH, cut_roots, spelled_cons. reflexivity. Qed.
Lemma cut_yield t : concat (map nyield (cut t)) = nyield t.
Proof.
  induction t as [s|x subs IH] using ntree_ind'.
  - destruct s; [reflexivity|]. rewrite cut_text by discriminate. apply leaves_yield.
  - cbn [cut map concat nyield]. rewrite app_nil_r. induction IH as [|t l Ht _ IHl]; [reflexivity|]. cbn [map concat]. rewrite map_app, concat_app, Ht, IHl. reflexivity.
Qed.
Lemma cuts_yield ts : concat (map nyield (concat (map cut ts))) = concat (map nyield ts).
Proof. induction ts as [|t l IHl]; [reflexivity|]. cbn [map concat]. rewrite map_app, concat_app, cut_yield, IHl. reflexivity. Qed.
Lemma cut_names t : concat (map names_post (cut t)) = names_post t.
Proof.
  induction t as [s|x subs IH] using ntree_ind'.
  - destruct s as [|c s]; [reflexivity|]. rewrite cut_text by discriminate. generalize (c :: s). intros l. induction l as [|d l IH]; [reflexivity|exact IH].
  - cbn [cut map concat names_post]. rewrite app_nil_r. f_equal. induction IH as [|t l Ht _ IHl]; [reflexivity|]. cbn [map concat]. rewrite map_app, concat_app, Ht, IHl. reflexivity.
Qed.
(** Only the leaf at the top. *)
Definition top (t : ntree) : list ntree := match t with NLeaf _ => cut t | NNode _ _ => [t] end.
Lemma top_cut t : concat (map cut (top t)) = cut t.
Proof.
  destruct t as [[|c s]|x subs]; [reflexivity| |cbn [top map concat]; apply app_nil_r]. unfold top. rewrite cut_text by discriminate.
  generalize (c :: s). intros l. induction l as [|d l IH]; [reflexivity|]. cbn [map concat cut app]. f_equal. exact IH.
Qed.
Lemma tops_cut ts : concat (map cut (concat (map top ts))) = concat (map cut ts).
Proof. induction ts as [|t l IHl]; [reflexivity|]. cbn [map concat]. rewrite map_app, concat_app, top_cut, IHl. reflexivity. Qed.
Lemma tops_yield ts : concat (map nyield (concat (map top ts))) = concat (map nyield ts).
Proof. rewrite <- cuts_yield, tops_cut, cuts_yield. reflexivity. Qed.
Lemma top_roots t : map nroot (top t) = letters (nroot t).
Proof. destruct t as [s|x subs]; [apply cut_roots|]. cbn [top map nroot]. rewrite letters_solid by so. reflexivity. Qed.
Lemma tops_roots ts : map nroot (concat (map top ts)) = spelled (map nroot ts).
Proof. induction ts as [|t ts IH]; [reflexivity|]. cbn [map concat]. rewrite map_app, IH, top_roots, spelled_cons. reflexivity. Qed.
Lemma group w : forall l, map nroot l = spelled w -> exists ts, map nroot ts = w /\ concat (map top ts) = l.
Proof.
  induction w as [|e w IH]; intros l E; [destruct l; [exists []; auto|discriminate]|]. rewrite spelled_cons in E. apply map_eq_app in E as (l1 & l2 & -> & E1 & E2).
  destruct (IH l2 E2) as (ts & Ets & <-). destruct (letters_cases e) as [[Hs El]|(c & s & -> & El)]; rewrite El in E1.
  - destruct l1 as [|t [|? ?]]; try discriminate. injection E1 as E1. exists (t :: ts). cbn [map concat]. split; [congruence|]. f_equal. destruct t as [[|? ?]|]; [reflexivity| |reflexivity]. cbn in E1. subst e. destruct Hs.
  - apply leaves_of in E1 as ->. exists (NLeaf (c :: s) :: ts). cbn [map concat nroot]. split; [congruence|reflexivity].
Qed.
Lemma split_node subs : forall l y N r, concat (map cut subs) = l ++ NNode y N :: r -> exists l0 t0 r0, subs = l0 ++ t0 :: r0 /\ cut t0 = [NNode y N] /\ l = concat (map cut l0) /\ r = concat (map cut r0).
Proof.
  induction subs as [|t subs IH]; intros l y N r E; [destruct l; discriminate|]. cbn [map concat] in E. destruct (cut_cases t) as [(x & s & Et & Ec)|H].
  - rewrite Ec in E. destruct l as [|t1 l]; cbn [app] in E; injection E as E0 E.
    + exists [], t, subs. rewrite Ec. split; [reflexivity|]. split; [congruence|]. split; [reflexivity|congruence].
    + destruct (IH l y N r E) as (l0 & t0 & r0 & -> & H0 & -> & ->). exists (t :: l0), t0, r0. split; [reflexivity|]. split; [assumption|]. split; [|reflexivity]. cbn [map concat]. rewrite Ec. cbn [app]. congruence.
  - assert (forall n, n ∈ cut t -> exists b, n = NLeaf b) as Hl.
    { intros n Hn. destruct H as [->|(c & s & -> & Ec)]; [apply elem_of_list_singleton in Hn; eauto|]. rewrite Ec in Hn. apply elem_of_list_fmap in Hn as (d & -> & _). eauto. }
    symmetry in E. apply app_eq_inv in E as [(k & E1 & E2)|(k & E1 & E2)].
    + destruct (IH k y N r E2) as (l0 & t0 & r0 & -> & H0 & -> & ->). exists (t :: l0), t0, r0. split; [reflexivity|]. split; [assumption|]. split; [|reflexivity]. cbn [map concat]. congruence.
    + destruct k as [|n k]; cbn [app] in E2.
      * destruct (IH [] y N r (eq_sym E2)) as (l0 & t0 & r0 & -> & H0 & El & ->). exists (t :: l0), t0, r0. split; [reflexivity|]. split; [assumption|]. split; [|reflexivity]. cbn [map concat]. rewrite <- El, app_nil_r. rewrite app_nil_r in E1. congruence.
      * injection E2 as <- _. destruct (Hl (NNode y N)) as [b E]; [|discriminate]. rewrite E1. apply elem_of_app. right. left.
Qed.
Lemma empty_cut t y w : ends_in_empty t y w -> exists n, cut t = [n] /\ ends_in_empty n y (spelled w).
Proof.
  induction 1 as [x subs Hy|x l s r y w Hr _ (n & Hn & IH)].
  - exists (NNode x (concat (map cut subs))). split; [reflexivity|]. rewrite <- cuts_roots. constructor. cbn [nyield] in *. rewrite cuts_yield. assumption.
  - exists (NNode x (concat (map cut (l ++ s :: r)))). split; [reflexivity|]. rewrite map_app, concat_app. cbn [map concat]. rewrite Hn. cbn [app]. constructor; [rewrite cuts_yield; assumption|assumption].
Qed.
Lemma cut_empty n y z : ends_in_empty n y z -> forall t, cut t = [n] -> exists w, ends_in_empty t y w /\ z = spelled w.
Proof.
  induction 1 as [x N Hy|x l s r y z Hr He IH]; intros t E.
  - destruct (cut_cases t) as [(x' & subs & -> & Ec)|[->|(c & s & -> & Ec)]]; [|discriminate|rewrite Ec in E; destruct s; discriminate]. rewrite Ec in E. injection E as -> <-.
    exists (map nroot subs). split; [|apply cuts_roots]. constructor. cbn [nyield] in *. rewrite cuts_yield in Hy. assumption.
  - destruct (cut_cases t) as [(x' & subs & -> & Ec)|[->|(c & s' & -> & Ec)]]; [|discriminate|rewrite Ec in E; destruct s'; discriminate]. rewrite Ec in E. injection E as -> E.
    assert (exists y' N, s = NNode y' N) as (y' & N & ->) by (inversion He; eauto). apply split_node in E as (l0 & t0 & r0 & -> & H0 & -> & ->). destruct (IH t0 H0) as (w & Hw & ->).
    exists w. split; [|reflexivity]. constructor; [rewrite cuts_yield in Hr; assumption|assumption].
Qed.
Section tree_transfer.
Context {I : Type} (rs rs' : list (arule I)) (HS : forall x i w, says rs x i w -> exists w', says rs' x i w' /\ spelled w' = spelled w) (HD : forall x, defined rs x -> defined rs' x).
Lemma top_derivations (ps : list (arule I)) ts : Forall (nderivation ps) (concat (map top ts)) <-> Forall (nderivation ps) ts.
Proof.
  induction ts as [|t ts IH]; [reflexivity|]. cbn [map concat]. rewrite Forall_app, Forall_cons, IH. destruct t as [s|x subs]; [|cbn [top]; rewrite Forall_cons, Forall_nil; tauto].
  split; intros [_ H]; (split; [|assumption]); [constructor|]. cbn [top]. destruct s as [|c s]; [constructor; [constructor|constructor]|]. rewrite cut_text by discriminate. apply Forall_fmap, Forall_true. intros d. constructor.
Qed.
Lemma tree_there t : nderivation rs t -> exists t', nderivation rs' t' /\ nroot t' = nroot t /\ cut t' = cut t.
Proof.
  induction t as [s|x subs IH] using ntree_ind'; intros Hd; [exists (NLeaf s); split; [constructor|auto]|]. inversion Hd as [|? i ? Hs Hf]; subst.
  assert (exists subs1, Forall (nderivation rs') subs1 /\ map nroot subs1 = map nroot subs /\ concat (map cut subs1) = concat (map cut subs)) as (subs1 & F1 & R1 & C1).
  { clear -IH Hf. induction IH as [|t l Ht _ IHl]; [exists []; auto|]. apply Forall_cons in Hf as [H1 H2]. destruct (Ht H1) as (t' & D & R & C). destruct (IHl H2) as (l' & Dl & Rl & Cl).
    exists (t' :: l'). split; [constructor; assumption|]. cbn [map concat]. split; congruence. }
  destruct (HS _ _ _ Hs) as (w' & Hs' & E). destruct (group w' (concat (map top subs1))) as (ts & R2 & C2); [rewrite tops_roots, R1; congruence|].
  exists (NNode x ts). split; [|split; [reflexivity|]].
  - apply (nder_node _ _ i); [rewrite R2; assumption|]. apply (top_derivations rs'). rewrite C2. apply (top_derivations rs'), F1.
  - cbn [cut]. rewrite <- (tops_cut ts), C2, tops_cut, C1. reflexivity.
Qed.
Lemma stands_there t t' a : cut t' = cut t -> stands_before rs t a -> stands_before rs' t' a.
Proof.
  intros E Hb y w' He. apply empty_cut in He as (n & Hn & He). rewrite E in Hn. destruct (cut_empty _ _ _ He t Hn) as (w & Hw & Ew). eapply sp_choose; [exact HS|exact HD| |apply Hb, Hw]. assumption.
Qed.
Lemma leaf_stands (ps : list (arule I)) s a : stands_before ps (NLeaf s) a. Proof. intros y w He. inversion He. Qed.
Lemma before_app' (ps : list (arule I)) l1 l2 s : trees_before ps (l1 ++ l2) s <-> trees_before ps l1 (concat (map nyield l2) ++ s) /\ trees_before ps l2 s.
Proof.
  induction l1 as [|t l1 IH]; [cbn; tauto|]. cbn [app trees_before]. rewrite IH, map_app, concat_app, <- app_assoc. tauto.
Qed.
Lemma before_leaves (ps : list (arule I)) b s : trees_before ps (leaves b) s.
Proof. induction b as [|c b IH]; [exact Logic.I|]. cbn [map trees_before]. split; [constructor|]. split; [apply leaf_stands|exact IH]. Qed.
Lemma before_tops (ps : list (arule I)) ts s : trees_before ps (concat (map top ts)) s <-> trees_before ps ts s.
Proof.
  induction ts as [|t ts IH]; [reflexivity|]. cbn [map concat trees_before]. rewrite before_app', IH, tops_yield. destruct t as [b|x subs]; cbn [top].
  - split; intros [_ H]; [split; [constructor|split; [apply leaf_stands|apply H]]|]. split; [|tauto]. destruct b as [|c b]; [cbn; split; [constructor|]; split; [apply leaf_stands|exact Logic.I]|]. rewrite cut_text by discriminate. apply before_leaves.
  - cbn [trees_before map concat app]. tauto.
Qed.
Lemma before_there ts s : trees_before rs ts s -> exists ts', trees_before rs' ts' s /\ map nroot ts' = map nroot ts /\ concat (map nyield ts') = concat (map nyield ts).
Proof.
  induction ts as [|t ts IH]; [exists []; auto|]. cbn [trees_before]. intros (Hd & Hs & Hb). destruct (IH Hb) as (ts' & Hb' & R & Y). destruct (tree_there t Hd) as (t' & D' & R' & C').
  assert (nyield t' = nyield t) as Y' by (rewrite <- (cut_yield t'), C'; apply cut_yield).
  exists (t' :: ts'). cbn [trees_before map concat]. rewrite Y, Y'. split; [|split; congruence]. split; [assumption|]. split; [|assumption]. eapply stands_there; [exact C'|]. exact Hs.
Qed.
(** The trees [done], and [b] of a quoted text, grouped in another way. *)
Lemma grouped done b u b1 s : trees_before rs done (b ++ s) -> spelled u ++ chars b1 = spelled (map nroot done) ++ chars b ->
  exists done', map nroot done' = u /\ trees_before rs' done' (b1 ++ s) /\ concat (map nyield done') ++ b1 = concat (map nyield done) ++ b.
Proof.
  intros Hb E. apply before_there in Hb as (d1 & Hb & R & Y). assert (map nroot (concat (map top d1) ++ leaves b) = spelled u ++ chars b1) as Er by (rewrite map_app, tops_roots, leaves_roots, R; congruence).
  apply map_eq_app in Er as (F1 & F2 & EF & E1 & E2). apply leaves_of in E2 as ->. destruct (group u F1 E1) as (d' & R' & <-). exists d'. split; [assumption|].
  assert (trees_before rs' (concat (map top d1) ++ leaves b) s) as Hall by (apply before_app'; split; [rewrite leaves_yield; apply before_tops, Hb|apply before_leaves]).
  rewrite EF in Hall. apply before_app' in Hall as [Hall _]. rewrite leaves_yield in Hall. apply (proj1 (before_tops _ _ _)) in Hall. split; [assumption|].
  apply (f_equal (fun l => concat (map nyield l))) in EF. rewrite !map_app, !concat_app, !leaves_yield, !tops_yield, Y in EF. congruence.
Qed.
Lemma awaits_there e before rest g : awaits rs e before rest g -> forall x, e = NTm x -> awaits rs' e before rest g.
Proof.
  induction 1 as [x rest Hx|b c b' rest|x i done e after before rest g Hs Hc Hb Ha IH]; intros x0 E0; [constructor; auto|discriminate|]. clear x0 E0.
  destruct (HS _ _ _ Hs) as (w' & Hs' & E). pose proof E as E'. rewrite spelled_app, spelled_cons in E. destruct e as [n []].
  - (* a quoted text *)
    inversion Ha as [|b c b' ? |]; subst. rewrite letters_text in E by (destruct before; discriminate). rewrite map_app in E. cbn [map] in E. rewrite <- app_assoc in E. cbn [app] in E. rewrite app_assoc in E.
    apply split_char in E as (u & b1 & b2 & v & -> & Eu & _). destruct (grouped done before u b1 rest Hb (eq_sym Eu)) as (d' & R' & Hb' & Y). rewrite <- Y.
    apply (aw_inside _ x i d' (b1 ++ c :: b2, Terminal) v b1 rest (Read c)); [rewrite R'; assumption| |assumption|constructor].
    rewrite R', (app_assoc _ b1 rest), Y, <- app_assoc. eapply sp_choose; [exact HS|exact HD|exact E'|exact Hc].
  - rewrite letters_solid in E by so. cbn [app] in E. apply split_solid in E as (u & v & -> & Eu & _); [|so]. rewrite <- (app_nil_r (spelled u)), <- (app_nil_r (spelled (map nroot done))) in Eu.
    destruct (grouped done [] u [] (before ++ rest) Hb Eu) as (d' & R' & Hb' & Y). rewrite !app_nil_r in Y. rewrite <- Y.
    apply (aw_inside _ x i d' (NTm n) v before rest g); [rewrite R'; assumption| |assumption|eapply IH; reflexivity]. rewrite R', Y. eapply sp_choose; [exact HS|exact HD|exact E'|exact Hc].
Qed.
Lemma listed_there g a : listed rs g a -> listed rs' g a.
Proof.
  destruct g as [x|c]; cbn [listed]; [|auto]. intros (i & w & Hs & Hc). destruct (HS _ _ _ Hs) as (w' & Hs' & E). exists i, w'. split; [assumption|]. eapply sp_choose; eassumption.
Qed.
End tree_transfer.
Section both.
Context {I : Type} (rs rs' : list (arule I)) (HR : same_spelling rs rs').
Lemma listed_same g a : listed rs g a <-> listed rs' g a.
Proof. split; apply listed_there; (apply sr_forth || (intros x; apply sr_defined)); try assumption; apply sr_symm, HR. Qed.
Lemma stops_there script before rest g : stops rs script before rest g -> stops rs' script before rest g.
Proof.
  intros (E & Ha & Hn). split; [assumption|]. split; [|rewrite <- listed_same; assumption]. eapply awaits_there; [apply sr_forth, HR|exact (fun x => proj1 (sr_defined _ _ HR x))|exact Ha|reflexivity].
Qed.
Lemma sp_same_error before rest g e e' : error_for rs before rest g e -> error_for rs' before rest g e' -> same_error e e'.
Proof.
  destruct g as [x|c]; cbn [error_for].
  - intros (k & N1 & K1 & ->) (k' & N2 & K2 & ->). right. eexists _, _, k, k'. split; [|split; reflexivity]. apply NoDup_Permutation; [assumption..|]. intros a. rewrite K1, K2. apply listed_same.
  - destruct rest; intros -> ->; left; reflexivity.
Qed.
End both.
