(** * Proofs for C106: what is pending after the first chars of a sentence. *)
From Verif Require Import Base Sets ParserData SpecGrammar SpecParser SpecScript Grammar_proofs Script_proofs.

(** What is pending after [n] chars: the rest of a quoted text, then parts. *)
Fixpoint pend {I} (pd : ParserData I) (pt : ptree) (n : nat) : str * list ptree :=
  match pt with
  | PLeaf t => (drop n (text_of pd t), [])
  | PNode _ subs =>
      (fix go (l : list ptree) (n : nat) : str * list ptree :=
         match l with
         | [] => ([], [])
         | s :: l' => if decide (n <= length (yield pd s)) then ((pend pd s n).1, (pend pd s n).2 ++ l') else go l' (n - length (yield pd s))
         end) subs n
  end.
Fixpoint pends {I} (pd : ParserData I) (l : list ptree) (n : nat) : str * list ptree :=
  match l with
  | [] => ([], [])
  | s :: l' => if decide (n <= length (yield pd s)) then ((pend pd s n).1, (pend pd s n).2 ++ l') else pends pd l' (n - length (yield pd s))
  end.
Definition roots (x : str * list ptree) : str * list nat := (x.1, map root x.2).

Section residue.
Context {I : Type} (pd : ParserData I) (start : nat).
Hypothesis disjoint : choices_disjoint pd start.
Hypothesis wfr : forall A, has_rule pd A -> is_nonterminal pd A.
Notation pred := (pred pd start).
Notation preds := (preds pd start).
Notation Y := (fun l => concat (map (yield pd) l)).

Lemma pend_node A subs n : pend pd (PNode A subs) n = pends pd subs n.
Proof. cbn [pend]. revert n. induction subs as [|s subs IH]; intros n; [reflexivity|]. cbn [pends]. destruct (decide (n <= length (yield pd s))); [reflexivity|apply IH]. Qed.

Lemma look_take n (a b : str) : 0 < n -> take n a = take n b -> look a = look b.
Proof. destruct n as [|n]; [lia|]. destruct a, b; cbn; try discriminate; [reflexivity|]. intros _ [= -> _]. reflexivity. Qed.
Lemma take_app_cancel {A} (y : list A) n r r' : take n (y ++ r) = take n (y ++ r') -> take (n - length y) r = take (n - length y) r'.
Proof. revert n. induction y as [|x y IH]; intros n; cbn [app length]; [rewrite Nat.sub_0_r; auto|]. destruct n as [|n]; [intros _; reflexivity|]. intros [= E]. apply IH. assumption. Qed.

Lemma pending_unique :
  (forall e text pt rest, pred e text pt rest -> forall text' pt' rest' n, pred e text' pt' rest' -> 0 < n -> take n text = take n text' ->
     (n <= length (yield pd pt) /\ n <= length (yield pd pt') /\ roots (pend pd pt n) = roots (pend pd pt' n)) \/
     (length (yield pd pt) < n /\ yield pd pt = yield pd pt')) /\
  (forall es text pts rest, preds es text pts rest -> forall text' pts' rest' n, preds es text' pts' rest' -> 0 < n -> take n text = take n text' ->
     (n <= length (Y pts) /\ n <= length (Y pts') /\ roots (pends pd pts n) = roots (pends pd pts' n)) \/
     (length (Y pts) < n /\ Y pts = Y pts')).
Proof.
  apply pred_both.
  - intros t s rest Ht text' pt' rest' n Hp Hn E. inversion Hp as [t' s' r' Ht' E1 E2 E3|A r p ? subs ? Hr Hpp Hc Hs]; subst.
    + destruct (decide (n <= length (yield pd (PLeaf t)))) as [Hl|Hl]; [left; auto|right; split; [lia|reflexivity]].
    + exfalso. eapply terminal_not_rule; eauto.
  - intros A r p text subs rest Hr Hp Hc _ IH text' pt' rest' n Hq Hn E. inversion Hq as [t' s' r' Ht' E1 E2 E3|A' r' p' ? subs' ? Hr' Hp' Hc' Hs']; subst.
    + exfalso. eapply terminal_not_rule; eauto.
    + assert (r' = r) as -> by congruence. rewrite <- (look_take n _ _ Hn E) in Hc'.
      assert (p' = p) as -> by (eapply choice_unique; eauto). rewrite !pend_node. cbn [yield]. eapply IH; eauto.
  - intros text text' pts' rest' n Hp Hn E. inversion Hp; subst. right. split; [cbn; lia|reflexivity].
  - intros e es text pt mid pts rest P1 IH1 P2 IH2 text' pts' rest' n Hp Hn E. inversion Hp as [|? ? ? pt1 mid1 pts1 ? Q1 Q2]; subst.
    cbn [map concat pends]. rewrite !app_length.
    destruct (IH1 _ _ _ n Q1 Hn E) as [(L1 & L2 & Ep)|[L1 Ey]].
    + left. split; [lia|]. split; [lia|]. rewrite !decide_True by assumption. unfold roots in *. cbn [fst snd]. injection Ep as -> Ep. f_equal. rewrite !map_app, Ep. f_equal.
      apply pred_sound in P2 as (_ & -> & _), Q2 as (_ & -> & _). reflexivity.
    + apply pred_sound in P1 as (_ & _ & ->), Q1 as (_ & _ & ->). rewrite <- Ey in E |- *. apply take_app_cancel in E.
      destruct (IH2 _ _ _ (n - length (yield pd pt)) Q2 ltac:(lia) E) as [(L2 & L3 & Ep)|[L2 Ey2]].
      * left. split; [lia|]. split; [lia|]. rewrite !decide_False by lia. exact Ep.
      * right. split; [lia|]. rewrite Ey2. reflexivity.
Qed.

Lemma preds_app es1 text g1 mid : preds es1 text g1 mid -> forall es2 g2 rest, preds es2 mid g2 rest -> preds (es1 ++ es2) text (g1 ++ g2) rest.
Proof.
  revert text g1 mid. induction es1 as [|e es1 IH]; intros text g1 mid P es2 g2 rest Q; inversion P; subst; [exact Q|]. cbn [app]. econstructor; [eassumption|]. eapply IH; eassumption.
Qed.
(** The rest of the text is made of what is pending, and what is pending may be replaced. *)
Lemma pending_parts :
  (forall e text pt rest, pred e text pt rest -> forall n, n <= length (yield pd pt) ->
     exists mid, text = take n (yield pd pt) ++ (pend pd pt n).1 ++ mid /\ preds (map root (pend pd pt n).2) mid (pend pd pt n).2 rest) /\
  (forall es text pts rest, preds es text pts rest -> forall n, n <= length (Y pts) ->
     exists mid, text = take n (Y pts) ++ (pends pd pts n).1 ++ mid /\ preds (map root (pends pd pts n).2) mid (pends pd pts n).2 rest).
Proof.
  apply pred_both.
  - intros t s rest Ht n Hn. exists rest. cbn [pend fst snd map]. split; [|constructor]. cbn [yield]. rewrite app_assoc, take_drop, (text_of_terminal pd t s Ht). reflexivity.
  - intros A r p text subs rest _ _ _ _ IH n Hn. rewrite pend_node. apply IH. exact Hn.
  - intros text n Hn. exists text. split; [destruct n; reflexivity|constructor].
  - intros e es text pt mid pts rest P1 IH1 P2 IH2 n Hn. cbn [map concat pends] in *. rewrite app_length in Hn.
    destruct (decide (n <= length (yield pd pt))) as [Hl|Hl]; cbn [fst snd].
    + destruct (IH1 n Hl) as (m & -> & Hm). exists m. rewrite take_app_le by assumption. split; [reflexivity|]. rewrite map_app. eapply preds_app; [exact Hm|].
      apply pred_sound in P2 as Hs. destruct Hs as (_ & -> & _). exact P2.
    + apply pred_sound in P1 as Hs. destruct Hs as (_ & _ & ->). destruct (IH2 (n - length (yield pd pt)) ltac:(lia)) as (m & -> & Hm). exists m. split; [|exact Hm].
      rewrite take_app_ge by lia. rewrite <- !app_assoc. reflexivity.
Qed.
Lemma pending_replaced pt : derivation pd pt -> forall n, n <= length (yield pd pt) -> forall g, Forall (derivation pd) g -> map root g = map root (pend pd pt n).2 ->
  exists pt', derivation pd pt' /\ root pt' = root pt /\ yield pd pt' = take n (yield pd pt) ++ (pend pd pt n).1 ++ Y g /\ pend pd pt' n = ((pend pd pt n).1, g).
Proof.
  induction pt as [t|A subs IH] using ptree_rect'; intros Hd n Hn g Hg Eg.
  - destruct g; [|discriminate]. exists (PLeaf t). split; [assumption|]. split; [reflexivity|]. split; [|reflexivity]. cbn [pend fst yield map concat]. rewrite app_nil_r, take_drop. reflexivity.
  - inversion Hd as [|? ? Ha Hf]; subst. rewrite pend_node in *. cbn [yield root] in *.
    cut (exists subs', Forall (derivation pd) subs' /\ map root subs' = map root subs /\ Y subs' = take n (Y subs) ++ (pends pd subs n).1 ++ Y g /\ pends pd subs' n = ((pends pd subs n).1, g)).
    { intros (subs' & S1 & S2 & S3 & S4). exists (PNode A subs'). split; [constructor; [rewrite S2|]; assumption|]. split; [reflexivity|]. split; [exact S3|]. rewrite pend_node. exact S4. }
    clear Hd Ha. revert n Hn Hf Eg. induction IH as [|s subs Hs _ IHl]; intros n Hn Hf Eg.
    + cbn in Eg. destruct g; [|discriminate]. exists []. split; [constructor|]. split; [reflexivity|]. split; [destruct n; reflexivity|reflexivity].
    + inversion Hf as [|? ? Hds Hdf]; subst. cbn [map concat pends] in *. rewrite app_length in Hn. destruct (decide (n <= length (yield pd s))) as [Hl|Hl].
      * specialize (Hs Hds n Hl). destruct (pend pd s n) as [b zs]. cbn [fst snd] in *. rewrite map_app in Eg. apply map_eq_app in Eg as (g1 & g2 & -> & E1 & E2).
        apply Forall_app in Hg as [Hg1 Hg2]. destruct (Hs g1 Hg1 E1) as (s' & S1 & S2 & S3 & S4). exists (s' :: g2).
        split; [apply Forall_cons; auto|]. cbn [map concat]. split; [congruence|]. rewrite take_app_le by assumption. split; [rewrite S3, map_app, concat_app, <- !app_assoc; reflexivity|].
        cbn [pends]. rewrite decide_True by (rewrite S3, app_length, take_length; lia). rewrite S4. reflexivity.
      * destruct (IHl (n - length (yield pd s)) ltac:(lia) Hdf Eg) as (subs' & S1 & S2 & S3 & S4). exists (s :: subs').
        split; [apply Forall_cons; auto|]. cbn [map concat]. split; [congruence|]. rewrite take_app_ge by lia. split; [rewrite S3, <- app_assoc; reflexivity|].
        cbn [pends]. rewrite decide_False by lia. exact S4.
Qed.
(** Which of the pending parts begins with the next char depends on that char only. *)
Lemma first_part zs t t' g g' rest rest' c : preds zs t g rest -> preds zs t' g' rest' -> head t = Some c -> head t' = Some c ->
  forall i, Y (take i g) = [] <-> Y (take i g') = [].
Proof.
  intros P P' Hc Hc'. destruct t as [|c1 t], t' as [|c2 t']; try discriminate. injection Hc as ->. injection Hc' as ->.
  assert (forall zs g g' rest rest', preds zs (c :: t) g rest -> preds zs (c :: t') g' rest' -> Y g = [] <-> Y g' = []) as Hall.
  { clear P P' zs g g' rest rest'. intros zs g g' rest rest' P1 P1'. destruct (proj2 pending_unique _ _ _ _ P1 _ _ _ 1 P1' ltac:(lia) eq_refl) as [(H1 & H2 & _)|[H1 H2]].
    - split; intros E; rewrite E in *; cbn in *; lia.
    - rewrite H2. reflexivity. }
  assert (forall text g rest, preds zs text g rest -> length g = length zs) as Hlen by (intros ? ? ? Hp; apply pred_sound in Hp as (_ & <- & _); rewrite map_length; reflexivity).
  intros i. destruct (decide (length zs <= i)) as [Hi|Hi].
  - rewrite !take_ge by (erewrite Hlen by eassumption; assumption). eapply Hall; eassumption.
  - rewrite <- (take_drop i zs) in P, P'. apply preds_split in P as (g1 & g2 & mid & -> & P1 & _), P' as (g1' & g2' & mid' & -> & P1' & _).
    assert (length g1 = i) as L1 by (apply pred_sound in P1 as (_ & E & _); apply (f_equal length) in E; rewrite map_length, take_length_le in E by lia; assumption).
    assert (length g1' = i) as L2 by (apply pred_sound in P1' as (_ & E & _); apply (f_equal length) in E; rewrite map_length, take_length_le in E by lia; assumption).
    replace (take i (g1 ++ g2)) with g1 by (rewrite <- L1; rewrite take_app; reflexivity).
    replace (take i (g1' ++ g2')) with g1' by (rewrite <- L2; rewrite take_app; reflexivity). eapply Hall; eassumption.
Qed.
End residue.
