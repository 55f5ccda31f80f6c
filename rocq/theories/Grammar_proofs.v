(** * Inductive forms of the grammar notions and their equivalence with SpecGrammar.v *)
From Verif Require Import Base Sets ParserData SpecGrammar.

Section grammar.
Context {I : Type} (pd : ParserData I).
Notation alternative := (alternative pd).
Notation is_terminal := (is_terminal pd).
Notation is_nonterminal := (is_nonterminal pd).

Inductive nul : nat -> Prop :=
| nul_t e : is_terminal e [] -> nul e
| nul_n A w : alternative A w -> nuls w -> nul A
with nuls : list nat -> Prop :=
| nuls_nil : nuls []
| nuls_cons e w : nul e -> nuls w -> nuls (e :: w).
Scheme nul_ind' := Induction for nul Sort Prop
  with nuls_ind' := Induction for nuls Sort Prop.

Inductive fst_of : nat -> char -> Prop :=
| fst_t e c s : is_terminal e (c :: s) -> fst_of e c
| fst_n A u e v c : alternative A (u ++ e :: v) -> nuls u -> fst_of e c -> fst_of A c.
Definition fsts (w : list nat) (c : char) : Prop :=
  exists u e v, w = u ++ e :: v /\ nuls u /\ fst_of e c.

Lemma nuls_app u v : nuls (u ++ v) <-> nuls u /\ nuls v.
Proof.
  induction u as [|e u IH]; simpl; split.
  - intros H. split; [constructor|assumption].
  - tauto.
  - intros H. inversion H; subst. apply IH in H3 as [? ?]. split; [constructor|]; assumption.
  - intros [H1 H2]. inversion H1; subst. constructor; [assumption|]. apply IH. auto.
Qed.
Lemma nuls_forall w : nuls w <-> Forall nul w.
Proof.
  induction w as [|e w IH]; split; intros H.
  - constructor.
  - constructor.
  - inversion H; subst. constructor; [assumption|]. apply IH. assumption.
  - inversion H; subst. constructor; [assumption|]. apply IH. assumption.
Qed.
Lemma fsts_app u v c : fsts (u ++ v) c <-> fsts u c \/ (nuls u /\ fsts v c).
Proof.
  split.
  - intros (x & e & y & Heq & Hn & Hf). apply app_eq_inv in Heq. apply or_comm in Heq. destruct Heq as [(k & -> & Hv)|(k & -> & Hk)].
    + right. apply nuls_app in Hn as [? ?]. split; [assumption|]. exists k, e, y. auto.
    + destruct k as [|e' k]; simpl in Hk.
      * right. rewrite app_nil_r. split; [assumption|]. exists [], e, y. split; [symmetry; assumption|]. split; [constructor|assumption].
      * injection Hk as <- ->. left. exists x, e, k. auto.
  - intros [(x & e & y & -> & Hn & Hf)|(Hu & x & e & y & -> & Hn & Hf)].
    + exists x, e, (y ++ v). rewrite <- app_assoc. auto.
    + exists (u ++ x), e, y. rewrite <- app_assoc. split; [reflexivity|]. split; [|assumption]. apply nuls_app. auto.
Qed.
Lemma fsts_nil c : ~ fsts [] c.
Proof. intros (u & e & v & H & _). destruct u; discriminate. Qed.
Lemma fsts_cons e w c : fsts (e :: w) c <-> fst_of e c \/ (nul e /\ fsts w c).
Proof.
  change (e :: w) with ([e] ++ w). rewrite fsts_app. split.
  - intros [(u & e' & v & Heq & Hn & Hf)|[Hn Hf]].
    + destruct u as [|x u]; simpl in Heq; [injection Heq as -> _; auto|]. destruct u; discriminate.
    + inversion Hn; subst. auto.
  - intros [Hf|[Hn Hf]].
    + left. exists [], e, []. repeat split; [constructor|assumption].
    + right. split; [|assumption]. constructor; [assumption|constructor].
Qed.

(** ** Derivations *)
Lemma step_ctx x y u v : step pd x y -> step pd (u ++ x ++ v) (u ++ y ++ v).
Proof.
  intros [u' A v' w H]. rewrite <- !app_assoc. simpl. rewrite !(app_assoc u u'), <- !app_assoc.
  rewrite (app_assoc u u'), (app_assoc u u' (w ++ v' ++ v)). apply step_intro. assumption.
Qed.
Lemma derives_ctx x y u v : derives pd x y -> derives pd (u ++ x ++ v) (u ++ y ++ v).
Proof.
  intros H. induction H as [x|x y z H1 H2 IH]; [apply rtc_refl|].
  eapply rtc_l; [apply step_ctx; exact H1|exact IH].
Qed.
Lemma derives_app x x' y y' : derives pd x x' -> derives pd y y' -> derives pd (x ++ y) (x' ++ y').
Proof.
  intros H1 H2. eapply rtc_transitive.
  - pose proof (derives_ctx x x' [] y H1) as H. exact H.
  - pose proof (derives_ctx y y' x' [] H2) as H. rewrite !app_nil_r in H. exact H.
Qed.
Lemma derives_alt A w : alternative A w -> derives pd [A] w.
Proof.
  intros H. apply rtc_once. pose proof (step_intro pd [] A [] w H) as Hs. simpl in Hs.
  rewrite app_nil_r in Hs. exact Hs.
Qed.

Lemma nul_derives e : nul e -> NULLABLE pd [e].
Proof.
  apply (nul_ind' (fun e _ => NULLABLE pd [e]) (fun w _ => NULLABLE pd w)).
  - intros x Hx. exists [x]. split; [apply rtc_refl|]. constructor; [assumption|constructor].
  - intros A w Ha Hw (x & Hd & He). exists x. split; [|assumption].
    eapply rtc_transitive; [apply derives_alt; exact Ha|exact Hd].
  - exists []. split; [apply rtc_refl|constructor].
  - intros x w Hx (y & Hy & Hey) Hw (z & Hz & Hez). exists (y ++ z). split.
    + apply (derives_app [x] y w z); assumption.
    + apply Forall_app. auto.
Qed.
Lemma nuls_derives w : nuls w -> NULLABLE pd w.
Proof.
  induction w as [|e w IH]; intros H; [exists []; split; [apply rtc_refl|constructor]|].
  inversion H; subst. destruct (nul_derives e H2) as (y & Hy & Hey). destruct (IH H3) as (z & Hz & Hez).
  exists (y ++ z). split; [apply (derives_app [e] y w z); assumption|]. apply Forall_app. auto.
Qed.
Lemma step_nuls x y : step pd x y -> nuls y -> nuls x.
Proof.
  intros [u A v w H] Hn. apply nuls_app in Hn as [Hu Hn]. apply nuls_app in Hn as [Hw Hv].
  apply nuls_app. split; [assumption|]. constructor; [|assumption]. eapply nul_n; eauto.
Qed.
Lemma NULLABLE_nuls w : NULLABLE pd w <-> nuls w.
Proof.
  split; [|apply nuls_derives]. intros (x & Hd & He).
  assert (nuls x) as Hx. { apply nuls_forall. eapply Forall_impl; [exact He|]. intros; constructor; assumption. }
  clear He. induction Hd as [x|x y z H1 H2 IH]; [assumption|]. eapply step_nuls; eauto.
Qed.
Lemma erased_nuls x : erased pd x -> nuls x.
Proof. intros He. apply nuls_forall. eapply Forall_impl; [exact He|]. intros; constructor; assumption. Qed.

Lemma step_fsts x y c : step pd x y -> fsts y c -> fsts x c.
Proof.
  intros [u A v w H] Hf. apply fsts_app in Hf as [Hf|[Hu Hf]]; apply fsts_app; [auto|].
  right. split; [assumption|]. apply fsts_cons. apply fsts_app in Hf as [Hf|[Hw Hf]].
  - left. destruct Hf as (u' & e & v' & -> & Hn & Hf). eapply fst_n; eauto.
  - right. split; [|assumption]. eapply nul_n; eauto.
Qed.
Lemma FIRST_fsts w c : FIRST pd w c <-> fsts w c.
Proof.
  split.
  - intros (x & t & v & s & Hd & He & Ht).
    assert (fsts (x ++ t :: v) c) as Hf.
    { exists x, t, v. split; [reflexivity|]. split; [apply erased_nuls; assumption|]. eapply fst_t; eauto. }
    clear He Ht. remember (x ++ t :: v) as z. clear Heqz x t v.
    induction Hd as [x|x y z H1 H2 IH]; [assumption|]. eapply step_fsts; eauto.
  - intros (u & e & v & -> & Hn & Hf). apply nuls_derives in Hn as (x & Hx & Hex).
    assert (FIRST pd [e] c) as (x' & t & v' & s & Hd & He & Ht).
    { clear -Hf. induction Hf as [e c s Ht|A u e v c Ha Hn Hf IH].
      - exists [], e, [], s. split; [apply rtc_refl|]. split; [constructor|assumption].
      - destruct IH as (x & t & v' & s & Hd & He & Ht).
        apply nuls_derives in Hn as (y & Hy & Hey).
        exists (y ++ x), t, (v' ++ v), s. split; [|split; [apply Forall_app; auto|assumption]].
        eapply rtc_transitive; [apply derives_alt; exact Ha|].
        rewrite <- app_assoc. apply derives_app; [assumption|].
        change (e :: v) with ([e] ++ v). rewrite app_comm_cons, app_assoc. apply derives_app; [assumption|apply rtc_refl]. }
    exists (x ++ x'), t, (v' ++ v), s. split; [|split; [apply Forall_app; auto|assumption]].
    rewrite <- app_assoc. apply derives_app; [assumption|].
    change (e :: v) with ([e] ++ v). rewrite app_comm_cons, app_assoc. apply derives_app; [assumption|apply rtc_refl].
Qed.

(** ** FOLLOW *)
Inductive fol (start : nat) : nat -> SetMember -> Prop :=
| fol_start : fol start start MTerminate
| fol_first B u A v c : alternative B (u ++ A :: v) -> fsts v c -> fol start A (MChar c)
| fol_prop B u A v x : alternative B (u ++ A :: v) -> nuls v -> fol start B x -> fol start A x.

Lemma alternative_has_rule A w : alternative A w -> has_rule pd A.
Proof. intros (r & p & H & _). eexists. exact H. Qed.

Lemma fol_FOLLOW start A x : fol start A x -> FOLLOW pd start A x.
Proof.
  induction 1 as [|B u A v c Ha Hf|B u A v x Ha Hn Hf IH].
  - exists [], []. split; [apply rtc_refl|]. apply NULLABLE_nuls. constructor.
  - exists B, u, v. split; [eapply alternative_has_rule; eauto|]. split; [apply derives_alt; assumption|].
    apply FIRST_fsts. assumption.
  - destruct x as [c|]; simpl in *.
    + destruct IH as (B' & u' & v' & Hr & Hd & Hfi). exists B', (u' ++ u), (v ++ v'). split; [assumption|]. split.
      * eapply rtc_transitive; [exact Hd|]. rewrite <- app_assoc.
        apply (derives_app u' u'); [apply rtc_refl|].
        change (B :: v') with ([B] ++ v'). rewrite app_comm_cons, app_assoc.
        apply derives_app; [apply derives_alt; assumption|apply rtc_refl].
      * apply FIRST_fsts. apply fsts_app. right. split; [assumption|]. apply FIRST_fsts. assumption.
    + destruct IH as (u' & v' & Hd & Hnu). exists (u' ++ u), (v ++ v'). split.
      * eapply rtc_transitive; [exact Hd|]. rewrite <- app_assoc.
        apply (derives_app u' u'); [apply rtc_refl|].
        change (B :: v') with ([B] ++ v'). rewrite app_comm_cons, app_assoc.
        apply derives_app; [apply derives_alt; assumption|apply rtc_refl].
      * apply NULLABLE_nuls. apply nuls_app. split; [assumption|]. apply NULLABLE_nuls. assumption.
Qed.

(** every symbol of a derived form is followed as the equations say *)
Lemma derived_follow start B w : derives pd [B] w -> forall u A v, w = u ++ A :: v ->
  (forall c, fsts v c -> fol start A (MChar c)) /\
  (nuls v -> forall x, fol start B x -> fol start A x).
Proof.
  intros Hd. apply rtc_ind_r with (P := fun w => forall u A v, w = u ++ A :: v ->
    (forall c, fsts v c -> fol start A (MChar c)) /\ (nuls v -> forall x, fol start B x -> fol start A x)) in Hd.
  - exact Hd.
  - intros u A v Heq. destruct u as [|z u]; simpl in Heq; [|destruct u; discriminate].
    injection Heq as <- <-. split; [|auto]. intros c Hc. exfalso. eapply fsts_nil; eauto.
  - clear. intros y z _ Hs IH u A v Heq. destruct Hs as [u1 C v1 w Ha].
    apply app_eq_inv, or_comm in Heq as [(k & -> & Hk)|(k & -> & Hk)].
    + (* A in w ++ v1 *)
      apply app_eq_inv, or_comm in Hk as [(k' & -> & Hk)|(k' & -> & Hk)].
      * (* k = w ++ k', A in v1 *)
        subst. apply (IH (u1 ++ C :: k') A v). rewrite <- app_assoc. reflexivity.
      * destruct k' as [|A' k']; simpl in Hk.
        -- subst v1. apply (IH (u1 ++ [C]) A v). rewrite <- app_assoc. reflexivity.
        -- injection Hk as <- ->. specialize (IH u1 C v1 eq_refl). destruct IH as [IH1 IH2]. split.
           ++ intros c Hf. apply fsts_app in Hf as [Hf|[Hn Hf]].
              ** eapply fol_first; eauto.
              ** eapply fol_prop; eauto.
           ++ intros Hn x Hx. apply nuls_app in Hn as [Hn1 Hn2]. eapply fol_prop; eauto.
    + (* A in u1 *)
      destruct k as [|A' k]; simpl in Hk.
      * rewrite app_nil_r in IH. destruct w as [|A' w]; simpl in Hk.
        -- destruct v1 as [|A' v1]; [discriminate|]. injection Hk as -> ->.
           apply (IH (u ++ [C]) A' v1). rewrite <- app_assoc. reflexivity.
        -- injection Hk as <- ->. specialize (IH u C v1 eq_refl). destruct IH as [IH1 IH2]. split.
           ++ intros c Hf. apply fsts_app in Hf as [Hf|[Hn Hf]].
              ** apply (fol_first _ C [] A w); assumption.
              ** apply (fol_prop _ C [] A w); auto.
           ++ intros Hn x Hx. apply nuls_app in Hn as [Hn1 Hn2]. apply (fol_prop _ C [] A w); auto.
      * injection Hk as <- ->. specialize (IH u A (k ++ C :: v1)).
        rewrite <- app_assoc in IH. specialize (IH eq_refl). destruct IH as [IH1 IH2]. split.
        -- intros c Hf. apply IH1. eapply step_fsts; [constructor; exact Ha|assumption].
        -- intros Hn. apply IH2. eapply step_nuls; [constructor; exact Ha|assumption].
Qed.

Lemma FOLLOW_fol start A x : FOLLOW pd start A x <-> fol start A x.
Proof.
  split; [|apply fol_FOLLOW]. destruct x as [c|]; simpl.
  - intros (B & u & v & _ & Hd & Hf). apply FIRST_fsts in Hf.
    destruct (derived_follow start B _ Hd u A v eq_refl) as [H _]. auto.
  - intros (u & v & Hd & Hn). apply NULLABLE_nuls in Hn.
    destruct (derived_follow start start _ Hd u A v eq_refl) as [_ H]. apply H; [assumption|constructor].
Qed.
End grammar.

(** textbook prediction is contained in the crate's *)
Lemma select_choose {I} (pd : ParserData I) start A r p x : pd_rules pd !! A = Some r -> p ∈ possible_productions r ->
  p <> NotEmpty [] -> SELECT pd start A (right_side p) x -> CHOOSE pd start A p x.
Proof.
  intros Hr Hp Hne Hs. destruct p as [[|e rest]|]; [congruence| |]; simpl in *.
  - assert (alternative pd A (e :: rest)) as Ha by (exists r, (NotEmpty (e :: rest)); auto).
    unfold SELECT in Hs. setoid_rewrite FIRST_fsts in Hs. rewrite NULLABLE_nuls, FOLLOW_fol in Hs.
    setoid_rewrite FIRST_fsts. rewrite NULLABLE_nuls, FOLLOW_fol.
    assert (nul pd e -> nuls pd [e]) as Hn1 by (intros; constructor; [assumption|constructor]).
    destruct Hs as [(c & -> & Hf)|[Hn Hf]].
    + apply fsts_cons in Hf as [Hf|[Hn Hf]].
      * left. exists c. split; [reflexivity|]. apply fsts_cons. auto.
      * right. split; [auto|]. eapply (fol_first pd start A [] e rest); eauto.
    + inversion Hn; subst. right. split; [auto|]. eapply (fol_prop pd start A [] e rest); eauto.
  - destruct Hs as [(c & -> & Hf)|[_ Hf]]; [|assumption]. apply FIRST_fsts in Hf. exfalso. eapply fsts_nil; eauto.
Qed.
