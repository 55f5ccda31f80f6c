(** * The derivation check and weaving *)
From Verif Require Import Base Errors ParserData Vm RuleParsing SpecGrammar SpecWeave Follow_proofs.

(** ** the derivation check *)
Section check.
Context (vm : VM).
Notation I := (vm_instr vm).
Context (types : list ElementType) (rs : gmap nat (NonTerminalRules I)) (right : nat).

Definition mentions (a b : nat) : Prop :=
  exists r els, rs !! a = Some r /\ NotEmpty els ∈ possible_productions r /\ b ∈ els.
Context (Hrange : forall a b, mentions a b -> is_Some (types !! b)).
Context (Hnt : forall a, is_Some (rs !! a) -> types !! a = Some NonTerminal).

Section loops.
Context (rec : nat -> gset nat -> outcome ParserError (bool * gset nat)).
Fixpoint der_els (els : list nat) (is_der : bool) (vis : gset nat) : outcome ParserError ((gset nat) + (bool * gset nat)) :=
  match els with
  | [] => Ok (inr (is_der, vis))
  | el :: els' =>
      if el =? right then Ok (inl vis)
      else if is_der then der_els els' is_der vis
      else let* '(b, vis') := rec el vis in der_els els' b vis'
  end.
Fixpoint der_prods (prods : list Production) (is_der : bool) (vis : gset nat) : outcome ParserError (bool * gset nat) :=
  match prods with
  | [] => Ok (is_der, vis)
  | Empty :: prods' => der_prods prods' is_der vis
  | NotEmpty els :: prods' =>
      let* r := der_els els is_der vis in
      match r with
      | inl vis' => Ok (true, vis')
      | inr (b, vis') => der_prods prods' b vis'
      end
  end.
End loops.
Lemma der_unfold f left vis : is_derivative_rec vm (S f) types rs left right vis =
  match types !! left with
  | None => Panic
  | Some Terminal => Ok (false, vis)
  | Some NonTerminal =>
      match rs !! left with
      | None => Err (InternalError left)
      | Some r =>
          if left =? right then Ok (true, vis)
          else if decide (left ∈ vis) then Ok (false, vis)
          else der_prods (fun l v => is_derivative_rec vm f types rs l right v) (possible_productions r) false ({[left]} ∪ vis)
      end
  end.
Proof. reflexivity. Qed.

Definition reaches : nat -> nat -> Prop := rtc mentions.
Definition terminal (x : nat) : Prop := types !! x = Some Terminal.
(** Fully explored without meeting [right]. *)
Definition explored (vis vis' : gset nat) : Prop :=
  vis ⊆ vis' /\ forall x, x ∈ vis' -> x ∉ vis -> x <> right /\ is_Some (rs !! x) /\ forall y, mentions x y -> y <> right /\ (terminal y \/ y ∈ vis').
Lemma explored_trans a b c : explored a b -> explored b c -> explored a c.
Proof.
  intros [H1 H2] [H3 H4]. split; [set_solver|]. intros x Hx Hn. destruct (decide (x ∈ b)) as [Hb|Hb]; [|auto].
  destruct (H2 x Hb Hn) as (E1 & E2 & E3). split; [assumption|]. split; [assumption|]. intros y Hy. destruct (E3 y Hy) as [E4 [E5|E5]]; auto.
Qed.
Lemma explored_refl a : explored a a.
Proof. split; [reflexivity|]. intros x Hx Hn. contradiction. Qed.

Definition good (left : nat) (vis : gset nat) (o : outcome ParserError (bool * gset nat)) : Prop :=
  match o with
  | Ok (true, _) => is_Some (rs !! left) /\ reaches left right
  | Ok (false, vis') => explored vis vis' /\ (terminal left \/ left ∈ vis') /\ (left ∉ vis -> left <> right \/ terminal left)
  | Err e => exists x, e = InternalError x /\ reaches left x /\ types !! x = Some NonTerminal /\ rs !! x = None
  | Panic | Diverge => False
  end.
Lemma der_rec_good f : forall left vis, is_Some (types !! left) -> (forall x, x ∈ vis -> is_Some (rs !! x)) ->
  size (dom rs) < f + size vis -> good left vis (is_derivative_rec vm f types rs left right vis).
Proof.
  induction f as [|f IH]; intros left vis [et Het] Hvis Hf.
  - exfalso. assert (vis ⊆ dom rs) as Hs. { intros x Hx. apply elem_of_dom. auto. } apply subseteq_size in Hs. lia.
  - rewrite der_unfold, Het. destruct et.
    + cbn. split; [apply explored_refl|]. split; [left; exact Het|]. right. exact Het.
    + destruct (rs !! left) as [r|] eqn:Hr; [|exists left; repeat split; auto; apply rtc_refl].
      destruct (left =? right) eqn:Elr.
      { apply Nat.eqb_eq in Elr as ->. cbn. split; [rewrite Hr; eauto|apply rtc_refl]. }
      apply Nat.eqb_neq in Elr. match goal with |- context[decide ?P] => destruct (decide P) as [Hin|Hin] end.
      { cbn. split; [apply explored_refl|]. split; [auto|]. intros Hn. contradiction. }
      set (rec := fun l v => is_derivative_rec vm f types rs l right v).
      (* what a loop that has only found false knows *)
      set (vis0 := {[left]} ∪ vis).
      assert (forall x, x ∈ vis0 -> is_Some (rs !! x)) as Hvis0.
      { intros x Hx. apply elem_of_union in Hx as [Hx|Hx]; [apply elem_of_singleton in Hx as ->; rewrite Hr; eauto|auto]. }
      assert (size vis0 = S (size vis)) as Hsz by (unfold vis0; rewrite size_union by set_solver; rewrite size_singleton; reflexivity).
      assert (forall els vis1, (forall e, e ∈ els -> mentions left e) -> vis0 ⊆ vis1 -> (forall x, x ∈ vis1 -> is_Some (rs !! x)) ->
        match der_els rec els false vis1 with
        | Ok (inl _) | Ok (inr (true, _)) => reaches left right
        | Ok (inr (false, vis2)) => explored vis1 vis2 /\ (forall e, e ∈ els -> e <> right /\ (terminal e \/ e ∈ vis2)) /\ (forall x, x ∈ vis2 -> is_Some (rs !! x))
        | Err e => exists x, e = InternalError x /\ reaches left x /\ types !! x = Some NonTerminal /\ rs !! x = None
        | Panic | Diverge => False
        end) as Hels.
      { assert (forall els vis1, exists o, der_els rec els true vis1 = Ok o /\ match o with inl _ | inr (true, _) => True | _ => False end) as Htrue.
        { induction els as [|e els IHe]; intros vis1; cbn [der_els]; [eexists; split; [reflexivity|exact Logic.I]|]. destruct (e =? right); [eexists; split; [reflexivity|exact Logic.I]|]. apply IHe. }
        induction els as [|e els IHe]; intros vis1 Hm Hs1 Hv1; cbn [der_els].
        - split; [apply explored_refl|]. split; [|assumption]. intros e He. apply elem_of_nil in He. contradiction.
        - pose proof (Hm e (elem_of_list_here _ _)) as Hme. destruct (e =? right) eqn:Ee.
          { apply Nat.eqb_eq in Ee as ->. apply rtc_once. assumption. }
          apply Nat.eqb_neq in Ee. assert (good e vis1 (rec e vis1)) as Hg.
          { apply IH; [apply (Hrange left); assumption|assumption|]. assert (size vis0 <= size vis1) by (apply subseteq_size; assumption). lia. }
          destruct (rec e vis1) as [[[] vis2]|er| |]; cbn [obind]; cbn in Hg.
          + destruct Hg as [_ Hg]. destruct (Htrue els vis2) as (o & -> & Ho).
            assert (reaches left right) by (eapply rtc_l; eauto). destruct o as [?|[[] ?]]; auto; contradiction.
          + destruct Hg as (Hx & Hin2 & _).
            assert (forall x, x ∈ vis2 -> is_Some (rs !! x)) as Hv2.
            { intros x Hx2. destruct (decide (x ∈ vis1)) as [?|Hn]; [auto|]. apply (proj2 Hx x Hx2 Hn). }
            specialize (IHe vis2 (fun e He => Hm e (elem_of_list_further _ _ _ He))).
            specialize (IHe (transitivity Hs1 (proj1 Hx)) Hv2).
            destruct (der_els rec els false vis2) as [[?|[[] vis3]]| | |]; auto.
            destruct IHe as (Hx3 & Hall & Hv3). split; [eapply explored_trans; eauto|]. split; [|assumption].
            intros e' He'. apply elem_of_cons in He' as [->|He']; [|auto]. split; [assumption|]. destruct Hin2 as [?|?]; [auto|]. right. apply Hx3. assumption.
          + destruct Hg as (x & -> & Hrx & Hx). exists x. split; [reflexivity|]. split; [eapply rtc_l; eauto|assumption].
          + contradiction.
          + contradiction. }
      assert (forall prods vis1, (forall els, NotEmpty els ∈ prods -> forall e, e ∈ els -> mentions left e) -> vis0 ⊆ vis1 -> (forall x, x ∈ vis1 -> is_Some (rs !! x)) ->
        match der_prods rec prods false vis1 with
        | Ok (true, _) => reaches left right
        | Ok (false, vis2) => explored vis1 vis2 /\ (forall els e, NotEmpty els ∈ prods -> e ∈ els -> e <> right /\ (terminal e \/ e ∈ vis2)) /\ (forall x, x ∈ vis2 -> is_Some (rs !! x))
        | Err e => exists x, e = InternalError x /\ reaches left x /\ types !! x = Some NonTerminal /\ rs !! x = None
        | Panic | Diverge => False
        end) as Hprods.
      { assert (forall prods vis1, exists v, der_prods rec prods true vis1 = Ok (true, v)) as Htrue.
        { assert (forall els vis1, exists o, der_els rec els true vis1 = Ok o /\ match o with inl _ | inr (true, _) => True | _ => False end) as Htrue.
          { induction els as [|e els IHe]; intros vis1; cbn [der_els]; [eexists; split; [reflexivity|exact Logic.I]|]. destruct (e =? right); [eexists; split; [reflexivity|exact Logic.I]|]. apply IHe. }
          induction prods as [|[els|] prods IHp]; intros vis1; cbn [der_prods]; [eauto| |apply IHp].
          destruct (Htrue els vis1) as (o & -> & Ho). cbn [obind]. destruct o as [?|[[] ?]]; [eauto|apply IHp|contradiction]. }
        induction prods as [|[els|] prods IHp]; intros vis1 Hm Hs1 Hv1; cbn [der_prods].
        - split; [apply explored_refl|]. split; [|assumption]. intros els e He. apply elem_of_nil in He. contradiction.
        - pose proof (Hels els vis1 (Hm els (elem_of_list_here _ _)) Hs1 Hv1) as He. destruct (der_els rec els false vis1) as [[?|[[] vis2]]| | |]; cbn [obind]; auto.
          + destruct (Htrue prods vis2) as [v ->]. assumption.
          + destruct He as (Hx & Hall & Hv2). specialize (IHp vis2 (fun els He => Hm els (elem_of_list_further _ _ _ He)) (transitivity Hs1 (proj1 Hx)) Hv2).
            destruct (der_prods rec prods false vis2) as [[[] vis3]| | |]; auto. destruct IHp as (Hx3 & Hall3 & Hv3).
            split; [eapply explored_trans; eauto|]. split; [|assumption]. intros els' e He He'. apply elem_of_cons in He as [[= ->]|He]; [|eauto].
            destruct (Hall e He') as [? [?|?]]; split; auto. right. apply Hx3. assumption.
        - specialize (IHp vis1 (fun els He => Hm els (elem_of_list_further _ _ _ He)) Hs1 Hv1).
          destruct (der_prods rec prods false vis1) as [[[] vis3]| | |]; auto. destruct IHp as (Hx3 & Hall3 & Hv3).
          split; [assumption|]. split; [|assumption]. intros els' e He He'. apply elem_of_cons in He as [[=]|He]. eauto. }
      specialize (Hprods (possible_productions r) vis0). unfold good.
      destruct (der_prods rec (possible_productions r) false vis0) as [[[] vis2]| | |].
      * split; [rewrite Hr; eauto|]. apply Hprods; auto. intros els He e' He'. exists r, els. auto.
      * destruct Hprods as (Hx & Hall & Hv); auto. { intros els He e He'. exists r, els. auto. }
        assert (left ∈ vis2) as Hl2 by (apply Hx; unfold vis0; set_solver).
        split; [|split; [auto|auto]]. split; [transitivity vis0; [unfold vis0; set_solver|apply Hx]|].
        intros x Hx2 Hn. destruct (decide (x = left)) as [->|Hne].
        -- split; [assumption|]. split; [rewrite Hr; eauto|]. intros y (r' & els & Hr' & He & Hy). rewrite Hr in Hr'. injection Hr' as <-. eauto.
        -- apply Hx; [assumption|]. unfold vis0. intros Hx0. apply elem_of_union in Hx0 as [Hx0|Hx0]; [apply elem_of_singleton in Hx0; contradiction|contradiction].
      * apply Hprods; auto. intros els He e' He'. exists r, els. auto.
      * apply Hprods; auto. intros els He e' He'. exists r, els. auto.
      * apply Hprods; auto. intros els He e' He'. exists r, els. auto.
Qed.
Lemma check_good left : is_Some (types !! left) ->
  match check_is_derivative vm types rs left right with
  | Ok b => b = true <-> is_Some (rs !! left) /\ reaches left right
  | Err e => exists x, e = InternalError x /\ reaches left x /\ types !! x = Some NonTerminal /\ rs !! x = None
  | Panic | Diverge => False
  end.
Proof.
  intros Hl. unfold check_is_derivative. pose proof (der_rec_good (S (S (size rs))) left ∅ Hl) as Hg.
  assert (good left ∅ (is_derivative_rec vm (S (S (size rs))) types rs left right ∅)) as Hg'.
  { apply Hg; [intros x Hx; apply elem_of_empty in Hx; contradiction|]. rewrite size_empty, size_dom. lia. }
  clear Hg. destruct (is_derivative_rec vm (S (S (size rs))) types rs left right ∅) as [[[] vis]|e| |]; cbn [obind]; cbn in Hg'; auto.
  - split; [discriminate|reflexivity] || (split; auto).
  - split; [discriminate|]. intros [Hrl Hr]. exfalso. destruct Hg' as ([_ Hx] & Hin & Hne).
    assert (left ∈ vis) as Hlv.
    { destruct Hin as [Ht|?]; [|assumption]. exfalso. unfold terminal in Ht. rewrite (Hnt left Hrl) in Ht. discriminate. }
    clear Hin Hne Hl Hrl. induction Hr as [x|x y z Hm Hr IH].
    + destruct (Hx x Hlv) as [Hne _]; [apply not_elem_of_empty|]. contradiction.
    + destruct (Hx x Hlv) as (_ & _ & Hy); [apply not_elem_of_empty|]. destruct (Hy y Hm) as [Hne [Ht|Hin]].
      * (* a terminal mentions nothing *)
        inversion Hr as [?|? w ? Hm' _]; subst; [contradiction|]. destruct Hm' as (r & els & Hr' & _). unfold terminal in Ht. rewrite (Hnt y) in Ht by (rewrite Hr'; eauto). discriminate.
      * auto.
Qed.
End check.

(** ** mentions and derivations *)
Section derive.
Context {vm : VM} (pd : ParserData (vm_instr vm)).
Lemma mentions_alternative a b : mentions vm (pd_rules pd) a b <-> exists w, alternative pd a w /\ b ∈ w.
Proof.
  split.
  - intros (r & els & Hr & Hp & Hb). exists els. split; [|assumption]. exists r, (NotEmpty els). auto.
  - intros (w & (r & p & Hr & Hp & ->) & Hb). destruct p as [els|]; cbn in Hb; [exists r, els; auto|]. apply elem_of_nil in Hb. contradiction.
Qed.
Lemma derives_reaches x y : derives pd x y -> forall e, e ∈ y -> exists a, a ∈ x /\ rtc (mentions vm (pd_rules pd)) a e.
Proof.
  intros Hd. induction Hd as [x|x y z Hs Hd IH]; intros e He; [exists e; split; [assumption|apply rtc_refl]|].
  destruct (IH e He) as (a & Ha & Hr). destruct Hs as [u A v w Halt].
  apply elem_of_app in Ha as [Ha|Ha]; [exists a; split; [apply elem_of_app; auto|assumption]|].
  apply elem_of_app in Ha as [Ha|Ha].
  - exists A. split; [apply elem_of_app; right; left|]. eapply rtc_l; [|exact Hr]. apply mentions_alternative. eauto.
  - exists a. split; [apply elem_of_app; right; right; assumption|assumption].
Qed.
Lemma reaches_derives a b : rtc (mentions vm (pd_rules pd)) a b -> exists u v, derives pd [a] (u ++ b :: v).
Proof.
  intros Hr. assert (forall x u v, derives pd x (u ++ a :: v) -> exists u v, derives pd x (u ++ b :: v)) as Hg; [|apply (Hg [a] [] []); apply rtc_refl].
  induction Hr as [a|a b c Hm Hr IH]; intros x u v Hd; [eauto|].
  apply mentions_alternative in Hm as (w & Hw & Hc). apply elem_of_list_split in Hc as (l1 & l2 & ->).
  apply (IH x (u ++ l1) (l2 ++ v)). unfold derives in *. eapply rtc_r; [exact Hd|].
  replace ((u ++ l1) ++ b :: l2 ++ v) with (u ++ (l1 ++ b :: l2) ++ v) by (rewrite <- !app_assoc; reflexivity).
  constructor. assumption.
Qed.
Lemma derives_iff a b : rtc (mentions vm (pd_rules pd)) a b <-> exists u v, derives pd [a] (u ++ b :: v).
Proof.
  split; [apply reaches_derives|]. intros (u & v & Hd). destruct (derives_reaches _ _ Hd b) as (x & Hx & Hr); [apply elem_of_app; right; left|].
  apply elem_of_list_singleton in Hx as ->. assumption.
Qed.
Lemma verbose_types e : length (element_types pd) = length (element_data pd) -> is_Some (get_element_verbose pd e) <-> is_Some (element_types pd !! e).
Proof.
  intros Hl. unfold get_element_verbose. split.
  - intros [x Hx]. destruct (element_data pd !! e); [|discriminate]. destruct (element_types pd !! e); [eauto|discriminate].
  - intros [et Het]. rewrite Het. destruct (lookup_lt_is_Some_2 (element_data pd) e) as [d ->]; [rewrite <- Hl; eapply lookup_lt_Some; eauto|]. eauto.
Qed.
Lemma nonterminal_types e : length (element_types pd) = length (element_data pd) -> is_nonterminal pd e <-> element_types pd !! e = Some NonTerminal.
Proof.
  intros Hl. unfold is_nonterminal, get_element_verbose. split.
  - intros [s Hs]. destruct (element_data pd !! e); [|discriminate]. destruct (element_types pd !! e); congruence.
  - intros Het. rewrite Het. destruct (lookup_lt_is_Some_2 (element_data pd) e) as [d ->]; [rewrite <- Hl; eapply lookup_lt_Some; eauto|]. eauto.
Qed.
Lemma check_spec left right : wf_grammar pd -> indices_ok pd -> is_Some (get_element_verbose pd left) ->
  match check_is_derivative vm (element_types pd) (pd_rules pd) left right with
  | Ok b => b = true <-> can_derive pd left right
  | Err e => exists x u v, e = InternalError x /\ derives pd [left] (u ++ x :: v) /\ is_nonterminal pd x /\ ~ has_rule pd x
  | Panic | Diverge => False
  end.
Proof.
  intros [Hl Hwf] [Hi _] Hleft.
  assert (forall a b, mentions vm (pd_rules pd) a b -> is_Some (element_types pd !! b)) as Hrange.
  { intros a b Hm. apply mentions_alternative in Hm as (w & Hw & Hb). apply verbose_types; [assumption|]. eauto. }
  assert (forall a, is_Some (pd_rules pd !! a) -> element_types pd !! a = Some NonTerminal) as Hnt.
  { intros a Ha. apply nonterminal_types; [assumption|]. apply Hwf. assumption. }
  pose proof (check_good vm (element_types pd) (pd_rules pd) right Hrange Hnt left) as Hc.
  destruct (check_is_derivative vm (element_types pd) (pd_rules pd) left right) as [b|e| |]; try (apply Hc; apply verbose_types; assumption).
  - unfold can_derive. rewrite Hc by (apply verbose_types; assumption). unfold reaches. rewrite derives_iff. reflexivity.
  - destruct Hc as (x & -> & Hr & Ht & Hn); [apply verbose_types; assumption|]. apply derives_iff in Hr as (u & v & Hd).
    exists x, u, v. split; [reflexivity|]. split; [assumption|]. split; [apply nonterminal_types; assumption|].
    unfold has_rule. rewrite Hn. intros [? ?]. discriminate.
Qed.
End derive.

(** ** weaving *)
Lemma weave_interleaved p ig : weave_single p ig = interleaved ig p.
Proof.
  destruct p as [els|]; [|reflexivity]. cbn. f_equal. induction els as [|x els IH]; [reflexivity|]. destruct els as [|y els]; [reflexivity|].
  cbn [map concat app] in *. change (removelast (x :: ig :: y :: ig :: concat (map (fun el => [el; ig]) els)) = x :: ig :: interleave ig (y :: els)).
  rewrite <- IH. reflexivity.
Qed.

Section edit.
Context {H : HashOrder} {vm : VM} (pd : ParserData (vm_instr vm)).
Context (Hwf : wf_grammar pd) (Hi : indices_ok pd).
Definition trouble (A : nat) (r : NonTerminalRules (vm_instr vm)) : Prop :=
  exists ig e, ntr_ignore r = Some ig /\ check_is_derivative vm (element_types pd) (pd_rules pd) ig A = Err e.
Definition edit_result (A : nat) (r : NonTerminalRules (vm_instr vm)) : NonTerminalRules (vm_instr vm) :=
  match ntr_ignore r with
  | None => r
  | Some ig =>
      match check_is_derivative vm (element_types pd) (pd_rules pd) ig A with
      | Ok true => mkNTR (possible_productions r) None (instruction r)
      | _ => mkNTR (map (interleaved ig) (possible_productions r)) (Some ig) (instruction r)
      end
  end.
Lemma check_cases A r ig : pd_rules pd !! A = Some r -> ntr_ignore r = Some ig ->
  (exists b, check_is_derivative vm (element_types pd) (pd_rules pd) ig A = Ok b) \/ (exists e, check_is_derivative vm (element_types pd) (pd_rules pd) ig A = Err e).
Proof.
  intros Hr Hig. pose proof (check_spec pd ig A Hwf Hi (proj2 Hi A r ig Hr Hig)) as Hc.
  destruct (check_is_derivative vm (element_types pd) (pd_rules pd) ig A); eauto; contradiction.
Qed.
Lemma edit_edited A r : pd_rules pd !! A = Some r -> ~ trouble A r -> edited pd A r (edit_result A r).
Proof.
  intros Hr Ht. unfold edit_result. destruct (ntr_ignore r) as [ig|] eqn:Hig; [|constructor; assumption].
  pose proof (check_spec pd ig A Hwf Hi (proj2 Hi A r ig Hr Hig)) as Hc.
  destruct (check_is_derivative vm (element_types pd) (pd_rules pd) ig A) as [[]|e| |] eqn:E; try contradiction.
  - eapply ed_inside; [eassumption|]. apply Hc. reflexivity.
  - eapply ed_woven; [eassumption|]. intros Hd. apply Hc in Hd. discriminate.
  - exfalso. apply Ht. exists ig, e. auto.
Qed.
Lemma edit_rules_spec :
  match edit_rules vm pd with
  | Ok pd' => (forall A r, pd_rules pd !! A = Some r -> ~ trouble A r) /\
      pd' = set_rules pd (map_imap (fun A r => Some (edit_result A r)) (pd_rules pd))
  | Err e => exists A r ig, pd_rules pd !! A = Some r /\ ntr_ignore r = Some ig /\ check_is_derivative vm (element_types pd) (pd_rules pd) ig A = Err e
  | Panic | Diverge => False
  end.
Proof.
  unfold edit_rules.
  set (l1 := ho_iter [1] (map_to_list (pd_rules pd))). set (l2 := ho_iter [2] (map_to_list (pd_rules pd))).
  assert (forall A r, (A, r) ∈ l1 <-> pd_rules pd !! A = Some r) as Hl1 by (intros A r; unfold l1; rewrite (ho_perm [1] _ _); apply elem_of_map_to_list).
  assert (forall A r, (A, r) ∈ l2 <-> pd_rules pd !! A = Some r) as Hl2 by (intros A r; unfold l2; rewrite (ho_perm [2] _ _); apply elem_of_map_to_list).
  (* pass 1 *)
  assert (forall l acc, (forall A r, (A, r) ∈ l -> pd_rules pd !! A = Some r) ->
    match ofold (edit_action vm pd) acc l with
    | Ok acts => (forall A r, (A, r) ∈ l -> ~ trouble A r) /\
        forall A, acts !! A = match pd_rules pd !! A with
                              | Some r => if decide (A ∈ l.*1) then Some (match ntr_ignore r with Some ig => match check_is_derivative vm (element_types pd) (pd_rules pd) ig A with Ok true => false | _ => true end | None => false end) else acc !! A
                              | None => acc !! A end
    | Err e => exists A r ig, pd_rules pd !! A = Some r /\ ntr_ignore r = Some ig /\ check_is_derivative vm (element_types pd) (pd_rules pd) ig A = Err e
    | Panic | Diverge => False
    end) as Hpass1.
  { induction l as [|[A r] l IH]; intros acc Hl; cbn [ofold].
    - split; [intros A r Hx; apply elem_of_nil in Hx; contradiction|]. intros A. destruct (pd_rules pd !! A); reflexivity.
    - pose proof (Hl A r (elem_of_list_here _ _)) as Hr.
      assert (forall w, ~ trouble A r -> w = match ntr_ignore r with Some ig => match check_is_derivative vm (element_types pd) (pd_rules pd) ig A with Ok true => false | _ => true end | None => false end ->
        match ofold (edit_action vm pd) (<[A := w]> acc) l with
        | Ok acts => (forall A' r', (A', r') ∈ (A, r) :: l -> ~ trouble A' r') /\
            forall A', acts !! A' = match pd_rules pd !! A' with
                              | Some r => if decide (A' ∈ ((A, r) :: l).*1) then Some (match ntr_ignore r with Some ig => match check_is_derivative vm (element_types pd) (pd_rules pd) ig A' with Ok true => false | _ => true end | None => false end) else acc !! A'
                              | None => acc !! A' end
        | Err e => exists A r ig, pd_rules pd !! A = Some r /\ ntr_ignore r = Some ig /\ check_is_derivative vm (element_types pd) (pd_rules pd) ig A = Err e
        | Panic | Diverge => False
        end) as Hnext.
      { intros w Hnt Hw. specialize (IH (<[A := w]> acc) (fun A r Hx => Hl A r (elem_of_list_further _ _ _ Hx))).
        destruct (ofold (edit_action vm pd) (<[A := w]> acc) l) as [acts| | |]; auto. destruct IH as [I1 I2]. split.
        - intros A' r' Hx. apply elem_of_cons in Hx as [[= -> ->]|Hx]; eauto.
        - intros A'. rewrite I2. destruct (decide (A' = A)) as [->|Hne].
          + rewrite Hr, lookup_insert, Hw. rewrite (decide_True (P := A ∈ ((A, r) :: l).*1)) by (cbn; left). destruct (decide (A ∈ l.*1)); reflexivity.
          + rewrite lookup_insert_ne by congruence. destruct (pd_rules pd !! A') as [r'|]; [|reflexivity].
            destruct (decide (A' ∈ l.*1)) as [Hin|Hin].
            * rewrite (decide_True (P := A' ∈ _)) by (cbn; right; assumption). reflexivity.
            * rewrite (decide_False (P := A' ∈ _)); [reflexivity|]. cbn. intros Hx. apply elem_of_cons in Hx as [?|?]; contradiction. }
      unfold edit_action at 1. cbn [fst snd]. destruct (ntr_ignore r) as [ig|] eqn:Hig.
      + destruct (check_cases A r ig Hr Hig) as [[b Hb]|[e He]].
        * rewrite Hb. cbn [obind]. apply Hnext; [|rewrite Hb; destruct b; reflexivity]. intros (ig' & e & Hig' & He). congruence.
        * rewrite He. cbn [obind]. exists A, r, ig. auto.
      + cbn [obind]. apply Hnext; [|reflexivity]. intros (ig' & e & Hig' & He). congruence. }
  specialize (Hpass1 l1 ∅ (fun A r Hx => proj1 (Hl1 A r) Hx)). destruct (ofold (edit_action vm pd) ∅ l1) as [acts| | |]; cbn [obind]; auto.
  destruct Hpass1 as [Hok Hacts].
  assert (forall A r, pd_rules pd !! A = Some r -> acts !! A = Some (match ntr_ignore r with Some ig => match check_is_derivative vm (element_types pd) (pd_rules pd) ig A with Ok true => false | _ => true end | None => false end)) as Ha.
  { intros A r Hr. rewrite Hacts, Hr, decide_True; [reflexivity|]. apply elem_of_list_fmap. exists (A, r). split; [reflexivity|]. apply Hl1. assumption. }
  (* pass 2 *)
  assert (forall l acc, (forall A r, (A, r) ∈ l -> pd_rules pd !! A = Some r) ->
    exists ed, ofold (edit_one vm acts) acc l = Ok ed /\ forall A, ed !! A = match pd_rules pd !! A with
                              | Some r => if decide (A ∈ l.*1) then Some (edit_result A r) else acc !! A
                              | None => acc !! A end) as Hpass2.
  { induction l as [|[A r] l IH]; intros acc Hl; cbn [ofold].
    - exists acc. split; [reflexivity|]. intros A. destruct (pd_rules pd !! A); reflexivity.
    - pose proof (Hl A r (elem_of_list_here _ _)) as Hr.
      assert (edit_one vm acts acc (A, r) = Ok (<[A := edit_result A r]> acc)) as ->.
      { unfold edit_one. cbn [fst snd]. rewrite (Ha A r Hr). unfold edit_result. destruct (ntr_ignore r) as [ig|] eqn:Hig.
        - assert (weave_in_ignorers vm r ig = map (interleaved ig) (possible_productions r)) as Hw.
          { unfold weave_in_ignorers. apply map_ext. intros p. apply weave_interleaved. }
          destruct (check_is_derivative vm (element_types pd) (pd_rules pd) ig A) as [[]| | |]; rewrite ?Hw; reflexivity.
        - destruct r as [ps ig ins]. cbn in *. subst ig. reflexivity. }
      cbn [obind]. destruct (IH (<[A := edit_result A r]> acc) (fun A r Hx => Hl A r (elem_of_list_further _ _ _ Hx))) as (ed & -> & Hed).
      exists ed. split; [reflexivity|]. intros A'. rewrite Hed. destruct (decide (A' = A)) as [->|Hne].
      + rewrite Hr, lookup_insert. rewrite (decide_True (P := A ∈ ((A, r) :: l).*1)) by (cbn; left). destruct (decide (A ∈ l.*1)); reflexivity.
      + rewrite lookup_insert_ne by congruence. destruct (pd_rules pd !! A') as [r'|]; [|reflexivity].
        destruct (decide (A' ∈ l.*1)) as [Hin|Hin].
        * rewrite (decide_True (P := A' ∈ _)) by (cbn; right; assumption). reflexivity.
        * rewrite (decide_False (P := A' ∈ _)); [reflexivity|]. cbn. intros Hx. apply elem_of_cons in Hx as [?|?]; contradiction. }
  destruct (Hpass2 l2 ∅ (fun A r Hx => proj1 (Hl2 A r) Hx)) as (ed & -> & Hed). cbn [obind]. split.
  - intros A r Hr. apply Hok. apply Hl1. assumption.
  - f_equal. apply map_eq. intros A. rewrite Hed, map_lookup_imap, lookup_empty. destruct (pd_rules pd !! A) as [r|] eqn:Hr; [|reflexivity].
    rewrite decide_True; [reflexivity|]. apply elem_of_list_fmap. exists (A, r). split; [reflexivity|]. apply Hl2. assumption.
Qed.
End edit.
