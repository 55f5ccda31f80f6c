(** * A text is a program or broken at exactly one place *)
From Verif Require Import Base Errors SpecText SpecScript SpecVm SpecRpn SpecCalc.

Definition is_digit (c : char) : bool := bool_decide (48 <= c <= 57)%N.
Lemma is_digit_ok c : is_digit c = true <-> digit_char c.
Proof. unfold is_digit, digit_char. rewrite bool_decide_eq_true. reflexivity. Qed.
Fixpoint digits_of (t : str) : str * str :=
  match t with c :: t' => if is_digit c then let '(ds, r) := digits_of t' in (c :: ds, r) else ([], t) | [] => ([], []) end.
Lemma digits_of_app ds r : Forall digit_char ds -> not_starting digit_char r -> digits_of (ds ++ r) = (ds, r).
Proof.
  intros Hds Hr. induction Hds as [|c ds Hc _ IH]; simpl.
  - destruct r as [|c r]; [reflexivity|]. simpl. destruct (is_digit c) eqn:E; [exfalso; apply Hr, is_digit_ok, E|reflexivity].
  - rewrite (proj2 (is_digit_ok c) Hc), IH. reflexivity.
Qed.
(** the first item, with what is behind it *)
Definition scan (t : str) : option (item * str) :=
  match t with
  | [] => None
  | c :: t' =>
      if is_digit c then Some (Num (digits_of t).1, (digits_of t).2)
      else if decide (c = 43%N) then Some (Plus, t')
      else if decide (c = 45%N) then Some (Minus, t')
      else if decide (take 5 t = lit "print") then Some (Print, drop 5 t) else None
  end.
Lemma scan_item i t : good_item i -> (is_number i -> not_starting digit_char t) -> scan (item_text i ++ t) = Some (i, t).
Proof.
  intros Hi Ht. destruct i as [ds| | |]; simpl item_text.
  - destruct Hi as [Hne Hds]. pose proof (digits_of_app ds t Hds (Ht Logic.I)) as E. destruct ds as [|c ds]; [congruence|].
    apply Forall_cons in Hds as [Hc _]. cbn [scan app] in *. rewrite (proj2 (is_digit_ok c) Hc), E. reflexivity.
  - reflexivity.
  - reflexivity.
  - reflexivity.
Qed.
Lemma space_ends t : not_starting digit_char (lit " " ++ t).
Proof. simpl. unfold digit_char. lia. Qed.
Definition no_item_at (k : nat) (rest : str) : Prop := k < 5 /\ lit "print" !! k <> head rest /\
  (forall c rest', k = 0 -> rest = c :: rest' -> ~ digit_char c /\ [c] <> lit "+" /\ [c] <> lit "-").
Lemma scan_none k rest : no_item_at k rest -> scan (take k (lit "print") ++ rest) = None.
Proof.
  intros (Hk & Hne & Hf).
  assert (take 5 (take k (lit "print") ++ rest) <> lit "print") as Hp.
  { intros E. apply Hne. assert ((take 5 (take k (lit "print") ++ rest)) !! k = lit "print" !! k) as E' by (rewrite E; reflexivity).
    rewrite lookup_take in E' by assumption. rewrite lookup_app_r in E' by (rewrite take_length; simpl; lia).
    rewrite take_length in E'. change (length (lit "print")) with 5 in E'. replace (k - k `min` 5) with 0 in E' by lia. rewrite <- E'. destruct rest; reflexivity. }
  destruct k as [|k].
  - simpl app in *. destruct rest as [|c t]; [reflexivity|]. destruct (Hf c t eq_refl eq_refl) as (H1 & H2 & H3). cbn [scan].
    destruct (is_digit c) eqn:E; [exfalso; apply H1, is_digit_ok, E|].
    destruct (decide (c = 43%N)) as [->|]; [exfalso; apply H2; reflexivity|]. destruct (decide (c = 45%N)) as [->|]; [exfalso; apply H3; reflexivity|].
    destruct (decide (take 5 (c :: t) = lit "print")); [contradiction|reflexivity].
  - change (take (S k) (lit "print")) with (112%N :: take k (lit "rint")) in *. cbn [app] in *. cbn [scan].
    change (is_digit 112%N) with false. cbv iota.
    destruct (decide (112%N = 43%N)); [discriminate|]. destruct (decide (112%N = 45%N)); [discriminate|].
    destruct (decide _) as [E|]; [contradiction|reflexivity].
Qed.
Lemma no_item_unique k rest k' rest' : no_item_at k rest -> no_item_at k' rest' ->
  take k (lit "print") ++ rest = take k' (lit "print") ++ rest' -> k = k' /\ rest = rest'.
Proof.
  assert (forall k rest k' rest', no_item_at k rest -> no_item_at k' rest' -> k < k' -> take k (lit "print") ++ rest = take k' (lit "print") ++ rest' -> False) as Hlt.
  { clear. intros k rest k' rest' (Hk & Hne & _) (Hk' & _) Hlt E. apply Hne.
    assert ((take k (lit "print") ++ rest) !! k = lit "print" !! k) as E'.
    { rewrite E, lookup_app_l by (rewrite take_length; simpl; lia). apply lookup_take. assumption. }
    rewrite lookup_app_r in E' by (rewrite take_length; simpl; lia). rewrite take_length in E'. change (length (lit "print")) with 5 in E'.
    replace (k - k `min` 5) with 0 in E' by lia. rewrite <- E'. destruct rest; reflexivity. }
  intros H H' E. destruct (decide (k < k')) as [L|L]; [exfalso; eapply (Hlt k rest k' rest'); eauto|].
  destruct (decide (k' < k)) as [L'|L']; [exfalso; eapply (Hlt k' rest' k rest); eauto|].
  assert (k = k') as -> by lia. split; [reflexivity|]. apply app_inv_head in E. assumption.
Qed.
(** [broken] seen from the front *)
Lemma each_spaced_cons i l : each_spaced (i :: l) = item_text i ++ lit " " ++ each_spaced l.
Proof. unfold each_spaced. cbn [map concat]. rewrite <- !app_assoc. reflexivity. Qed.
Definition unspaced (t : str) : Prop := exists c t', t = c :: t' /\ [c] <> lit " ".
Lemma broken_front l ds read rest : broken l ds read rest ->
  (l = [] /\ ds = [] /\ exists k, read = take k (lit "print") /\ no_item_at k rest) \/
  (l = [] /\ read = ds /\ unspaced rest /\ scan (read ++ rest) = Some (Num ds, rest)) \/
  (exists i, l = [i] /\ ds = [] /\ read = item_text i /\ ~ is_number i /\ unspaced rest /\ scan (read ++ rest) = Some (i, rest)) \/
  (exists i l' read', l = i :: l' /\ read = item_text i ++ lit " " ++ read' /\ broken l' ds read' rest /\ scan (read ++ rest) = Some (i, lit " " ++ read' ++ rest)).
Proof.
  intros Hb. inversion Hb as [l0 k rest0 Hl Hk Hne Hf|l0 ds0 c rest0 Hl Hne Hds Hc1 Hc2|l0 j c rest0 Hl Hj Hjn Hc]; subst.
  - destruct l as [|i l].
    + left. split; [reflexivity|]. split; [reflexivity|]. exists k. split; [reflexivity|]. split; [assumption|]. split; assumption.
    + right. right. right. apply Forall_cons in Hl as [Hi Hl]. exists i, l, (each_spaced l ++ take k (lit "print")). split; [reflexivity|].
      rewrite each_spaced_cons, <- !app_assoc. split; [reflexivity|]. split; [constructor; assumption|].
      apply scan_item; [assumption|]. intros _. apply space_ends.
  - destruct l as [|i l].
    + right. left. split; [reflexivity|]. split; [reflexivity|]. split; [exists c, rest0; auto|]. apply (scan_item (Num ds)); [split; assumption|]. intros _. exact Hc1.
    + right. right. right. apply Forall_cons in Hl as [Hi Hl]. exists i, l, (each_spaced l ++ ds). split; [reflexivity|].
      rewrite each_spaced_cons, <- !app_assoc. split; [reflexivity|]. split; [constructor; assumption|].
      apply scan_item; [assumption|]. intros _. apply space_ends.
  - destruct l0 as [|i l].
    + right. right. left. exists j. split; [reflexivity|]. split; [reflexivity|]. split; [reflexivity|]. split; [assumption|]. split; [exists c, rest0; auto|].
      apply scan_item; [assumption|]. intros Hn. contradiction.
    + right. right. right. apply Forall_cons in Hl as [Hi Hl]. exists i, (l ++ [j]), (each_spaced l ++ item_text j). split; [reflexivity|].
      rewrite each_spaced_cons, <- !app_assoc. split; [reflexivity|]. split; [constructor; assumption|].
      apply scan_item; [assumption|]. intros _. apply space_ends.
Qed.
Ltac fronts H := apply broken_front in H as [(L & -> & k & -> & Hk)|[(L & -> & (c & t' & -> & Hc) & Hs)|[(j & L & -> & -> & Hn & (c & t' & -> & Hc) & Hs)|(j & l1 & r1 & L & -> & Hb & Hs)]]].
Lemma front_none l ds read rest : broken l ds read rest -> scan (read ++ rest) = None ->
  l = [] /\ ds = [] /\ exists k, read = take k (lit "print") /\ no_item_at k rest.
Proof. intros H E. fronts H; [eauto 10|congruence..]. Qed.
Lemma front_space l ds read rest i t : broken l ds read rest -> scan (read ++ rest) = Some (i, 32%N :: t) ->
  exists l' read', l = i :: l' /\ read = item_text i ++ lit " " ++ read' /\ broken l' ds read' rest /\ t = read' ++ rest.
Proof.
  intros H E. fronts H.
  - rewrite (scan_none k rest Hk) in E. discriminate.
  - rewrite Hs in E. injection E as _ -> _. contradiction Hc. reflexivity.
  - rewrite Hs in E. injection E as _ -> _. contradiction Hc. reflexivity.
  - rewrite Hs in E. cbn [app] in E. change (lit " " ++ r1 ++ rest) with (32%N :: r1 ++ rest) in E. injection E as -> <-. eauto 10.
Qed.
Lemma front_stop l ds read rest i t : broken l ds read rest -> scan (read ++ rest) = Some (i, t) -> head t <> Some 32%N ->
  t <> [] /\ rest = t /\ read = item_text i /\ (l, ds) = match i with Num d => ([], d) | _ => ([i], []) end.
Proof.
  intros H E Hh. fronts H.
  - rewrite (scan_none k rest Hk) in E. discriminate.
  - rewrite Hs in E. injection E as <- <-. subst l. split; [discriminate|]. auto.
  - rewrite Hs in E. injection E as <- <-. subst l. split; [discriminate|]. split; [reflexivity|]. split; [reflexivity|]. destruct j; [contradiction Hn; exact Logic.I|reflexivity..].
  - rewrite Hs in E. injection E as <- <-. contradiction Hh. reflexivity.
Qed.
Lemma broken_unique l : forall ds read rest l' ds' read' rest', broken l ds read rest -> broken l' ds' read' rest' -> read ++ rest = read' ++ rest' ->
  l = l' /\ ds = ds' /\ read = read' /\ rest = rest'.
Proof.
  induction l as [|i0 l IH]; intros ds read rest l' ds' read' rest' Hb Hb' E;
    (destruct (scan (read ++ rest)) as [[i t]|] eqn:S; pose proof S as S'; rewrite E in S';
     [destruct (decide (head t = Some 32%N)) as [Hh|Hh];
      [destruct t as [|c t]; [discriminate|]; injection Hh as ->;
       destruct (front_space _ _ _ _ _ _ Hb S) as (l1 & r1 & L & -> & B & ->);
       destruct (front_space _ _ _ _ _ _ Hb' S') as (l1' & r1' & -> & -> & B' & E2)
      |destruct (front_stop _ _ _ _ _ _ Hb S Hh) as (_ & -> & -> & L); destruct (front_stop _ _ _ _ _ _ Hb' S' Hh) as (_ & -> & -> & L');
       rewrite <- L in L'; injection L' as -> ->; auto]
     |destruct (front_none _ _ _ _ Hb S) as (L & -> & k & -> & Hk); destruct (front_none _ _ _ _ Hb' S') as (-> & -> & k' & -> & Hk');
      destruct (no_item_unique _ _ _ _ Hk Hk' E) as [-> ->]; auto]).
  - discriminate.
  - injection L as -> ->. destruct (IH _ _ _ _ _ _ _ B B' E2) as (-> & -> & -> & ->). auto.
Qed.
Lemma joined_cons i l : joined (lit " ") (map item_text (i :: l)) = item_text i ++ match l with [] => [] | _ => lit " " ++ joined (lit " ") (map item_text l) end.
Proof. destruct l; [symmetry; apply app_nil_r|reflexivity]. Qed.
Lemma broken_no_program l : forall ds read rest l', broken l ds read rest -> ~ program l' (read ++ rest).
Proof.
  induction l as [|i0 l IH]; intros ds read rest l' Hb (Hne & Hg & E);
    (destruct l' as [|i l']; [congruence|]; apply Forall_cons in Hg as [Hi Hg]; rewrite joined_cons in E;
     assert (scan (read ++ rest) = Some (i, match l' with [] => [] | _ => lit " " ++ joined (lit " ") (map item_text l') end)) as S
       by (rewrite E; apply scan_item; [assumption|intros _; destruct l'; [exact Logic.I|apply space_ends]]);
     destruct l' as [|j l'];
     [destruct (front_stop _ _ _ _ _ _ Hb S ltac:(discriminate)) as [Hx _]; congruence
     |destruct (front_space _ _ _ _ _ _ Hb S) as (l1 & r1 & L & -> & B & E2)]).
  - discriminate.
  - injection L as -> ->. apply (IH _ _ _ (j :: l') B). split; [discriminate|]. split; [assumption|]. symmetry. exact E2.
Qed.

(** there is no third kind of text *)
Lemma broken_shift i l ds read rest : good_item i -> broken l ds read rest -> broken (i :: l) ds (item_text i ++ lit " " ++ read) rest.
Proof.
  intros Hi Hb. inversion Hb as [l0 k rest0 Hl Hk Hne Hf|l0 ds0 c rest0 Hl Hne Hds Hc1 Hc2|l0 j c rest0 Hl Hj Hjn Hc]; subst.
  - pose proof (br_item (i :: l) k rest ltac:(constructor; assumption) Hk Hne Hf) as R. rewrite each_spaced_cons, <- !app_assoc in R. exact R.
  - pose proof (br_number (i :: l) ds c rest0 ltac:(constructor; assumption) Hne Hds Hc1 Hc2) as R. rewrite each_spaced_cons, <- !app_assoc in R. exact R.
  - pose proof (br_after (i :: l0) j c rest0 ltac:(constructor; assumption) Hj Hjn Hc) as R. rewrite each_spaced_cons, <- !app_assoc in R. exact R.
Qed.
Lemma digits_of_ok t : Forall digit_char (digits_of t).1 /\ t = (digits_of t).1 ++ (digits_of t).2 /\ not_starting digit_char (digits_of t).2.
Proof.
  induction t as [|c t IH]; simpl; [split; [constructor|]; split; [reflexivity|exact Logic.I]|]. destruct (is_digit c) eqn:E.
  - destruct (digits_of t) as [ds r]. simpl in *. destruct IH as (H1 & -> & H3). split; [constructor; [apply is_digit_ok, E|assumption]|]. auto.
  - split; [constructor|]. split; [reflexivity|]. simpl. intros Hc. apply is_digit_ok in Hc. congruence.
Qed.
Lemma scan_sound t i r : scan t = Some (i, r) -> good_item i /\ t = item_text i ++ r /\ (is_number i -> not_starting digit_char r).
Proof.
  destruct t as [|c t]; [discriminate|]. cbn [scan]. destruct (is_digit c) eqn:E.
  - destruct (digits_of_ok (c :: t)) as (H1 & H2 & H3). destruct (digits_of (c :: t)) as [ds r0] eqn:Ed. intros [= <- <-]. simpl in *. split; [|auto].
    split; [|assumption]. rewrite E in Ed. destruct (digits_of t). intros ->. congruence.
  - destruct (decide (c = 43%N)) as [->|]; [intros [= <- <-]; split; [exact Logic.I|]; split; [reflexivity|intros []]|].
    destruct (decide (c = 45%N)) as [->|]; [intros [= <- <-]; split; [exact Logic.I|]; split; [reflexivity|intros []]|].
    destruct (decide (take 5 (c :: t) = lit "print")) as [E5|]; [|discriminate]. intros E'. apply (f_equal (option_map (fun p => p))) in E'.
    injection E' as <- E'. split; [exact Logic.I|]. split; [|intros []]. subst r. cbn [item_text]. rewrite <- E5. symmetry. apply (take_drop 5 (c :: t)).
Qed.
Lemma common_prefix (w t : str) : take (length w) t <> w -> exists k, k < length w /\ t = take k w ++ drop k t /\ w !! k <> head (drop k t).
Proof.
  revert t. induction w as [|a w IH]; intros t Ht; [contradiction Ht; reflexivity|].
  destruct t as [|c t]; [exists 0; split; [simpl; lia|]; split; [reflexivity|discriminate]|].
  destruct (decide (c = a)) as [->|Hne]; [|exists 0; split; [simpl; lia|]; split; [reflexivity|simpl; congruence]].
  destruct (IH t) as (k & Hk & E & Hne); [intros E; apply Ht; simpl; congruence|]. exists (S k). split; [simpl; lia|]. split; [simpl; congruence|exact Hne].
Qed.
Lemma scan_none_inv t : scan t = None -> exists k, t = take k (lit "print") ++ drop k t /\ no_item_at k (drop k t).
Proof.
  intros E. destruct (common_prefix (lit "print") t) as (k & Hk & E1 & Hne).
  - intros E5. destruct t as [|c t]; [discriminate|]. assert (c = 112%N) as -> by (injection E5; auto).
    cbn [scan] in E. change (is_digit 112%N) with false in E. cbv iota in E. destruct (decide (112%N = 43%N)); [discriminate|]. destruct (decide (112%N = 45%N)); [discriminate|].
    destruct (decide (take 5 (112%N :: t) = lit "print")) as [|Hn]; [discriminate|]. apply Hn. exact E5.
  - exists k. split; [assumption|]. split; [exact Hk|]. split; [assumption|]. intros c rest' -> E'. rewrite drop_0 in E'. rewrite E' in E. cbn [scan] in E.
    destruct (is_digit c) eqn:Ed; [discriminate|]. destruct (decide (c = 43%N)) as [|N1]; [discriminate|]. destruct (decide (c = 45%N)) as [|N2]; [discriminate|].
    split; [intros Hc; apply is_digit_ok in Hc; congruence|]. split; intros Hc; injection Hc as Hc; contradiction.
Qed.
Lemma program_or_broken text : (exists l, program l text) \/ (exists l ds read rest, broken l ds read rest /\ text = read ++ rest).
Proof.
  remember (length text) as n eqn:En. assert (length text < S n) as Hn by lia. clear En. revert text Hn. induction (S n) as [|k IH]; intros text Hn; [lia|].
  destruct (scan text) as [[i t]|] eqn:S.
  - apply scan_sound in S as (Hi & -> & Hnum). destruct t as [|c t].
    + left. exists [i]. split; [discriminate|]. split; [constructor; [assumption|constructor]|]. simpl. rewrite app_nil_r. reflexivity.
    + destruct (decide (c = 32%N)) as [->|Hc].
      * destruct (IH t) as [(l & Hl & Hg & ->)|(l & ds & read & rest & Hb & ->)]; [rewrite app_length in Hn; simpl in Hn; lia|..].
        -- left. exists (i :: l). split; [discriminate|]. split; [constructor; assumption|]. rewrite joined_cons. destruct l; [congruence|reflexivity].
        -- right. exists (i :: l), ds, (item_text i ++ lit " " ++ read), rest. split; [apply broken_shift; assumption|]. rewrite <- !app_assoc. reflexivity.
      * right. assert ([c] <> lit " ") as Hc' by (intros E; injection E as ->; contradiction). destruct i as [ds| | |].
        -- exists [], ds, ds, (c :: t). split; [|reflexivity]. destruct Hi as [H1 H2]. exact (br_number [] ds c t ltac:(constructor) H1 H2 (Hnum Logic.I) Hc').
        -- exists [Plus], [], (lit "+"), (c :: t). split; [|reflexivity]. exact (br_after [] Plus c t ltac:(constructor) Logic.I (fun x => x) Hc').
        -- exists [Minus], [], (lit "-"), (c :: t). split; [|reflexivity]. exact (br_after [] Minus c t ltac:(constructor) Logic.I (fun x => x) Hc').
        -- exists [Print], [], (lit "print"), (c :: t). split; [|reflexivity]. exact (br_after [] Print c t ltac:(constructor) Logic.I (fun x => x) Hc').
  - right. destruct (scan_none_inv text S) as (j & E & H1 & H2 & H3). exists [], [], (take j (lit "print")), (drop j text). split; [|assumption].
    exact (br_item [] j (drop j text) ltac:(constructor) H1 H2 H3).
Qed.

(** the place is the end of the longest prefix of a program *)
Lemma broken_head l ds read c rest rest' : broken l ds read (c :: rest) -> broken l ds read (c :: rest').
Proof.
  intros Hb. inversion Hb as [l0 k rest0 Hl Hk Hne Hf|l0 ds0 c0 rest0 Hl Hne Hds Hc1 Hc2|l0 j c0 rest0 Hl Hj Hjn Hc]; subst.
  - apply br_item; [assumption|assumption|exact Hne|]. intros c0 r0 Hk0 [= <- <-]. exact (Hf c rest Hk0 eq_refl).
  - apply br_number; assumption.
  - apply br_after; assumption.
Qed.
Lemma joined_spaces l i : joined (lit " ") (map item_text (l ++ [i])) = each_spaced l ++ item_text i.
Proof.
  induction l as [|j l IH]; [reflexivity|]. change ((j :: l) ++ [i]) with (j :: (l ++ [i])). rewrite joined_cons, each_spaced_cons, IH, <- !app_assoc.
  destruct l; reflexivity.
Qed.
Lemma broken_prefix l ds read rest : broken l ds read rest -> exists l' t, program l' (read ++ t).
Proof.
  intros Hb.
  assert (forall l i, Forall good_item l -> good_item i -> program (l ++ [i]) (each_spaced l ++ item_text i)) as Hp.
  { intros l0 i Hl Hi. split; [destruct l0; discriminate|]. split; [apply Forall_app; split; [assumption|constructor; [assumption|constructor]]|]. rewrite joined_spaces. reflexivity. }
  inversion Hb as [l0 k rest0 Hl Hk Hne Hf|l0 ds0 c0 rest0 Hl Hne Hds Hc1 Hc2|l0 j c0 rest0 Hl Hj Hjn Hc]; subst.
  - exists (l ++ [Print]), (drop k (lit "print")). rewrite <- app_assoc, take_drop. apply (Hp l Print Hl Logic.I).
  - exists (l ++ [Num ds]), []. rewrite app_nil_r. apply (Hp l (Num ds) Hl). split; assumption.
  - exists (l0 ++ [j]), []. rewrite app_nil_r. apply (Hp l0 j Hl Hj).
Qed.
