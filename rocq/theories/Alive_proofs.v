(** * Proofs for C109 *)
From stdpp Require finite.
From Verif Require Import Base Tree Sets ParserData Vm SpecTree SpecWeave SpecRules SpecLanguage SpecIgnore SpecDepth SpecAlive Language_proofs Naming_proofs Ignore_proofs Attr_proofs.

(** The text left and right of the subtree at a path. *)
Fixpoint outside (t : ntree) (path : list nat) : str * str :=
  match path with
  | [] => ([], [])
  | k :: path' =>
      match t with
      | NLeaf _ => ([], [])
      | NNode _ subs =>
          match subs !! k with
          | Some s => let '(l, r) := outside s path' in (concat (map nyield (take k subs)) ++ l, r ++ concat (map nyield (drop (S k) subs)))
          | None => ([], [])
          end
      end
  end.

Section alive.
Context {I : Type} (rs : list (arule I)).
Lemma outside_replaced path : forall t s s', nsubtree t path = Some s -> nyield (replaced t path s') = (outside t path).1 ++ nyield s' ++ (outside t path).2.
Proof.
  induction path as [|k path IH]; intros t s s' E; cbn [nsubtree] in E; [cbn; rewrite app_nil_r; reflexivity|]. destruct t as [b|x subs]; [discriminate|].
  destruct (subs !! k) as [a|] eqn:Ek; [|discriminate]. rewrite (replaced_node x subs k path s' a Ek). cbn [nyield outside]. rewrite Ek.
  rewrite map_app, concat_app. cbn [map concat]. rewrite (IH a s s' E). destruct (outside a path) as [l r]. cbn [fst snd]. rewrite <- !app_assoc. reflexivity.
Qed.
Lemma replaced_same path : forall t s, nsubtree t path = Some s -> replaced t path s = t.
Proof.
  induction path as [|k path IH]; intros t s E; cbn [nsubtree] in E; [injection E as <-; reflexivity|]. destruct t as [b|x subs]; [discriminate|].
  destruct (subs !! k) as [a|] eqn:Ek; [|discriminate]. rewrite (replaced_node x subs k path s a Ek), (IH a s E), take_drop_middle by assumption. reflexivity.
Qed.
Lemma nsubtree_app path : forall t path', nsubtree t (path ++ path') = match nsubtree t path with Some s => nsubtree s path' | None => None end.
Proof. induction path as [|k path IH]; intros t path'; [reflexivity|]. cbn [app nsubtree]. destruct t as [|x subs]; [reflexivity|]. destruct (subs !! k); [apply IH|reflexivity]. Qed.
Lemma sub_derivation path : forall t s, nderivation rs t -> nsubtree t path = Some s -> nderivation rs s.
Proof.
  induction path as [|k p IH]; intros t s Dt E; cbn [nsubtree] in E; [congruence|]. destruct t as [b|y ts]; [discriminate|]. destruct (ts !! k) as [a|] eqn:Ek; [|discriminate].
  inversion Dt as [|? i ? _ Hf]; subst. apply (IH a); [exact (proj1 (Forall_lookup _ ts) Hf k a Ek)|assumption].
Qed.
(** ** Repeating a part *)
Lemma repeated t path x subs inner subs' : nderivation rs t -> nsubtree t path = Some (NNode x subs) -> nsubtree (NNode x subs) inner = Some (NNode x subs') ->
  nyield t = (outside t path).1 ++ (outside (NNode x subs) inner).1 ++ nyield (NNode x subs') ++ (outside (NNode x subs) inner).2 ++ (outside t path).2 /\
  forall n, exists t', nderivation rs t' /\ nroot t' = nroot t /\
    nyield t' = (outside t path).1 ++ copies n (outside (NNode x subs) inner).1 ++ nyield (NNode x subs') ++ copies n (outside (NNode x subs) inner).2 ++ (outside t path).2.
Proof.
  intros D Hp Hi. set (v := (outside (NNode x subs) inner).1). set (y := (outside (NNode x subs) inner).2). pose proof (sub_derivation _ _ _ D Hp) as Dx. pose proof (sub_derivation _ _ _ Dx Hi) as Dx'.
  split.
  - rewrite <- (replaced_same path t _ Hp) at 1. rewrite (outside_replaced path t _ _ Hp). rewrite <- (replaced_same inner (NNode x subs) _ Hi) at 1. rewrite (outside_replaced inner _ _ _ Hi).
    fold v y. rewrite <- !app_assoc. reflexivity.
  - intros n. assert (exists b, nderivation rs b /\ nroot b = (x, NonTerminal) /\ nyield b = copies n v ++ nyield (NNode x subs') ++ copies n y) as (b & Db & Rb & Yb).
    { induction n as [|n (b & Db & Rb & Yb)]; [exists (NNode x subs'); split; [assumption|]; split; [reflexivity|cbn; rewrite app_nil_r; reflexivity]|].
      destruct (replaced_ok rs inner (NNode x subs) (NNode x subs') b Dx Hi Db Rb) as (H1 & H2 & _). exists (replaced (NNode x subs) inner b). split; [assumption|]. split; [assumption|].
      rewrite (outside_replaced inner _ _ b Hi), Yb. fold v y. unfold copies. cbn [repeat concat]. rewrite <- !app_assoc. do 3 f_equal.
      clear. induction n as [|n IH]; cbn [repeat concat app]; [rewrite app_nil_r; reflexivity|]. rewrite <- app_assoc. f_equal. exact IH. }
    destruct (replaced_ok rs path t (NNode x subs) b D Hp Db Rb) as (H1 & H2 & _). exists (replaced t path b). split; [assumption|]. split; [assumption|].
    rewrite (outside_replaced path t _ b Hp), Yb, <- !app_assoc. reflexivity.
Qed.
(** ** A part repeated without text on its left is left recursion *)
Lemma empty_nullable t : nderivation rs t -> nyield t = [] -> nnullable rs [nroot t].
Proof.
  induction t as [b|x subs IH] using ntree_ind'; intros D E; cbn [nyield nroot] in *.
  - subst b. exists [([], Terminal)]. split; [apply rtc_refl|repeat constructor].
  - inversion D as [|? i ? Hs Hf]; subst. apply (nnullable_back rs _ (map nroot subs)); [apply rtc_once; apply (nstep_intro rs [] x [] i (map nroot subs)) in Hs; rewrite app_nil_r in Hs; exact Hs|].
    clear Hs D. induction subs as [|s subs IHs]; [apply nnullable_nil|]. cbn [map concat] in E. apply app_eq_nil in E as [E1 E2]. inversion IH; subst. apply Forall_cons in Hf as [F1 F2].
    cbn [map]. apply (nnullable_app rs [nroot s]). auto.
Qed.
Lemma forest_nullable subs : Forall (nderivation rs) subs -> concat (map nyield subs) = [] -> nnullable rs (map nroot subs).
Proof.
  induction 1 as [|s subs Hs _ IH]; cbn [map concat]; intros E; [apply nnullable_nil|]. apply app_eq_nil in E as [E1 E2]. apply (nnullable_app rs [nroot s]). split; [apply empty_nullable; assumption|auto].
Qed.
Lemma left_call x subs k y ts : nderivation rs (NNode x subs) -> subs !! k = Some (NNode y ts) -> concat (map nyield (take k subs)) = [] -> nleft_calls rs x y.
Proof.
  intros D Ek E. inversion D as [|? i ? Hs Hf]; subst. exists i, (map nroot (take k subs)), (map nroot (drop (S k) subs)). split.
  - rewrite <- (take_drop_middle subs k _ Ek), map_app in Hs. exact Hs.
  - apply forest_nullable; [apply Forall_take; assumption|assumption].
Qed.
Lemma left_path inner : forall x subs y ts, nderivation rs (NNode x subs) -> inner <> [] -> nsubtree (NNode x subs) inner = Some (NNode y ts) -> (outside (NNode x subs) inner).1 = [] -> tc (nleft_calls rs) x y.
Proof.
  induction inner as [|k inner IH]; intros x subs y ts D Hne E Ho; [congruence|]. cbn [nsubtree outside] in *. destruct (subs !! k) as [a|] eqn:Ek; [|discriminate].
  destruct (outside a inner) as [l r] eqn:Eo. cbn [fst] in Ho. apply app_eq_nil in Ho as [Ho1 Ho2].
  destruct inner as [|k' inner]; cbn [nsubtree] in E.
  - injection E as ->. apply tc_once. exact (left_call x subs k y ts D Ek Ho1).
  - destruct a as [b|z zs]; [discriminate|]. eapply tc_l; [exact (left_call x subs k z zs D Ek Ho1)|]. inversion D as [|? i ? _ Hf]; subst.
    apply (IH z zs y ts); [exact (proj1 (Forall_lookup _ subs) Hf k _ Ek)|discriminate|exact E|rewrite Eo; reflexivity].
Qed.
(** ** Deep trees have a name within itself *)
Lemma deepest t : exists path, length path = nested_names t /\ forall i, i < nested_names t -> exists x subs, nsubtree t (take i path) = Some (NNode x subs).
Proof.
  induction t as [b|x subs IH] using ntree_ind'; [exists []; split; [reflexivity|cbn; lia]|]. cbn [nested_names].
  assert (foldr max 0 (map nested_names subs) = 0 \/ exists k s, subs !! k = Some s /\ nested_names s = foldr max 0 (map nested_names subs)) as [E|(k & s & Ek & Es)].
  { clear IH. induction subs as [|s subs IH]; [left; reflexivity|]. right. cbn [map foldr]. destruct (decide (foldr max 0 (map nested_names subs) <= nested_names s)) as [Hle|Hgt].
    - exists 0, s. split; [reflexivity|]. lia.
    - destruct IH as [IH|(k & s' & H1 & H2)]; [lia|]. exists (S k), s'. split; [assumption|]. lia. }
  - rewrite E. exists [0]. split; [reflexivity|]. intros [|i] Hi; [|lia]. eexists _, _. reflexivity.
  - destruct (proj1 (Forall_lookup _ subs) IH k s Ek) as (path & P1 & P2). exists (k :: path). cbn [length]. split; [lia|]. intros [|i] Hi; [eexists _, _; reflexivity|].
    cbn [take nsubtree]. rewrite Ek. apply P2. lia.
Qed.
Lemma rule_name x i w : says rs x i w -> x ∈ map ar_name rs.
Proof.
  intros Hs. assert (alternatives_for rs x <> []) as Hne by (intros E; inversion Hs as [w' Hl|w' y' Hl]; subst; rewrite E in *; discriminate).
  unfold alternatives_for, rules_for in Hne. destruct (filter _ rs) as [|r more] eqn:E; [contradiction|].
  assert (r ∈ filter (fun r => ar_name r = x) rs) as Hin by (rewrite E; left). apply elem_of_list_filter in Hin as [<- Hin]. apply elem_of_list_fmap. eauto.
Qed.
Lemma deep_repeats t : nderivation rs t -> length rs < nested_names t ->
  exists path x subs inner subs', nsubtree t path = Some (NNode x subs) /\ inner <> [] /\ nsubtree (NNode x subs) inner = Some (NNode x subs').
Proof.
  intros D Hlt. destruct (deepest t) as (path & P1 & P2).
  set (name_at := fun i => match nsubtree t (take i path) with Some (NNode x _) => x | _ => [] end). set (l := map name_at (seq 0 (nested_names t))).
  assert (l ⊆ map ar_name rs) as Hsub.
  { intros x Hx. apply elem_of_list_fmap in Hx as (i & -> & Hi). apply elem_of_seq in Hi. destruct (P2 i ltac:(lia)) as (x & subs & E). unfold name_at. rewrite E.
    pose proof (sub_derivation _ _ _ D E) as Dx. inversion Dx as [|? j ? Hs _]; subst. eapply rule_name, Hs. }
  destruct (finite.list_pigeonhole l (map ar_name rs) Hsub) as (i & j & x & Hij & Hi & Hj); [unfold l; rewrite !map_length, seq_length; assumption|].
  assert (forall k y, l !! k = Some y -> k < nested_names t /\ name_at k = y) as Hl.
  { intros k y Hk. unfold l in Hk. rewrite list_lookup_fmap in Hk. destruct (seq 0 (nested_names t) !! k) as [k'|] eqn:Ek; [|discriminate]. apply lookup_seq in Ek as [-> Ek]. cbn in Hk. injection Hk as Hk. auto. }
  apply Hl in Hi as [Hi1 Hi2], Hj as [Hj1 Hj2]. destruct (P2 i Hi1) as (xi & si & Ei), (P2 j Hj1) as (xj & sj & Ej). unfold name_at in Hi2, Hj2. rewrite Ei in Hi2. rewrite Ej in Hj2. subst xi xj.
  exists (take i path), x, si, (drop i (take j path)), sj. split; [assumption|]. split; [intros E; apply (f_equal length) in E; rewrite drop_length, take_length in E; cbn in E; lia|].
  rewrite <- (take_drop i (take j path)), take_take, nsubtree_app in Ej. rewrite Nat.min_l in Ej by lia. rewrite Ei in Ej. exact Ej.
Qed.
(** ** Small trees *)
Lemma smaller_sub inner : forall t s, inner <> [] -> nsubtree t inner = Some s -> ncount s < ncount t.
Proof.
  induction inner as [|k inner IH]; intros t s Hne E; [congruence|]. destruct t as [b|x subs]; [discriminate|]. cbn [nsubtree] in E. destruct (subs !! k) as [a|] eqn:Ek; [|discriminate].
  rewrite ncount_node, <- (take_drop_middle subs k a Ek), map_app, list_sum_app. cbn [map]. change (list_sum (ncount a :: ?l)) with (ncount a + list_sum l).
  assert (ncount s <= ncount a); [|lia]. destruct inner as [|k' inner]; [cbn in E; injection E as ->; lia|]. apply Nat.lt_le_incl, IH; [discriminate|exact E].
Qed.
Lemma replaced_smaller path : forall t s s', nsubtree t path = Some s -> ncount s' < ncount s -> ncount (replaced t path s') < ncount t.
Proof.
  induction path as [|k path IH]; intros t s s' E Hl; cbn [nsubtree] in E; [injection E as <-; exact Hl|]. destruct t as [b|x subs]; [discriminate|].
  destruct (subs !! k) as [a|] eqn:Ek; [|discriminate]. rewrite (replaced_node x subs k path s' a Ek), !ncount_node. specialize (IH a s s' E Hl).
  rewrite <- (take_drop_middle subs k a Ek) at 3. rewrite !map_app, !list_sum_app. cbn [map]. change (list_sum (ncount ?b :: ?l)) with (ncount b + list_sum l). lia.
Qed.
Lemma shallow t : nderivation rs t -> exists t', nderivation rs t' /\ nroot t' = nroot t /\ nested_names t' <= length rs.
Proof.
  remember (ncount t) as n eqn:En. revert t En. induction (lt_wf n) as [n _ IH]. intros t -> D. destruct (decide (nested_names t <= length rs)) as [|Hd]; [eauto|].
  destruct (deep_repeats t D ltac:(lia)) as (path & x & subs & inner & subs' & Hp & Hne & Hi).
  pose proof (sub_derivation _ _ _ D Hp) as Dx. pose proof (sub_derivation _ _ _ Dx Hi) as Dx'.
  destruct (replaced_ok rs path t (NNode x subs) (NNode x subs') D Hp Dx' eq_refl) as (H1 & H2 & _).
  destruct (IH _ (replaced_smaller path t _ _ Hp (smaller_sub inner _ _ Hne Hi)) _ eq_refl H1) as (t' & T1 & T2 & T3). exists t'. split; [assumption|]. split; [congruence|assumption].
Qed.
Lemma tree_found k : forall x subs, nderivation rs (NNode x subs) -> nested_names (NNode x subs) <= k -> found_in rs k x.
Proof.
  induction k as [|k IH]; intros x subs D Hn; [cbn in Hn; lia|]. inversion D as [|? i ? Hs Hf]; subst. exists i, (map nroot subs). split; [assumption|].
  intros y Hy. apply elem_of_list_fmap in Hy as (s & Es & Hin). destruct s as [b|y' ts]; [discriminate|]. cbn in Es. injection Es as ->.
  apply (IH y' ts); [exact (proj1 (Forall_forall _ subs) Hf _ Hin)|]. cbn [nested_names] in Hn.
  assert (nested_names (NNode y' ts) <= foldr max 0 (map nested_names subs)); [|cbn [nested_names] in *; lia].
  clear - Hin. induction subs as [|s subs IHs]; [inversion Hin|]. cbn [map foldr]. apply elem_of_cons in Hin as [<-|Hin]; [lia|]. specialize (IHs Hin). lia.
Qed.
Lemma found_tree k : forall x, found_in rs k x -> exists subs, nderivation rs (NNode x subs) /\ nested_names (NNode x subs) <= k.
Proof.
  induction k as [|k IH]; intros x; [contradiction|]. intros (i & w & Hs & Hw).
  assert (exists subs, map nroot subs = w /\ Forall (nderivation rs) subs /\ foldr max 0 (map nested_names subs) <= k) as (subs & <- & Hf & Hn).
  { clear Hs. induction w as [|[e ty] w IHw]; [exists []; split; [reflexivity|]; split; [constructor|cbn; lia]|].
    destruct IHw as (subs & <- & F & N). { intros y Hy. apply Hw. right. assumption. }
    destruct ty; [exists (NLeaf e :: subs); split; [reflexivity|]; split; [constructor; [constructor|assumption]|cbn; lia]|].
    destruct (IH e (Hw e ltac:(left))) as (ts & T1 & T2). exists (NNode e ts :: subs). split; [reflexivity|]. split; [constructor; assumption|]. cbn [map foldr]. lia. }
  exists subs. split; [econstructor; eassumption|]. cbn [nested_names]. lia.
Qed.
(** ** Trees of bounded depth have texts of bounded length *)
Lemma bounded_words : exists K, 1 <= K /\ forall x i w, says rs x i w -> length w <= K /\ forall b, (b, Terminal) ∈ w -> length b <= K.
Proof.
  set (size_of := fun w : list (str * ElementType) => S (2 * length w + list_sum (map (fun e => length e.1) w))).
  set (all := concat (map ar_alts rs)). exists (list_sum (map size_of all) + 1). split; [lia|].
  assert (forall x w, w ∈ alternatives_for rs x -> size_of w <= list_sum (map size_of all)) as Ha.
  { intros x w Hw. assert (w ∈ all) as Hin.
    { unfold alternatives_for in Hw. apply elem_of_list_In, in_concat in Hw as (l & Hl & Hw). apply in_map_iff in Hl as (r & <- & Hr). unfold rules_for in Hr. apply elem_of_list_In, elem_of_list_filter in Hr as [_ Hr].
      apply elem_of_list_In, in_concat. exists (ar_alts r). split; [apply in_map, elem_of_list_In; assumption|assumption]. }
    clear - Hin. induction all as [|v l IH]; [inversion Hin|]. cbn [map]. change (list_sum (?a :: ?b)) with (a + list_sum b). apply elem_of_cons in Hin as [<-|Hin]; [lia|]. specialize (IH Hin). lia. }
  assert (forall x w e, w ∈ alternatives_for rs x -> e ∈ w -> length e.1 <= list_sum (map size_of all)) as He.
  { intros x w e Hw Hin. etransitivity; [|exact (Ha x w Hw)]. unfold size_of. clear - Hin. assert (length e.1 <= list_sum (map (fun e => length e.1) w)); [|lia].
    induction w as [|v l IH]; [inversion Hin|]. cbn [map]. change (list_sum (?a :: ?b)) with (a + list_sum b). apply elem_of_cons in Hin as [<-|Hin]; [lia|]. specialize (IH Hin). lia. }
  intros x i w Hs. split.
  - assert (exists w0, w0 ∈ alternatives_for rs x /\ length w <= 2 * length w0) as (w0 & H1 & H2).
    { inversion Hs as [w' Hl|w' y Hl]; subst; pose proof (elem_of_list_lookup_2 _ _ _ Hl) as Hl'; [exists w; split; [assumption|lia]|]. exists w'. split; [assumption|].
      clear. induction w' as [|a [|b l] IH]; cbn in *; lia. }
    specialize (Ha x w0 H1). unfold size_of in Ha at 1. lia.
  - intros b Hb. assert (exists w0, w0 ∈ alternatives_for rs x /\ (b, Terminal) ∈ w0) as (w0 & H1 & H2).
    { inversion Hs as [w' Hl|w' y Hl]; subst; pose proof (elem_of_list_lookup_2 _ _ _ Hl) as Hl'; [eauto|]. exists w'. split; [assumption|].
      clear - Hb. induction w' as [|a [|c l] IH]; [exact Hb|exact Hb|]. change (interleave ?y (a :: c :: l)) with (a :: y :: interleave y (c :: l)) in Hb.
      apply elem_of_cons in Hb as [<-|Hb]; [left|]. apply elem_of_cons in Hb as [E|Hb]; [discriminate|]. right. auto. }
    specialize (He x w0 _ H1 H2). cbn in He. lia.
Qed.
Lemma max_in (l : list ntree) s : s ∈ l -> nested_names s <= foldr max 0 (map nested_names l).
Proof. induction l as [|a l IHl]; intros Hin; [inversion Hin|]. cbn [map foldr]. apply elem_of_cons in Hin as [<-|Hin]; [lia|]. specialize (IHl Hin). lia. Qed.
Lemma yield_bounded K : 1 <= K -> (forall x i w, says rs x i w -> length w <= K /\ forall b, (b, Terminal) ∈ w -> length b <= K) ->
  forall t, nderivation rs t -> (forall b, nroot t = (b, Terminal) -> length b <= K) -> length (nyield t) <= K ^ S (nested_names t).
Proof.
  intros HK Hw t. induction t as [b|x subs IH] using ntree_ind'; intros D Hb; [cbn [nyield nested_names]; specialize (Hb b eq_refl); rewrite Nat.pow_1_r; exact Hb|].
  inversion D as [|? i ? Hs Hf]; subst. destruct (Hw x i _ Hs) as [W1 W2]. rewrite map_length in W1. cbn [nyield nested_names]. set (M := foldr max 0 (map nested_names subs)).
  assert (length (concat (map nyield subs)) <= length subs * K ^ S M) as Hc.
  { assert (Forall (fun s => length (nyield s) <= K ^ S M) subs) as Hall.
    { apply Forall_forall. intros s Hin. pose proof (proj1 (Forall_forall _ subs) IH s Hin ltac:(exact (proj1 (Forall_forall _ subs) Hf s Hin))) as IHs.
      etransitivity; [apply IHs|].
      - intros b E. apply W2. rewrite <- E. apply elem_of_list_fmap. eauto.
      - apply Nat.pow_le_mono_r; [lia|]. apply le_n_S. exact (max_in subs s Hin). }
    clearbody M. clear - Hall. induction Hall as [|s l Hs _ IHl]; [reflexivity|]. cbn [map concat length]. rewrite app_length. lia. }
  etransitivity; [exact Hc|]. change (K ^ S (S M)) with (K * K ^ S M). apply Nat.mul_le_mono_r. exact W1.
Qed.
End alive.
