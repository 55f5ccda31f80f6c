(** * Proofs about follow_sets.rs *)
From Verif Require Import Base Tree Errors Sets ParserData SimpleGraph NamedGraph FirstSets FollowSets
  SpecGraph Graph_proofs Named_proofs SpecGrammar Grammar_proofs First_proofs.

(** ** loops *)
Lemma ofold_ok {E A B} (f : B -> A -> outcome E B) (P : list A -> B -> Prop) l b :
  P [] b -> (forall done x b, P done b -> x ∈ l -> exists b', f b x = Ok b' /\ P (done ++ [x]) b') ->
  exists b', ofold f b l = Ok b' /\ P l b'.
Proof.
  intros H0 Hs.
  assert (forall rest done b, (forall x, x ∈ rest -> x ∈ l) -> P done b ->
    exists b', ofold f b rest = Ok b' /\ P (done ++ rest) b') as Hgen.
  { induction rest as [|x rest IH]; intros done b1 Hin Hp; simpl.
    - exists b1. rewrite app_nil_r. auto.
    - destruct (Hs done x b1 Hp) as (b2 & -> & Hp2); [apply Hin; left|]. simpl.
      destruct (IH (done ++ [x]) b2) as (b3 & H3 & Hp3); [intros y Hy; apply Hin; right; assumption|assumption|].
      exists b3. rewrite <- app_assoc in Hp3. auto. }
  destruct (Hgen l [] b) as (b' & ? & ?); [auto|assumption|]. exists b'. auto.
Qed.
Lemma ofold_match {E A B} (f : B -> A -> outcome E B) (P : list A -> B -> Prop) (bad : A -> Prop) l b :
  P [] b ->
  (forall done x b, P done b -> x ∈ l ->
     match f b x with
     | Ok b' => ~ bad x /\ P (done ++ [x]) b'
     | Diverge => False
     | _ => bad x
     end) ->
  match ofold f b l with
  | Ok b' => (forall x, x ∈ l -> ~ bad x) /\ P l b'
  | Diverge => False
  | _ => exists x, x ∈ l /\ bad x
  end.
Proof.
  intros H0 Hs.
  assert (forall rest done b, (forall x, x ∈ rest -> x ∈ l) -> P done b ->
    match ofold f b rest with
    | Ok b' => (forall x, x ∈ rest -> ~ bad x) /\ P (done ++ rest) b'
    | Diverge => False
    | _ => exists x, x ∈ rest /\ bad x
    end) as Hgen.
  { induction rest as [|x rest IH]; intros done b1 Hin Hp; simpl.
    - rewrite app_nil_r. split; [|assumption]. intros x Hx. apply elem_of_nil in Hx. contradiction.
    - pose proof (Hs done x b1 Hp (Hin x (elem_of_list_here x rest))) as Hx.
      destruct (f b1 x) as [b2|e| |]; simpl; [|exists x; split; [left|assumption]..|contradiction].
      destruct Hx as [Hb Hp2]. specialize (IH (done ++ [x]) b2 ltac:(intros y Hy; apply Hin; right; assumption) Hp2).
      rewrite <- app_assoc in IH. destruct (ofold f b2 rest).
      + destruct IH as [I1 I2]. split; [|assumption]. intros y Hy. apply elem_of_cons in Hy as [->|Hy]; auto.
      + destruct IH as (y & Hy & Hby). exists y. split; [right; assumption|assumption].
      + destruct IH as (y & Hy & Hby). exists y. split; [right; assumption|assumption].
      + assumption. }
  apply (Hgen l [] b); auto.
Qed.

Lemma collect_members_ok {E} (s : gset SetMemberWithEmpty) : EEmpty ∉ s ->
  exists t, collect_members (E := E) s = Ok t /\ forall y, y ∈ t <-> exists x, x ∈ s /\ try_from x = Some y.
Proof.
  intros Hs. unfold collect_members.
  destruct (ofold_ok (E := E) (fun (acc : gset SetMember) x => match try_from x with
                      | Some y => Ok ({[y]} ∪ acc)
                      | None => Panic
                      end) (fun done acc => forall y, y ∈ acc <-> exists x, x ∈ done /\ try_from x = Some y)
             (elements s) ∅) as (t & Ht & Hp).
  - intros y. split; [intros Hy; apply not_elem_of_empty in Hy; contradiction|].
    intros (x & Hx & _). apply elem_of_nil in Hx. contradiction.
  - intros done x acc Hp Hx. apply elem_of_elements in Hx.
    destruct x as [c| |]; simpl; [|contradiction|].
    + eexists. split; [reflexivity|]. intros y. rewrite elem_of_union, elem_of_singleton, Hp. setoid_rewrite elem_of_app.
      setoid_rewrite elem_of_list_singleton. split.
      * intros [->|(x & ? & ?)]; [exists (EChar c); auto|exists x; auto].
      * intros (x & [Hx'| ->] & He); [right; eauto|left]. simpl in He. congruence.
    + eexists. split; [reflexivity|]. intros y. rewrite elem_of_union, elem_of_singleton, Hp. setoid_rewrite elem_of_app.
      setoid_rewrite elem_of_list_singleton. split.
      * intros [->|(x & ? & ?)]; [exists ETerminate; auto|exists x; auto].
      * intros (x & [Hx'| ->] & He); [right; eauto|left]. simpl in He. congruence.
  - exists t. split; [assumption|]. intros y. rewrite Hp. setoid_rewrite elem_of_elements. reflexivity.
Qed.

Section follow.
Context {H : HashOrder} {I : Type} (m : ovf_mode) (pd : ParserData I) (Hwf : wf_grammar pd).
Notation res := (outcome GrammarError).
Notation FGraph := (GraphNamedNodes (gset SetMember)).
Notation agr := (gmap nat (gset SetMember * list nat)).
Notation nuls := (nuls pd). Notation fsts := (fsts pd). Notation fol := (fol pd).

Definition good (e : nat) : Prop := (exists s, is_terminal pd e s) \/ (is_nonterminal pd e /\ has_rule pd e).
Definition doms (a : agr) : Prop := forall A, is_Some (a !! A) <-> has_rule pd A.

(** ** first_set_of_partial succeeds on good elements *)
Section fs.
Context (fs : NamedSets).
Context (Hdom : forall A, is_Some (fs !! A) <-> has_rule pd A).
Context (Hex : forall A s, fs !! A = Some s -> exact pd A s).
Lemma get_first_good e : good e -> exists s, get_first_set_of_element pd e fs = Ok (Some s).
Proof.
  intros [[s Hs]|[Hn Hr]].
  - rewrite (get_first_terminal pd e s fs Hs). eauto.
  - rewrite (get_first_nonterminal pd e fs Hn). apply Hdom in Hr as [s Hs]. rewrite Hs. eauto.
Qed.
Lemma partial_loop_nodiv els : forall acc, partial_loop pd els fs acc <> Diverge.
Proof.
  induction els as [|e els IH]; intros acc; simpl; [discriminate|].
  unfold get_first_set_of_element. destruct (element_types pd !! e) as [[|]|]; simpl; try discriminate.
  - destruct (get_element_data pd e) as [d|]; simpl; [|discriminate].
    destruct (ed_name d); simpl; destruct (decide _); try discriminate; apply IH.
  - destruct (fs !! e); [|discriminate]. destruct (decide _); [apply IH|discriminate].
Qed.
Lemma partial_loop_good els : Forall good els -> forall acc, exists r, partial_loop pd els fs acc = Ok r.
Proof.
  induction 1 as [|e els He Hl IH]; intros acc; simpl; [eauto|].
  destruct (get_first_good e He) as [s ->]. simpl. destruct (decide _); [apply IH|eauto].
Qed.

(** ** marking one right side *)
(** what is added to the data of [B] / to the edges of [A] by [A -> w] *)
Definition added_chars (w : list nat) (B : nat) (x : SetMember) : Prop :=
  exists u v c, w = u ++ B :: v /\ is_nonterminal pd B /\ fsts v c /\ x = MChar c.
Definition added_edges (w : list nat) (C : nat) : Prop :=
  exists u v, w = u ++ C :: v /\ is_nonterminal pd C /\ nuls v.
Definition mpost (A : nat) (w : list nat) (a a' : agr) : Prop :=
  forall B d ss, a !! B = Some (d, ss) -> exists d' ss', a' !! B = Some (d', ss') /\
    (forall x, x ∈ d' <-> x ∈ d \/ added_chars w B x) /\
    (forall C, C ∈ ss' <-> C ∈ ss \/ (B = A /\ added_edges w C)) /\
    length ss' <= length ss + (if decide (B = A) then length w else 0).

Lemma added_chars_cons e w B x : added_chars (e :: w) B x <->
  (B = e /\ is_nonterminal pd e /\ exists c, fsts w c /\ x = MChar c) \/ added_chars w B x.
Proof.
  split.
  - intros (u & v & c & Heq & Hn & Hf & ->). destruct u as [|y u]; simpl in Heq; injection Heq as -> ->.
    + left. eauto.
    + right. exists u, v, c. auto.
  - intros [(-> & Hn & c & Hf & ->)|(u & v & c & -> & Hn & Hf & ->)].
    + exists [], w, c. auto.
    + exists (e :: u), v, c. auto.
Qed.
Lemma added_edges_cons e w C : added_edges (e :: w) C <->
  (C = e /\ is_nonterminal pd e /\ nuls w) \/ added_edges w C.
Proof.
  split.
  - intros (u & v & Heq & Hn & Hf). destruct u as [|y u]; simpl in Heq; injection Heq as -> ->.
    + left. auto.
    + right. exists u, v. auto.
  - intros [(-> & Hn & Hf)|(u & v & -> & Hn & Hf)].
    + exists [], w. auto.
    + exists (e :: u), v. auto.
Qed.
Lemma terminal_not_nonterminal e s : is_terminal pd e s -> ~ is_nonterminal pd e.
Proof. unfold is_terminal, is_nonterminal. intros H1 [s' H2]. congruence. Qed.

Lemma doms_insert a A v : doms a -> has_rule pd A -> doms (<[A := v]> a).
Proof.
  intros Hd HA B. destruct (decide (A = B)) as [<-|Hne].
  - rewrite lookup_insert. split; eauto.
  - rewrite lookup_insert_ne by assumption. apply Hd.
Qed.

Definition mark_spec (A : nat) (w : list nat) (g : FGraph) (a : agr) (r : res FGraph) : Prop :=
  match r with
  | Ok g' => Forall good w /\ exists a' chs', nrel g' a' chs' /\ ng_names g' = ng_names g /\ doms a' /\ mpost A w a a'
  | Diverge => False
  | _ => ~ Forall good w
  end.

(** the part of an iteration that writes the data and says whether an edge is needed *)
Lemma mark_head g a chs el rest : nrel g a chs -> doms a -> is_nonterminal pd el -> 
  match (match rest with
            | [] => Ok (true, g)
            | _ =>
                let* following := first_set_of_partial pd rest fs in
                let has_empty := bool_decide (EEmpty ∈ following) in
                let following' := if has_empty then following ∖ {[EEmpty]} else following in
                let* extra := (match named_get_node g el with
                               | Ok _ => collect_members following'
                               | Err e => Err e
                               | Panic => Panic
                               | Diverge => Diverge
                               end) in
                let* g1 := modify_node g el (fun d => extra ∪ d) in
                Ok (has_empty, g1)
            end) with
  | Ok (b, g1) => (b = true <-> nuls rest) /\ (rest <> [] -> good el) /\
      exists a1, nrel g1 a1 chs /\ ng_names g1 = ng_names g /\ doms a1 /\
      (forall B d ss, a !! B = Some (d, ss) -> exists d', a1 !! B = Some (d', ss) /\
          forall x, x ∈ d' <-> x ∈ d \/ (B = el /\ exists c, fsts rest c /\ x = MChar c))
  | Diverge => False
  | _ => ~ Forall good (el :: rest)
  end.
Proof.
  intros Hr Hd Hn. destruct rest as [|e0 rest0].
  - split; [split; [constructor|reflexivity]|]. split; [congruence|]. exists a. split; [assumption|]. split; [reflexivity|]. split; [assumption|].
    intros B d ss HB. exists d. split; [assumption|]. intros x. split; [auto|].
    intros [?|(_ & c & Hf & _)]; [assumption|]. exfalso. eapply fsts_nil; eauto.
  - set (rest := e0 :: rest0).
    assert (rest <> []) as Hne by discriminate.
    destruct (first_set_of_partial pd rest fs) as [fo| | |] eqn:Hp; simpl.
    + pose proof (first_set_of_partial_exact pd Hwf fs rest fo Hex Hne Hp) as (Hc & Hemp & Hterm).
      assert (named_get_node g el = if decide (is_Some (pd_rules pd !! el)) then named_get_node g el
              else Err (GraphNodeDoesNotExistsError el)) as Hget.
      { destruct (decide _) as [|Hno]; [reflexivity|]. unfold named_get_node, get_index_of_node.
        rewrite (nrel_none _ _ _ el Hr); [reflexivity|]. destruct (a !! el) eqn:E; [|reflexivity].
        exfalso. apply Hno. apply Hd. rewrite E. eauto. }
      destruct (decide (is_Some (pd_rules pd !! el))) as [Hrule|Hno].
      2:{ rewrite Hget. simpl. intros Hf. inversion Hf as [|? ? [[s Hs]|[_ Hx]] _]; subst; [|contradiction].
          eapply terminal_not_nonterminal; eauto. }
      clear Hget. assert (is_Some (a !! el)) as [[d ss] Hel] by (apply Hd; assumption).
      destruct (nrel_some _ _ _ _ _ _ Hr Hel) as [i Hi].
      destruct (nr_rep _ _ _ Hr _ _ _ _ Hi Hel) as (n & ch & Hni & _).
      unfold named_get_node at 1, get_index_of_node. rewrite Hi. simpl. rewrite Hni.
      set (fo' := if bool_decide (EEmpty ∈ fo) then fo ∖ {[EEmpty]} else fo).
      destruct (collect_members_ok (E := GrammarError) fo') as (extra & Hcm & Hextra).
      { unfold fo'. case_bool_decide; [|assumption]. rewrite elem_of_difference, elem_of_singleton. tauto. }
      rewrite Hcm. simpl.
      destruct (nrel_modify _ _ _ el (fun d => extra ∪ d) d ss Hr Hel) as (g1 & Hg1 & Hr1 & Hnm & _).
      rewrite Hg1. simpl. split; [rewrite bool_decide_eq_true; assumption|].
      split; [intros _; right; auto|]. eexists. split; [exact Hr1|]. split; [assumption|].
      split; [apply doms_insert; assumption|].
      assert (forall x, x ∈ extra <-> exists c, fsts rest c /\ x = MChar c) as Hx.
      { intros x. rewrite Hextra. assert (forall y, y ∈ fo' <-> y ∈ fo /\ y <> EEmpty) as Hfo'.
        { intros y. unfold fo'. case_bool_decide as Hb; [rewrite elem_of_difference, elem_of_singleton; reflexivity|].
          split; [|tauto]. intros Hy. split; [assumption|]. intros ->. contradiction. }
        split.
        - intros (y & Hy & Ht). apply Hfo' in Hy as [Hy Hy']. destruct y as [c| |]; simpl in Ht; [|congruence|contradiction].
          exists c. split; [apply Hc; assumption|congruence].
        - intros (c & Hcf & ->). exists (EChar c). split; [|reflexivity]. apply Hfo'. split; [apply Hc; assumption|discriminate]. }
      intros B dB sB HB. destruct (decide (el = B)) as [<-|Hneq].
      * assert (dB = d /\ sB = ss) as [-> ->] by (split; congruence).
        rewrite lookup_insert. eexists. split; [reflexivity|]. intros x. rewrite elem_of_union, Hx. tauto.
      * rewrite lookup_insert_ne by assumption. exists dB. split; [assumption|]. intros x. split; [auto|].
        intros [?|[? _]]; [assumption|congruence].
    + intros Hf. inversion Hf; subst. destruct (partial_loop_good rest H3 ∅) as [r Hr']. unfold first_set_of_partial in Hp. congruence.
    + intros Hf. inversion Hf; subst. destruct (partial_loop_good rest H3 ∅) as [r Hr']. unfold first_set_of_partial in Hp. congruence.
    + eapply partial_loop_nodiv; eauto.
Qed.

Lemma mark_loop_ok A w : forall g a chs, nrel g a chs -> doms a -> has_rule pd A ->
  (forall d ss, a !! A = Some (d, ss) -> (N.of_nat (length ss + length w) < 2 ^ 64)%N) ->
  mark_spec A w g a (mark_loop m pd w fs A g).
Proof.
  induction w as [|el rest IH]; intros g a chs Hr Hd HA Hlen; simpl.
  - split; [constructor|]. exists a, chs. split; [assumption|]. split; [reflexivity|]. split; [assumption|].
    intros B d ss HB. exists d, ss. split; [assumption|]. split; [|split].
    + intros x. split; [auto|]. intros [?|(u & v & c & Heq & _)]; [assumption|]. destruct u; discriminate.
    + intros C. split; [auto|]. intros [?|(_ & u & v & Heq & _)]; [assumption|]. destruct u; discriminate.
    + destruct (decide _); simpl; lia.
  - unfold get_element. destruct (element_cases pd Hwf el) as [[s Hs]|[Hn|Hn]].
    + pose proof (verbose_types pd _ _ _ Hs) as (Ht & _). rewrite Ht.
      assert (mark_spec A rest g a (mark_loop m pd rest fs A g)) as Hrest.
      { apply (IH g a chs); try assumption. intros d ss HAa. specialize (Hlen d ss HAa). simpl in Hlen. lia. }
      destruct (mark_loop m pd rest fs A g) as [g'| | |]; simpl in *.
      * destruct Hrest as (Hg & a' & chs' & H1 & H2 & H3 & H4). split; [constructor; [left; eauto|assumption]|].
        exists a', chs'. split; [assumption|]. split; [assumption|]. split; [assumption|]. intros B d ss HB.
        destruct (H4 B d ss HB) as (d' & ss' & K1 & K2 & K3 & K4). exists d', ss'. split; [assumption|]. split; [|split].
        -- intros x. rewrite K2, added_chars_cons. split; [tauto|]. intros [?|[(-> & Hx & _)|?]]; auto.
           exfalso. eapply terminal_not_nonterminal; eauto.
        -- intros C. rewrite K3, added_edges_cons. split; [tauto|]. intros [?|(-> & [(-> & Hx & _)|?])]; auto.
           exfalso. eapply terminal_not_nonterminal; eauto.
        -- revert K4. destruct (decide _); simpl; lia.
      * intros Hf. inversion Hf; contradiction.
      * intros Hf. inversion Hf; contradiction.
      * assumption.
    + pose proof Hn as [nm Hnm]. pose proof (verbose_types pd _ _ _ Hnm) as (Ht & _). rewrite Ht.
      pose proof (mark_head g a chs el rest Hr Hd Hn) as Hh.
      match type of Hh with match ?x with _ => _ end => destruct x as [[b g1]| | |] end; simpl; [|assumption..].
      destruct Hh as (Hb & Hgood & a1 & Hr1 & Hnm1 & Hd1 & Hpost1).
      destruct (proj2 (Hd A) HA) as [[dA sA] HaA]. destruct (Hpost1 A dA sA HaA) as (dA1 & HaA1 & _).
      destruct b; simpl.
      * (* edge *)
        assert (nuls rest) as Hnr by (apply Hb; reflexivity).
        destruct (decide (has_rule pd el)) as [Hel|Hel].
        -- destruct (nrel_add_edge m g1 a1 chs A el dA1 sA Hr1 HaA1) as (g2 & chs2 & Hg2 & Hr2 & Hnm2).
           { apply Hd1. assumption. }
           { specialize (Hlen dA sA HaA). simpl in Hlen. lia. }
           rewrite Hg2. simpl.
           assert (mark_spec A rest g2 (<[A := (dA1, el :: sA)]> a1) (mark_loop m pd rest fs A g2)) as Hrest.
           { apply (IH g2 _ chs2); [assumption|apply doms_insert; assumption|assumption|].
             intros d ss. rewrite lookup_insert. intros [= <- <-]. specialize (Hlen dA sA HaA). simpl in *. lia. }
           destruct (mark_loop m pd rest fs A g2) as [g'| | |]; simpl in *.
           ++ destruct Hrest as (Hg & a' & chs' & H1 & H2 & H3 & H4).
              split; [constructor; [right; auto|assumption]|].
              exists a', chs'. split; [assumption|]. split; [congruence|]. split; [assumption|].
              intros B d ss HB. destruct (Hpost1 B d ss HB) as (d1 & HB1 & Hx1).
              destruct (decide (A = B)) as [<-|HneB].
              ** assert (d = dA /\ ss = sA) as [-> ->] by (split; congruence).
                 assert (d1 = dA1) as -> by congruence.
                 destruct (H4 A dA1 (el :: sA)) as (d' & ss' & K1 & K2 & K3 & K4); [apply lookup_insert|].
                 exists d', ss'. split; [assumption|]. split; [|split].
                 --- intros x. rewrite K2, Hx1, added_chars_cons. tauto.
                 --- intros C. rewrite K3, elem_of_cons, added_edges_cons. intuition.
                 --- rewrite decide_True in * by reflexivity. simpl in *. lia.
              ** destruct (H4 B d1 ss) as (d' & ss' & K1 & K2 & K3 & K4); [rewrite lookup_insert_ne by assumption; assumption|].
                 exists d', ss'. split; [assumption|]. split; [|split].
                 --- intros x. rewrite K2, Hx1, added_chars_cons. tauto.
                 --- intros C. rewrite K3. split; [|intros [?|[? _]]; [auto|congruence]]. intros [?|[? _]]; [auto|congruence].
                 --- rewrite decide_False in * by congruence. lia.
           ++ intros Hf. inversion Hf; contradiction.
           ++ intros Hf. inversion Hf; contradiction.
           ++ assumption.
        -- assert (named_add_edge m g1 A el = Err (GraphNodeDoesNotExistsError el)) as ->.
           { unfold named_add_edge, get_index_of_node. destruct (nrel_some _ _ _ _ _ _ Hr1 HaA1) as [i Hi]. rewrite Hi. simpl.
             rewrite (nrel_none _ _ _ el Hr1); [reflexivity|]. destruct (a1 !! el) eqn:E; [|reflexivity].
             exfalso. apply Hel. apply Hd1. rewrite E. eauto. }
           simpl. intros Hf. inversion Hf as [|? ? [[s Hs]|[_ Hx]] _]; subst; [|contradiction].
           eapply terminal_not_nonterminal; eauto.
      * (* no edge *)
        assert (~ nuls rest) as Hnr by (intros Hx; apply Hb in Hx; discriminate).
        assert (rest <> []) as Hne by (intros ->; apply Hnr; constructor).
        assert (mark_spec A rest g1 a1 (mark_loop m pd rest fs A g1)) as Hrest.
        { apply (IH g1 _ chs); [assumption|assumption|assumption|].
          intros d ss Hx. assert (d = dA1 /\ ss = sA) as [-> ->] by (split; congruence).
          specialize (Hlen dA sA HaA). simpl in *. lia. }
        destruct (mark_loop m pd rest fs A g1) as [g'| | |]; simpl in *.
        -- destruct Hrest as (Hg & a' & chs' & H1 & H2 & H3 & H4).
           split; [constructor; [auto|assumption]|].
           exists a', chs'. split; [assumption|]. split; [congruence|]. split; [assumption|].
           intros B d ss HB. destruct (Hpost1 B d ss HB) as (d1 & HB1 & Hx1).
           destruct (H4 B d1 ss HB1) as (d' & ss' & K1 & K2 & K3 & K4).
           exists d', ss'. split; [assumption|]. split; [|split].
           ++ intros x. rewrite K2, Hx1, added_chars_cons. tauto.
           ++ intros C. rewrite K3, added_edges_cons. split; [intuition|]. intros [?|(? & [(_ & _ & ?)|?])]; [auto|contradiction|auto].
           ++ revert K4. destruct (decide _); simpl; lia.
        -- intros Hf. inversion Hf; contradiction.
        -- intros Hf. inversion Hf; contradiction.
        -- assumption.
    + rewrite Hn. intros Hf. inversion Hf as [|? ? [[s Hs]|[[s Hs] _]] _]; subst;
        apply verbose_types in Hs as [Hs _]; congruence.
Qed.

(** ** one rule, all rules *)
Definition rule_words (r : NonTerminalRules I) : list (list nat) := map right_side (possible_productions r).
Definition mposts (done : list (nat * list nat)) (a a' : agr) : Prop :=
  forall B d ss, a !! B = Some (d, ss) -> exists d' ss', a' !! B = Some (d', ss') /\
    (forall x, x ∈ d' <-> x ∈ d \/ exists A w, (A, w) ∈ done /\ added_chars w B x) /\
    (forall C, C ∈ ss' <-> C ∈ ss \/ exists w, (B, w) ∈ done /\ added_edges w C) /\
    length ss' <= length ss + length (concat (map snd (filter (fun p => p.1 = B) done))).
Lemma mposts_nil a : mposts [] a a.
Proof.
  intros B d ss HB. exists d, ss. split; [assumption|]. split; [|split].
  - intros x. split; [auto|]. intros [?|(A & w & Hx & _)]; [assumption|]. apply elem_of_nil in Hx. contradiction.
  - intros C. split; [auto|]. intros [?|(w & Hx & _)]; [assumption|]. apply elem_of_nil in Hx. contradiction.
  - simpl. lia.
Qed.
Lemma mposts_snoc done A w a a1 a2 : mposts done a a1 -> mpost A w a1 a2 -> mposts (done ++ [(A, w)]) a a2.
Proof.
  intros H1 H2 B d ss HB. destruct (H1 B d ss HB) as (d1 & s1 & HB1 & X1 & E1 & L1).
  destruct (H2 B d1 s1 HB1) as (d2 & s2 & HB2 & X2 & E2 & L2). exists d2, s2. split; [assumption|].
  setoid_rewrite elem_of_app. setoid_rewrite elem_of_list_singleton. split; [|split].
  - intros x. rewrite X2, X1. split.
    + intros [[?|(A' & w' & ? & ?)]|?]; [auto|right; exists A', w'; auto|right; exists A, w; auto].
    + intros [?|(A' & w' & [?|[= -> ->]] & ?)]; [auto|left; right; eauto|auto].
  - intros C. rewrite E2, E1. split.
    + intros [[?|(w' & ? & ?)]|[-> ?]]; [auto|right; exists w'; auto|right; exists w; auto].
    + intros [?|(w' & [?|[= -> ->]] & ?)]; [auto|left; right; eauto|auto].
  - rewrite filter_app, map_app, concat_app, app_length.
    rewrite filter_cons, filter_nil. simpl. destruct (decide (A = B)) as [->|Hne]; simpl.
    + rewrite decide_True in L2 by reflexivity. rewrite app_nil_r. lia.
    + rewrite decide_False in L2 by congruence. lia.
Qed.

Lemma filter_pairs_self A (ws : list (list nat)) : map snd (filter (fun p : nat * list nat => p.1 = A) (map (fun w => (A, w)) ws)) = ws.
Proof. induction ws as [|w ws IH]; simpl; [reflexivity|]. rewrite filter_cons. simpl. rewrite decide_True by reflexivity. simpl. congruence. Qed.
Lemma filter_pairs_other A B (ws : list (list nat)) : A <> B -> filter (fun p : nat * list nat => p.1 = B) (map (fun w => (A, w)) ws) = [].
Proof. intros Hne. induction ws as [|w ws IH]; simpl; [reflexivity|]. rewrite filter_cons. simpl. rewrite decide_False by assumption. assumption. Qed.

Lemma mark_prods_ok A a0 ps : forall g a chs done,
  nrel g a chs -> doms a -> has_rule pd A -> mposts done a0 a -> doms a0 ->
  (forall d ss, a0 !! A = Some (d, ss) ->
     (N.of_nat (length ss + length (concat (map snd (filter (fun p => p.1 = A) done)))
                + length (concat (map right_side ps))) < 2 ^ 64)%N) ->
  match ofold (fun g p => match p with NotEmpty prod => mark_loop m pd prod fs A g | Empty => Ok g end) g ps with
  | Ok g' => Forall (Forall good) (map right_side ps) /\ exists a' chs', nrel g' a' chs' /\ ng_names g' = ng_names g /\ doms a' /\
             mposts (done ++ map (fun w => (A, w)) (map right_side ps)) a0 a'
  | Diverge => False
  | _ => ~ Forall (Forall good) (map right_side ps)
  end.
Proof.
  induction ps as [|p ps IH]; intros g a chs done Hr Hd HA Hm Hd0 Hlen; cbn [ofold map].
  - split; [constructor|]. exists a, chs. rewrite app_nil_r. auto.
  - replace (match p with NotEmpty prod => mark_loop m pd prod fs A g | Empty => Ok g end)
      with (mark_loop m pd (right_side p) fs A g) by (destruct p; reflexivity).
    destruct (proj2 (Hd0 A) HA) as [[d0 s0] Ha0]. specialize (Hlen d0 s0 Ha0). cbn [map concat] in Hlen.
    rewrite app_length in Hlen.
    pose proof (mark_loop_ok A (right_side p) g a chs Hr Hd HA) as Hmark.
    destruct (mark_loop m pd (right_side p) fs A g) as [g1| | |]; simpl in Hmark.
    + destruct Hmark as (Hg & a1 & chs1 & Hr1 & Hn1 & Hd1 & Hp1).
      { intros d ss HAa. destruct (Hm A d0 s0 Ha0) as (d' & s' & HAa' & _ & _ & HL).
        rewrite HAa in HAa'. injection HAa' as <- <-. lia. }
      simpl. pose proof (mposts_snoc done A (right_side p) a0 a a1 Hm Hp1) as Hm1.
      specialize (IH g1 a1 chs1 _ Hr1 Hd1 HA Hm1 Hd0).
      assert (forall d ss, a0 !! A = Some (d, ss) ->
        (N.of_nat (length ss + length (concat (map snd (filter (fun p0 => p0.1 = A) (done ++ [(A, right_side p)]))))
                + length (concat (map right_side ps))) < 2 ^ 64)%N) as Hlen1.
      { intros d ss Hx. rewrite Ha0 in Hx. injection Hx as <- <-.
        rewrite filter_app, filter_cons, filter_nil, map_app, concat_app, app_length. simpl.
        rewrite decide_True by reflexivity. simpl. rewrite app_nil_r. lia. }
      specialize (IH Hlen1). rewrite <- app_assoc in IH. simpl in IH.
      destruct (ofold _ g1 ps) as [g'| | |].
      * destruct IH as (Hgs & a' & chs' & X1 & X2 & X3 & X4). split; [constructor; assumption|].
        exists a', chs'. split; [assumption|]. split; [congruence|]. auto.
      * intros Hf. apply IH. inversion Hf; assumption.
      * intros Hf. apply IH. inversion Hf; assumption.
      * assumption.
    + simpl. intros Hf. inversion Hf; subst. apply Hmark; [|assumption].
      intros d ss HAa. destruct (Hm A d0 s0 Ha0) as (d' & s' & HAa' & _ & _ & HL).
      rewrite HAa in HAa'. injection HAa' as <- <-. lia.
    + simpl. intros Hf. inversion Hf; subst. apply Hmark; [|assumption].
      intros d ss HAa. destruct (Hm A d0 s0 Ha0) as (d' & s' & HAa' & _ & _ & HL).
      rewrite HAa in HAa'. injection HAa' as <- <-. lia.
    + simpl. apply Hmark. intros d ss HAa. destruct (Hm A d0 s0 Ha0) as (d' & s' & HAa' & _ & _ & HL).
      rewrite HAa in HAa'. injection HAa' as <- <-. lia.
Qed.

Definition rule_pairs (p : nat * NonTerminalRules I) : list (nat * list nat) :=
  map (fun w => (p.1, w)) (rule_words p.2).
Lemma mark_rules_ok a0 rs : forall g a chs done,
  nrel g a chs -> doms a -> mposts done a0 a -> doms a0 ->
  (forall A r, (A, r) ∈ rs -> has_rule pd A) -> NoDup rs.*1 ->
  (forall A r d ss, (A, r) ∈ rs -> a0 !! A = Some (d, ss) -> ss = [] /\ filter (fun p => p.1 = A) done = [] /\
     (N.of_nat (length (concat (rule_words r))) < 2 ^ 64)%N) ->
  match ofold (fun g '(el, r) =>
           ofold (fun g p =>
                    match p with
                    | NotEmpty prod => mark_loop m pd prod fs el g
                    | Empty => Ok g
                    end) g (possible_productions r)) g rs with
  | Ok g' => (forall A r, (A, r) ∈ rs -> Forall (Forall good) (rule_words r)) /\
             exists a' chs', nrel g' a' chs' /\ ng_names g' = ng_names g /\ doms a' /\
             mposts (done ++ concat (map rule_pairs rs)) a0 a'
  | Diverge => False
  | _ => ~ (forall A r, (A, r) ∈ rs -> Forall (Forall good) (rule_words r))
  end.
Proof.
  induction rs as [|[A r] rs IH]; intros g a chs done Hr Hd Hm Hd0 Hrs Hnd Hlen; cbn [ofold map concat].
  - split; [intros A r Hx; apply elem_of_nil in Hx; contradiction|]. exists a, chs. rewrite app_nil_r. auto.
  - pose proof (mark_prods_ok A a0 (possible_productions r) g a chs done Hr Hd (Hrs A r (elem_of_list_here _ _)) Hm Hd0) as Hp.
    assert (forall d ss, a0 !! A = Some (d, ss) ->
     (N.of_nat (length ss + length (concat (map snd (filter (fun p => p.1 = A) done)))
                + length (concat (map right_side (possible_productions r)))) < 2 ^ 64)%N) as Hb.
    { intros d ss Hx. destruct (Hlen A r d ss (elem_of_list_here _ _) Hx) as (-> & -> & Hlt). exact Hlt. }
    specialize (Hp Hb). destruct (ofold _ g (possible_productions r)) as [g1| | |]; cbn [obind].
    + destruct Hp as (Hg & a1 & chs1 & Hr1 & Hn1 & Hd1 & Hm1).
      specialize (IH g1 a1 chs1 (done ++ map (fun w => (A, w)) (rule_words r)) Hr1 Hd1 Hm1 Hd0).
      assert (forall A r, (A, r) ∈ rs -> has_rule pd A) as X1 by (intros B r' Hx; eapply Hrs; right; exact Hx).
      specialize (IH X1 (proj2 (proj1 (NoDup_cons _ _) Hnd))).
      assert (forall B r' d ss, (B, r') ∈ rs -> a0 !! B = Some (d, ss) -> ss = [] /\
        filter (fun p => p.1 = B) (done ++ map (fun w => (A, w)) (rule_words r)) = [] /\
        (N.of_nat (length (concat (rule_words r'))) < 2 ^ 64)%N) as X2.
      { intros B r' d ss HB Hx. destruct (Hlen B r' d ss (elem_of_list_further _ _ _ HB) Hx) as (E1 & E2 & E3).
        split; [assumption|]. split; [|assumption]. rewrite filter_app, E2. simpl. apply filter_pairs_other.
        intros ->. apply NoDup_cons in Hnd as [Hnd _]. apply Hnd. simpl. apply elem_of_list_fmap. exists (B, r'). auto. }
      specialize (IH X2). rewrite <- app_assoc in IH. 
      change (map (fun w => (A, w)) (rule_words r) ++ concat (map rule_pairs rs)) with (concat (map rule_pairs ((A, r) :: rs))) in IH.
      destruct (ofold _ g1 rs) as [g'| | |].
      * destruct IH as (Hgs & a' & chs' & Y1 & Y2 & Y3 & Y4). split.
        -- intros B r' HB. apply elem_of_cons in HB as [[= -> ->]|HB]; [assumption|eauto].
        -- exists a', chs'. split; [assumption|]. split; [congruence|]. auto.
      * intros Hf. apply IH. intros B r' HB. eapply Hf. right. exact HB.
      * intros Hf. apply IH. intros B r' HB. eapply Hf. right. exact HB.
      * assumption.
    + intros Hf. apply Hp. apply (Hf A r). left.
    + intros Hf. apply Hp. apply (Hf A r). left.
    + assumption.
Qed.

Lemma rule_keys_fst site : (ho_iter site (map_to_list (pd_rules pd))).*1 ≡ₚ (map_to_list (pd_rules pd)).*1.
Proof. rewrite (ho_perm site _ _). reflexivity. Qed.

(** all rules: the graph after marking *)
Definition marked (a0 a' : agr) : Prop := mposts (concat (map rule_pairs (ho_iter [5] (map_to_list (pd_rules pd))))) a0 a'.
Lemma pairs_elem A w : (A, w) ∈ concat (map rule_pairs (ho_iter [5] (map_to_list (pd_rules pd)))) <-> alternative pd A w.
Proof.
  rewrite elem_of_concat. split.
  - intros (x & Hin & Hx). apply elem_of_list_fmap in Hx as ([B r] & -> & Hx). unfold rule_pairs in Hin. simpl in Hin.
    apply elem_of_list_fmap in Hin as (w' & [= -> ->] & Hw). apply elem_of_list_fmap in Hw as (p & -> & Hp).
    rewrite (ho_perm [5] _ _) in Hx. apply elem_of_map_to_list in Hx. exists r, p. auto.
  - intros (r & p & Hr & Hp & ->). exists (rule_pairs (A, r)). split.
    + unfold rule_pairs. simpl. apply elem_of_list_fmap. exists (right_side p). split; [reflexivity|].
      apply elem_of_list_fmap. eauto.
    + apply elem_of_list_fmap. exists (A, r). split; [reflexivity|]. rewrite (ho_perm [5] _ _). apply elem_of_map_to_list. assumption.
Qed.
Lemma mark_all_ok g a chs : fits_memory pd -> nrel g a chs -> doms a -> (forall A d ss, a !! A = Some (d, ss) -> ss = []) ->
  match mark_all m pd fs g with
  | Ok g' => (forall A w e, alternative pd A w -> e ∈ w -> good e) /\
             exists a' chs', nrel g' a' chs' /\ ng_names g' = ng_names g /\ doms a' /\ marked a a'
  | Diverge => False
  | _ => ~ (forall A w e, alternative pd A w -> e ∈ w -> good e)
  end.
Proof.
  intros [_ Hfit] Hr Hd He. unfold mark_all.
  assert (forall A r, (A, r) ∈ ho_iter [5] (map_to_list (pd_rules pd)) <-> pd_rules pd !! A = Some r) as Hin.
  { intros A r. rewrite (ho_perm [5] _ _). apply elem_of_map_to_list. }
  assert ((forall A r, (A, r) ∈ ho_iter [5] (map_to_list (pd_rules pd)) -> Forall (Forall good) (rule_words r)) <->
          (forall A w e, alternative pd A w -> e ∈ w -> good e)) as Hiff.
  { split.
    - intros Hall A w e (r & p & HA & Hp & ->) Hew. specialize (Hall A r (proj2 (Hin A r) HA)).
      rewrite Forall_forall in Hall. specialize (Hall (right_side p)). rewrite Forall_forall in Hall. apply Hall; [|assumption].
      apply elem_of_list_fmap. eauto.
    - intros Hall A r HA. apply Hin in HA. apply Forall_forall. intros w Hw. apply Forall_forall. intros e Hew.
      apply elem_of_list_fmap in Hw as (p & -> & Hp). apply (Hall A (right_side p)); [|assumption]. exists r, p. auto. }
  pose proof (mark_rules_ok a (ho_iter [5] (map_to_list (pd_rules pd))) g a chs [] Hr Hd (mposts_nil a) Hd) as Hm.
  assert (forall A r, (A, r) ∈ ho_iter [5] (map_to_list (pd_rules pd)) -> has_rule pd A) as X1
    by (intros A r HA; eexists; apply Hin; exact HA).
  specialize (Hm X1). assert (NoDup (ho_iter [5] (map_to_list (pd_rules pd))).*1) as X2.
  { rewrite rule_keys_fst. apply NoDup_fst_map_to_list. }
  specialize (Hm X2). cbn [app] in Hm.
  assert (forall (A : nat) (r : NonTerminalRules I) (d : gset SetMember) (ss : list nat),
     (A, r) ∈ ho_iter [5] (map_to_list (pd_rules pd)) -> a !! A = Some (d, ss) ->
     ss = [] /\ filter (fun p : nat * list nat => p.1 = A) [] = [] /\
     (N.of_nat (length (concat (rule_words r))) < 2 ^ 64)%N) as X3.
  { intros A r d ss HA Hx. apply Hin in HA. split; [eapply He; eauto|]. split; [reflexivity|]. apply (Hfit A r HA). }
  specialize (Hm X3). destruct (ofold _ g _); [|rewrite <- Hiff; exact Hm..|exact Hm].
  rewrite <- Hiff. exact Hm.
Qed.
End fs.

(** ** the number of nodes *)
Lemma add_edge_len (g g' : FGraph) x y : named_add_edge m g x y = Ok g' ->
  length (gr_nodes (ng_graph g')) = length (gr_nodes (ng_graph g)).
Proof.
  unfold named_add_edge, get_index_of_node. destruct (ng_names g !! x) as [n|]; [|discriminate]. simpl.
  destruct (ng_names g !! y); [|discriminate]. simpl. unfold graph_add_edge.
  destruct (gr_nodes (ng_graph g) !! n) as [n1|] eqn:En; [|discriminate]. simpl.
  destruct (match nd_first n1 with Some _ => _ | None => _ end); simpl; try discriminate.
  intros [= <-]. simpl. unfold set_first_edge. rewrite En, insert_length. reflexivity.
Qed.
Lemma modify_len (g g' : FGraph) x f : modify_node g x f = Ok g' ->
  length (gr_nodes (ng_graph g')) = length (gr_nodes (ng_graph g)).
Proof.
  unfold modify_node, get_index_of_node. destruct (ng_names g !! x) as [n|]; [|discriminate]. simpl.
  destruct (gr_nodes (ng_graph g) !! n) eqn:En; [|discriminate]. intros [= <-].
  unfold update_node_data. rewrite En. simpl. apply insert_length.
Qed.
Lemma mark_loop_len fs w A : forall g g', mark_loop m pd w fs A g = Ok g' ->
  length (gr_nodes (ng_graph g')) = length (gr_nodes (ng_graph g)).
Proof.
  induction w as [|el rest IH]; intros g g' Hm; cbn [mark_loop] in Hm; [congruence|].
  destruct (get_element pd el) as [[? [|]]|]; [eauto| |discriminate].
  match type of Hm with obind ?x _ = _ => destruct x as [[b g1]| | |] eqn:E1 end; cbn [obind] in Hm; try discriminate.
  assert (length (gr_nodes (ng_graph g1)) = length (gr_nodes (ng_graph g))) as H1.
  { destruct rest; [congruence|]. destruct (first_set_of_partial pd _ fs); cbn [obind] in E1; try discriminate.
    match type of E1 with obind ?x _ = _ => destruct x end; cbn [obind] in E1; try discriminate.
    match type of E1 with obind ?x _ = _ => destruct x eqn:E2 end; cbn [obind] in E1; try discriminate.
    injection E1 as _ <-. eapply modify_len; eauto. }
  destruct b.
  - destruct (named_add_edge m g1 A el) as [g2| | |] eqn:E2; cbn [obind] in Hm; try discriminate.
    rewrite (IH _ _ Hm), (add_edge_len _ _ _ _ E2). assumption.
  - cbn [obind] in Hm. rewrite (IH _ _ Hm). assumption.
Qed.
Lemma ofold_len {A} (f : FGraph -> A -> res FGraph) l :
  (forall g x g', f g x = Ok g' -> length (gr_nodes (ng_graph g')) = length (gr_nodes (ng_graph g))) ->
  forall g g', ofold f g l = Ok g' -> length (gr_nodes (ng_graph g')) = length (gr_nodes (ng_graph g)).
Proof.
  intros Hf. induction l as [|x l IH]; intros g g' Hl; cbn [ofold] in Hl; [congruence|].
  destruct (f g x) as [g1| | |] eqn:E; cbn [obind] in Hl; try discriminate. rewrite (IH _ _ Hl). eauto.
Qed.
Lemma mark_all_len fs g : forall g', mark_all m pd fs g = Ok g' ->
  length (gr_nodes (ng_graph g')) = length (gr_nodes (ng_graph g)).
Proof.
  intros g'. unfold mark_all. apply ofold_len. intros g1 [A r] g2. apply ofold_len.
  intros g3 p g4. destruct p; [apply mark_loop_len|congruence].
Qed.

(** ** the initial graph *)
Lemma make_graph_ok : exists g a chs, make_graph_with_index pd = Ok g /\ nrel g a chs /\ doms a /\
  (forall A d ss, a !! A = Some (d, ss) -> d = ∅ /\ ss = []) /\
  length (gr_nodes (ng_graph g)) = size (pd_rules pd).
Proof.
  unfold make_graph_with_index.
  set (keys := ho_iter [4] (map_to_list (pd_rules pd)).*1).
  assert (keys ≡ₚ (map_to_list (pd_rules pd)).*1) as Hperm by apply ho_perm.
  assert (forall l done g a chs, nrel g a chs -> (forall A, is_Some (a !! A) <-> A ∈ done) -> NoDup (done ++ l) ->
    (forall A d ss, a !! A = Some (d, ss) -> d = ∅ /\ ss = []) -> length (gr_nodes (ng_graph g)) = length done ->
    exists g' a' chs', ofold (fun (g : FGraph) name => let* '(_i, g') := named_add_node name ∅ g in (Ok g' : res FGraph)) g l = Ok g' /\
      nrel g' a' chs' /\ (forall A, is_Some (a' !! A) <-> A ∈ done ++ l) /\
      (forall A d ss, a' !! A = Some (d, ss) -> d = ∅ /\ ss = []) /\
      length (gr_nodes (ng_graph g')) = length (done ++ l)) as Hgen.
  { induction l as [|x l IH]; intros done g a chs Hr Hd Hnd He Hlen; simpl.
    - rewrite app_nil_r. eauto 10.
    - assert (a !! x = None) as Hx.
      { destruct (a !! x) eqn:E; [|reflexivity]. exfalso. apply NoDup_app in Hnd as (_ & Hnd & _).
        apply (Hnd x); [apply Hd; rewrite E; eauto|left]. }
      destruct (nrel_add_node g a chs x ∅ Hr Hx) as (g1 & Hg1 & Hr1 & Hn1). rewrite Hg1. cbn [obind].
      destruct (IH (done ++ [x]) g1 _ _ Hr1) as (g' & a' & chs' & Y1 & Y2 & Y3 & Y4 & Y5).
      + intros A. destruct (decide (x = A)) as [<-|Hne].
        * rewrite lookup_insert, elem_of_app, elem_of_list_singleton. split; eauto.
        * rewrite lookup_insert_ne by assumption. rewrite Hd, elem_of_app, elem_of_list_singleton.
          split; [auto|]. intros [?|?]; [assumption|congruence].
      + rewrite <- app_assoc. assumption.
      + intros A d ss HA. apply lookup_insert_Some in HA as [[<- [= <- <-]]|[_ HA]]; eauto.
      + unfold named_add_node in Hg1. rewrite (nrel_none _ _ _ _ Hr Hx) in Hg1. simpl in Hg1. injection Hg1 as <-.
        simpl. rewrite !app_length. simpl. lia.
      + rewrite <- app_assoc in *. simpl in *. eauto 10. }
  destruct (Hgen keys [] named_new ∅ [] nrel_new) as (g & a & chs & Y1 & Y2 & Y3 & Y4 & Y5).
  - intros A. rewrite lookup_empty. split; [intros [? ?]; discriminate|]. intros Hx. apply elem_of_nil in Hx. contradiction.
  - simpl. rewrite Hperm. apply NoDup_fst_map_to_list.
  - intros A d ss HA. rewrite lookup_empty in HA. discriminate.
  - reflexivity.
  - exists g, a, chs. split; [assumption|]. split; [assumption|]. split; [|split; [assumption|]].
    + intros A. rewrite Y3. simpl. apply rule_keys_elem.
    + rewrite Y5. simpl. rewrite Hperm, fmap_length. unfold size, map_size. reflexivity.
Qed.

(** ** propagation *)
Section prop.
Context (start : nat).
(** the state of the loop: a sound graph with fixed names and edges *)
Record pinv (g : FGraph) (a : agr) chs : Prop := {
  pi_rel : nrel g a chs;
  pi_dom : doms a;
  pi_len : (N.of_nat (length (gr_nodes (ng_graph g))) <= 2 ^ 64)%N;
  pi_edges : forall A d ss B, a !! A = Some (d, ss) -> B ∈ ss -> has_rule pd B;
}.
Definition same_edges (a a' : agr) : Prop :=
  forall A d ss, a !! A = Some (d, ss) -> exists d', a' !! A = Some (d', ss) /\ d ⊆ d'.
Lemma same_edges_refl a : same_edges a a.
Proof. intros A d ss HA. exists d. split; [assumption|reflexivity]. Qed.
Lemma same_edges_trans a b c : same_edges a b -> same_edges b c -> same_edges a c.
Proof.
  intros H1 H2 A d ss HA. destruct (H1 A d ss HA) as (d1 & HA1 & Hs1). destruct (H2 A d1 ss HA1) as (d2 & HA2 & Hs2).
  exists d2. split; [assumption|]. etransitivity; eassumption.
Qed.

(** entries of the list of missing members *)
Definition entry_of (g : FGraph) (a : agr) (p : nat * gset SetMember) : Prop :=
  exists A d ss B dB sB, a !! A = Some (d, ss) /\ B ∈ ss /\ a !! B = Some (dB, sB) /\
    ng_names g !! B = Some p.1 /\ ~ d ⊆ dB /\ p.2 = d ∖ dB.

Lemma node_data (g : FGraph) (a : agr) chs B dB sB i n : nrel g a chs -> a !! B = Some (dB, sB) -> ng_names g !! B = Some i ->
  gr_nodes (ng_graph g) !! i = Some n -> nd_data n = dB.
Proof.
  intros Hr Ha Hi Hn. destruct (nr_rep _ _ _ Hr _ _ _ _ Hi Ha) as (n' & ch & Hn' & Hd & _). congruence.
Qed.

Lemma missing_ok g a chs : pinv g a chs -> exists l, missing_of_all m g = Ok l /\
  (forall p, p ∈ l -> entry_of g a p) /\
  (forall A d ss B dB sB i, a !! A = Some (d, ss) -> B ∈ ss -> a !! B = Some (dB, sB) -> ng_names g !! B = Some i ->
     ~ d ⊆ dB -> (i, d ∖ dB) ∈ l).
Proof.
  intros Hp. pose proof (pi_rel _ _ _ Hp) as Hr. unfold missing_of_all.
  assert (forall x i, (x, i) ∈ ho_iter [6] (map_to_list (ng_names g)) <-> ng_names g !! x = Some i) as Hin.
  { intros x i. rewrite (ho_perm [6] _ _). apply elem_of_map_to_list. }
  destruct (ofold_ok (fun (acc : list (nat * gset SetMember)) '((name, ix) : nat * nat) =>
           let* node := get_node_by_index m g ix in
           let* succs := named_successors g name in
           Ok (acc ++ collect_missing g node succs))
     (fun (done : list (nat * nat)) acc => forall p, p ∈ acc <-> exists A i d ss B dB sB, (A, i) ∈ done /\ a !! A = Some (d, ss) /\ B ∈ ss /\ a !! B = Some (dB, sB) /\
         ng_names g !! B = Some p.1 /\ ~ d ⊆ dB /\ p.2 = d ∖ dB)
     (ho_iter [6] (map_to_list (ng_names g))) []) as (l & Hl & Hspec).
  - intros p. split; [intros Hx; apply elem_of_nil in Hx; contradiction|].
    intros (A & i & d & ss & B & dB & sB & Hx & _). apply elem_of_nil in Hx. contradiction.
  - intros done [A i] acc Hacc HA. apply Hin in HA.
    destruct (proj1 (nr_dom _ _ _ Hr A)) as [[d ss] Ha]; [eauto|].
    destruct (nr_rep _ _ _ Hr _ _ _ _ HA Ha) as (n & ch & Hn & Hnd & _).
    rewrite (get_by_index_ok m g i n Hn (pi_len _ _ _ Hp)). cbn [obind].
    destruct (nrel_successors g a chs A i d ss Hr Ha HA) as (succ & -> & Hsucc). cbn [obind].
    eexists. split; [reflexivity|]. intros p. rewrite elem_of_app, Hacc.
    assert (p ∈ collect_missing g n succ <-> exists B dB sB, B ∈ ss /\ a !! B = Some (dB, sB) /\
              ng_names g !! B = Some p.1 /\ ~ d ⊆ dB /\ p.2 = d ∖ dB) as Hc.
    { unfold collect_missing. rewrite flat_map_concat_map. rewrite elem_of_concat. split.
      - intros (x & Hpx & Hx). apply elem_of_list_fmap in Hx as ([si sn] & -> & Hsn).
        apply elem_of_list_lookup in Hsn as [k Hk]. destruct (Forall2_lookup_r _ _ _ _ _ Hsucc Hk) as (B & HB & HB1 & HB2).
        simpl in *. destruct (proj1 (nr_dom _ _ _ Hr B)) as [[dB sB] HaB]; [eauto|].
        pose proof (node_data g a chs B dB sB si sn Hr HaB HB1 HB2) as Hsd. rewrite Hsd, Hnd in Hpx.
        destruct (decide (d ⊆ dB)) as [|Hns]; [apply elem_of_nil in Hpx; contradiction|].
        apply elem_of_list_singleton in Hpx. subst p. exists B, dB, sB. simpl. split; [eapply elem_of_list_lookup_2; eauto|]. auto.
      - intros (B & dB & sB & HB & HaB & Hi & Hns & Hp2). apply elem_of_list_lookup in HB as [k Hk].
        destruct (Forall2_lookup_l _ _ _ _ _ Hsucc Hk) as ([si sn] & Hsn & HB1 & HB2). simpl in *.
        pose proof (node_data g a chs B dB sB si sn Hr HaB HB1 HB2) as Hsd.
        eexists. split; [|apply elem_of_list_fmap; exists (si, sn); split; [reflexivity|eapply elem_of_list_lookup_2; eauto]].
        simpl. rewrite Hsd, Hnd. destruct (decide (d ⊆ dB)); [contradiction|]. apply elem_of_list_singleton.
        destruct p as [p1 p2]. simpl in *. congruence. }
    rewrite Hc. setoid_rewrite elem_of_app. setoid_rewrite elem_of_list_singleton. split.
    + intros [(A' & i' & d' & ss' & B & dB & sB & Hd & Hrest)|(B & dB & sB & Hrest)].
      * exists A', i', d', ss', B, dB, sB. auto.
      * exists A, i, d, ss, B, dB, sB. auto.
    + intros (A' & i' & d' & ss' & B & dB & sB & [Hd|[= -> ->]] & Ha' & Hrest).
      * left. exists A', i', d', ss', B, dB, sB. auto.
      * right. rewrite Ha in Ha'. injection Ha' as <- <-. exists B, dB, sB. auto.
  - exists l. split; [exact Hl|]. split.
    + intros p Hpl. apply Hspec in Hpl as (A & i & d & ss & B & dB & sB & _ & Hrest). exists A, d, ss, B, dB, sB. auto.
    + intros A d ss B dB sB i Ha HB HaB Hi Hns. apply Hspec.
      destruct (nrel_some _ _ _ _ _ _ Hr Ha) as [j Hj]. exists A, j, d, ss, B, dB, sB.
      split; [apply Hin; assumption|]. simpl. auto 10.
Qed.

Definition grown (g : FGraph) (done : list (nat * gset SetMember)) (a a' : agr) : Prop :=
  forall A d ss, a !! A = Some (d, ss) -> exists d', a' !! A = Some (d', ss) /\
    forall x, x ∈ d' <-> x ∈ d \/ exists i e, (i, e) ∈ done /\ ng_names g !! A = Some i /\ x ∈ e.

Lemma apply_ok g a chs l : pinv g a chs -> (forall p, p ∈ l -> entry_of g a p) ->
  exists g' a', apply_missing m g l = Ok g' /\ pinv g' a' chs /\ ng_names g' = ng_names g /\ grown g l a a'.
Proof.
  intros Hp Hl. unfold apply_missing.
  destruct (ofold_ok (fun g '((ix, extra) : nat * gset SetMember) => modify_node_by_index m g ix (fun d : gset SetMember => extra ∪ d))
    (fun done g' => exists a', pinv g' a' chs /\ ng_names g' = ng_names g /\ grown g done a a')
    l g) as (g' & Hg' & a' & H1 & H2 & H3).
  - exists a. split; [assumption|]. split; [reflexivity|]. intros A d ss HA. exists d. split; [assumption|].
    intros x. split; [auto|]. intros [?|(i & e & Hx & _)]; [assumption|]. apply elem_of_nil in Hx. contradiction.
  - intros done [ix extra] g1 (a1 & Hp1 & Hn1 & Hg1) Hx. destruct (Hl _ Hx) as (A & d & ss & B & dB & sB & HA & HB & HaB & Hi & Hns & _).
    simpl in Hi. destruct (Hg1 B dB sB HaB) as (dB1 & HaB1 & _). pose proof (pi_rel _ _ _ Hp1) as Hr1.
    rewrite <- Hn1 in Hi. destruct (nr_rep _ _ _ Hr1 _ _ _ _ Hi HaB1) as (n & ch & Hn & _).
    unfold modify_node_by_index. rewrite (get_by_index_ok m g1 ix n Hn (pi_len _ _ _ Hp1)). cbn [obind].
    destruct (nrel_modify g1 a1 chs B (fun d : gset SetMember => extra ∪ d) dB1 sB Hr1 HaB1) as (g2 & Hm2 & Hr2 & Hn2 & Hu2).
    rewrite <- (Hu2 ix Hi). eexists. split; [reflexivity|]. exists (<[B := (extra ∪ dB1, sB)]> a1).
    assert (has_rule pd B) as HrB by (apply (pi_dom _ _ _ Hp1); rewrite HaB1; eauto).
    split; [|split; [congruence|]].
    + split.
      * assumption.
      * apply doms_insert; [apply Hp1|assumption].
      * rewrite (Hu2 ix Hi). unfold update_node_data. rewrite Hn. simpl. rewrite insert_length. apply Hp1.
      * intros A' d' ss' B' HA' HB'. apply lookup_insert_Some in HA' as [[<- [= <- <-]]|[_ HA']];
          eapply (pi_edges _ _ _ Hp1); eauto.
    + intros A' d' ss' HA'. destruct (Hg1 A' d' ss' HA') as (d1 & HA1 & Hx1).
      setoid_rewrite elem_of_app. setoid_rewrite elem_of_list_singleton.
      destruct (decide (B = A')) as [<-|Hne].
      * rewrite HaB1 in HA1. injection HA1 as <- <-. rewrite lookup_insert. eexists. split; [reflexivity|].
        intros x. rewrite elem_of_union, Hx1. split.
        -- intros [Hx'|[?|(i & e & ? & ? & ?)]]; [right; exists ix, extra|auto|right; exists i, e; auto].
           split; [auto|]. split; [congruence|assumption].
        -- intros [?|(i & e & [?|[= -> ->]] & ? & ?)]; [auto|right; right; eauto|auto].
      * rewrite lookup_insert_ne by assumption. exists d1. split; [assumption|]. intros x. rewrite Hx1. split.
        -- intros [?|(i & e & ? & ? & ?)]; [auto|right; exists i, e; auto].
        -- intros [?|(i & e & [?|[= -> ->]] & Hi' & ?)]; [auto|right; eauto|].
           exfalso. apply Hne. eapply (nr_inj _ _ _ Hr1); [exact Hi|]. congruence.
  - eauto 10.
Qed.

(** soundness, completeness of a state *)
Definition sound (a : agr) : Prop := forall A d ss x, a !! A = Some (d, ss) -> x ∈ d -> fol start A x.
Definition edges_sound (a : agr) : Prop := forall A d ss B, a !! A = Some (d, ss) -> B ∈ ss ->
  exists u v, alternative pd A (u ++ B :: v) /\ nuls v.
Definition settled (a : agr) : Prop := forall A d ss B dB sB, a !! A = Some (d, ss) -> B ∈ ss -> a !! B = Some (dB, sB) -> d ⊆ dB.

(** members still to be added *)
Definition data_of (a : agr) (A : nat) : gset SetMember := match a !! A with Some (d, _) => d | None => ∅ end.
Definition room (U : gset SetMember) (a : agr) : nat :=
  sum_list (map (fun A => size (U ∖ data_of a A)) (map_to_list (pd_rules pd)).*1).

Lemma sum_list_le {A} (f g : A -> nat) l : (forall x, x ∈ l -> f x <= g x) -> sum_list (map f l) <= sum_list (map g l).
Proof.
  induction l as [|x l IH]; intros Hl; simpl; [lia|].
  pose proof (Hl x (elem_of_list_here _ _)). specialize (IH (fun y Hy => Hl y (elem_of_list_further _ _ _ Hy))). lia.
Qed.
Lemma sum_list_lt {A} (f g : A -> nat) l y : (forall x, x ∈ l -> f x <= g x) -> y ∈ l -> f y < g y -> sum_list (map f l) < sum_list (map g l).
Proof.
  induction l as [|x l IH]; intros Hl Hy Hlt; simpl; [apply elem_of_nil in Hy; contradiction|].
  pose proof (Hl x (elem_of_list_here _ _)) as Hx.
  pose proof (sum_list_le f g l (fun y Hy => Hl y (elem_of_list_further _ _ _ Hy))) as Hle.
  apply elem_of_cons in Hy as [->|Hy]; [lia|].
  specialize (IH (fun y Hy => Hl y (elem_of_list_further _ _ _ Hy)) Hy Hlt). lia.
Qed.
Lemma sum_list_bound {A} (f : A -> nat) l b : (forall x, x ∈ l -> f x <= b) -> sum_list (map f l) <= length l * b.
Proof.
  induction l as [|x l IH]; intros Hl; simpl; [lia|].
  pose proof (Hl x (elem_of_list_here _ _)). specialize (IH (fun y Hy => Hl y (elem_of_list_further _ _ _ Hy))). lia.
Qed.
Lemma room_bound U a : room U a <= size (pd_rules pd) * size U.
Proof.
  unfold room. etransitivity; [apply (sum_list_bound _ _ (size U))|].
  - intros A _. apply subseteq_size. apply subseteq_difference_l. reflexivity.
  - rewrite fmap_length. unfold size, map_size. lia.
Qed.

Lemma grown_same g l a a' : grown g l a a' -> same_edges a a'.
Proof.
  intros Hg A d ss HA. destruct (Hg A d ss HA) as (d' & HA' & Hx). exists d'. split; [assumption|].
  intros x Hxd. apply Hx. auto.
Qed.
Lemma grown_sound g a chs l a' : pinv g a chs -> sound a -> edges_sound a -> (forall p, p ∈ l -> entry_of g a p) ->
  grown g l a a' -> pinv g a chs -> doms a' -> sound a'.
Proof.
  intros Hp Hs He Hl Hg _ Hd' A d ss x HA Hx.
  assert (is_Some (a !! A)) as [[d0 s0] HA0]. { apply (pi_dom _ _ _ Hp). apply Hd'. rewrite HA. eauto. }
  destruct (Hg A d0 s0 HA0) as (d' & HA' & Hxx). rewrite HA in HA'. injection HA' as <- ->.
  apply Hxx in Hx. destruct Hx as [Hx1|(i & e & Hin & Hi & Hx)]; [eapply Hs; eauto|].
  destruct (Hl _ Hin) as (B & dB & sB & C & dC & sC & HB & HC & HaC & HiC & _ & He'). simpl in *. subst e.
  assert (C = A) as -> by (eapply (nr_inj _ _ _ (pi_rel _ _ _ Hp)); eauto).
  destruct (He B dB sB A HB HC) as (u & v & Halt & Hn). apply elem_of_difference in Hx as [Hx _].
  eapply fol_prop; [exact Halt|exact Hn|]. eapply Hs; eauto.
Qed.
Lemma edges_sound_same a a' : doms a -> doms a' -> same_edges a a' -> edges_sound a -> edges_sound a'.
Proof.
  intros Hd Hd' Hs He A d ss B HA HB. assert (is_Some (a !! A)) as [[d0 s0] HA0]. { apply Hd, Hd'. rewrite HA. eauto. }
  destruct (Hs A d0 s0 HA0) as (d' & HA' & _). rewrite HA in HA'. injection HA' as <- ->. eapply He; eauto.
Qed.

(** a round with something missing makes room smaller *)
Lemma room_round U g a chs l a' : (forall A x, has_rule pd A -> fol start A x -> x ∈ U) ->
  pinv g a chs -> sound a -> (forall p, p ∈ l -> entry_of g a p) -> l <> [] -> grown g l a a' -> room U a' < room U a.
Proof.
  intros HU Hp Hs Hl Hne Hg. destruct l as [|p l]; [congruence|].
  destruct (Hl p (elem_of_list_here _ _)) as (A & d & ss & B & dB & sB & HA & HB & HaB & Hi & Hns & Hp2).
  assert (forall C, data_of a C ⊆ data_of a' C) as Hmono.
  { intros C x. unfold data_of. destruct (a !! C) as [[dC sC]|] eqn:E; [|intros Hx; apply not_elem_of_empty in Hx; contradiction].
    destruct (Hg C dC sC E) as (d' & -> & Hx). rewrite Hx. auto. }
  apply (sum_list_lt _ _ _ B).
  - intros C _. apply subseteq_size. specialize (Hmono C). clear -Hmono. set_solver.
  - assert (has_rule pd B) as [r Hr] by (apply (pi_dom _ _ _ Hp); rewrite HaB; eauto).
    apply elem_of_list_fmap. exists (B, r). split; [reflexivity|]. apply elem_of_map_to_list. assumption.
  - apply subset_size.
    assert (exists x, x ∈ d /\ x ∉ dB) as (x & Hxd & HxB).
    { clear -Hns. destruct (set_choose_or_empty (d ∖ dB)) as [[x Hx]|Hx].
      - exists x. apply elem_of_difference in Hx. assumption.
      - exfalso. apply Hns. intros x Hx'. destruct (decide (x ∈ dB)) as [|Hn]; [assumption|].
        exfalso. apply (not_elem_of_empty (C := gset SetMember) x). rewrite <- Hx. apply elem_of_difference. auto. }
    assert (x ∈ U) as HxU. { apply (HU A); [apply (pi_dom _ _ _ Hp); rewrite HA; eauto|]. eapply Hs; eauto. }
    assert (x ∈ data_of a' B) as Hx'.
    { unfold data_of. destruct (Hg B dB sB HaB) as (d' & -> & Hx). apply Hx. right. exists p.1, p.2.
      split; [destruct p; left|]. split; [assumption|]. rewrite Hp2. apply elem_of_difference. auto. }
    assert (x ∉ data_of a B) as Hx0 by (unfold data_of; rewrite HaB; assumption).
    specialize (Hmono B). clear -HxU Hx' Hx0 Hmono. set_solver.
Qed.

Lemma propagate_ok fuel : forall g a chs, pinv g a chs -> sound a -> edges_sound a ->
  match propagate m fuel g with
  | Ok g' => exists a', pinv g' a' chs /\ sound a' /\ same_edges a a' /\ settled a' /\ ng_names g' = ng_names g
  | Diverge => forall U, (forall A x, has_rule pd A -> fol start A x -> x ∈ U) -> fuel <= room U a
  | _ => False
  end.
Proof.
  induction fuel as [|fuel IH]; intros g a chs Hp Hs He; cbn [propagate]; [intros; lia|].
  destruct (missing_ok g a chs Hp) as (l & -> & Hl & Hall). cbn [obind].
  destruct l as [|p l].
  - exists a. split; [assumption|]. split; [assumption|]. split; [apply same_edges_refl|]. split; [|reflexivity].
    intros A d ss B dB sB HA HB HaB. destruct (decide (d ⊆ dB)) as [|Hns]; [assumption|].
    destruct (nrel_some _ _ _ _ _ _ (pi_rel _ _ _ Hp) HaB) as [i Hi].
    specialize (Hall A d ss B dB sB i HA HB HaB Hi Hns). apply elem_of_nil in Hall. contradiction.
  - destruct (apply_ok g a chs (p :: l) Hp Hl) as (g1 & a1 & Hg1 & Hp1 & Hn1 & Hgr). rewrite Hg1. cbn [obind].
    pose proof (grown_same _ _ _ _ Hgr) as Hsame.
    assert (sound a1) as Hs1 by (eapply (grown_sound g a chs (p :: l)); eauto; apply Hp1).
    assert (edges_sound a1) as He1 by (eapply (edges_sound_same a); eauto; [apply Hp|apply Hp1]).
    specialize (IH g1 a1 chs Hp1 Hs1 He1). destruct (propagate m fuel g1) as [g'| | |]; try contradiction.
    + destruct IH as (a' & X1 & X2 & X3 & X4 & X5). exists a'. split; [assumption|]. split; [assumption|].
      split; [eapply same_edges_trans; eauto|]. split; [assumption|congruence].
    + intros U HU. specialize (IH U HU).
      pose proof (room_round U g a chs (p :: l) a1 HU Hp Hs Hl ltac:(discriminate) Hgr). lia.
Qed.

(** ** the result *)
Lemma collect_sets_ok g a chs : pinv g a chs -> exists sets,
  ofold (fun sets '((name, ix) : nat * nat) =>
           let* node := get_node_by_index m g ix in
           Ok (<[name := nd_data node]> sets)) (∅ : NamedSetsNoEmpty) (ho_iter [7] (map_to_list (ng_names g))) = Ok (E := GrammarError) sets /\
  forall A s, sets !! A = Some s <-> exists ss, a !! A = Some (s, ss).
Proof.
  intros Hp. pose proof (pi_rel _ _ _ Hp) as Hr.
  assert (forall x i, (x, i) ∈ ho_iter [7] (map_to_list (ng_names g)) <-> ng_names g !! x = Some i) as Hin.
  { intros x i. rewrite (ho_perm [7] _ _). apply elem_of_map_to_list. }
  destruct (ofold_ok (fun (sets : NamedSetsNoEmpty) '((name, ix) : nat * nat) =>
           let* node := get_node_by_index m g ix in
           Ok (<[name := nd_data node]> sets))
     (fun (done : list (nat * nat)) (sets : NamedSetsNoEmpty) => forall A s, sets !! A = Some s <-> exists i ss, (A, i) ∈ done /\ a !! A = Some (s, ss))
     (ho_iter [7] (map_to_list (ng_names g))) ∅) as (sets & Hsets & Hspec).
  - intros A s. split; [intros Hx; apply lookup_empty_Some in Hx; contradiction|].
    intros (i & ss & Hx & _). apply elem_of_nil in Hx. contradiction.
  - intros done [A i] sets Hsp HA. apply Hin in HA.
    destruct (proj1 (nr_dom _ _ _ Hr A)) as [[d ss] Ha]; [eauto|].
    destruct (nr_rep _ _ _ Hr _ _ _ _ HA Ha) as (n & ch & Hn & Hnd & _).
    rewrite (get_by_index_ok m g i n Hn (pi_len _ _ _ Hp)). cbn [obind].
    eexists. split; [reflexivity|]. intros B s. setoid_rewrite elem_of_app. setoid_rewrite elem_of_list_singleton.
    split.
    + intros Hx. apply lookup_insert_Some in Hx as [[<- <-]|[Hne Hx]].
      * exists i, ss. split; [auto|]. congruence.
      * apply Hsp in Hx as (j & ss' & Hj & Hx). eauto.
    + intros (j & ss' & [Hj|[= -> ->]] & Hx); apply lookup_insert_Some.
      * destruct (decide (A = B)) as [<-|Hne]; [left; split; [reflexivity|congruence]|right].
        split; [assumption|]. apply Hsp. eauto.
      * left. split; [reflexivity|congruence].
  - exists sets. split; [assumption|]. intros A s. rewrite Hspec. split.
    + intros (i & ss & _ & Hx). eauto.
    + intros [ss Hx]. destruct (nrel_some _ _ _ _ _ _ Hr Hx) as [i Hi]. exists i, ss. split; [apply Hin; assumption|assumption].
Qed.

Lemma settled_complete a1 a2 a3 :
  (exists d ss, a1 !! start = Some (d, ss) /\ MTerminate ∈ d) -> doms a1 -> doms a2 -> doms a3 ->
  marked a1 a2 -> same_edges a2 a3 -> settled a3 ->
  (forall A w e, alternative pd A w -> e ∈ w -> good e) ->
  forall A x, fol start A x -> has_rule pd A -> exists d ss, a3 !! A = Some (d, ss) /\ x ∈ d.
Proof.
  intros (d0 & s0 & Hst & Hte) Hd1 Hd2 Hd3 Hm Hsame Hset Hgood A x Hf.
  induction Hf as [|B u A v c Halt Hfi|B u A v x Halt Hn Hf IH]; intros HrA.
  - destruct (Hm start d0 s0 Hst) as (d2 & s2 & Ha2 & Hx2 & _).
    destruct (Hsame start d2 s2 Ha2) as (d3 & Ha3 & Hsub). exists d3, s2. split; [assumption|]. apply Hsub, Hx2. auto.
  - destruct (proj2 (Hd1 A) HrA) as [[d1 s1] Ha1].
    destruct (Hm A d1 s1 Ha1) as (d2 & s2 & Ha2 & Hx2 & _).
    destruct (Hsame A d2 s2 Ha2) as (d3 & Ha3 & Hsub). exists d3, s2. split; [assumption|]. apply Hsub, Hx2.
    right. exists B, (u ++ A :: v). split; [apply pairs_elem; assumption|]. exists u, v, c.
    split; [reflexivity|]. split; [apply (wf_rules _ Hwf); assumption|auto].
  - assert (has_rule pd B) as HrB by (eapply alternative_has_rule; eauto).
    destruct (IH HrB) as (dB & sB & HaB & HxB).
    destruct (proj2 (Hd1 B) HrB) as [[d1 s1] Ha1].
    destruct (Hm B d1 s1 Ha1) as (d2 & s2 & Ha2 & _ & He2 & _).
    destruct (Hsame B d2 s2 Ha2) as (d3 & Ha3 & Hsub). rewrite HaB in Ha3. injection Ha3 as <- ->.
    destruct (proj2 (Hd3 A) HrA) as [[dA sA] HaA]. exists dA, sA. split; [assumption|].
    eapply (Hset B dB s2 A dA sA HaB); [|exact HaA|exact HxB]. apply He2. right.
    exists (u ++ A :: v). split; [apply pairs_elem; assumption|]. exists u, v.
    split; [reflexivity|]. split; [apply (wf_rules _ Hwf); assumption|auto].
Qed.

Theorem get_follow_sets_spec fs fuel :
  (forall A, is_Some (fs !! A) <-> has_rule pd A) -> (forall A s, fs !! A = Some s -> exact pd A s) ->
  fits_memory pd ->
  match get_follow_sets m pd fuel start fs with
  | Ok fw => has_rule pd start /\ (forall A w e, alternative pd A w -> e ∈ w -> good e) /\
      (forall A, is_Some (fw !! A) <-> has_rule pd A) /\
      (forall A s, fw !! A = Some s -> forall x, x ∈ s <-> fol start A x)
  | Diverge => forall U : gset SetMember, (forall A x, has_rule pd A -> fol start A x -> x ∈ U) ->
                 fuel <= size (pd_rules pd) * size U
  | _ => ~ (has_rule pd start /\ forall A w e, alternative pd A w -> e ∈ w -> good e)
  end.
Proof.
  intros Hdom Hex Hfit. unfold get_follow_sets.
  destruct make_graph_ok as (g0 & a0 & chs0 & -> & Hr0 & Hd0 & Hz0 & Hlen0). cbn [obind].
  destruct (decide (has_rule pd start)) as [Hst|Hst].
  2:{ assert (modify_node g0 start (fun d => {[MTerminate]} ∪ d) = Err (GraphNodeDoesNotExistsError start)) as ->.
      { unfold modify_node, get_index_of_node. rewrite (nrel_none _ _ _ start Hr0); [reflexivity|].
        destruct (a0 !! start) eqn:E; [|reflexivity]. exfalso. apply Hst, Hd0. rewrite E. eauto. }
      cbn [obind]. tauto. }
  destruct (proj2 (Hd0 start) Hst) as [[d s] Ha0]. destruct (Hz0 _ _ _ Ha0) as [-> ->].
  destruct (nrel_modify g0 a0 chs0 start (fun d => {[MTerminate]} ∪ d) ∅ [] Hr0 Ha0) as (g1 & -> & Hr1 & Hn1 & Hu1). cbn [obind].
  set (a1 := <[start:=({[MTerminate]} ∪ ∅, [])]> a0) in *.
  assert (doms a1) as Hd1 by (apply doms_insert; assumption).
  assert (forall A d ss, a1 !! A = Some (d, ss) -> ss = [] /\ forall x, x ∈ d -> A = start /\ x = MTerminate) as Hz1.
  { intros A d' ss' HA. apply lookup_insert_Some in HA as [[<- [= <- <-]]|[_ HA]].
    - split; [reflexivity|]. clear. set_solver.
    - destruct (Hz0 _ _ _ HA) as [-> ->]. split; [reflexivity|]. clear. set_solver. }
  pose proof (mark_all_ok fs Hdom Hex g1 a1 chs0 Hfit Hr1 Hd1 ltac:(intros A d' ss' HA; eapply Hz1; eauto)) as Hm.
  pose proof (mark_all_len fs g1) as Hml.
  destruct (mark_all m pd fs g1) as [g2| | |]; cbn [obind]; [|tauto|tauto|contradiction].
  destruct Hm as (Hgood & a2 & chs2 & Hr2 & Hn2 & Hd2 & Hmk).
  assert (sound a2) as Hs2.
  { intros A d' ss' x HA Hx. destruct (proj2 (Hd1 A)) as [[d1 s1] HA1]; [apply Hd2; rewrite HA; eauto|].
    destruct (Hmk A d1 s1 HA1) as (d2 & s2 & HA2 & Hx2 & _). rewrite HA in HA2. injection HA2 as <- <-.
    apply Hx2 in Hx. destruct Hx as [Hx1|(B & w & Hpw & u & v & c & -> & Hn & Hf & ->)].
    - destruct (proj2 (Hz1 A d1 s1 HA1) x Hx1) as [-> ->]. constructor.
    - eapply fol_first; [apply pairs_elem; exact Hpw|assumption]. }
  assert (edges_sound a2) as He2.
  { intros A d' ss' B HA HB. destruct (proj2 (Hd1 A)) as [[d1 s1] HA1]; [apply Hd2; rewrite HA; eauto|].
    destruct (Hmk A d1 s1 HA1) as (d2 & s2 & HA2 & _ & Hx2 & _). rewrite HA in HA2. injection HA2 as <- <-.
    apply Hx2 in HB. destruct HB as [HB|(w & Hpw & u & v & -> & Hn & Hf)].
    - rewrite (proj1 (Hz1 A d1 s1 HA1)) in HB. apply elem_of_nil in HB. contradiction.
    - exists u, v. split; [apply pairs_elem; assumption|assumption]. }
  assert (pinv g2 a2 chs2) as Hp2.
  { split; [assumption|assumption| |].
    - rewrite Hml by reflexivity. assert (length (gr_nodes (ng_graph g1)) = size (pd_rules pd)) as ->; [|apply Hfit].
      destruct (nrel_some _ _ _ _ _ _ Hr0 Ha0) as [i Hi]. rewrite (Hu1 i Hi). unfold update_node_data.
      destruct (gr_nodes (ng_graph g0) !! i); [simpl; rewrite insert_length|]; assumption.
    - intros A d' ss' B HA HB. destruct (He2 A d' ss' B HA HB) as (u & v & Halt & _).
      destruct (proj2 (Hd1 A)) as [[d1 s1] HA1]; [apply Hd2; rewrite HA; eauto|].
      destruct (Hmk A d1 s1 HA1) as (d2 & s2 & HA2 & _ & Hx2 & _). rewrite HA in HA2. injection HA2 as <- <-.
      apply Hx2 in HB. destruct HB as [HB|(w & Hpw & u' & v' & -> & Hn & Hf)].
      + rewrite (proj1 (Hz1 A d1 s1 HA1)) in HB. apply elem_of_nil in HB. contradiction.
      + destruct (Hgood A (u ++ B :: v) B Halt ltac:(apply elem_of_app; right; left)) as [[t Ht]|[_ ?]]; [|assumption].
        exfalso. eapply terminal_not_nonterminal; eauto. }
  unfold make_follow_sets_from_marked_graph.
  pose proof (propagate_ok fuel g2 a2 chs2 Hp2 Hs2 He2) as Hprop.
  destruct (propagate m fuel g2) as [g3| | |]; cbn [obind]; [|contradiction|contradiction|].
  2:{ intros U HU. specialize (Hprop U HU). pose proof (room_bound U a2). lia. }
  destruct Hprop as (a3 & Hp3 & Hs3 & Hsame & Hset & Hn3).
  destruct (collect_sets_ok g3 a3 chs2 Hp3) as (sets & Hsets & Hspec). 
  rewrite Hsets.
  split; [assumption|]. split; [assumption|]. split.
  - intros A. rewrite <- (pi_dom _ _ _ Hp3 A). split.
    + intros [s Hs]. apply Hspec in Hs as [ss Hs]. eauto.
    + intros [[s ss] Hs]. exists s. apply Hspec. eauto.
  - intros A s HA x. apply Hspec in HA as [ss HA]. split.
    + intros Hx. eapply Hs3; eauto.
    + intros Hx. destruct (settled_complete a1 a2 a3) with (A := A) (x := x) as (d' & ss' & HA' & Hx'); auto.
      * exists ({[MTerminate]} ∪ ∅), []. split; [apply lookup_insert|clear; set_solver].
      * apply Hp3.
      * apply (pi_dom _ _ _ Hp3). rewrite HA. eauto.
      * congruence.
Qed.
End prop.
End follow.

(** ** a finite set that contains every FOLLOW member *)
Section universe.
Context {I : Type} (pd : ParserData I) (Hwf : wf_grammar pd).
Definition follow_universe : gset SetMember :=
  {[MTerminate]} ∪ list_to_set (omap (fun d => match ed_name d with [] => None | c :: _ => Some (MChar c) end) (element_data pd)).
Lemma fst_of_element e c : fst_of pd e c -> exists d s, d ∈ element_data pd /\ ed_name d = c :: s.
Proof.
  induction 1 as [e c s Ht|]; [|assumption]. unfold is_terminal in Ht.
  apply verbose_types in Ht as (_ & d & Hd & Hn). exists d, s. split; [eapply elem_of_list_lookup_2; eauto|assumption].
Qed.
Lemma follow_universe_ok start A x : has_rule pd A -> fol pd start A x -> x ∈ follow_universe.
Proof.
  intros _ Hf. unfold follow_universe. induction Hf as [|B u A v c Ha (u' & e & v' & _ & _ & Hc)|]; [set_solver| |assumption].
  apply elem_of_union. right. apply elem_of_list_to_set, elem_of_list_omap.
  apply fst_of_element in Hc as (d & s & Hd & Hn). exists d. split; [assumption|]. rewrite Hn. reflexivity.
Qed.
Lemma list_to_set_size (l : list SetMember) : size (list_to_set l : gset SetMember) <= length l.
Proof.
  induction l as [|x l IH]; simpl; [vm_compute; lia|]. rewrite size_union_alt, size_singleton.
  assert (size ((list_to_set l : gset SetMember) ∖ {[x]}) <= size (list_to_set l : gset SetMember)); [|lia].
  apply subseteq_size. set_solver.
Qed.
Lemma omap_length {A B} (f : A -> option B) (l : list A) : length (omap f l) <= length l.
Proof.
  induction l as [|x l IH]; [simpl; lia|].
  change (omap f (x :: l)) with (match f x with Some y => y :: omap f l | None => omap f l end).
  destruct (f x); cbn [length]; lia.
Qed.
Lemma follow_universe_size : size follow_universe <= length (element_data pd) + 1.
Proof.
  unfold follow_universe. rewrite size_union_alt, size_singleton.
  match goal with |- 1 + size (list_to_set ?l ∖ _) <= _ =>
    assert (size ((list_to_set l : gset SetMember) ∖ {[MTerminate]}) <= size (list_to_set l : gset SetMember)) as Hx by (apply subseteq_size; set_solver);
    pose proof (list_to_set_size l) as Hy;
    assert (length l <= length (element_data pd)) as Hz; [|lia] end.
  apply omap_length.
Qed.
End universe.

(** ** more rounds do not change an answer *)
Lemma propagate_mono {H : HashOrder} m f : forall g, propagate m f g <> Diverge -> propagate m (S f) g = propagate m f g.
Proof.
  induction f as [|f IH]; intros g Hp; [exfalso; apply Hp; reflexivity|].
  cbn [propagate] in Hp. change (propagate m (S (S f)) g) with
    (let* l := missing_of_all m g in match l with [] => Ok g | _ => let* g' := apply_missing m g l in propagate m (S f) g' end).
  change (propagate m (S f) g) with
    (let* l := missing_of_all m g in match l with [] => Ok g | _ => let* g' := apply_missing m g l in propagate m f g' end).
  destruct (missing_of_all m g) as [[|p l]| | |]; cbn [obind] in *; try reflexivity.
  destruct (apply_missing m g (p :: l)) as [g'| | |]; cbn [obind] in *; try reflexivity. apply IH. assumption.
Qed.
Lemma get_follow_sets_mono {H : HashOrder} {I} m (pd : ParserData I) f f' start fs :
  f <= f' -> get_follow_sets m pd f start fs <> Diverge ->
  get_follow_sets m pd f' start fs = get_follow_sets m pd f start fs.
Proof.
  induction 1 as [|f' Hle IH]; intros Hs; [reflexivity|]. rewrite <- IH by assumption.
  rewrite <- IH in Hs by assumption. clear IH Hle f. unfold get_follow_sets in *.
  destruct (make_graph_with_index pd) as [g0| | |]; cbn [obind] in *; try reflexivity.
  destruct (modify_node g0 start _) as [g1| | |]; cbn [obind] in *; try reflexivity.
  destruct (mark_all m pd fs g1) as [g2| | |]; cbn [obind] in *; try reflexivity.
  unfold make_follow_sets_from_marked_graph in *. rewrite propagate_mono; [reflexivity|].
  intros Hx. rewrite Hx in Hs. apply Hs. reflexivity.
Qed.
