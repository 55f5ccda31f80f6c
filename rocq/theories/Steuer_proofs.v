(** * Proofs about steuer_sets.rs and steuer_map.rs *)
From Verif Require Import Base Tree Errors Sets ParserData FirstSets FollowSets SteuerMap
  SpecGrammar Grammar_proofs First_proofs Follow_proofs.

Section steuer.
Context {H : HashOrder} {I : Type}.
Notation res := (outcome GrammarError).

(** ** get_steuer_sets, for any two maps *)
Definition steuer_member (f : gset SetMemberWithEmpty) (o : option (gset SetMember)) (x : SetMember) : Prop :=
  (exists y, y ∈ f /\ try_from y = Some x) \/ (EEmpty ∈ f /\ exists s, o = Some s /\ x ∈ s).
Definition missing_follow (fs : NamedSets) (fo : NamedSetsNoEmpty) (A : nat) : Prop :=
  exists f, fs !! A = Some f /\ EEmpty ∈ f /\ fo !! A = None.

Lemma get_steuer_sets_spec (fs : NamedSets) (fo : NamedSetsNoEmpty) :
  match get_steuer_sets fs fo with
  | Ok ss => (forall A, ~ missing_follow fs fo A) /\ (forall A, is_Some (ss !! A) <-> is_Some (fs !! A)) /\
      (forall A f s, fs !! A = Some f -> ss !! A = Some s -> forall x, x ∈ s <-> steuer_member f (fo !! A) x)
  | Err e => exists A, e = MissingFollowSet A /\ missing_follow fs fo A
  | _ => False
  end.
Proof.
  unfold get_steuer_sets.
  set (step := fun (sets : NamedSetsNoEmpty) '((name, first) : nat * gset SetMemberWithEmpty) =>
           let* steuer := collect_members (E := GrammarError) (first ∖ {[EEmpty]}) in
           let* steuer' :=
             if decide (EEmpty ∈ first) then
               match fo !! name with
               | None => Err (MissingFollowSet name)
               | Some follow => Ok (follow ∪ steuer)
               end
             else Ok steuer in
           Ok (<[name := steuer']> sets)).
  assert (forall l done sets,
    (forall A f, (A, f) ∈ l -> fs !! A = Some f) -> NoDup l.*1 -> (forall A, A ∈ done -> A ∉ l.*1) ->
    (forall A, is_Some (sets !! A) <-> A ∈ done) ->
    (forall A f s, fs !! A = Some f -> sets !! A = Some s -> forall x, x ∈ s <-> steuer_member f (fo !! A) x) ->
    (forall A, A ∈ done -> ~ missing_follow fs fo A) ->
    match ofold step sets l with
    | Ok ss => (forall A, A ∈ done ++ l.*1 -> ~ missing_follow fs fo A) /\ (forall A, is_Some (ss !! A) <-> A ∈ done ++ l.*1) /\
        (forall A f s, fs !! A = Some f -> ss !! A = Some s -> forall x, x ∈ s <-> steuer_member f (fo !! A) x)
    | Err e => exists A, e = MissingFollowSet A /\ missing_follow fs fo A
    | _ => False
    end) as Hgen.
  { induction l as [|[A f] l IH]; intros done sets Hl Hnd Hdis Hdom Hmem Hmiss; cbn [ofold].
    - rewrite app_nil_r. auto.
    - unfold step at 1.
      destruct (collect_members_ok (E := GrammarError) (f ∖ {[EEmpty]})) as (t & Ht & Htx).
      { rewrite elem_of_difference, elem_of_singleton. tauto. }
      rewrite Ht. cbn [obind].
      assert (forall x, x ∈ t <-> exists y, y ∈ f /\ try_from y = Some x) as Ht'.
      { intros x. rewrite Htx. split.
        - intros (y & Hy & Hyx). apply elem_of_difference in Hy as [Hy _]. eauto.
        - intros (y & Hy & Hyx). exists y. split; [|assumption]. apply elem_of_difference. split; [assumption|].
          rewrite elem_of_singleton. intros ->. discriminate. }
      pose proof (Hl A f (elem_of_list_here _ _)) as HA.
      assert (forall s', (forall x, x ∈ s' <-> steuer_member f (fo !! A) x) -> ~ missing_follow fs fo A ->
        match ofold step (<[A := s']> sets) l with
        | Ok ss => (forall B, B ∈ done ++ A :: l.*1 -> ~ missing_follow fs fo B) /\ (forall B, is_Some (ss !! B) <-> B ∈ done ++ A :: l.*1) /\
           (forall B f s, fs !! B = Some f -> ss !! B = Some s -> forall x, x ∈ s <-> steuer_member f (fo !! B) x)
        | Err e => exists B, e = MissingFollowSet B /\ missing_follow fs fo B
        | _ => False
        end) as Hcont.
      { intros s' Hs' Hm'. specialize (IH (done ++ [A]) (<[A := s']> sets)). rewrite <- app_assoc in IH. apply IH.
        - intros B g HB. apply Hl. right. assumption.
        - apply NoDup_cons in Hnd. tauto.
        - intros B HB. apply elem_of_app in HB as [HB|HB%elem_of_list_singleton].
          + intros Hx. apply (Hdis B HB). right. assumption.
          + subst. apply NoDup_cons in Hnd. tauto.
        - intros B. destruct (decide (A = B)) as [<-|Hne].
          + rewrite elem_of_app, elem_of_list_singleton. split; [auto|]. intros _. exists s'. apply lookup_insert_Some. auto.
          + rewrite elem_of_app, elem_of_list_singleton, <- Hdom. split.
            * intros [s Hs]. apply lookup_insert_Some in Hs as [[? _]|[_ Hs]]; [congruence|]. left. eauto.
            * intros [[s Hs]|?]; [|congruence]. exists s. apply lookup_insert_Some. auto.
        - intros B g s HB Hs. apply lookup_insert_Some in Hs as [[<- <-]|[_ Hs]]; [|eauto].
          rewrite HA in HB. injection HB as <-. assumption.
        - intros B HB. apply elem_of_app in HB as [HB|HB%elem_of_list_singleton]; [auto|subst; assumption]. }
      destruct (decide (EEmpty ∈ f)) as [He|He].
      + destruct (fo !! A) as [fw|] eqn:Hfo; cbn [obind].
        * apply Hcont.
          -- intros x. rewrite elem_of_union, Ht'. unfold steuer_member. split.
             ++ intros [?|?]; [right; eauto|auto].
             ++ intros [?|(_ & s & [= <-] & ?)]; auto.
          -- intros (g & _ & _ & Hx). congruence.
        * exists A. split; [reflexivity|]. exists f. auto.
      + cbn [obind]. apply Hcont.
        * intros x. rewrite Ht'. unfold steuer_member. split; [auto|]. intros [?|[? _]]; [assumption|contradiction].
        * intros (g & Hg & Heg & _). rewrite HA in Hg. injection Hg as <-. contradiction. }
  specialize (Hgen (ho_iter [9] (map_to_list fs)) [] ∅).
  assert (forall A f, (A, f) ∈ ho_iter [9] (map_to_list fs) <-> fs !! A = Some f) as Hin.
  { intros A f. rewrite (ho_perm [9] _ _). apply elem_of_map_to_list. }
  assert ((ho_iter [9] (map_to_list fs)).*1 ≡ₚ (map_to_list fs).*1) as Hp by (rewrite (ho_perm [9] _ _); reflexivity).
  assert (forall A, A ∈ (ho_iter [9] (map_to_list fs)).*1 <-> is_Some (fs !! A)) as Hkey.
  { intros A. rewrite elem_of_list_fmap. split.
    - intros ([B f] & -> & HB). apply Hin in HB. eauto.
    - intros [f Hf]. exists (A, f). split; [reflexivity|]. apply Hin. assumption. }
  cbn [app] in Hgen. 
  assert (match ofold step ∅ (ho_iter [9] (map_to_list fs)) with
    | Ok ss => (forall A, A ∈ (ho_iter [9] (map_to_list fs)).*1 -> ~ missing_follow fs fo A) /\
        (forall A, is_Some (ss !! A) <-> A ∈ (ho_iter [9] (map_to_list fs)).*1) /\
        (forall A f s, fs !! A = Some f -> ss !! A = Some s -> forall x, x ∈ s <-> steuer_member f (fo !! A) x)
    | Err e => exists A, e = MissingFollowSet A /\ missing_follow fs fo A
    | _ => False
    end) as Hres.
  { apply Hgen.
    - intros A f. apply Hin.
    - rewrite Hp. apply NoDup_fst_map_to_list.
    - intros A HA. apply elem_of_nil in HA. contradiction.
    - intros A. split; [intros [s Hs]; apply lookup_empty_Some in Hs; contradiction|]. intros HA. apply elem_of_nil in HA. contradiction.
    - intros A f s _ Hs. apply lookup_empty_Some in Hs. contradiction.
    - intros A HA. apply elem_of_nil in HA. contradiction. }
  destruct (ofold step ∅ _) as [ss| | |]; try assumption. destruct Hres as (R1 & R2 & R3). split; [|split; [|assumption]].
  - intros A Hm. apply (R1 A); [|assumption]. apply Hkey. destruct Hm as (f & Hf & _). eauto.
  - intros A. rewrite R2. apply Hkey.
Qed.

(** ** filling one map *)
(** [sel x] = the lookaheads of the production being added *)
Lemma fill_spec site set sm prod rule :
  match fill_with_steuer_set site set sm prod rule with
  | Ok sm' => (forall x, x ∈ set -> sm !! x = None) /\
      (forall x q, sm' !! x = Some q <-> sm !! x = Some q \/ (x ∈ set /\ q = prod))
  | Err e => exists x, e = SteuerSetsNotDistinct (lit "follow_set") (fill_char x) rule /\ x ∈ set /\ is_Some (sm !! x)
  | _ => False
  end.
Proof.
  unfold fill_with_steuer_set.
  set (step := fun (sm : Steuermap) x => match sm !! x with
           | Some _ => Err (SteuerSetsNotDistinct (lit "follow_set") (fill_char x) rule)
           | None => Ok (<[x := prod]> sm)
           end).
  assert (forall l sm, NoDup l ->
    match ofold step sm l with
    | Ok sm' => (forall x, x ∈ l -> sm !! x = None) /\
        (forall x q, sm' !! x = Some q <-> sm !! x = Some q \/ (x ∈ l /\ q = prod))
    | Err e => exists x, e = SteuerSetsNotDistinct (lit "follow_set") (fill_char x) rule /\ x ∈ l /\ is_Some (sm !! x)
    | _ => False
    end) as Hgen.
  { clear sm. induction l as [|x l IH]; intros sm Hnd; cbn [ofold].
    - split; [intros x Hx; apply elem_of_nil in Hx; contradiction|]. intros x q. split; [auto|].
      intros [?|[Hx _]]; [assumption|]. apply elem_of_nil in Hx. contradiction.
    - apply NoDup_cons in Hnd as [Hx Hnd]. unfold step at 1. destruct (sm !! x) as [p|] eqn:E; cbn [obind].
      + exists x. split; [reflexivity|]. split; [left|]. rewrite E. eauto.
      + specialize (IH (<[x := prod]> sm) Hnd). destruct (ofold step _ l) as [sm'| e| |]; [|..]; try contradiction.
        * destruct IH as [I1 I2]. split.
          -- intros y Hy. apply elem_of_cons in Hy as [->|Hy]; [assumption|]. specialize (I1 y Hy).
             apply lookup_insert_None in I1. tauto.
          -- intros y q. rewrite I2, elem_of_cons. split.
             ++ intros [Hy|[? ->]]; [|auto]. apply lookup_insert_Some in Hy as [[-> ->]|[_ ?]]; auto.
             ++ intros [Hy|[[->|Hy] ->]]; [| |auto]; left; apply lookup_insert_Some; [|auto].
                right. split; [intros ->; congruence|assumption].
        * destruct IH as (y & He & Hy & [q Hq]). exists y. split; [assumption|]. split; [right; assumption|].
          apply lookup_insert_Some in Hq as [[-> _]|[_ Hq]]; [contradiction|]. eauto. }
  specialize (Hgen (ho_iter site (elements set)) sm).
  assert (NoDup (ho_iter site (elements set))) as Hnd by (rewrite (ho_perm site _ _); apply NoDup_elements).
  specialize (Hgen Hnd).
  assert (forall x, x ∈ ho_iter site (elements set) <-> x ∈ set) as Hin.
  { intros x. rewrite (ho_perm site _ _). apply elem_of_elements. }
  destruct (ofold step sm _) as [sm'|e| |]; try assumption.
  - destruct Hgen as [G1 G2]. split; [intros x Hx; apply G1, Hin; assumption|].
    intros x q. rewrite G2, Hin. reflexivity.
  - destruct Hgen as (x & He & Hx & Hs). exists x. split; [assumption|]. split; [apply Hin; assumption|assumption].
Qed.

(** ** one production, with the selection set named by the inputs *)
Section maps.
Context (ss fo : NamedSetsNoEmpty) (types : list ElementType) (data : list ElementData) (rule : nat).
Definition choose (p : Production) (x : SetMember) : Prop :=
  match p with
  | Empty => exists s, fo !! rule = Some s /\ x ∈ s
  | NotEmpty [] => False
  | NotEmpty (e :: _) =>
      (types !! e = Some Terminal /\ exists d c n, data !! e = Some d /\ ed_name d = c :: n /\ x = MChar c)
      \/ (types !! e = Some NonTerminal /\ exists s, ss !! e = Some s /\ x ∈ s)
  end.
(** the inputs have everything the production needs *)
Definition ready (p : Production) : Prop :=
  match p with
  | Empty => is_Some (fo !! rule)
  | NotEmpty [] => False
  | NotEmpty (e :: _) =>
      (types !! e = Some Terminal /\ exists d c n, data !! e = Some d /\ ed_name d = c :: n)
      \/ (types !! e = Some NonTerminal /\ is_Some (ss !! e))
  end.
Definition any_conflict (e : GrammarError) : Prop := exists n c A, e = SteuerSetsNotDistinct n c A.
Definition conflict_error (x : SetMember) (e : GrammarError) : Prop := exists n, e = SteuerSetsNotDistinct n (fill_char x) rule.

Lemma of_production_spec sm p site :
  match steuermap_of_production ss fo sm p rule types data site with
  | Ok sm' => ready p /\ (forall x, choose p x -> sm !! x = None) /\
      (forall x q, sm' !! x = Some q <-> sm !! x = Some q \/ (choose p x /\ q = p))
  | Err e => (ready p /\ exists x, conflict_error x e /\ choose p x /\ is_Some (sm !! x)) \/ (~ any_conflict e /\ ~ ready p)
  | Panic => ~ ready p
  | Diverge => False
  end.
Proof.
  assert (forall set, (forall x, x ∈ set <-> choose p x) -> ready p ->
    match fill_with_steuer_set site set sm p rule with
    | Ok sm' => ready p /\ (forall x, choose p x -> sm !! x = None) /\
      (forall x q, sm' !! x = Some q <-> sm !! x = Some q \/ (choose p x /\ q = p))
    | Err e => (ready p /\ exists x, conflict_error x e /\ choose p x /\ is_Some (sm !! x)) \/ (~ any_conflict e /\ ~ ready p)
    | Panic => ~ ready p
    | Diverge => False
    end) as Hfill.
  { intros set Hset Hready. pose proof (fill_spec site set sm p rule) as Hf.
    destruct (fill_with_steuer_set site set sm p rule) as [sm'|e| |]; try contradiction.
    - destruct Hf as [F1 F2]. split; [assumption|]. split; [intros x Hx; apply F1, Hset; assumption|].
      intros x q. rewrite F2, Hset. reflexivity.
    - destruct Hf as (x & -> & Hx & Hs). left. split; [assumption|].
      exists x. split; [eexists; reflexivity|]. split; [apply Hset; assumption|assumption]. }
  unfold steuermap_of_production. destruct p as [[|e rest]|].
  - simpl. tauto.
  - destruct (types !! e) as [[|]|] eqn:Ht.
    + destruct (data !! e) as [d|] eqn:Hd.
      2:{ simpl. intros [(_ & d & c & n & Hx & _)|[Hx _]]; congruence. }
      destruct (ed_name d) as [|c n] eqn:Hn.
      { simpl. intros [(_ & d' & c & n & Hx & Hy)|[Hx _]]; congruence. }
      assert (ready (NotEmpty (e :: rest))) as Hready by (left; split; [assumption|eauto]).
      assert (forall x, choose (NotEmpty (e :: rest)) x <-> x = MChar c) as Hch.
      { intros x. split.
        - intros [(_ & d' & c' & n' & Hx & Hy & ->)|[Hx _]]; congruence.
        - intros ->. left. split; [assumption|]. exists d, c, n. auto. }
      destruct (sm !! MChar c) as [q|] eqn:E.
      * left. split; [assumption|]. exists (MChar c). split; [eexists; reflexivity|]. split; [apply Hch; reflexivity|].
        rewrite E. eauto.
      * split; [assumption|]. split; [intros x Hx; apply Hch in Hx as ->; assumption|].
        intros x q. rewrite Hch. split.
        -- intros Hx. apply lookup_insert_Some in Hx as [[<- <-]|[_ ?]]; auto.
        -- intros [Hx|[-> ->]]; apply lookup_insert_Some; [right|left; auto]. split; [intros <-; congruence|assumption].
    + destruct (ss !! e) as [s|] eqn:Hs.
      * apply Hfill; [|right; rewrite Hs; eauto]. intros x. split.
        -- intros Hx. right. split; [assumption|]. eauto.
        -- intros [[Hx _]|(_ & s' & Hs' & Hx)]; congruence.
      * right. split; [intros (n & c & B & Hx); discriminate|]. intros [[Hx _]|(_ & [s' Hs'])]; congruence.
    + right. split; [intros (n & c & B & Hx); discriminate|]. intros [[Hx _]|(Hx & _)]; congruence.
  - destruct (fo !! rule) as [s|] eqn:Hs.
    + apply Hfill; [|simpl; rewrite Hs; eauto]. intros x. simpl. rewrite Hs. split; [eauto|]. intros (s' & [= <-] & Hx). assumption.
    + right. split; [intros (n & c & B & Hx); discriminate|]. simpl. rewrite Hs. intros [? ?]. discriminate.
Qed.

(** all productions of a rule *)
Definition overlap (ps : list Production) (x : SetMember) : Prop :=
  exists i j p q, ps !! i = Some p /\ ps !! j = Some q /\ i <> j /\ choose p x /\ choose q x.
Lemma loop_spec ps : forall k pre sm,
  (forall p, p ∈ pre -> ready p) -> (forall x, ~ overlap pre x) ->
  (forall x q, sm !! x = Some q <-> q ∈ pre /\ choose q x) ->
  match steuermap_loop ss fo types data rule k ps sm with
  | Ok sm' => (forall p, p ∈ pre ++ ps -> ready p) /\ (forall x, ~ overlap (pre ++ ps) x) /\
      (forall x q, sm' !! x = Some q <-> q ∈ pre ++ ps /\ choose q x)
  | Err e => (exists x, conflict_error x e /\ overlap (pre ++ ps) x) \/ (~ any_conflict e /\ ~ (forall p, p ∈ pre ++ ps -> ready p))
  | Panic => ~ (forall p, p ∈ pre ++ ps -> ready p)
  | Diverge => False
  end.
Proof.
  induction ps as [|p ps IH]; intros k pre sm Hready Hno Hsm; cbn [steuermap_loop].
  - rewrite app_nil_r. auto.
  - pose proof (of_production_spec sm p [11; rule; k]) as Hp.
    destruct (steuermap_of_production ss fo sm p rule types data [11; rule; k]) as [sm1|e| |]; cbn [obind]; try contradiction.
    + destruct Hp as (P1 & P2 & P3). specialize (IH (S k) (pre ++ [p]) sm1). rewrite <- app_assoc in IH. apply IH.
      * intros q Hq. apply elem_of_app in Hq as [Hq|Hq%elem_of_list_singleton]; [auto|subst; assumption].
      * intros x (i & j & q & q' & Hi & Hj & Hne & Hq & Hq').
        apply lookup_app_Some in Hi, Hj.
        assert (forall a b, pre !! a = Some b -> choose b x -> choose p x -> False) as Hclash.
        { intros a b Hab Hb Hpx. specialize (P2 x Hpx). assert (sm !! x = Some b) as Hx.
          { apply Hsm. split; [eapply elem_of_list_lookup_2; eauto|assumption]. } congruence. }
        destruct Hi as [Hi|[Hli Hi]], Hj as [Hj|[Hlj Hj]].
        -- apply (Hno x). exists i, j, q, q'. auto.
        -- apply list_lookup_singleton_Some in Hj as [_ <-]. eauto.
        -- apply list_lookup_singleton_Some in Hi as [_ <-]. eauto.
        -- apply list_lookup_singleton_Some in Hi as [Hi _]. apply list_lookup_singleton_Some in Hj as [Hj _]. lia.
      * intros x q. rewrite P3, Hsm, elem_of_app, elem_of_list_singleton. split.
        -- intros [[? ?]|[? ->]]; auto.
        -- intros [[?| ->] ?]; auto.
    + destruct Hp as [(Hr & x & He & Hx & [q Hq])|[He Hr]].
      * left. exists x. split; [assumption|]. apply Hsm in Hq as [Hq Hqx]. apply elem_of_list_lookup in Hq as [i Hi].
        exists i, (length pre), q, p. split; [apply lookup_app_l_Some; assumption|]. split; [rewrite lookup_app_r, Nat.sub_diag by lia; reflexivity|].
        split; [apply lookup_lt_Some in Hi; lia|]. auto.
      * right. split; [assumption|]. intros Hall. apply Hr, Hall. apply elem_of_app. right. left.
    + intros Hall. apply Hp, Hall. apply elem_of_app. right. left.
Qed.
End maps.

(** ** all rules *)
Section all_rules.
Context (fs : NamedSets) (fo ss : NamedSetsNoEmpty) (pd : ParserData I).
Notation ch := (choose ss fo (element_types pd) (element_data pd)).
Notation rd := (ready ss fo (element_types pd) (element_data pd)).
Definition all_ready : Prop := forall A r p, pd_rules pd !! A = Some r -> p ∈ possible_productions r -> rd A p.
Definition overlapping (A : nat) (x : SetMember) : Prop :=
  exists r, pd_rules pd !! A = Some r /\ overlap ss fo (element_types pd) (element_data pd) A (possible_productions r) x.
Definition maps_right (maps : gmap nat (NTRules I)) : Prop :=
  forall A r nt, pd_rules pd !! A = Some r -> maps !! A = Some nt ->
     nt_ignore nt = ntr_ignore r /\ nt_instruction nt = instruction r /\
     forall x p, steuermap nt !! x = Some p <-> p ∈ possible_productions r /\ ch A p x.

Lemma get_steuermaps_spec :
  get_steuer_sets fs fo = Ok ss ->
  match get_steuermaps fs fo pd with
  | Ok maps => all_ready /\ (forall A x, ~ overlapping A x) /\
      (forall A, is_Some (maps !! A) <-> has_rule pd A) /\ maps_right maps
  | Err e => (exists A x, conflict_error A x e /\ overlapping A x) \/ (~ any_conflict e /\ ~ all_ready)
  | Panic => ~ all_ready
  | Diverge => False
  end.
Proof.
  intros Hss. unfold get_steuermaps. rewrite Hss. cbn [obind].
  set (step := fun (maps : gmap nat (NTRules I)) '((rule, r) : nat * NonTerminalRules I) =>
           let* sm := steuermap_loop ss fo (element_types pd) (element_data pd) rule 0
                                     (possible_productions r) ∅ in
           Ok (<[rule := mkNTRules sm (ntr_ignore r) (instruction r)]> maps)).
  assert (forall l done maps,
    (forall A r, (A, r) ∈ l -> pd_rules pd !! A = Some r) ->
    (forall A, is_Some (maps !! A) <-> A ∈ done) -> maps_right maps ->
    (forall A r p, A ∈ done -> pd_rules pd !! A = Some r -> p ∈ possible_productions r -> rd A p) ->
    (forall A x, A ∈ done -> ~ overlapping A x) ->
    match ofold step maps l with
    | Ok maps => (forall A r p, A ∈ done ++ l.*1 -> pd_rules pd !! A = Some r -> p ∈ possible_productions r -> rd A p) /\
       (forall A x, A ∈ done ++ l.*1 -> ~ overlapping A x) /\
       (forall A, is_Some (maps !! A) <-> A ∈ done ++ l.*1) /\ maps_right maps
    | Err e => (exists A x, conflict_error A x e /\ overlapping A x) \/ (~ any_conflict e /\ ~ all_ready)
    | Panic => ~ all_ready
    | Diverge => False
    end) as Hgen.
  { induction l as [|[A r] l IH]; intros done maps Hl Hdom Hright Hrdy Hno; cbn [ofold].
    - rewrite app_nil_r. auto.
    - unfold step at 1. pose proof (Hl A r (elem_of_list_here _ _)) as HA.
      pose proof (loop_spec ss fo (element_types pd) (element_data pd) A (possible_productions r) 0 [] ∅) as Hloop.
      cbn [app] in Hloop.
      assert (forall p, p ∈ [] -> rd A p) as X1 by (intros p Hp; apply elem_of_nil in Hp; contradiction).
      assert (forall x, ~ overlap ss fo (element_types pd) (element_data pd) A [] x) as X2.
      { intros x (i & j & p & q & Hi & _). rewrite lookup_nil in Hi. discriminate. }
      assert (forall x q, (∅ : Steuermap) !! x = Some q <-> q ∈ [] /\ ch A q x) as X3.
      { intros x q. split; [intros Hx; apply lookup_empty_Some in Hx; contradiction|]. intros [Hq _]. apply elem_of_nil in Hq. contradiction. }
      specialize (Hloop X1 X2 X3).
      destruct (steuermap_loop ss fo (element_types pd) (element_data pd) A 0 (possible_productions r) ∅) as [sm|e| |]; cbn [obind].
      + destruct Hloop as (L1 & L2 & L3). specialize (IH (done ++ [A]) (<[A := mkNTRules sm (ntr_ignore r) (instruction r)]> maps)).
        rewrite <- app_assoc in IH. apply IH.
        * intros B s HB. apply Hl. right. assumption.
        * intros B. destruct (decide (A = B)) as [<-|Hne].
          -- rewrite elem_of_app, elem_of_list_singleton, lookup_insert. split; [auto|eauto].
          -- rewrite elem_of_app, elem_of_list_singleton, lookup_insert_ne, Hdom by assumption. split; [auto|].
             intros [?|?]; [assumption|congruence].
        * intros B s nt HB Hnt. destruct (decide (A = B)) as [<-|Hne].
          -- rewrite lookup_insert in Hnt. injection Hnt as <-. assert (s = r) as -> by congruence. simpl. auto.
          -- rewrite lookup_insert_ne in Hnt by assumption. eauto.
        * intros B s p HB HBs Hp. apply elem_of_app in HB as [HB|HB%elem_of_list_singleton]; [eauto|]. subst.
          assert (s = r) as -> by congruence. auto.
        * intros B x HB. apply elem_of_app in HB as [HB|HB%elem_of_list_singleton]; [auto|]. subst.
          intros (s & Hs & Ho). assert (s = r) as -> by congruence. eapply L2. exact Ho.
      + destruct Hloop as [(x & Hc & Ho)|[Hc Hr]].
        * left. exists A, x. split; [assumption|]. exists r. auto.
        * right. split; [assumption|]. intros Hall; apply Hr; intros p Hp; eapply Hall; eauto.
      + intros Hall. apply Hloop. intros p Hp. eapply Hall; eauto.
      + contradiction. }
  specialize (Hgen (ho_iter [10] (map_to_list (pd_rules pd))) [] ∅).
  assert (forall A f, (A, f) ∈ ho_iter [10] (map_to_list (pd_rules pd)) <-> pd_rules pd !! A = Some f) as Hin.
  { intros A f. rewrite (ho_perm [10] _ _). apply elem_of_map_to_list. }
  assert (forall A, A ∈ (ho_iter [10] (map_to_list (pd_rules pd))).*1 <-> has_rule pd A) as Hkey.
  { intros A. rewrite elem_of_list_fmap. split.
    - intros ([B f] & -> & HB). apply Hin in HB. eexists. exact HB.
    - intros [f Hf]. exists (A, f). split; [reflexivity|]. apply Hin. assumption. }
  cbn [app] in Hgen.
  match type of Hgen with _ -> _ -> _ -> _ -> _ -> ?C => assert C as Hres end.
  { apply Hgen.
    - intros A r. apply Hin.
    - intros A. rewrite lookup_empty. split; [intros [? ?]; discriminate|]. intros HA. apply elem_of_nil in HA. contradiction.
    - intros A r nt _ Hs. rewrite lookup_empty in Hs. discriminate.
    - intros A r p HA. apply elem_of_nil in HA. contradiction.
    - intros A x HA. apply elem_of_nil in HA. contradiction. }
  destruct (ofold step ∅ _) as [maps| | |]; try assumption. destruct Hres as (R1 & R2 & R3 & R4).
  split; [|split; [|split]].
  - intros A r p HA Hp. eapply R1; eauto. apply Hkey. eexists. exact HA.
  - intros A x Ho. eapply R2; [|exact Ho]. apply Hkey. destruct Ho as (r & Hr & _). eexists. exact Hr.
  - intros A. rewrite R3. apply Hkey.
  - assumption.
Qed.
End all_rules.
End steuer.
