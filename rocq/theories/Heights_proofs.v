(** * A static check of the stack heights (C114) *)
From Verif Require Import Base Tree ParserData Vm SimpleStackVm StackVm SpecText SpecTree SpecScript SpecContract SpecRules SpecLanguage SpecEffect SpecFailed SpecVm SpecHeights
  Tree_proofs Script_proofs Parse_proofs Language_proofs Attr_proofs Effect_proofs Failed_proofs Vm_proofs.

(** ** One operation *)
Lemma step_frame m lo child o s r top bot : step m lo child o s r -> stack s = top ++ bot -> length top = (usage o).1 ->
  (o = OPushChild -> exists txt z, child = Some txt /\ reads_number lo txt z) ->
  match r with
  | Some s' => exists top', stack s' = top' ++ bot /\ length top' = (usage o).2 /\ err s' = err s /\
      forall bot2, step m lo child o (stacked s (top ++ bot2)) (Some (stacked s' (top' ++ bot2)))
  | None => forall bot2, step m lo child o (stacked s (top ++ bot2)) None
  end.
Proof.
  intros Hs Ht Hl Hc. destruct Hs as [o s Hp He|s v st r He Hw|s v st r He Hw|b s v st r He Hw|s v st He|s v st He|s v st He|c s r Hw|s|c s|s txt z Hch Hz|s Hch|s txt Hch Hz|s|s|s|s|s]; cbn [usage fst snd] in Hl.
  - exfalso. rewrite He in Ht. symmetry in Ht. apply app_eq_nil in Ht as [-> ->]. destruct o; cbn in Hl, Hp; try discriminate; contradiction.
  - destruct top as [|v' [|? ?]]; try discriminate. rewrite He in Ht. injection Ht as <- <-. destruct r as [x|]; cbn [option_map].
    + exists [x]. split; [reflexivity|]. split; [reflexivity|]. split; [reflexivity|]. intros bot2. apply (s_add m lo child (stacked s ([v] ++ bot2)) v bot2 (Some x)); [reflexivity|exact Hw].
    + intros bot2. apply (s_add m lo child (stacked s ([v] ++ bot2)) v bot2 None); [reflexivity|exact Hw].
  - destruct top as [|v' [|? ?]]; try discriminate. rewrite He in Ht. injection Ht as <- <-. destruct r as [x|]; cbn [option_map].
    + exists [x]. split; [reflexivity|]. split; [reflexivity|]. split; [reflexivity|]. intros bot2. apply (s_sub m lo child (stacked s ([v] ++ bot2)) v bot2 (Some x)); [reflexivity|exact Hw].
    + intros bot2. apply (s_sub m lo child (stacked s ([v] ++ bot2)) v bot2 None); [reflexivity|exact Hw].
  - destruct top as [|v' [|? ?]]; try discriminate. rewrite He in Ht. injection Ht as <- <-. destruct r as [x|]; cbn [option_map].
    + exists [x]. split; [reflexivity|]. split; [reflexivity|]. split; [reflexivity|]. intros bot2. apply (s_pow m lo child b (stacked s ([v] ++ bot2)) v bot2 (Some x)); [reflexivity|exact Hw].
    + intros bot2. apply (s_pow m lo child b (stacked s ([v] ++ bot2)) v bot2 None); [reflexivity|exact Hw].
  - destruct top as [|v' [|? ?]]; try discriminate. rewrite He in Ht. injection Ht as <- <-. exists []. repeat split. intros bot2. apply (s_pop_reg m lo child (stacked s ([v] ++ bot2)) v bot2); reflexivity.
  - destruct top as [|v' [|? ?]]; try discriminate. rewrite He in Ht. injection Ht as <- <-. exists []. repeat split. intros bot2. apply (s_pop_reg2 m lo child (stacked s ([v] ++ bot2)) v bot2); reflexivity.
  - destruct top as [|v' [|? ?]]; try discriminate. rewrite He in Ht. injection Ht as <- <-. exists []. repeat split. intros bot2. apply (s_drop m lo child (stacked s ([v] ++ bot2)) v bot2); reflexivity.
  - destruct top; [|discriminate]. destruct r as [x|]; cbn [option_map].
    + exists []. split; [exact Ht|]. split; [reflexivity|]. split; [reflexivity|]. intros bot2. apply (s_add_const m lo child c (stacked s ([] ++ bot2)) (Some x)). exact Hw.
    + intros bot2. apply (s_add_const m lo child c (stacked s ([] ++ bot2)) None). exact Hw.
  - destruct top; [|discriminate]. exists []. split; [exact Ht|]. repeat split. intros bot2. apply s_nothing.
  - destruct top; [|discriminate]. exists [c]. split; [cbn; f_equal; exact Ht|]. repeat split. intros bot2. apply (s_push m lo child c (stacked s bot2)).
  - destruct top; [|discriminate]. exists [z]. split; [cbn; f_equal; exact Ht|]. repeat split. intros bot2. apply (s_push_child m lo child (stacked s bot2) txt z Hch Hz).
  - destruct (Hc eq_refl) as (txt & z & E & _). congruence.
  - destruct (Hc eq_refl) as (txt' & z & E & Hr). assert (txt' = txt) as -> by congruence. destruct (Hz z Hr).
  - destruct top; [|discriminate]. exists [reg s]. split; [cbn; f_equal; exact Ht|]. repeat split. intros bot2. apply (s_push_reg m lo child (stacked s bot2)).
  - destruct top; [|discriminate]. exists [reg2 s]. split; [cbn; f_equal; exact Ht|]. repeat split. intros bot2. apply (s_push_reg2 m lo child (stacked s bot2)).
  - destruct top; [|discriminate]. exists []. split; [exact Ht|]. repeat split. intros bot2. apply (s_print_reg m lo child (stacked s bot2)).
  - destruct top; [|discriminate]. exists []. split; [exact Ht|]. repeat split. intros bot2. apply (s_print_reg2 m lo child (stacked s bot2)).
  - destruct top; [|discriminate]. exists []. split; [exact Ht|]. repeat split. intros bot2. apply (s_print_error m lo child (stacked s bot2)).
Qed.

Section machine.
Context {vm : VM} (m : ovf_mode) (lo : Z) (view : vm_state vm -> mach) (opof : vm_instr vm -> op)
  (Hview : forall v v', view v = view v' -> v = v')
  (Hf : forall h n i s, SpecTree.grown h -> n < length h -> follows lo view m h n (opof i) s (vm_execute vm (snd (do_adds h tree_new)) (id_of n) i s)).
(** [F] takes [n] values, leaves [k] (in the sense of [R]), and does not touch what is below. *)
Context (R : nat -> nat -> Prop) (Rrefl : forall n, R n n) (Rle : forall a b, R a b -> a <= b) (Rmore : forall a b j, R a b -> R (a + j) (b + j))
  (Rthen : forall a b c d, R a b -> R c d -> R c (d + (b - a))).
Definition framed (n k : nat) (F : vm_state vm -> outcome Empty_set (vm_state vm)) : Prop :=
  forall v top bot, stack (view v) = top ++ bot -> length top = n ->
  match F v with
  | Ok v' => exists top', stack (view v') = top' ++ bot /\ R k (length top') /\ err (view v') = err (view v) /\
      forall bot2 v2, view v2 = stacked (view v) (top ++ bot2) -> exists v2', F v2 = Ok v2' /\ view v2' = stacked (view v') (top' ++ bot2)
  | Panic => forall bot2 v2, view v2 = stacked (view v) (top ++ bot2) -> F v2 = Panic
  | _ => False
  end.
Lemma framed_more n k j F : framed n k F -> framed (n + j) (k + j) F.
Proof.
  intros HF v top bot Hs Hl. assert (stack (view v) = take n top ++ (drop n top ++ bot)) as Hs' by (rewrite app_assoc, take_drop; exact Hs).
  specialize (HF v (take n top) (drop n top ++ bot) Hs' ltac:(rewrite take_length; lia)).
  destruct (F v) as [v'|[]| |]; [| |contradiction].
  - destruct HF as (top' & S1 & S2 & S3 & S4). exists (top' ++ drop n top). split; [rewrite <- app_assoc; exact S1|].
    split; [rewrite app_length, drop_length; replace (length top - n) with j by lia; apply Rmore, S2|]. split; [exact S3|].
    intros bot2 v2 Hv2. destruct (S4 (drop n top ++ bot2) v2) as (v2' & E1 & E2); [rewrite app_assoc, take_drop; exact Hv2|]. exists v2'. split; [exact E1|]. rewrite <- app_assoc. exact E2.
  - intros bot2 v2 Hv2. apply (HF (drop n top ++ bot2)). rewrite app_assoc, take_drop. exact Hv2.
Qed.
Lemma framed_at n k h F : framed n k F -> n <= h -> framed h (h - n + k) F.
Proof. intros HF Hn. pose proof (framed_more n k (h - n) F HF) as Hx. replace (n + (h - n)) with h in Hx by lia. replace (k + (h - n)) with (h - n + k) in Hx by lia. exact Hx. Qed.
Lemma framed_ok n : framed n n Ok.
Proof. intros v top bot Hs Hl. exists top. subst n. repeat split; auto. intros bot2 v2 Hv2. eauto. Qed.
Lemma framed_then n k l F G : framed n k F -> framed k l G -> framed n l (fun v => let* v1 := F v in G v1).
Proof.
  intros HF HG v top bot Hs Hl. specialize (HF v top bot Hs Hl). destruct (F v) as [v1|[]| |]; cbn [obind]; [| |contradiction].
  - destruct HF as (top1 & S1 & S2 & S3 & S4). pose proof (Rle _ _ S2) as Hle.
    assert (stack (view v1) = take k top1 ++ (drop k top1 ++ bot)) as S1' by (rewrite app_assoc, take_drop; exact S1).
    specialize (HG v1 (take k top1) (drop k top1 ++ bot) S1' ltac:(rewrite take_length; lia)).
    assert (forall bot2 w, view w = stacked (view v) (top ++ bot2) -> exists w1, F w = Ok w1 /\ view w1 = stacked (view v1) (take k top1 ++ (drop k top1 ++ bot2))) as S4'.
    { intros bot2 w Hw. destruct (S4 bot2 w Hw) as (w1 & E & Hw1). exists w1. split; [exact E|]. rewrite app_assoc, take_drop. exact Hw1. }
    destruct (G v1) as [v2|[]| |]; [| |contradiction].
    + destruct HG as (top2 & T1 & T2 & T3 & T4). exists (top2 ++ drop k top1). split; [rewrite <- app_assoc; exact T1|].
      split; [rewrite app_length, drop_length; apply (Rthen _ _ _ _ S2 T2)|]. split; [congruence|]. intros bot2 w Hw.
      destruct (S4' bot2 w Hw) as (w1 & -> & Hw1). cbn [obind]. rewrite <- app_assoc. apply (T4 (drop k top1 ++ bot2) w1 Hw1).
    + intros bot2 w Hw. destruct (S4' bot2 w Hw) as (w1 & -> & Hw1). cbn [obind]. apply (HG (drop k top1 ++ bot2) w1 Hw1).
  - intros bot2 w Hw. rewrite (HF bot2 w Hw). reflexivity.
Qed.
Lemma framed_ext n k F G : (forall v, F v = G v) -> framed n k F -> framed n k G.
Proof. intros E HF v top bot Hs Hl. specialize (HF v top bot Hs Hl). rewrite (E v) in HF. destruct (G v) as [v'|[]| |]; try exact HF.
  - destruct HF as (top' & S1 & S2 & S3 & S4). exists top'. split; [exact S1|]. split; [exact S2|]. split; [exact S3|]. intros bot2 v2 Hv2. rewrite <- E. eauto.
  - intros bot2 v2 Hv2. rewrite <- E. eauto.
Qed.
Lemma framed_list {A} (f : A -> vm_state vm -> outcome Empty_set (vm_state vm)) (u : A -> nat * nat) l : (forall a, a ∈ l -> framed (u a).1 (u a).2 (f a)) ->
  forall h h', height h (map u l) = Some h' -> framed h h' (fun v => ofold (fun v a => f a v) v l).
Proof.
  induction l as [|a l IH]; intros Hl h h' E; [injection E as <-; apply framed_ok|]. cbn [map height] in E. destruct (u a) as [n k] eqn:Eu.
  destruct (decide (n <= h)) as [Hn|]; [|discriminate]. apply (framed_then h (h - n + k) h' (f a) (fun v => ofold (fun v a => f a v) v l)).
  - apply framed_at; [|assumption]. pose proof (Hl a ltac:(left)) as Hx. rewrite Eu in Hx. exact Hx.
  - apply IH; [|assumption]. intros b Hb. apply Hl. right. exact Hb.
Qed.
Lemma framed_weaken n k h F : (forall b, R h b -> R k b) -> framed n h F -> framed n k F.
Proof. intros Hw HF v top bot Hs Hl. specialize (HF v top bot Hs Hl). destruct (F v) as [v'|[]| |]; try exact HF. destruct HF as (top' & S1 & S2 & S3). exists top'. auto. Qed.
Lemma height_app l l' : forall h h', height h (l ++ l') = Some h' -> exists h1, height h l = Some h1 /\ height h1 l' = Some h'.
Proof.
  induction l as [|[n k] l IH]; intros h h' E; [eauto|]. cbn [app height] in *. destruct (decide (n <= h)); [|discriminate]. auto.
Qed.
(** one instruction on a tree of its own *)
Lemma framed_instr nt ins : (opof ins = OPushChild -> exists x b subs z, nt = NNode x (NLeaf b :: subs) /\ reads_number lo b z) ->
  framed (usage (opof ins)).1 (usage (opof ins)).2 (fun v => let* '(_t, v') := vm_execute vm (own_tree nt) (mkNodeId 0 0) ins v in Ok v').
Proof.
  intros Hc v top bot Hs Hl. set (h := nhistory 0 None nt). assert (SpecTree.grown h) as Hg by apply nhistory_grown.
  assert (0 < length h) as H0 by (unfold h; rewrite nhistory_length; apply ncount_pos).
  assert (forall child, first_child h 0 child -> opof ins = OPushChild -> exists txt z, child = Some txt /\ reads_number lo txt z) as Hch.
  { intros child Hfc Ho. destruct (Hc Ho) as (x & b & subs & z & -> & Hz). exists b, z. split; [|exact Hz]. clear -Hfc.
    assert (kids h 0 = nstarts 1 (NLeaf b :: subs)) as Hk.
    { apply (nlocated_kids h 0 x (NLeaf b :: subs)); [apply nhistory_grown|]. exists [], [], None. rewrite app_nil_r. split; [reflexivity|]. split; [reflexivity|]. intros k q d Hk. rewrite lookup_nil in Hk. discriminate. }
    unfold first_child in Hfc. rewrite Hk in Hfc. cbn [nstarts] in Hfc. destruct Hfc as (p & d & Hd & ->). unfold h in Hd. rewrite nhistory_node in Hd. cbn in Hd. congruence. }
  assert (forall w, follows lo view m h 0 (opof ins) w (vm_execute vm (own_tree nt) (mkNodeId 0 0) ins w)) as Hfo by (intros w; exact (Hf h 0 ins w Hg H0)).
  assert (forall c c', first_child h 0 c -> first_child h 0 c' -> c = c') as Hdet.
  { intros c c'. unfold first_child. destruct (kids h 0) as [|k ks]; [congruence|]. intros (p & d & Hd & ->) (p' & d' & Hd' & ->). congruence. }
  destruct (Hfo v) as (child & Hfc & Hr). pose proof (fun r Hstep => step_frame m lo child (opof ins) (view v) r top bot Hstep Hs Hl (Hch child Hfc)) as Hfr.
  assert (forall w r, step m lo child (opof ins) (view w) r -> match r with
    | Some s' => exists w', (let* '(_t, v') := vm_execute vm (own_tree nt) (mkNodeId 0 0) ins w in Ok v') = Ok w' /\ view w' = s'
    | None => (let* '(_t, v') := vm_execute vm (own_tree nt) (mkNodeId 0 0) ins w in Ok v') = Panic end) as Hgo.
  { intros w r Hstep. destruct (Hfo w) as (child' & Hfc' & Hr'). rewrite (Hdet _ _ Hfc' Hfc) in Hr'.
    destruct (vm_execute vm (own_tree nt) (mkNodeId 0 0) ins w) as [[t w']|[]| |]; [|..|contradiction].
    - destruct Hr' as [_ Hr']. rewrite (step_det _ _ _ _ _ _ _ Hstep Hr'). exists w'. split; reflexivity.
    - rewrite (step_det _ _ _ _ _ _ _ Hstep Hr'). reflexivity. }
  destruct (vm_execute vm (own_tree nt) (mkNodeId 0 0) ins v) as [[t v']|[]| |]; cbn [obind]; [|..|contradiction].
  - destruct Hr as [_ Hr]. destruct (Hfr _ Hr) as (top' & S1 & S2 & S3 & S4). exists top'. split; [exact S1|]. split; [rewrite S2; apply Rrefl|]. split; [exact S3|].
    intros bot2 v2 Hv2. specialize (S4 bot2). rewrite <- Hv2 in S4. exact (Hgo v2 _ S4).
  - intros bot2 v2 Hv2. pose proof (Hfr _ Hr bot2) as S4. cbn beta iota in S4. rewrite <- Hv2 in S4. exact (Hgo v2 _ S4).
Qed.

Context (rs : list (arule (vm_instr vm))) (types : str -> nat * nat) (x0 : str)
  (Hfit : forall y i w, part_of rs x0 y -> says rs y i w -> exists h, height (types y).1 (map (element_usage types) w ++ map (fun ins => usage (opof ins)) (instructions_for rs y)) = Some h /\ forall b, R h b -> R (types y).2 b)
  (Hnum : forall y i w ins, part_of rs x0 y -> says rs y i w -> ins ∈ instructions_for rs y -> opof ins = OPushChild -> exists b w' z, w = (b, Terminal) :: w' /\ reads_number lo b z).
Lemma part_child x i w y : part_of rs x0 x -> says rs x i w -> (y, NonTerminal) ∈ w -> part_of rs x0 y.
Proof. intros Hp Hs Hy. eapply rtc_r; [exact Hp|]. eauto. Qed.
Lemma part_framed nt : nderivation rs nt -> (forall x, nroot nt = (x, NonTerminal) -> part_of rs x0 x) ->
  framed (element_usage types (nroot nt)).1 (element_usage types (nroot nt)).2 (effect rs nt).
Proof.
  induction nt as [b|x subs IH] using ntree_ind'; intros Hder Hp; [exact (framed_ok 0)|]. cbn [nroot element_usage].
  inversion Hder as [|? i ? Hw Hds]; subst. specialize (Hp x eq_refl).
  destruct (Hfit x i _ Hp Hw) as (h & Hh & Hweak). apply height_app in Hh as (h1 & H1 & H2). apply (framed_weaken _ _ h _ Hweak).
  apply (framed_ext _ _ (fun v => let* v1 := effects rs subs v in own_instructions rs (NNode x subs) v1)); [intros v; symmetry; apply effect_node|].
  apply (framed_then _ h1).
  - unfold effects. rewrite map_map in H1. apply (framed_list (effect rs) (fun s => element_usage types (nroot s)) subs); [|exact H1].
    intros s Hs. rewrite Forall_forall in IH, Hds. apply IH; [assumption|auto|]. intros y Hy. apply (part_child x i _ y Hp Hw). rewrite <- Hy. apply elem_of_list_fmap_1, Hs.
  - cbn [own_instructions]. apply (framed_list (fun ins v => let* '(_t, v') := vm_execute vm (own_tree (NNode x subs)) (mkNodeId 0 0) ins v in Ok v') (fun ins => usage (opof ins))); [|exact H2].
    intros ins Hi. apply framed_instr. intros Ho. destruct (Hnum x i _ ins Hp Hw Hi Ho) as (b & w' & z & E & Hz).
    destruct subs as [|[b'|y ss] subs]; cbn [map nroot] in E; [discriminate| |discriminate]. injection E as -> _. exists x, b, subs, z. split; [reflexivity|exact Hz].
Qed.
(** an unfinished name *)
Lemma height_prefix l l' h h' : height h (l ++ l') = Some h' -> exists h1, height h l = Some h1.
Proof. intros E. apply height_app in E as (h1 & E & _). eauto. Qed.
Lemma unfinished_framed x parts read : unfinished rs x parts read -> part_of rs x0 x -> exists k, framed (types x).1 k (effect_all rs parts).
Proof.
  assert (forall x i parts e more, part_of rs x0 x -> says rs x i (map nroot parts ++ e :: more) -> Forall (nderivation rs) parts ->
    exists h1 h2, framed (types x).1 h1 (effect_all rs parts) /\ height h1 (element_usage types e :: h2) <> None) as Hpre.
  { clear x parts read. intros x i parts e more Hp Hw Hds. destruct (Hfit x i _ Hp Hw) as (h & Hh & _). rewrite map_app, <- app_assoc in Hh.
    apply height_app in Hh as (h1 & H1 & H2). exists h1. cbn [map app] in H2. eexists. split; [|rewrite H2; discriminate]. rewrite map_map in H1.
    unfold effect_all. apply (framed_list (effect rs) (fun s => element_usage types (nroot s)) parts); [|exact H1].
    intros s Hs. rewrite Forall_forall in Hds. apply part_framed; [auto|]. intros y Hy. apply (part_child x i _ y Hp Hw). rewrite <- Hy. apply elem_of_app. left. apply elem_of_list_fmap_1, Hs. }
  induction 1 as [x Hx|x i parts b more k Hw Hds Hk|x i parts y more later read Hw Hds Hu IH]; intros Hp.
  - exists (types x).1. apply framed_ok.
  - destruct (Hpre x i parts _ more Hp Hw Hds) as (h1 & h2 & Hf1 & _). eauto.
  - destruct (Hpre x i parts _ more Hp Hw Hds) as (h1 & h2 & Hf1 & Hn). destruct IH as [k Hk]; [eapply part_child; [exact Hp|exact Hw|apply elem_of_app; right; left]|].
    cbn [height element_usage] in Hn. destruct (types y) as [n j] eqn:Ey. destruct (decide (n <= h1)) as [Hle|]; [|congruence].
    exists (h1 - n + k). apply (framed_ext _ _ (fun v => let* v1 := effect_all rs parts v in effect_all rs later v1)).
    { intros v. unfold effect_all. rewrite ofold_app. reflexivity. }
    apply (framed_then _ h1); [assumption|]. apply framed_at; [|assumption]. exact Hk.
Qed.
End machine.

(** ** The check as a program, for grammars without IGNORE *)
Section checker.
Context {I : Type} (opof : I -> op) (lo : Z) (num : str -> bool) (Hnum : forall b, num b = true -> exists z, reads_number lo b z) (rs : list (arule I)) (types : str -> nat * nat).
Definition is_push_child (o : op) : bool := match o with OPushChild => true | _ => false end.
Definition number_first (w : list (str * ElementType)) : bool := match w with (b, Terminal) :: _ => num b | _ => false end.
Definition numbers_checked y w : bool := negb (existsb (fun ins => is_push_child (opof ins)) (instructions_for rs y)) || number_first w.
Definition checked_with (good : str -> list (str * ElementType) -> bool) : bool := forallb (fun y => forallb (fun w => good y w && numbers_checked y w) (alternatives_for rs y)) (map ar_name rs).
Definition height_of y w : option nat := height (types y).1 (map (element_usage types) w ++ map (fun ins => usage (opof ins)) (instructions_for rs y)).
Lemma checked_says good : (forall a b, ~ ignores rs a b) -> checked_with good = true -> forall y i w, says rs y i w -> good y w = true /\
  forall ins, ins ∈ instructions_for rs y -> opof ins = OPushChild -> exists b w' z, w = (b, Terminal) :: w' /\ reads_number lo b z.
Proof.
  intros Hni Hc y i w Hs. unfold checked_with in Hc. rewrite forallb_forall in Hc.
  assert (good y w && numbers_checked y w = true) as Hw.
  { destruct Hs as [w Hs _|w z Hs Hi _]; [|destruct (Hni _ _ Hi)]. apply elem_of_list_lookup_2 in Hs. specialize (Hc y). rewrite forallb_forall in Hc. apply Hc; [|apply elem_of_list_In, Hs].
    unfold alternatives_for in Hs. apply elem_of_list_In, in_concat in Hs as (l & Hl & _). apply in_map_iff in Hl as (r & _ & Hr). apply elem_of_list_In, elem_of_list_filter in Hr as [<- Hr].
    apply in_map, elem_of_list_In, Hr. }
  apply andb_true_iff in Hw as [Hg Hw]. split; [exact Hg|]. intros ins Hi Ho. apply orb_true_iff in Hw as [Hw|Hw].
  - apply negb_true_iff in Hw. assert (existsb (fun ins => is_push_child (opof ins)) (instructions_for rs y) = true) as E; [|congruence].
    apply existsb_exists. exists ins. split; [apply elem_of_list_In, Hi|]. rewrite Ho. reflexivity.
  - destruct w as [|[b []] w']; try discriminate. destruct (Hnum b Hw) as [z Hz]. exists b, w', z. auto.
Qed.
Definition heights_checker : bool := checked_with (fun y w => bool_decide (height_of y w = Some (types y).2)).
Lemma checker_fits x : (forall a b, ~ ignores rs a b) -> heights_checker = true -> heights_fit opof lo rs types x.
Proof.
  intros Hni Hc. pose proof (checked_says _ Hni Hc) as Hw. split.
  - intros y i w _ Hs. apply Hw in Hs as [Hs _]. apply bool_decide_eq_true in Hs. exact Hs.
  - intros y i w ins _ Hs. apply (Hw y i w Hs).
Qed.
Definition reach_checker : bool := checked_with (fun y w => match height_of y w with Some h => (types y).2 <=? h | None => false end).
Lemma checker_reaches x : (forall a b, ~ ignores rs a b) -> reach_checker = true -> heights_reach opof lo rs types x.
Proof.
  intros Hni Hc. pose proof (checked_says _ Hni Hc) as Hw. split.
  - intros y i w _ Hs. apply Hw in Hs as [Hs _]. fold (height_of y w). destruct (height_of y w) as [h|]; [|discriminate]. exists h. split; [reflexivity|]. apply Nat.leb_le, Hs.
  - intros y i w ins _ Hs. apply (Hw y i w Hs).
Qed.
End checker.
Lemma isize_number b : (match str_parse_isize b with Some _ => true | None => false end) = true -> exists z, reads_number (- 2 ^ 63) b z.
Proof. destruct (str_parse_isize b) as [z|] eqn:E; [|discriminate]. intros _. exists z. apply isize_text, E. Qed.
