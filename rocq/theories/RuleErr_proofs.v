(** * Where a malformed rule text is rejected *)
From Verif Require Import Base Peekables Tree Errors ParseFuncs ParserData Vm RuleParsing
  SpecText SpecData SpecGrammar SpecRules SpecContract SpecPoints Streams_proofs ParseFuncs_proofs Terminal_proofs VmText_proofs
  RuleText_proofs RuleRead_proofs VmPoints_proofs.

Section rules.
Context {U : Unicode} (vm : VM).
Notation I := (vm_instr vm).
Notation ST A := (st (RP I) ParserError A).
Context (reads : str -> str -> list I -> Prop) (Hvm : vm_reads vm reads) (Hvp : vm_points vm reads).
Notation at_ w n pd := (mkRP (outer w n) pd).

(** ** Runs that stop at a char.  [B pre]: what was read can be continued. *)
Definition hinting (B : str -> Prop) (e : ParserError) (pre : str) : Prop :=
  vm_hints vm reads -> forall ex, hint_of e = Some ex -> hint_known ex /\ forall c, suggests ex c -> B (pre ++ [c]).
Definition stuck (B : str -> Prop) (e : ParserError) (pre rest : str) : Prop :=
  (names_char e rest /\ hinting B e pre) /\
  (if is_hash_error e then exists pre0, pre = pre0 ++ [35%N] /\ B pre0 else error_position e <> None -> B pre).
Definition decided {A} (r : outcome ParserError A) : Prop := match r with Err e => is_hash_error e = true | _ => False end.
Definition gruns {A} (m : ST A) (n : nat) (w : str) (pd : ParserData I)
    (Q : A -> str -> str -> ParserData I -> Prop) (B : str -> Prop) : Prop :=
  exists r pre w' pd', m (at_ w n pd) = (r, at_ w' (n + length pre) pd') /\ w = pre ++ w' /\
    (forall w2, same_next w' w2 \/ decided r -> m (at_ (pre ++ w2) n pd) = (r, at_ w2 (n + length pre) pd')) /\
    match r with
    | Ok a => Q a pre w' pd'
    | Err e => error_at (n + length pre) e /\ stuck B e pre w'
    | Panic | Diverge => False
    end.
Lemma stuck_weaken (B B' : str -> Prop) e pre rest : stuck B e pre rest -> (forall p, B p -> B' p) -> stuck B' e pre rest.
Proof.
  intros [[H1 H3] H2] HB. split; [split; [assumption|]|].
  { intros Hv ex Hex. destruct (H3 Hv ex Hex). split; auto. }
  destruct (is_hash_error e); [|auto]. destruct H2 as (pre0 & -> & H). eauto.
Qed.
Lemma gruns_bind {A B} (m : ST A) (k : A -> ST B) n w pd Q1 B1 (Q : B -> str -> str -> ParserData I -> Prop) (BB : str -> Prop) :
  gruns m n w pd Q1 B1 -> (forall p, B1 p -> BB p) ->
  (forall a pre w' pd', w = pre ++ w' -> Q1 a pre w' pd' ->
     gruns (k a) (n + length pre) w' pd' (fun b pre2 w2 pd2 => Q b (pre ++ pre2) w2 pd2) (fun p => BB (pre ++ p))) ->
  gruns (sbind m k) n w pd Q BB.
Proof.
  intros (r & pre & w' & pd' & E & -> & Ho & Hr) HB Hk. unfold gruns, sbind. rewrite E.
  destruct r as [a|e| |]; try contradiction.
  - destruct (Hk a pre w' pd' eq_refl Hr) as (r2 & pre2 & w2 & pd2 & E2 & -> & Ho2 & Hr2). rewrite E2.
    exists r2, (pre ++ pre2), w2, pd2. rewrite app_length, Nat.add_assoc, <- app_assoc. split; [reflexivity|]. split; [reflexivity|]. split.
    + intros w3 Hw3. rewrite <- app_assoc. rewrite (Ho (pre2 ++ w3)).
      * apply Ho2. assumption.
      * left. destruct Hw3 as [Hw3|Hd]; [apply same_next_app; assumption|]. destruct r2 as [|e| |]; try contradiction. cbn in Hd.
        destruct Hr2 as [_ [_ Hs]]. rewrite Hd in Hs. destruct Hs as (pre0 & -> & _). destruct pre0; apply same_next_cons.
    + destruct r2 as [b|e| |]; try contradiction; [assumption|]. destruct Hr2 as [He [[Hc Hi] Hs]]. split; [assumption|]. split; [split; [assumption|]|].
      { intros Hv ex Hex. destruct (Hi Hv ex Hex) as [H1 H2]. split; [assumption|]. intros c Hc'. rewrite <- app_assoc. auto. }
      destruct (is_hash_error e); [|assumption]. destruct Hs as (pre0 & -> & Hs). exists (pre ++ pre0). rewrite app_assoc. auto.
  - exists (Err e), pre, w', pd'. split; [reflexivity|]. split; [reflexivity|]. split.
    + intros w2 Hw2. rewrite (Ho w2 Hw2). reflexivity.
    + destruct Hr as [He Hs]. split; [assumption|]. eapply stuck_weaken; eassumption.
Qed.
Lemma gruns_ret {A} (a : A) n w pd (Q : A -> str -> str -> ParserData I -> Prop) B :
  Q a [] w pd -> gruns (sret a) n w pd Q B.
Proof. intros HQ. exists (Ok a), [], w, pd. cbn. rewrite Nat.add_0_r. repeat split; auto. Qed.
Lemma gruns_weaken {A} (m : ST A) n w pd (Q1 Q : A -> str -> str -> ParserData I -> Prop) (B1 B : str -> Prop) :
  gruns m n w pd Q1 B1 -> (forall a pre w' pd', w = pre ++ w' -> Q1 a pre w' pd' -> Q a pre w' pd') -> (forall p, B1 p -> B p) ->
  gruns m n w pd Q B.
Proof.
  intros (r & pre & w' & pd' & E & Hw & Ho & Hr) Hi HB. exists r, pre, w', pd'. split; [assumption|]. split; [assumption|]. split; [assumption|].
  destruct r; auto. destruct Hr as [He Hs]. split; [assumption|]. eapply stuck_weaken; eassumption.
Qed.
Lemma gruns_ext {A} (m m' : ST A) n w pd Q B : (forall w, m (at_ w n pd) = m' (at_ w n pd)) -> gruns m n w pd Q B -> gruns m' n w pd Q B.
Proof. intros E (r & pre & w' & pd' & E1 & Hw & Ho & Hr). exists r, pre, w', pd'. rewrite <- E. repeat split; auto. intros w2 Hw2. rewrite <- E. auto. Qed.

(** ** Primitives; a failing one has read nothing *)
Definition nothing (p : str) : Prop := p = [].
Local Ltac nodec := match goal with H : decided _ |- _ => first [discriminate H|destruct H] end.
Definition may (P : char -> Prop) (p : str) : Prop := p = [] \/ vm_hints vm reads /\ exists c, P c /\ p = [c].
Local Ltac nohint := intros _ ? ?; discriminate.
Local Ltac stop := split; [reflexivity|]; split; [split; [cbn; auto|]|cbn; intros _; left; reflexivity].
Lemma g_symbol c n w pd : gruns (r_symbol vm c) n w pd (fun _ pre _ pd' => pre = [c] /\ pd' = pd) (may (eq c)).
Proof.
  unfold gruns. setoid_rewrite r_symbol_eq. destruct w as [|d w].
  - eexists _, [], [], pd. cbn. rewrite Nat.add_0_r. split; [reflexivity|]. split; [reflexivity|]. split.
    + intros w2 [[? _]|Hdec]; [congruence|nodec].
    + stop; nohint.
  - destruct (N.eqb_spec d c) as [->|Hd].
    + eexists _, [c], w, pd. split; [reflexivity|]. split; [reflexivity|]. split; [|split; reflexivity].
      intros w2 _. cbn. rewrite N.eqb_refl. reflexivity.
    + eexists _, [], (d :: w), pd. cbn. rewrite Nat.add_0_r. split; [reflexivity|]. split; [reflexivity|]. split.
      * intros w2 [[_ Hh]|Hdec]; [|nodec]. destruct w2 as [|d2 w2]; [discriminate|]. injection Hh as ->. destruct (N.eqb_spec d c); [congruence|reflexivity].
      * stop. intros Hv ex [= <-]. split; [left; eauto|]. intros x [Hx|[[Hx _]|[Hx _]]]; [|discriminate..]. injection Hx as <-. right. eauto.
Qed.
Lemma g_succeeds c n w pd : gruns (succeeds vm (r_symbol vm c)) n w pd
  (fun b pre w' pd' => pd' = pd /\ if b : bool then pre = [c] else pre = [] /\ head w' <> Some c) (fun _ => False).
Proof.
  unfold gruns, succeeds. setoid_rewrite r_symbol_eq. destruct w as [|d w].
  - eexists _, [], [], pd. cbn. rewrite Nat.add_0_r. split; [reflexivity|]. split; [reflexivity|]. split.
    + intros w2 [[? _]|Hdec]; [congruence|nodec].
    + repeat split. discriminate.
  - destruct (N.eqb_spec d c) as [->|Hd].
    + eexists _, [c], w, pd. split; [reflexivity|]. split; [reflexivity|]. split; [|split; reflexivity].
      intros w2 _. cbn. rewrite N.eqb_refl. reflexivity.
    + eexists _, [], (d :: w), pd. cbn. rewrite Nat.add_0_r. split; [reflexivity|]. split; [reflexivity|]. split.
      * intros w2 [[_ Hh]|Hdec]; [|nodec]. destruct w2 as [|d2 w2]; [discriminate|]. injection Hh as ->. destruct (N.eqb_spec d c); [congruence|reflexivity].
      * repeat split. congruence.
Qed.
Lemma g_whitespace n w pd : gruns (r_whitespace vm) n w pd
  (fun _ pre w' pd' => blank pre /\ not_starting white w' /\ pd' = pd) (fun _ => False).
Proof.
  destruct (span_exists white w) as (l & w' & -> & Hl & Hw).
  exists (Ok tt), l, w', pd. split; [apply ws_eq; assumption|]. split; [reflexivity|]. split; [|auto].
  intros w2 [Hn|[]]. apply ws_eq; [assumption|]. eapply not_starting_next; eassumption.
Qed.
Lemma g_name n w pd : gruns (on_pp vm (parse_var_name base_tp)) n w pd
  (fun x pre w' pd' => pre = x /\ valid_name x /\ not_starting namechar w' /\ pd' = pd) (may (fun c => is_alphabetic c = true)).
Proof.
  destruct (name_split w) as [(x & w' & -> & Hx & Hw)|Hn].
  - exists (Ok x), x, w', pd. split; [apply name_eq; assumption|]. split; [reflexivity|]. split; [|auto].
    intros w2 [Hs|[]]. apply name_eq; [assumption|]. eapply not_starting_next; eassumption.
  - destruct w as [|c w].
    + eexists _, [], [], pd. cbn. rewrite Nat.add_0_r. split; [reflexivity|]. split; [reflexivity|]. split.
      * intros w2 [[? _]|Hdec]; [congruence|nodec].
      * stop; nohint.
    + simpl in Hn. destruct (is_alphabetic c) eqn:Hc; [congruence|].
      eexists _, [], (c :: w), pd. cbn [app length]. rewrite Nat.add_0_r.
      assert (forall w2, on_pp vm (parse_var_name base_tp) (at_ (c :: w2) n pd) = (Err (UnexpectedCharError c n (lit "alphabetic character")), at_ (c :: w2) n pd)) as Hrun.
      { intros w2. unfold on_pp. cbn [rp_pp rp_pd].
        destruct (parse_var_name_other base_tp plainR plain_psim (outer (c :: w2) n) n c w2 eq_refl Hc) as (p' & -> & ->). reflexivity. }
      split; [apply Hrun|]. split; [reflexivity|]. split.
      * intros w2 [[_ Hh]|Hdec]; [|nodec]. destruct w2 as [|d2 w2]; [discriminate|]. injection Hh as ->. apply Hrun.
      * stop. intros Hv ex [= <-]. split; [right; left; reflexivity|]. intros x [Hx|[[_ Hx]|[Hx _]]]; [discriminate| |discriminate]. right. eauto.
Qed.
Lemma g_add_element e n w pd : gruns (add_element vm e) n w pd
  (fun i pre _ pd' => pre = [] /\ get_or_add_element_key pd e = (i, pd')) nothing.
Proof.
  unfold gruns, add_element. cbn [rp_pp rp_pd]. destruct (get_or_add_element_key pd e) as [i pd'].
  exists (Ok i), [], w, pd'. cbn. rewrite Nat.add_0_r. auto.
Qed.

(** ** Elements *)
Lemma unterminated_continue u : unterminated u -> exists more, quoted_body (u ++ more).
Proof.
  assert (forall b t, quoted_body b -> quoted_body t -> quoted_body (b ++ t)) as Happ.
  { intros b t Hb Ht. induction Hb; cbn; try constructor; assumption. }
  intros [Hb|(b & Hb & ->)]; [exists []; rewrite app_nil_r; assumption|].
  exists (lit "x"). rewrite <- app_assoc. apply Happ; [assumption|]. apply (qb_esc 120%N []). constructor.
Qed.
Lemma element_points n w :
  (exists w', w = 35%N :: w' /\ forall w2, parse_element (outer (35%N :: w2) n) = (Ok None, outer w2 (n + 1))) \/
  (exists e t w', w = t ++ w' /\ element_text e t /\ (e.2 = NonTerminal -> not_starting namechar w') /\
     forall w2, w2 = w' \/ same_next w' w2 -> parse_element (outer (t ++ w2) n) = (Ok (Some e), outer w2 (n + length t))) \/
  (exists c w', w = c :: w' /\ ~ white c /\
     forall w2, exists x, parse_element (outer (c :: w2) n) = (Err x, outer (c :: w2) n)) \/
  (exists x, parse_element (outer w n) = (Err x, outer [] (n + length w)) /\ exists e more, element_text e (w ++ more)) \/
  (exists c w', w = c :: w' /\ white c).
Proof.
  destruct w as [|c w].
  { right. right. right. left. eexists. cbn. rewrite Nat.add_0_r. split; [reflexivity|]. exists (lit "a", NonTerminal), (lit "a"). constructor. split; [reflexivity|constructor]. }
  destruct (decide (white c)) as [Hwc|Hwc]; [right; right; right; right; eauto|].
  destruct (N.eqb_spec c 35) as [->|H35]; [left; exists w; split; [reflexivity|intros; reflexivity]|]. right.
  destruct (N.eqb_spec c 34) as [->|H34].
  - destruct (quote_split w) as [(b & rest & -> & Hb)|Hu].
    + left. exists (b, Terminal), (34%N :: b ++ [34%N]), rest. assert (element_text (b, Terminal) (34%N :: b ++ [34%N])) as He by (constructor; assumption).
      split; [cbn; rewrite <- app_assoc; reflexivity|]. split; [assumption|]. split; [discriminate|].
      intros w2 _. apply element_eq; [assumption|discriminate].
    + right. right. left. unfold parse_element. rewrite outer_peek. cbn [head]. change (N.eqb 34 35) with false. change (N.eqb 34 34) with true. cbv iota.
      unfold sbind. rewrite parse_terminal_unterminated by assumption. eexists. cbn. replace (n + S (length w)) with (n + 1 + length w) by lia. split; [reflexivity|].
      destruct (unterminated_continue w Hu) as [more Hm]. exists (w ++ more, Terminal), (more ++ [34%N]). rewrite app_assoc. constructor. assumption.
  - destruct (is_alphabetic c) eqn:Hc.
    + left. destruct (span_exists namechar w) as (cs & w' & -> & Hcs & Hw). exists (c :: cs, NonTerminal), (c :: cs), w'.
      assert (element_text (c :: cs, NonTerminal) (c :: cs)) as He by (constructor; split; assumption).
      split; [reflexivity|]. split; [assumption|]. split; [auto|]. intros w2 Hw2. apply element_eq; [assumption|]. intros _.
      destruct Hw2 as [->|Hs]; [assumption|]. eapply not_starting_next; eassumption.
    + right. left. exists c, w. split; [reflexivity|]. split; [assumption|]. intros w2. unfold parse_element. rewrite outer_peek. cbn [head].
      rewrite (proj2 (N.eqb_neq c 35) H35), (proj2 (N.eqb_neq c 34) H34), Hc. eauto.
Qed.

(** ** Productions *)
Lemma production_fuel f : forall f' acc w n pd, length w < f -> length w < f' ->
  production_loop vm f acc (at_ w n pd) = production_loop vm f' acc (at_ w n pd).
Proof.
  induction f as [|f IH]; intros [|f'] acc w n pd Hf Hf'; [lia..|]. cbn [production_loop].
  destruct (span_exists white w) as (l & w1 & -> & Hl & Hw1). unfold sbind at 1 3. rewrite ws_eq by assumption.
  unfold on_pp. cbn [rp_pp rp_pd].
  destruct (parse_element_cases (n + length l) w1) as [(w2 & -> & ->)|[(e & t & w2 & -> & He & Hsep & ->)|(x & pre & w2 & -> & Hp & ->)]];
    [reflexivity| |reflexivity].
  unfold sbind, add_element. cbn [rp_pp rp_pd]. destruct (get_or_add_element_key pd e) as [i pd2].
  pose proof (element_text_length e t He) as Hlt. rewrite !app_length in *. apply IH; lia.
Qed.
Lemma production_gram f : forall acc w n pd e s', production_loop vm f acc (at_ w n pd) = (Err e, s') -> hint_of e = None.
Proof.
  induction f as [|f IH]; intros acc w n pd e s'; [discriminate|]. cbn [production_loop].
  destruct (span_exists white w) as (l & w1 & -> & Hl & Hw1). unfold sbind at 1. rewrite ws_eq by assumption.
  unfold on_pp. cbn [rp_pp rp_pd].
  destruct (parse_element_cases (n + length l) w1) as [(w2 & -> & ->)|[(e0 & t & w2 & -> & He & Hsep & ->)|(x & pre & w2 & -> & Hp & ->)]].
  - destruct acc; [discriminate|]. intros [= <- _]. reflexivity.
  - unfold sbind, add_element. cbn [rp_pp rp_pd]. destruct (get_or_add_element_key pd e0) as [i pd2]. apply IH.
  - destruct acc; [|discriminate]. intros [= <- _]. reflexivity.
Qed.
Definition ploop (acc : list nat) : ST Production := fun s => production_loop vm (S (r_size vm s)) acc s.
Lemma ploop_eq acc w n pd : ploop acc (at_ w n pd) =
  (do _u <- r_whitespace vm;
   fun s1 =>
     match on_pp vm parse_element s1 with
     | (Ok None, s2) => match acc with [] => (Ok Empty, s2)
         | _ => (Err (GramError (UnexpectedElementError ReasonEmptyWithOthers (cur_pos (rp_pp s2)))), s2) end
     | (Ok (Some el), s2) => (do index <- add_element vm el; ploop (acc ++ [index])) s2
     | (Err _, s2) => match acc with [] => (Err (GramError (UnexpectedElementError ReasonNoElements (cur_pos (rp_pp s2)))), s2)
         | _ => (Ok (NotEmpty acc), s2) end
     | (Panic, s2) => (Panic, s2)
     | (Diverge, s2) => (Diverge, s2)
     end) (at_ w n pd).
Proof.
  unfold ploop at 1. change (r_size vm (at_ w n pd)) with (length w). cbn [production_loop].
  destruct (span_exists white w) as (l & w1 & -> & Hl & Hw1). unfold sbind at 1 3. rewrite ws_eq by assumption.
  unfold on_pp. cbn [rp_pp rp_pd].
  destruct (parse_element_cases (n + length l) w1) as [(w2 & -> & ->)|[(e & t & w2 & -> & He & Hsep & ->)|(x & pre & w2 & -> & Hp & ->)]];
    [reflexivity| |reflexivity].
  unfold sbind, add_element. cbn [rp_pp rp_pd]. destruct (get_or_add_element_key pd e) as [i pd2].
  pose proof (element_text_length e t He) as Hlt. rewrite !app_length in *. unfold ploop.
  change (r_size vm (at_ w2 (n + length l + length t) pd2)) with (length w2). apply production_fuel; lia.
Qed.
Definition pcont (acc : list nat) (es : list (str * ElementType)) (pre more : str) : Prop :=
  loop_text es (pre ++ more) /\ (acc <> [] \/ es <> []) /\ (acc <> [] -> pre = [] -> more = []).
Definition prod_ok (acc : list nat) (pre w' : str) : Prop :=
  (acc = [] /\ exists l, blank l /\ pre = l ++ [35%N]) \/
  (exists es, pcont acc es pre [] \/ w' = [] /\ exists more, pcont acc es pre more).
Lemma loop_one e te l : blank l -> element_text e te -> loop_text [e] (l ++ te).
Proof. intros Hl He. rewrite <- (app_nil_r te). apply lt_cons; [assumption|assumption|intros _; exact Logic.I|constructor; constructor]. Qed.
Lemma g_ploop k : forall acc n w pd, length w <= k ->
  gruns (ploop acc) n w pd (fun _ pre w' _ => prod_ok acc pre w') (fun pre => exists es more, pcont acc es pre more).
Proof.
  induction k as [k IH] using lt_wf_ind. intros acc n w pd Hk. eapply gruns_ext; [intros w0; symmetry; apply ploop_eq|].
  eapply (gruns_bind _ _ _ _ _ _ nothing); [eapply gruns_weaken; [apply g_whitespace|intros a p w0 pd0 _ H; exact H|contradiction]| |].
  { intros p ->. exists (if decide (acc = []) then [(lit "a", NonTerminal)] else []), (if decide (acc = []) then lit "a" else []).
    destruct (decide (acc = [])) as [->|Hne].
    - split; [|split; [right; discriminate|congruence]]. apply (loop_one _ _ []); [constructor|]. constructor. split; [reflexivity|constructor].
    - split; [constructor; constructor|]. auto. }
  intros _ l w1 pd1 -> (Hl & Hw1 & ->).
  destruct (element_points (n + length l) w1) as [(w' & -> & He)|[(e & t & w2 & -> & Het & Hsep & He)|[(c & w' & -> & Hc & He)|[(x & Hx & e & more & Het)|(c & w' & -> & Hc)]]]].
  - destruct acc as [|a acc].
    + exists (Ok Empty), [35%N], w', pd. unfold on_pp. cbn [rp_pp rp_pd app length]. rewrite He. split; [reflexivity|]. split; [reflexivity|].
      split; [intros w2 _; rewrite He; reflexivity|]. left. eauto.
    + eexists (Err _), [35%N], w', pd. unfold on_pp. cbn [rp_pp rp_pd app length]. rewrite He. split; [reflexivity|]. split; [reflexivity|].
      split; [intros w2 _; rewrite He; reflexivity|]. split; [reflexivity|]. split; [split; [exact Logic.I|nohint]|]. cbn. exists []. split; [reflexivity|].
      exists [], []. rewrite !app_nil_r. split; [constructor; rewrite app_nil_r; assumption|]. split; [left; discriminate|auto].
  - pose proof (element_text_length e t Het) as Hlt.
    assert (gruns (do index <- add_element vm e; ploop (acc ++ [index])) (n + length l + length t) w2 pd
      (fun _ pre w' _ => exists a, prod_ok (acc ++ [a]) pre w') (fun pre => exists a es more, pcont (acc ++ [a]) es pre more)) as Hin.
    { eapply gruns_bind; [apply g_add_element| |].
      - intros p ->. exists 0, [], []. split; [constructor; constructor|]. split; [left; destruct acc; discriminate|auto].
      - intros i pre w3 pd3 -> (-> & Hi). cbn [app length]. rewrite Nat.add_0_r.
        eapply gruns_weaken; [eapply (IH (length w3)); [|apply le_n]| |].
        + rewrite !app_length in Hk. cbn in Hk. lia.
        + intros a pre w' pd' _ Hp. exists i. exact Hp.
        + intros p (es & more & Hp). exists i, es, more. exact Hp. }
    destruct Hin as (r & pre & w3 & pd3 & E & -> & Ho & Hr).
    assert (forall a es more, pcont (acc ++ [a]) es pre more -> pcont acc (e :: es) (l ++ t ++ pre) more) as Hcons.
    { intros a es more (H1 & H2 & H3). split.
      - rewrite <- !app_assoc. apply lt_cons; [assumption|assumption| |assumption]. intros Hnt. specialize (Hsep Hnt).
        destruct pre as [|c pre]; [|exact Hsep]. rewrite H3; [exact Logic.I|destruct acc; discriminate|reflexivity].
      - split; [right; discriminate|]. intros _ Hnil. apply app_eq_nil in Hnil as [_ Hnil]. apply app_eq_nil in Hnil as [-> _]. cbn in Hlt. lia. }
    exists r, (t ++ pre), w3, pd3. rewrite app_length, Nat.add_assoc, <- app_assoc.
    assert (forall v, v = pre ++ w3 \/ same_next (pre ++ w3) v ->
      on_pp vm parse_element (at_ (t ++ v) (n + length l) pd) = (Ok (Some e), at_ v (n + length l + length t) pd)) as Hel.
    { intros v Hv. unfold on_pp. cbn [rp_pp rp_pd]. rewrite He by assumption. reflexivity. }
    split; [rewrite Hel by auto; exact E|]. split; [reflexivity|]. split.
    + intros w2 Hw2. rewrite <- app_assoc. rewrite Hel; [apply Ho; assumption|]. right.
      destruct Hw2 as [Hs|Hd]; [apply same_next_app; assumption|]. destruct r as [|e'| |]; try contradiction. cbn in Hd.
      destruct Hr as [_ [_ Hs]]. rewrite Hd in Hs. destruct Hs as (pre0 & -> & _). destruct pre0; apply same_next_cons.
    + destruct r as [p|e'| |]; try contradiction.
      * destruct Hr as [a [(Hacc & _)|(es & [Hp|(-> & more & Hp)])]]; [destruct acc; discriminate| |].
        -- right. exists (e :: es). left. eapply Hcons, Hp.
        -- right. exists (e :: es). right. split; [reflexivity|]. exists more. eapply Hcons, Hp.
      * destruct Hr as [He' [[Hch _] Hs]]. split; [assumption|]. split; [split; [assumption|]|].
        { unfold sbind, add_element in E. cbn [rp_pp rp_pd] in E. destruct (get_or_add_element_key pd e) as [i pd2]. apply production_gram in E.
          intros _ ex Hex. congruence. }
        destruct (is_hash_error e').
        -- destruct Hs as (pre0 & Epre & a & es & more & Hp). exists (t ++ pre0). rewrite Epre, app_assoc. split; [reflexivity|].
           exists (e :: es), more. destruct Hp as (H1 & H2 & H3). split; [|split; [right; discriminate|]].
           ++ rewrite <- !app_assoc. apply lt_cons; [assumption|assumption| |assumption]. intros Hnt. specialize (Hsep Hnt). subst pre.
              destruct pre0 as [|c pre0]; [|exact Hsep]. rewrite H3; [exact Logic.I|destruct acc; discriminate|reflexivity].
           ++ intros _ Hnil. apply app_eq_nil in Hnil as [_ Hnil]. apply app_eq_nil in Hnil as [-> _]. cbn in Hlt. lia.
        -- intros Hpos. destruct (Hs Hpos) as (a & es & more & Hp). exists (e :: es), more. eapply Hcons, Hp.
  - destruct (He w') as [x Ex].
    assert (forall w2, same_next (c :: w') w2 -> exists x, parse_element (outer w2 (n + length l)) = (Err x, outer w2 (n + length l))) as Hn.
    { intros w2 [_ Hh]. destruct w2 as [|d w2]; [discriminate|]. injection Hh as ->. apply He. }
    destruct acc as [|a acc].
    + eexists (Err _), [], (c :: w'), pd. unfold on_pp. cbn [rp_pp rp_pd app length]. rewrite Ex, Nat.add_0_r. split; [reflexivity|]. split; [reflexivity|]. split.
      * intros w2 [Hs|Hd]; [|discriminate]. destruct (Hn w2 Hs) as [x2 ->]. reflexivity.
      * split; [reflexivity|]. split; [split; [exact Logic.I|nohint]|]. cbn. intros _. rewrite app_nil_r. exists [(lit "a", NonTerminal)], (lit "a").
        split; [apply loop_one; [assumption|constructor; split; [reflexivity|constructor]]|]. split; [right; discriminate|congruence].
    + eexists (Ok _), [], (c :: w'), pd. unfold on_pp. cbn [rp_pp rp_pd app length]. rewrite Ex, Nat.add_0_r. split; [reflexivity|]. split; [reflexivity|]. split.
      * intros w2 [Hs|Hd]; [|contradiction]. destruct (Hn w2 Hs) as [x2 ->]. reflexivity.
      * right. exists []. left. rewrite app_nil_r. split; [rewrite app_nil_r; constructor; assumption|]. split; [left; discriminate|auto].
  - destruct acc as [|a acc].
    + eexists (Err _), w1, [], pd. unfold on_pp. cbn [rp_pp rp_pd]. rewrite Hx. split; [reflexivity|]. split; [rewrite app_nil_r; reflexivity|]. split.
      * intros w2 [[? _]|Hd]; [congruence|discriminate].
      * split; [reflexivity|]. split; [split; [exact Logic.I|nohint]|]. cbn. intros _. exists [e], more.
        split; [rewrite <- app_assoc; apply loop_one; assumption|]. split; [right; discriminate|congruence].
    + eexists (Ok _), w1, [], pd. unfold on_pp. cbn [rp_pp rp_pd]. rewrite Hx. split; [reflexivity|]. split; [rewrite app_nil_r; reflexivity|]. split.
      * intros w2 [[? _]|Hd]; [congruence|contradiction].
      * right. destruct w1 as [|c w1].
        -- exists []. left. rewrite app_nil_r. split; [rewrite app_nil_r; constructor; assumption|]. split; [left; discriminate|auto].
        -- exists [e]. right. split; [reflexivity|]. exists more. split; [rewrite <- app_assoc; apply loop_one; assumption|]. split; [right; discriminate|].
           intros _ Hnil. destruct l; discriminate.
  - exfalso. exact (Hw1 Hc).
Qed.

(** ** Runs whose text, or a continuation of it, is a text of [T] *)
Definition greads {A} (m : ST A) (n : nat) (w : str) (pd : ParserData I)
    (R : A -> str -> Prop) (T : A -> str -> Prop) : Prop :=
  gruns m n w pd (fun a pre w' _ => R a w' /\ (T a pre \/ w' = [] /\ exists more, T a (pre ++ more)))
                 (fun pre => exists a more, T a (pre ++ more)).
Definition anyw {A} (a : A) (w : str) : Prop := True.
Lemma gruns_nil {A} (m : ST A) n pd Q B : gruns m n [] pd Q B ->
  gruns m n [] pd (fun a pre w' pd' => pre = [] /\ w' = [] /\ Q a pre w' pd') (fun p => p = [] /\ B p).
Proof.
  intros (r & pre & w' & pd' & E & Hw & Ho & Hr). symmetry in Hw. apply app_eq_nil in Hw as [-> ->].
  exists r, [], [], pd'. split; [assumption|]. split; [reflexivity|]. split; [assumption|]. destruct r as [a|e| |]; auto.
  destruct Hr as [He [[Hc _] Hs]]. split; [assumption|]. split; [split; [assumption|]|].
  { intros _ ex Hex. destruct e; discriminate. }
  destruct (is_hash_error e); [|auto].
  destruct Hs as (pre0 & Hp & _). destruct pre0; discriminate.
Qed.
Lemma greads_bind {A B} (m : ST A) (k : A -> ST B) n w pd R1 R2 (T1 : A -> str -> Prop) (T2 : A -> B -> str -> Prop) (T : B -> str -> Prop) :
  greads m n w pd R1 T1 ->
  (forall a pre w' pd', w = pre ++ w' -> R1 a w' -> greads (k a) (n + length pre) w' pd' R2 (T2 a)) ->
  (forall a x, T1 a x -> exists b y, T2 a b y) ->
  (forall a b x1 x2, T1 a x1 -> T2 a b x2 -> T b (x1 ++ x2)) ->
  greads (sbind m k) n w pd R2 T.
Proof.
  intros H1 H2 Hne HT. eapply gruns_bind; [exact H1| |].
  - intros p (a & more & Ha). destruct (Hne a _ Ha) as (b & y & Hy). exists b, (more ++ y). rewrite app_assoc. eapply HT; eassumption.
  - intros a pre w' pd' -> [HR [Ha|(-> & more & Ha)]]; specialize (H2 a pre _ pd' eq_refl HR).
    + eapply gruns_weaken; [exact H2| |].
      * intros b pre2 w2 pd2 _ [HR2 [Hb|(-> & more & Hb)]]; (split; [assumption|]).
        -- left. eapply HT; eassumption.
        -- right. split; [reflexivity|]. exists more. rewrite <- app_assoc. eapply HT; eassumption.
      * intros p (b & more & Hb). exists b, more. rewrite <- app_assoc. eapply HT; eassumption.
    + eapply gruns_weaken; [apply gruns_nil, H2| |].
      * intros b pre2 w2 pd2 _ (-> & -> & HR2 & Hb). split; [assumption|]. right. split; [reflexivity|]. rewrite app_nil_r.
        destruct Hb as [Hb|(_ & more2 & Hb)]; [exists (more ++ [])|exists (more ++ more2)]; rewrite app_assoc; eapply HT; eassumption.
      * intros p (-> & b & more2 & Hb). exists b, (more ++ more2). rewrite app_nil_r, app_assoc. eapply HT; eassumption.
Qed.
Lemma greads_bind_nofail {A B} (m : ST A) (k : A -> ST B) n w pd Q (R2 : B -> str -> Prop) (T2 : A -> B -> str -> Prop) (T : B -> str -> Prop) :
  gruns m n w pd Q (fun _ => False) ->
  (forall a pre w' pd', w = pre ++ w' -> Q a pre w' pd' -> greads (k a) (n + length pre) w' pd' R2 (T2 a)) ->
  (forall a b x1 x2 w' pd', Q a x1 w' pd' -> T2 a b x2 -> T b (x1 ++ x2)) ->
  greads (sbind m k) n w pd R2 T.
Proof.
  intros H1 H2 HT. eapply gruns_bind; [exact H1|contradiction|]. intros a pre w' pd' Hw Ha. eapply gruns_weaken; [apply (H2 _ _ _ _ Hw Ha)| |].
  - intros b pre2 w2 pd2 _ [HR2 [Hb|(-> & more & Hb)]]; (split; [assumption|]).
    + left. eapply HT; eassumption.
    + right. split; [reflexivity|]. exists more. rewrite <- app_assoc. eapply HT; eassumption.
  - intros p (b & more & Hb). exists b, more. rewrite <- app_assoc. eapply HT; eassumption.
Qed.
Lemma greads_ret {A} (a : A) n w pd (R : A -> str -> Prop) (T : A -> str -> Prop) : R a w -> T a [] -> greads (sret a) n w pd R T.
Proof. intros HR HT. apply gruns_ret. auto. Qed.
Lemma greads_weaken {A} (m : ST A) n w pd (R1 R : A -> str -> Prop) (T1 T : A -> str -> Prop) :
  greads m n w pd R1 T1 -> (forall a w, R1 a w -> R a w) -> (forall a x, T1 a x -> T a x) -> greads m n w pd R T.
Proof.
  intros H HR HT. eapply gruns_weaken; [exact H| |].
  - intros a pre w' pd' _ [Ha [Hb|(Hw & more & Hb)]]; split; eauto.
  - intros p (a & more & Hp). eauto.
Qed.
Lemma greads_gruns {A} (m : ST A) n w pd Q B (R : A -> str -> Prop) (T : A -> str -> Prop) : gruns m n w pd Q B ->
  (forall a pre w' pd', Q a pre w' pd' -> R a w' /\ T a pre) -> (forall p, B p -> exists a more, T a (p ++ more)) -> greads m n w pd R T.
Proof.
  intros H HQ HB. eapply gruns_weaken; [exact H| |assumption]. intros a pre w' pd' _ Hq. destruct (HQ _ _ _ _ Hq). auto.
Qed.
Lemma r_symbol_reads c n w pd : greads (r_symbol vm c) n w pd anyw (fun _ x => x = [c]).
Proof.
  eapply greads_gruns; [apply g_symbol| |].
  - intros a pre w' pd' [-> _]. split; [exact Logic.I|reflexivity].
  - intros p [->|(_ & d & <- & ->)]; exists tt; [exists [c]|exists []]; reflexivity.
Qed.
Lemma succeeds_reads c n w pd : greads (succeeds vm (r_symbol vm c)) n w pd anyw (fun b x => x = if b : bool then [c] else []).
Proof.
  eapply greads_gruns; [apply g_succeeds| |].
  - intros b pre w' pd' [_ Hb]. split; [exact Logic.I|]. destruct b; tauto.
  - contradiction.
Qed.
Lemma succeeds_shrinks c n w pd : greads (succeeds vm (r_symbol vm c)) n w pd (fun b w' => if b : bool then length w' < length w else True)
  (fun b x => x = if b : bool then [c] else []).
Proof.
  eapply gruns_weaken; [apply g_succeeds| |].
  - intros b pre w' pd' -> [_ Hb]. destruct b; [subst pre; cbn; auto|tauto].
  - contradiction.
Qed.
Lemma whitespace_reads n w pd : greads (r_whitespace vm) n w pd (fun _ => not_starting white) (fun _ => blank).
Proof.
  eapply greads_gruns; [apply g_whitespace| |].
  - intros b pre w' pd' (Hb & Hw & _). auto.
  - contradiction.
Qed.
Lemma name_reads n w pd : greads (on_pp vm (parse_var_name base_tp)) n w pd anyw (fun x t => t = x /\ valid_name x).
Proof.
  eapply greads_gruns; [apply g_name| |].
  - intros x pre w' pd' (-> & Hx & _). split; [exact Logic.I|auto].
  - intros p [->|(_ & d & Hd & ->)]; [exists (lit "a"), (lit "a")|exists [d], []]; (split; [reflexivity|]; split; [assumption || reflexivity|constructor]).
Qed.
Lemma add_reads e n w pd : greads (add_element vm e) n w pd anyw (fun _ t => t = []).
Proof.
  eapply greads_gruns; [apply g_add_element| |].
  - intros x pre w' pd' (-> & _). split; [exact Logic.I|reflexivity].
  - intros p ->. exists 0, []. reflexivity.
Qed.

(** ** Alternatives *)
Definition padded_text (x : str) : Prop := exists a l t l', x = l ++ t ++ l' /\ blank l /\ blank l' /\ alternative_text a t.
Lemma pcont_padded es pre more : pcont [] es pre more -> padded_text (pre ++ more).
Proof.
  intros (Ht & [?|Hne] & _); [congruence|]. apply loop_text_elements in Ht. destruct es as [|e es]; [congruence|].
  destruct Ht as (l & t & l' & -> & Hl & Hl' & Hes). exists (e :: es), l, t, l'. repeat split; auto. constructor. assumption.
Qed.
Lemma production_reads n w pd : greads (parse_production vm) n w pd anyw (fun _ => padded_text).
Proof.
  eapply gruns_weaken; [apply (g_ploop (length w) [] n w pd (le_n _))| |].
  - intros p pre w' pd' _ Hp. split; [exact Logic.I|]. destruct Hp as [(_ & l & Hl & ->)|(es & [Hp|(-> & more & Hp)])].
    + left. exists [], l, [35%N], []. repeat split; [assumption|constructor|constructor].
    + left. apply pcont_padded in Hp. rewrite app_nil_r in Hp. assumption.
    + right. split; [reflexivity|]. exists more. eapply pcont_padded, Hp.
  - intros p (es & more & Hp). exists Empty, more. eapply pcont_padded, Hp.
Qed.
Lemma gruns_bind_ext {A B} (m : ST A) (k k' : A -> ST B) n w pd Q BB : gruns m n w pd Q BB ->
  (forall a pre w' pd', w = pre ++ w' -> Q a pre w' pd' -> k a (at_ w' (n + length pre) pd') = k' a (at_ w' (n + length pre) pd')) ->
  sbind m k (at_ w n pd) = sbind m k' (at_ w n pd).
Proof.
  intros (r & pre & w' & pd' & E & Hw & _ & Hr) Hk. unfold sbind. rewrite E. destruct r as [a|e| |]; auto.
Qed.
Lemma alternatives_fuel f : forall f' acc w n pd, length w < f -> length w < f' ->
  alternatives_loop vm f acc (at_ w n pd) = alternatives_loop vm f' acc (at_ w n pd).
Proof.
  induction f as [|f IH]; intros [|f'] acc w n pd Hf Hf'; [lia..|]. cbn [alternatives_loop].
  eapply gruns_bind_ext; [apply g_whitespace|]. intros _ l1 w1 pd1 -> _.
  eapply gruns_bind_ext; [apply g_succeeds|]. intros nl l2 w2 pd2 -> _.
  eapply gruns_bind_ext; [apply g_whitespace|]. intros _ l3 w3 pd3 -> _.
  eapply gruns_bind_ext; [apply g_succeeds|]. intros bar l4 w4 pd4 -> [_ Hbar]. destruct bar; [|reflexivity]. subst l4.
  eapply gruns_bind_ext; [apply g_whitespace|]. intros _ l5 w5 pd5 -> _.
  eapply gruns_bind_ext; [apply production_reads|]. intros p l6 w6 pd6 -> _.
  rewrite !app_length in *. cbn in *. apply IH; lia.
Qed.
Definition aloop (acc : list Production) : ST (list Production) := fun s => alternatives_loop vm (S (r_size vm s)) acc s.
Lemma aloop_eq acc w n pd : aloop acc (at_ w n pd) =
  (do _w <- r_whitespace vm;
   do _n <- succeeds vm (r_symbol vm 10%N);
   do _w2 <- r_whitespace vm;
   do bar <- succeeds vm (r_symbol vm 124%N);
   if bar : bool then
     do _w3 <- r_whitespace vm;
     do p <- parse_production vm;
     aloop (acc ++ [p])
   else sret acc) (at_ w n pd).
Proof.
  unfold aloop at 1. change (r_size vm (at_ w n pd)) with (length w). cbn [alternatives_loop].
  eapply gruns_bind_ext; [apply g_whitespace|]. intros _ l1 w1 pd1 -> _.
  eapply gruns_bind_ext; [apply g_succeeds|]. intros nl l2 w2 pd2 -> _.
  eapply gruns_bind_ext; [apply g_whitespace|]. intros _ l3 w3 pd3 -> _.
  eapply gruns_bind_ext; [apply g_succeeds|]. intros bar l4 w4 pd4 -> [_ Hbar]. destruct bar; [|reflexivity]. subst l4.
  eapply gruns_bind_ext; [apply g_whitespace|]. intros _ l5 w5 pd5 -> _.
  eapply gruns_bind_ext; [apply production_reads|]. intros p l6 w6 pd6 -> _.
  unfold aloop. match goal with |- _ = alternatives_loop vm (S ?x) _ _ => change x with (length w6) end.
  apply alternatives_fuel; rewrite ?app_length; cbn [length]; rewrite ?app_length; cbn [length]; lia.
Qed.
Definition tails (x : str) : Prop := exists alts, tail_text alts x.
Lemma tails_nil : tails []. Proof. exists []. constructor. constructor. Qed.
Lemma padded_example : padded_text (lit "#").
Proof. exists [], [], (lit "#"), []. repeat split; constructor. Qed.
Lemma aloop_reads k : forall acc n w pd, length w <= k -> greads (aloop acc) n w pd anyw (fun _ => tails).
Proof.
  induction k as [k IH] using lt_wf_ind. intros acc n w pd Hk. eapply gruns_ext; [intros w0; symmetry; apply aloop_eq|].
  eapply (greads_bind _ _ _ _ _ _ _ _ (fun _ _ => tails)); [apply whitespace_reads| |intros; exists []; exists []; apply tails_nil|intros ? b x1 x2 H1 [alts H2]; exists alts; apply tail_text_blank; assumption].
  intros _ l1 w1 pd1 -> _.
  eapply (greads_bind _ _ _ _ _ _ _ _ (fun _ _ => tails)); [apply succeeds_reads| |intros; exists []; exists []; apply tails_nil|].
  2: { intros nl b x1 x2 -> [alts H2]; exists alts; apply tail_text_blank; [|assumption]. destruct nl; repeat constructor. }
  intros nl l2 w2 pd2 -> _.
  eapply (greads_bind _ _ _ _ _ _ _ _ (fun _ _ => tails)); [apply whitespace_reads| |intros; exists []; exists []; apply tails_nil|intros ? b x1 x2 H1 [alts H2]; exists alts; apply tail_text_blank; assumption].
  intros _ l3 w3 pd3 -> _.
  eapply (greads_bind _ _ _ _ _ _ _ _ (fun (bar : bool) _ x => if bar then exists x1 x2, x = x1 ++ x2 /\ padded_text x1 /\ tails x2 else x = [])).
  { apply (succeeds_shrinks 124%N). }
  - intros bar l4 w4 pd4 E Hlt. destruct bar; [|apply greads_ret; [exact Logic.I|reflexivity]].
    eapply (greads_bind _ _ _ _ _ _ _ _ (fun _ _ x => exists x1 x2, x = x1 ++ x2 /\ padded_text x1 /\ tails x2)); [apply whitespace_reads| | |].
    2: { intros ? x ?. exists [], (lit "#" ++ []), (lit "#"), []. split; [reflexivity|]. split; [apply padded_example|apply tails_nil]. }
    2: { intros ? b x1 x2 Hl (x3 & x4 & -> & (a & l & t & l' & -> & H1 & H2 & H3) & H4). exists (x1 ++ l ++ t ++ l'), x4. split; [apply app_assoc|].
         split; [|assumption]. exists a, (x1 ++ l), t, l'. rewrite <- app_assoc. repeat split; auto using blank_app. }
    intros _ l5 w5 pd5 -> _.
    eapply (greads_bind _ _ _ _ _ _ _ _ (fun _ _ => tails)); [apply production_reads| |intros; exists [], []; apply tails_nil|eauto 6].
    intros p l6 w6 pd6 -> _. apply (IH (length w6)); [|apply le_n]. rewrite !app_length in *. lia.
  - intros bar x ->. destruct bar; [|exists [], []; reflexivity]. exists [], (lit "#" ++ []), (lit "#"), []. split; [reflexivity|]. split; [apply padded_example|apply tails_nil].
  - intros bar b x1 x2 -> Hx. destruct bar; [|subst x2; apply tails_nil]. destruct Hx as (x3 & x4 & -> & (a & l & t & l' & -> & H1 & H2 & H3) & alts & H4).
    exists (a :: alts). rewrite <- !app_assoc. apply (tt_cons [] l a t alts (l' ++ x4)); [constructor|assumption|assumption|]. apply tail_text_blank; assumption.
Qed.
Definition alternatives_padded (x : str) : Prop := exists alts l t l', x = l ++ t ++ l' /\ blank l /\ blank l' /\ alternatives_text alts t.
Lemma alternatives_reads n w pd : greads (parse_possible_productions vm) n w pd anyw (fun _ => alternatives_padded).
Proof.
  apply (gruns_ext (do p <- parse_production vm; aloop [p])).
  { intros w0. unfold parse_possible_productions. eapply gruns_bind_ext; [apply production_reads|]. intros p pre w' pd' -> _. unfold aloop.
    match goal with |- alternatives_loop vm (S ?x) _ _ = alternatives_loop vm (S ?y) _ _ => change x with (length w'); change y with (length (pre ++ w')) end.
    rewrite app_length. apply alternatives_fuel; lia. }
  eapply (greads_bind _ _ _ _ _ _ _ _ (fun _ _ => tails)); [apply production_reads| |intros; exists [], []; apply tails_nil|].
  - intros p pre w' pd' -> _. eapply (aloop_reads (length w')), le_n.
  - intros ? ? x1 x2 (a & l & t & l' & -> & H1 & H2 & H3) (alts & H4).
    destruct (tail_text_alternatives a t alts (l' ++ x2) H3 (tail_text_blank _ _ _ H2 H4)) as (t0 & l0 & E & Hl0 & Halts).
    exists (a :: alts), l, t0, l0. rewrite <- !app_assoc, E. auto.
Qed.

(** ** Sequences *)
Definition seq (P Q : str -> Prop) (x : str) : Prop := exists x1 x2, x = x1 ++ x2 /\ P x1 /\ Q x2.
Lemma greads_seq {A B} (m : ST A) (k : A -> ST B) n w pd R1 R2 (P Q : str -> Prop) (b0 : B) :
  greads m n w pd R1 (fun _ => P) ->
  (forall a pre w' pd', w = pre ++ w' -> R1 a w' -> greads (k a) (n + length pre) w' pd' R2 (fun _ => Q)) ->
  (exists y, Q y) -> greads (sbind m k) n w pd R2 (fun _ => seq P Q).
Proof.
  intros H1 H2 [y Hy]. eapply greads_bind; [exact H1|exact H2| |].
  - intros a x _. exists b0, y. exact Hy.
  - intros a b x1 x2 Hx1 Hx2. exists x1, x2. auto.
Qed.
Lemma seq_ex (P Q : str -> Prop) x y : P x -> Q y -> exists z, seq P Q z. Proof. intros. exists (x ++ y), x, y. auto. Qed.

(** ** Overrides *)
Definition ignored_text (v : str) (x : str) : Prop := if decide (v = lit "IGNORE") then x = lit "#" \/ valid_name x else x = [].
Definition override_shape (v : str) : str -> Prop := seq blank (seq (eq (lit ":")) (seq (ignored_text v) (eq (lit "]")))).
Definition overrides (x : str) : Prop := exists o, override_text o x.
Lemma valid_a : valid_name (lit "a"). Proof. split; [reflexivity|constructor]. Qed.
Lemma ignored_ex v : exists y, seq (ignored_text v) (eq (lit "]")) y.
Proof.
  unfold ignored_text. destruct (decide (v = lit "IGNORE")).
  - eapply (seq_ex _ _ (lit "#")); auto.
  - eapply (seq_ex _ _ []); auto.
Qed.
Lemma override_shape_ex v : exists y, override_shape v y.
Proof.
  destruct (ignored_ex v) as [y Hy]. eapply (seq_ex _ _ []); [constructor|]. exists (lit ":"), y. auto.
Qed.
Lemma override_shape_text v x : valid_name v -> override_shape v x -> overrides (lit "$[" ++ v ++ x).
Proof.
  intros Hv (l & x1 & -> & Hl & (? & x2 & -> & <- & (x3 & ? & -> & Hx3 & <-))). unfold ignored_text in Hx3.
  destruct (decide (v = lit "IGNORE")) as [->|Hne].
  - destruct Hx3 as [->|Hx]; [exists OvIgnoreNothing; apply ov_nothing; assumption|exists (OvIgnore x3); apply ov_ignore; assumption].
  - subst x3. exists (OvOther v). apply ov_other; assumption.
Qed.
Lemma overrides_reads n w pd : greads (parse_overrides vm) n w pd anyw (fun _ => overrides).
Proof.
  pose (ig := pr_ignore (parse_rules pd)).
  apply (gruns_ext (do dollar <- succeeds vm (r_symbol vm 36%N);
   if negb dollar then sret ig else
   do _b <- r_symbol vm 91%N;
   do varname <- on_pp vm (parse_var_name base_tp);
   do _w <- r_whitespace vm;
   do _c <- r_symbol vm 58%N;
   do ign <- (if decide (varname = lit "IGNORE") then
                do hash <- succeeds vm (r_symbol vm 35%N);
                if hash : bool then sret None
                else do v <- on_pp vm (parse_var_name base_tp);
                     do ix <- add_element vm (v, NonTerminal);
                     sret (Some ix)
              else sret ig);
   do _e <- r_symbol vm 93%N;
   sret ign)); [reflexivity|].
  eapply (greads_bind _ _ _ _ _ _ _ _ (fun (b : bool) _ x => if b then overrides (lit "$" ++ x) else x = [])); [apply succeeds_reads| | |].
  2: { intros [|] x _; [|exists None, []; reflexivity]. exists None. destruct (override_shape_ex (lit "a")) as [y Hy].
       exists (lit "[a" ++ y). apply (override_shape_text (lit "a")); [apply valid_a|assumption]. }
  2: { intros [|] b x1 x2 -> Hx; [exact Hx|]. subst x2. exists OvAbsent. constructor. }
  intros [|] p1 w1 pd1 -> _; cbn [negb]; [|apply greads_ret; [exact Logic.I|reflexivity]].
  eapply (greads_bind _ _ _ _ _ _ _ _ (fun _ _ x => overrides (lit "$[" ++ x))); [apply r_symbol_reads| | |].
  2: { intros ? x _. exists None. destruct (override_shape_ex (lit "a")) as [y Hy].
       exists (lit "a" ++ y). apply (override_shape_text (lit "a")); [apply valid_a|assumption]. }
  2: { intros ? b x1 x2 -> Hx. exact Hx. }
  intros _ p2 w2 pd2 -> _.
  eapply (greads_bind _ _ _ _ _ _ _ _ (fun v _ => override_shape v)); [apply name_reads| | |].
  2: { intros v x _. exists None. apply override_shape_ex. }
  2: { intros v b x1 x2 [-> Hv] Hx. apply override_shape_text; assumption. }
  intros v p3 w3 pd3 -> _.
  eapply greads_seq; [exact None|apply whitespace_reads| |].
  2: { destruct (ignored_ex v) as [y Hy]. eapply (seq_ex _ _ (lit ":")); [reflexivity|exact Hy]. }
  intros _ p4 w4 pd4 -> _.
  eapply greads_seq; [exact None| |intros _ p5 w5 pd5 -> _|apply ignored_ex].
  { eapply greads_weaken; [apply r_symbol_reads|intros ? ? HR; exact HR|]. intros ? x Ex. symmetry. exact Ex. }
  eapply (greads_seq _ _ _ _ _ anyw); [exact None| | |exists (lit "]"); reflexivity].
  - unfold ignored_text. destruct (decide (v = lit "IGNORE")) as [Hv|Hv]; [|apply greads_ret; [exact Logic.I|reflexivity]].
    eapply (greads_bind _ _ _ _ _ _ _ _ (fun (b : bool) _ x => if b then x = [] else valid_name x)); [apply succeeds_reads| | |].
    + intros [|] p6 w6 pd6 -> _; [apply greads_ret; [exact Logic.I|reflexivity]|].
      eapply (greads_bind _ _ _ _ _ _ _ _ (fun v _ x => x = [])); [apply name_reads| | |].
      * intros v0 p7 w7 pd7 -> _. eapply (greads_bind _ _ _ _ _ _ _ _ (fun _ _ x => x = [])); [apply add_reads| | |].
        -- intros i p8 w8 pd8 -> _. apply greads_ret; [exact Logic.I|reflexivity].
        -- intros. exists None, []. reflexivity.
        -- intros ? ? ? ? -> ->. reflexivity.
      * intros. exists None, []. reflexivity.
      * intros ? ? ? ? [-> Hx] ->. rewrite app_nil_r. assumption.
    + intros [|] x _; [exists None, []; reflexivity|exists None, (lit "a"); apply valid_a].
    + intros [|] b x1 x2 -> Hx; [subst x2; left; reflexivity|right; exact Hx].
  - intros ign p6 w6 pd6 -> _. eapply (greads_bind _ _ _ _ _ _ _ _ (fun _ _ x => x = [])); [apply r_symbol_reads| | |].
    + intros. apply greads_ret; [exact Logic.I|reflexivity].
    + intros. exists None, []. reflexivity.
    + intros ? ? ? ? -> ->. reflexivity.
Qed.

(** ** Instruction sections *)
Definition body_text (name x : str) : Prop := exists body is, x = body ++ lit "}" /\ not_starting white body /\ reads name body is.
Definition sections (name x : str) : Prop := exists is, section_text reads name is x.
Definition instructions_step (name : str) : ST (list I) := fun s2 =>
  let g := pp_new_nested (rp_pp s2) (Some 125%N) (Some 92%N) (cur_pos (rp_pp s2)) in
  let '(r, g') := vm_parse_instructions vm (PP str) (pp_tp base_tp) name g in
  (r, mkRP (pp_inner g') (rp_pd s2)).
Lemma body_reads name n w pd : not_starting white w ->
  greads (do i <- instructions_step name; do _c <- r_symbol vm 125%N; sret i) n w pd anyw (fun _ => body_text name).
Proof.
  intros Hw. pose (can := fun pre : str => exists more is, not_starting white (pre ++ more) /\ reads name (pre ++ more) is).
  eapply (gruns_bind _ _ _ _ _ (fun is pre w' _ => (can pre /\ forall rest, w' = 125%N :: rest -> reads name pre is) /\ (vm_hints vm reads -> w' <> [] -> exists is, reads name pre is)) can).
  - destruct (Hvp name w n Hw) as (r & g & pre & rest & E & Eg & Ew & Ho & Hr).
    destruct (vr_total _ _ Hvm name w n) as (r' & g' & pre' & rest' & E' & Eg' & Ew' & Hr'). rewrite E in E'. injection E' as <- <-.
    rewrite Eg in Eg'. injection Eg' as <- _. rewrite Ew in Ew'. apply app_inv_tail in Ew' as <-.
    assert (forall w0 g0 w', vm_parse_instructions vm (PP str) (pp_tp base_tp) name (brace_process w0 n) = (r, g0) ->
      pp_inner g0 = mkPP w' (n + length pre) None None false -> instructions_step name (at_ w0 n pd) = (r, at_ w' (n + length pre) pd)) as Hstep.
    { intros w0 g0 w' E0 Eg0. unfold instructions_step. cbn [rp_pp rp_pd]. change (cur_pos (outer w0 n)) with n.
      change (pp_new_nested (outer w0 n) (Some 125%N) (Some 92%N) n) with (brace_process w0 n). rewrite E0, Eg0. reflexivity. }
    exists r, pre, rest, pd. split; [eapply Hstep; eassumption|]. split; [assumption|]. split.
    + intros w2 [Hs|Hd].
      * destruct (Ho w2 Hs) as (g2 & E2 & Eg2). eapply Hstep; eassumption.
      * destruct r as [|e| |]; try contradiction. destruct Hr as (_ & _ & Hh). cbn in Hd. congruence.
    + destruct r as [is|e| |]; try contradiction; [split; [auto|intros Hv; exact (Hv name w n (Ok is) g pre rest Hw E Eg Ew)]|]. destruct Hr as (Hc & Hn & Hh). split; [assumption|]. split; [split; [assumption|]|rewrite Hh; exact Hc].
      intros Hv ex Hex. destruct (Hv name w n (Err e) g pre rest Hw E Eg Ew ex Hex) as [H1 H2]. split; [assumption|].
      intros c Hc'. destruct (H2 c Hc') as (more & is & H3 & H4). exists more, is. rewrite <- app_assoc. auto.
  - intros p (more & is & Hs & Hr). exists is, (more ++ lit "}"), (p ++ more), is. rewrite app_assoc. auto.
  - intros is pre w' pd' -> (((more & is' & Hs & Hr) & Hok) & Hend).
    eapply (gruns_bind _ _ _ _ _ (fun _ p _ pd0 => p = [125%N] /\ pd0 = pd') (fun p => may (eq 125%N) p /\ (w' = [] -> p = []))).
    { destruct w' as [|c w']; [eapply gruns_weaken; [apply gruns_nil, g_symbol|intros a q w1 pd1 _ (-> & -> & Hq); exact Hq|]|eapply gruns_weaken; [apply g_symbol|intros a q w1 pd1 _ Hq; exact Hq|]].
      - intros q [-> Hq]. auto.
      - intros q Hq. split; [assumption|discriminate]. }
    + intros p [[->|(Hv & d & <- & ->)] Hn].
      * exists is', (more ++ lit "}"), (pre ++ more), is'. rewrite app_nil_r, app_assoc. auto.
      * destruct (Hend Hv) as [is2 Hr2]; [intros ->; discriminate (Hn eq_refl)|]. exists is2, [], pre, is2. rewrite app_nil_r. split; [reflexivity|].
        split; [|assumption]. destruct pre; [exact Logic.I|exact Hw].
    + intros _ p w'' pd'' -> (-> & _). apply gruns_ret. split; [exact Logic.I|]. left. rewrite app_nil_r. exists pre, is. split; [reflexivity|].
      split; [destruct pre; [exact Logic.I|exact Hw]|eapply Hok; reflexivity].
Qed.
Lemma section_reads name n w pd : greads (parse_instruction_section vm name) n w pd anyw (fun _ => sections name).
Proof.
  apply (gruns_ext (do b <- succeeds vm (r_symbol vm 123%N);
    if b : bool then do _w <- r_whitespace vm; do i <- instructions_step name; do _c <- r_symbol vm 125%N; sret i else sret [])).
  { intros w0. unfold parse_instruction_section, succeeds, sbind at 1. destruct (r_symbol vm 123%N (at_ w0 n pd)) as [[u|e| |] s']; reflexivity. }
  eapply (greads_bind_nofail _ _ _ _ _ _ _ (fun (b : bool) _ x => if b then seq blank (body_text name) x else x = [])); [apply g_succeeds| |].
  - intros [|] p1 w1 pd1 -> _; [|apply greads_ret; [exact Logic.I|reflexivity]].
    eapply (greads_bind_nofail _ _ _ _ _ _ _ (fun _ _ => body_text name)); [apply g_whitespace| |].
    + intros _ p2 w2 pd2 -> (_ & Hw2 & _). apply body_reads. assumption.
    + intros ? b x1 x2 w' pd' (Hl & _) Hx. exists x1, x2. auto.
  - intros [|] b x1 x2 w' pd' [_ Hx1] Hx.
    + subst x1. destruct Hx as (l & x & -> & Hl & (body' & is & -> & Hb' & Hr)). exists is. apply sec_braces; assumption.
    + destruct Hx1 as [-> _]. subst x2. exists []. constructor.
Qed.

(** ** Rules *)
Definition rule_tail (id : str) : str -> Prop :=
  seq blank (seq (eq (lit "-")) (seq (eq (lit ">")) (seq blank (seq overrides (seq alternatives_padded (seq (sections id) (seq blank (eq (lit ";"))))))))).
Definition rules_ (x : str) : Prop := exists r : arule I, rule_text reads r x.
Lemma symbol_eq_reads c n w pd : greads (r_symbol vm c) n w pd anyw (fun _ => eq [c]).
Proof. eapply greads_weaken; [apply r_symbol_reads|intros ? ? HR; exact HR|]. intros ? x Ex. symmetry. exact Ex. Qed.
Lemma blank_ex : blank []. Proof. constructor. Qed.
Lemma overrides_ex : overrides []. Proof. exists OvAbsent. constructor. Qed.
Lemma sections_ex id : sections id []. Proof. exists []. constructor. Qed.
Lemma alternatives_ex : alternatives_padded (lit "#").
Proof. exists [[]], [], (lit "#"), []. repeat split; repeat constructor. Qed.
Lemma tail1 : exists y, seq blank (eq (lit ";")) y. Proof. eapply seq_ex; [apply blank_ex|reflexivity]. Qed.
Lemma tail2 id : exists y, seq (sections id) (seq blank (eq (lit ";"))) y. Proof. destruct tail1. eapply seq_ex; [apply sections_ex|eassumption]. Qed.
Lemma tail3 id : exists y, seq alternatives_padded (seq (sections id) (seq blank (eq (lit ";")))) y.
Proof. destruct (tail2 id). eapply seq_ex; [apply alternatives_ex|eassumption]. Qed.
Lemma tail4 id : exists y, seq overrides (seq alternatives_padded (seq (sections id) (seq blank (eq (lit ";"))))) y.
Proof. destruct (tail3 id). eapply seq_ex; [apply overrides_ex|eassumption]. Qed.
Lemma tail5 id : exists y, seq blank (seq overrides (seq alternatives_padded (seq (sections id) (seq blank (eq (lit ";")))))) y.
Proof. destruct (tail4 id). eapply seq_ex; [apply blank_ex|eassumption]. Qed.
Lemma tail6 id : exists y, seq (eq (lit ">")) (seq blank (seq overrides (seq alternatives_padded (seq (sections id) (seq blank (eq (lit ";"))))))) y.
Proof. destruct (tail5 id). eapply seq_ex; [reflexivity|eassumption]. Qed.
Lemma tail7 id : exists y, seq (eq (lit "-")) (seq (eq (lit ">")) (seq blank (seq overrides (seq alternatives_padded (seq (sections id) (seq blank (eq (lit ";")))))))) y.
Proof. destruct (tail6 id). eapply seq_ex; [reflexivity|eassumption]. Qed.
Lemma tail8 id : exists y, rule_tail id y. Proof. destruct (tail7 id). eapply seq_ex; [apply blank_ex|eassumption]. Qed.
Lemma rule_tail_text id x : valid_name id -> rule_tail id x -> rules_ (id ++ x).
Proof.
  intros Hid (l1 & ? & -> & H1 & (? & ? & -> & <- & (? & ? & -> & <- & (l2 & ? & -> & H2 & (to & ? & -> & [o Ho] & (? & ? & -> & (alts & l3 & ta & l4 & -> & H3 & H4 & Halts)
    & (ts & ? & -> & [is Hs] & (l5 & ? & -> & H5 & <-)))))))).
  exists (mkARule id o alts is). rewrite <- !app_assoc. apply (rule_intro reads (mkARule id o alts is)); assumption.
Qed.
Lemma rule_reads n w pd : greads (parse_rule vm) n w pd (fun _ w' => length w' < length w) (fun _ => rules_).
Proof.
  unfold parse_rule. pose (b0 := (0, mkNTR [] None []) : nat * NonTerminalRules I).
  eapply (greads_bind _ _ _ _ _ (fun _ w' => length w' < length w) _ (fun x t => t = x /\ valid_name x) (fun id _ => rule_tail id)).
  { eapply gruns_weaken; [apply g_name| |].
    - intros x pre w' pd' -> (-> & Hx & _). split; [|left; exact (conj eq_refl Hx)]. destruct x; [contradiction|]. cbn. rewrite app_length. lia.
    - intros p [->|(_ & d & Hd & ->)]; [exists (lit "a"), (lit "a"); exact (conj eq_refl valid_a)|exists [d], []].
      split; [reflexivity|]. split; [assumption|constructor]. }
  2: { intros id x _. exists b0. apply tail8. }
  2: { intros id b x1 x2 [-> Hid] Hx. apply rule_tail_text; assumption. }
  intros id p1 w1 pd1 E1 Hlt.
  eapply (greads_bind _ _ _ _ _ _ _ _ (fun _ _ => rule_tail id)); [apply add_reads| |intros; exists b0; apply tail8|intros ? b x1 x2 -> Hx; exact Hx].
  intros key p2 w2 pd2 -> _.
  eapply greads_seq; [exact b0|apply whitespace_reads|intros _ p3 w3 pd3 -> _|apply tail7].
  eapply greads_seq; [exact b0|apply symbol_eq_reads|intros _ p4 w4 pd4 -> _|apply tail6].
  eapply greads_seq; [exact b0|apply symbol_eq_reads|intros _ p5 w5 pd5 -> _|apply tail5].
  eapply greads_seq; [exact b0|apply whitespace_reads|intros _ p6 w6 pd6 -> _|apply tail4].
  eapply greads_seq; [exact b0|apply overrides_reads|intros ig p7 w7 pd7 -> _|apply tail3].
  eapply greads_seq; [exact b0|apply alternatives_reads|intros ps p8 w8 pd8 -> _|apply tail2].
  eapply greads_seq; [exact b0|apply section_reads|intros is p9 w9 pd9 -> _|apply tail1].
  eapply greads_seq; [exact b0|apply whitespace_reads|intros _ p10 w10 pd10 -> _|exists (lit ";"); reflexivity].
  eapply (greads_bind _ _ _ _ _ _ _ _ (fun _ _ x => x = [])); [apply symbol_eq_reads| |intros; exists b0, []; reflexivity|intros ? b x1 x2 <- ->; reflexivity].
  intros _ p11 w11 pd11 -> _. apply greads_ret; [|reflexivity]. rewrite !app_length in Hlt. lia.
Qed.
Definition peek_step : ST (option char) := on_pp vm (fun p => let '(o, p1) := pp_peek base_tp p in (Ok o, p1)).
Lemma peek_eq n w pd : peek_step (at_ w n pd) = (Ok (head w), at_ w n pd).
Proof. unfold peek_step, on_pp. cbn [rp_pp rp_pd]. rewrite outer_peek. reflexivity. Qed.
Lemma g_peek n w pd : gruns peek_step n w pd (fun o pre w' _ => pre = [] /\ o = head w') (fun _ => False).
Proof.
  exists (Ok (head w)), [], w, pd. rewrite peek_eq. cbn [length app]. rewrite Nat.add_0_r. split; [reflexivity|]. split; [reflexivity|]. split; [|auto].
  intros w2 [[_ Hh]|[]]. rewrite peek_eq, Hh. reflexivity.
Qed.
Lemma rules_fuel f : forall f' w n pd, length w < f -> length w < f' ->
  rules_loop vm f (at_ w n pd) = rules_loop vm f' (at_ w n pd).
Proof.
  induction f as [|f IH]; intros [|f'] w n pd Hf Hf'; [lia..|]. cbn [rules_loop].
  eapply gruns_bind_ext; [apply g_whitespace|]. intros _ l1 w1 pd1 -> _.
  eapply gruns_bind_ext; [apply g_peek|]. intros [c|] l2 w2 pd2 -> _; [|reflexivity].
  eapply gruns_bind_ext; [apply rule_reads|]. intros kr l3 w3 pd3 -> [Hlt _]. cbn [rp_pp rp_pd]. apply IH; rewrite !app_length in *; lia.
Qed.
Definition rloop : ST unit := fun s => rules_loop vm (S (r_size vm s)) s.
Definition merged (kr : nat * NonTerminalRules I) : ST unit := fun s1 => rloop (mkRP (rp_pp s1) (merge_rule vm (rp_pd s1) kr.2 kr.1)).
Lemma rloop_eq w n pd : rloop (at_ w n pd) =
  (do _w <- r_whitespace vm; do o <- peek_step; match o with None => sret tt | Some _ => do kr <- parse_rule vm; merged kr end) (at_ w n pd).
Proof.
  unfold rloop. change (r_size vm (at_ w n pd)) with (length w). cbn [rules_loop].
  eapply gruns_bind_ext; [apply g_whitespace|]. intros _ l1 w1 pd1 -> _.
  eapply gruns_bind_ext; [apply g_peek|]. intros [c|] l2 w2 pd2 -> _; [|reflexivity].
  eapply gruns_bind_ext; [apply rule_reads|]. intros kr l3 w3 pd3 -> [Hlt _]. unfold merged, rloop. cbn [rp_pp rp_pd].
  match goal with |- _ = rules_loop vm (S ?x) _ => change x with (length w3) end. apply rules_fuel; rewrite !app_length in *; lia.
Qed.
Definition grammars (x : str) : Prop := exists rs, grammar_text reads rs x.
Lemma rloop_reads k : forall n w pd, length w <= k -> greads rloop n w pd (fun _ w' => w' = []) (fun _ => grammars).
Proof.
  induction k as [k IH] using lt_wf_ind. intros n w pd Hk. eapply gruns_ext; [intros w0; symmetry; apply rloop_eq|].
  assert (forall l x, blank l -> grammars x -> grammars (l ++ x)) as Hblank.
  { intros l x Hl [rs Hr]. exists rs. destruct Hr as [l' Hl'|r t l' rs t' Hl' Hr Hrs]; [constructor; apply blank_app; assumption|].
    rewrite app_assoc. constructor; auto using blank_app. }
  assert (grammars []) as Hnil by (exists []; constructor; constructor).
  eapply (greads_bind_nofail _ _ _ _ _ _ _ (fun _ _ => grammars)); [apply g_whitespace| |intros ? b x1 x2 w' pd' (Hl & _) Hx; auto].
  intros _ l1 w1 pd1 -> _.
  eapply (greads_bind_nofail _ _ _ _ _ _ _ (fun _ _ => grammars)); [apply g_peek| |intros ? b x1 x2 w' pd' (-> & _) Hx; exact Hx].
  intros [c|] l2 w2 pd2 -> [-> Ho].
  - eapply (greads_bind _ _ _ _ _ _ _ _ (fun _ _ => grammars)); [apply rule_reads| |intros; exists tt, []; assumption|].
    + intros kr l3 w3 pd3 -> Hlt. refine (IH (length w3) _ _ w3 (merge_rule vm pd3 kr.2 kr.1) (le_n _)). rewrite !app_length in *. cbn in *. lia.
    + intros kr b x1 x2 [r Hr] [rs Hrs]. exists (r :: rs). apply (gr_cons reads r x1 []); [constructor|assumption|assumption].
  - destruct w2; [|discriminate]. apply greads_ret; [reflexivity|assumption].
Qed.
End rules.
