(** * Reading rule text: totality, positions, and what an accepted text looks like *)
From Verif Require Import Base Peekables Tree Errors ParseFuncs ParserData Vm RuleParsing
  SpecText SpecData SpecGrammar SpecRules SpecContract Streams_proofs ParseFuncs_proofs Terminal_proofs VmText_proofs.

Section rules.
Context {U : Unicode} (vm : VM).
Notation I := (vm_instr vm).
Notation ST A := (st (RP I) ParserError A).
Context (reads : str -> str -> list I -> Prop) (Hvm : vm_reads vm reads).

(** ** What the reader does to the parser data *)
Fixpoint interns (pd : ParserData I) (es : list (str * ElementType)) : list nat * ParserData I :=
  match es with
  | [] => ([], pd)
  | e :: es' => let '(i, pd1) := get_or_add_element_key pd e in
                let '(is, pd2) := interns pd1 es' in (i :: is, pd2)
  end.
Fixpoint intern_alts (pd : ParserData I) (alts : list (list (str * ElementType))) : list Production * ParserData I :=
  match alts with
  | [] => ([], pd)
  | a :: alts' => let '(is, pd1) := interns pd a in
                  let '(ps, pd2) := intern_alts pd1 alts' in (production_of is :: ps, pd2)
  end.
Definition build_override (pd : ParserData I) (o : override) : option nat * ParserData I :=
  match o with
  | OvIgnore x => let '(i, pd1) := get_or_add_element_key pd (x, NonTerminal) in (Some i, pd1)
  | OvIgnoreNothing => (None, pd)
  | OvAbsent | OvOther _ => (pr_ignore (parse_rules pd), pd)
  end.
Definition read_rule (pd : ParserData I) (r : arule I) : (nat * NonTerminalRules I) * ParserData I :=
  let '(key, pd1) := get_or_add_element_key pd (ar_name r, NonTerminal) in
  let '(ig, pd2) := build_override pd1 (ar_override r) in
  let '(ps, pd3) := intern_alts pd2 (ar_alts r) in
  ((key, mkNTR ps ig (ar_instr r)), pd3).
Definition build_rule (pd : ParserData I) (r : arule I) : ParserData I :=
  let '((key, nr), pd') := read_rule pd r in merge_rule vm pd' nr key.

(** ** Runs *)
Notation at_ w n pd := (mkRP (outer w n) pd).
Definition rruns {A} (m : ST A) (n : nat) (w : str) (pd : ParserData I)
    (Q : A -> str -> str -> ParserData I -> Prop) : Prop :=
  exists r pre w' pd', m (at_ w n pd) = (r, at_ w' (n + length pre) pd') /\ w = pre ++ w' /\
    match r with
    | Ok a => Q a pre w' pd'
    | Err e => error_at (n + length pre) e
    | Panic | Diverge => False
    end.
Lemma rruns_bind {A B} (m : ST A) (k : A -> ST B) n w pd Q1 (Q : B -> str -> str -> ParserData I -> Prop) :
  rruns m n w pd Q1 ->
  (forall a pre w' pd', w = pre ++ w' -> Q1 a pre w' pd' ->
     rruns (k a) (n + length pre) w' pd' (fun b pre2 w2 pd2 => Q b (pre ++ pre2) w2 pd2)) ->
  rruns (sbind m k) n w pd Q.
Proof.
  intros (r & pre & w' & pd' & E & -> & Hr) Hk. unfold rruns, sbind. rewrite E.
  destruct r as [a|e| |]; try contradiction.
  - destruct (Hk a pre w' pd' eq_refl Hr) as (r2 & pre2 & w2 & pd2 & E2 & -> & Hr2). rewrite E2.
    exists r2, (pre ++ pre2), w2, pd2. rewrite app_length, Nat.add_assoc, <- app_assoc. auto.
  - exists (Err e), pre, w', pd'. auto.
Qed.
Lemma rruns_ret {A} (a : A) n w pd (Q : A -> str -> str -> ParserData I -> Prop) :
  Q a [] w pd -> rruns (sret a) n w pd Q.
Proof. intros HQ. exists (Ok a), [], w, pd. cbn. rewrite Nat.add_0_r. auto. Qed.
Lemma rruns_weaken {A} (m : ST A) n w pd (Q1 Q : A -> str -> str -> ParserData I -> Prop) :
  rruns m n w pd Q1 -> (forall a pre w' pd', w = pre ++ w' -> Q1 a pre w' pd' -> Q a pre w' pd') -> rruns m n w pd Q.
Proof.
  intros (r & pre & w' & pd' & E & Hw & Hr) Hi. exists r, pre, w', pd'. split; [assumption|]. split; [assumption|].
  destruct r; auto.
Qed.

Lemma r_symbol_eq c w n pd : r_symbol vm c (at_ w n pd) =
  match w with
  | [] => (Err (EndOfCharsError n), at_ [] n pd)
  | d :: w' => if N.eqb d c then (Ok tt, at_ w' (n + 1) pd) else (Err (UnexpectedCharError d n [c]), at_ (d :: w') n pd)
  end.
Proof. destruct w as [|d w]; [reflexivity|]. unfold r_symbol, on_pp, parse_symbol. cbn. destruct (N.eqb d c); reflexivity. Qed.
Lemma r_symbol_runs c n w pd : rruns (r_symbol vm c) n w pd (fun _ pre _ pd' => pre = [c] /\ pd' = pd).
Proof.
  unfold rruns. rewrite r_symbol_eq. destruct w as [|d w].
  - eexists _, [], [], pd. cbn. rewrite Nat.add_0_r. repeat split.
  - destruct (N.eqb_spec d c) as [->|Hd].
    + eexists _, [c], w, pd. repeat split.
    + eexists _, [], (d :: w), pd. cbn. rewrite Nat.add_0_r. repeat split.
Qed.
Lemma succeeds_runs c n w pd : rruns (succeeds vm (r_symbol vm c)) n w pd
  (fun b pre w' pd' => pd' = pd /\ if b : bool then pre = [c] else pre = [] /\ head w' <> Some c).
Proof.
  unfold rruns, succeeds. rewrite r_symbol_eq. destruct w as [|d w].
  - eexists _, [], [], pd. cbn. rewrite Nat.add_0_r. repeat split. discriminate.
  - destruct (N.eqb_spec d c) as [->|Hd].
    + eexists _, [c], w, pd. repeat split.
    + eexists _, [], (d :: w), pd. cbn. rewrite Nat.add_0_r. repeat split. congruence.
Qed.
Lemma r_whitespace_runs n w pd : rruns (r_whitespace vm) n w pd
  (fun _ pre w' pd' => blank pre /\ not_starting white w' /\ pd' = pd).
Proof.
  destruct (span_exists white w) as (l & w' & -> & Hl & Hw). unfold rruns, r_whitespace, on_pp. cbn [rp_pp rp_pd].
  destruct (parse_whitespace_sim base_tp plainR plain_psim (outer (l ++ w') n) n l w' eq_refl Hl Hw) as (p' & -> & ->).
  eexists _, l, w', pd. repeat split; auto.
Qed.
Lemma var_name_runs n w pd : rruns (on_pp vm (parse_var_name base_tp)) n w pd
  (fun x pre w' pd' => pre = x /\ valid_name x /\ not_starting namechar w' /\ pd' = pd).
Proof.
  unfold rruns, on_pp. cbn [rp_pp rp_pd]. destruct (name_split w) as [(x & w' & -> & Hx & Hw)|Hn].
  - destruct x as [|c cs]; [contradiction|]. destruct Hx as [Hc Hcs].
    destruct (parse_var_name_ok base_tp plainR plain_psim (outer (c :: cs ++ w') n) n c cs w' eq_refl Hc Hcs Hw) as (p' & E & ->).
    cbn [app]. rewrite E. exists (Ok (c :: cs)), (c :: cs), w', pd. cbn [length]. replace (n + S (length cs)) with (n + 1 + length cs) by lia.
    repeat split; auto.
  - destruct w as [|c w].
    + eexists _, [], [], pd. cbn. rewrite Nat.add_0_r. repeat split.
    + simpl in Hn. destruct (is_alphabetic c) eqn:Hc; [congruence|].
      destruct (parse_var_name_other base_tp plainR plain_psim (outer (c :: w) n) n c w eq_refl Hc) as (p' & -> & ->).
      eexists _, [], (c :: w), pd. cbn. rewrite Nat.add_0_r. repeat split.
Qed.
Lemma add_element_runs e n w pd : rruns (add_element vm e) n w pd
  (fun i pre _ pd' => pre = [] /\ get_or_add_element_key pd e = (i, pd')).
Proof.
  unfold rruns, add_element. cbn [rp_pp rp_pd]. destruct (get_or_add_element_key pd e) as [i pd'].
  exists (Ok i), [], w, pd'. cbn. rewrite Nat.add_0_r. auto.
Qed.

(** ** Elements and productions *)
Lemma parse_element_cases n w :
  (exists w', w = 35%N :: w' /\ parse_element (outer w n) = (Ok None, outer w' (n + 1))) \/
  (exists e t w', w = t ++ w' /\ element_text e t /\ (e.2 = NonTerminal -> not_starting namechar w') /\
     parse_element (outer w n) = (Ok (Some e), outer w' (n + length t))) \/
  (exists x pre w', w = pre ++ w' /\ (pre = [] \/ w' = []) /\ parse_element (outer w n) = (Err x, outer w' (n + length pre))).
Proof.
  destruct w as [|c w].
  { right. right. eexists _, [], []. cbn. rewrite Nat.add_0_r. auto. }
  destruct (N.eqb_spec c 35) as [->|H35]; [left; eauto|].
  destruct (N.eqb_spec c 34) as [->|H34].
  - right. unfold parse_element. rewrite outer_peek. cbn [head]. change (N.eqb 34 35) with false. change (N.eqb 34 34) with true. cbv iota.
    unfold sbind. destruct (quote_split w) as [(b & rest & -> & Hb)|Hu].
    + left. rewrite parse_terminal_ok by assumption. exists (b, Terminal), (34%N :: b ++ [34%N]), rest.
      cbn. rewrite <- app_assoc. split; [reflexivity|]. split; [constructor; assumption|]. split; [discriminate|].
      unfold sret. rewrite app_length. cbn. replace (n + length b + 2) with (n + S (length b + 1)) by lia. reflexivity.
    + right. rewrite parse_terminal_unterminated by assumption. eexists _, (34%N :: w), []. rewrite app_nil_r. cbn.
      replace (n + S (length w)) with (n + 1 + length w) by lia. auto.
  - unfold parse_element. rewrite outer_peek. cbn [head]. rewrite (proj2 (N.eqb_neq c 35) H35), (proj2 (N.eqb_neq c 34) H34).
    destruct (is_alphabetic c) eqn:Hc.
    + right. left. unfold sbind. destruct (span_exists namechar w) as (cs & w' & -> & Hcs & Hw).
      destruct (parse_var_name_ok base_tp plainR plain_psim (outer (c :: cs ++ w') n) n c cs w' eq_refl Hc Hcs Hw) as (p' & -> & ->).
      exists (c :: cs, NonTerminal), (c :: cs), w'. split; [reflexivity|]. split; [constructor; split; assumption|]. split; [auto|].
      unfold sret. cbn. replace (n + S (length cs)) with (n + 1 + length cs) by lia. reflexivity.
    + right. right. eexists _, [], (c :: w). cbn. rewrite Nat.add_0_r. auto.
Qed.

(** the text a production loop consumes *)
Inductive loop_text : list (str * ElementType) -> str -> Prop :=
| lt_nil l : blank l -> loop_text [] l
| lt_cons l e te es t : blank l -> element_text e te -> (e.2 = NonTerminal -> not_starting namechar t) ->
    loop_text es t -> loop_text (e :: es) (l ++ te ++ t).
Lemma loop_text_elements es t : loop_text es t ->
  match es with
  | [] => blank t
  | _ => exists l t0 l', t = l ++ t0 ++ l' /\ blank l /\ blank l' /\ elements_text es t0
  end.
Proof.
  induction 1 as [l Hl|l e te es t Hl He Hsep Ht IH]; [assumption|]. destruct es as [|e' es].
  - exists l, te, t. repeat split; auto. constructor. assumption.
  - destruct IH as (l1 & t0 & l2 & -> & H1 & H2 & H0). exists l, (te ++ l1 ++ t0), l2. rewrite <- !app_assoc.
    split; [reflexivity|]. split; [assumption|]. split; [assumption|]. constructor; auto.
    intros Hnt. specialize (Hsep Hnt). rewrite app_assoc in Hsep. destruct (l1 ++ t0) eqn:E; [exact Logic.I|exact Hsep].
Qed.
Definition production_result (pd : ParserData I) (acc : list nat) (p : Production) (pre w' : str) (pd' : ParserData I) : Prop :=
  (acc = [] /\ p = Empty /\ pd' = pd /\ exists l, blank l /\ pre = l ++ [35%N]) \/
  (exists es ixs, interns pd es = (ixs, pd') /\ p = NotEmpty (acc ++ ixs) /\ acc ++ ixs <> [] /\
     (w' = [] \/ loop_text es pre)).
Lemma element_text_length e t : element_text e t -> 1 <= length t.
Proof. intros [x Hx|b Hb]; [destruct x; [contradiction|]|]; cbn; lia. Qed.
Lemma production_loop_runs fuel : forall acc n w pd, length w < fuel ->
  rruns (production_loop vm fuel acc) n w pd (production_result pd acc).
Proof.
  induction fuel as [|f IH]; intros acc n w pd Hf; [lia|]. cbn [production_loop].
  eapply rruns_bind; [apply r_whitespace_runs|]. intros _ l w1 pd1 -> (Hl & Hw1 & ->).
  unfold rruns. unfold on_pp. cbn [rp_pp rp_pd].
  destruct (parse_element_cases (n + length l) w1) as [(w2 & -> & ->)|[(e & t & w2 & -> & He & Hsep & ->)|(x & pre & w2 & -> & Hp & ->)]].
  - destruct acc as [|a acc].
    + eexists _, [35%N], w2, pd. split; [reflexivity|]. split; [reflexivity|]. left. repeat split. eauto.
    + eexists _, [35%N], w2, pd. split; [reflexivity|]. split; [reflexivity|]. reflexivity.
  - unfold sbind, add_element. cbn [rp_pp rp_pd]. destruct (get_or_add_element_key pd e) as [i pd2] eqn:Ei.
    pose proof (element_text_length e t He) as Hlt.
    destruct (IH (acc ++ [i]) (n + length l + length t) w2 pd2) as (r & pre & w3 & pd3 & E & -> & Hr).
    { rewrite !app_length in Hf. lia. }
    rewrite E. exists r, (t ++ pre), w3, pd3. rewrite app_length, Nat.add_assoc, <- app_assoc. split; [reflexivity|]. split; [reflexivity|].
    destruct r as [p|e'| |]; auto.
    destruct Hr as [(Hacc & _)|(es & ixs & Hint & -> & Hne & Hlt')]; [destruct acc; discriminate|].
    right. exists (e :: es), (i :: ixs). cbn [interns]. rewrite Ei, Hint. rewrite <- app_assoc in *. cbn [app] in *. repeat split; auto.
    destruct Hlt' as [?|Hlt']; [auto|]. right. apply lt_cons; auto.
    intros Hnt. specialize (Hsep Hnt). destruct pre; [exact Logic.I|exact Hsep].
  - destruct acc as [|a acc].
    + eexists _, pre, w2, pd. split; [reflexivity|]. split; [reflexivity|]. reflexivity.
    + eexists _, pre, w2, pd. split; [reflexivity|]. split; [reflexivity|]. right. exists [], []. cbn [interns]. rewrite app_nil_r.
      repeat split; [discriminate|]. destruct Hp as [->| ->]; [|auto]. right. rewrite app_nil_r. constructor. assumption.
Qed.
Definition alt_result (pd : ParserData I) (p : Production) (pre w' : str) (pd' : ParserData I) : Prop :=
  exists a ixs, interns pd a = (ixs, pd') /\ p = production_of ixs /\
    (w' = [] \/ exists l t l', pre = l ++ t ++ l' /\ blank l /\ blank l' /\ alternative_text a t).
Lemma interns_length pd es : length (interns pd es).1 = length es.
Proof.
  revert pd. induction es as [|e es IH]; intros pd; [reflexivity|]. cbn [interns].
  destruct (get_or_add_element_key pd e) as [i pd1]. specialize (IH pd1). destruct (interns pd1 es). cbn in *. congruence.
Qed.
Lemma parse_production_runs n w pd : rruns (parse_production vm) n w pd (alt_result pd).
Proof.
  unfold parse_production. assert (r_size vm (at_ w n pd) = length w) as Hs by reflexivity.
  unfold rruns. rewrite Hs. eapply rruns_weaken; [apply production_loop_runs; lia|].
  intros p pre w' pd' _ [(_ & -> & -> & l & Hl & ->)|(es & ixs & Hint & -> & Hne & Ht)].
  - exists [], []. split; [reflexivity|]. split; [reflexivity|]. right. exists l, [35%N], []. rewrite app_nil_r. repeat split; auto; constructor.
  - exists es, ixs. split; [assumption|]. cbn in Hne. split; [destruct ixs; [congruence|reflexivity]|].
    destruct Ht as [?|Ht]; [auto|]. right. pose proof (loop_text_elements es pre Ht) as Hle.
    destruct es as [|e es]; [pose proof (interns_length pd []) as Hil; rewrite Hint in Hil; destruct ixs; [congruence|discriminate]|].
    destruct Hle as (l & t & l' & -> & ? & ? & ?). exists l, t, l'. repeat split; auto. constructor. assumption.
Qed.

(** ** Alternatives *)
Inductive tail_text : list (list (str * ElementType)) -> str -> Prop :=
| tt_nil l : blank l -> tail_text [] l
| tt_cons l l' a t rest t' : blank l -> blank l' -> alternative_text a t -> tail_text rest t' ->
    tail_text (a :: rest) (l ++ 124%N :: l' ++ t ++ t').
Lemma blank_app l l' : blank l -> blank l' -> blank (l ++ l').
Proof. unfold blank. intros. apply Forall_app. auto. Qed.
Lemma tail_text_blank rest t l : blank l -> tail_text rest t -> tail_text rest (l ++ t).
Proof.
  intros Hl [l0 H0|l1 l' a t1 rest1 t' H1 H2 H3 H4]; [constructor; apply blank_app; assumption|].
  rewrite app_assoc. constructor; auto. apply blank_app; assumption.
Qed.
Lemma tail_text_alternatives a t rest t' : alternative_text a t -> tail_text rest t' ->
  exists t0 l, t ++ t' = t0 ++ l /\ blank l /\ alternatives_text (a :: rest) t0.
Proof.
  intros Ha Ht. revert a t Ha. induction Ht as [l Hl|l l' b tb rest t' Hl Hl' Hb Ht IH]; intros a t Ha.
  - exists t, l. repeat split; auto. constructor. assumption.
  - destruct (IH b tb Hb) as (t0 & l0 & E & Hl0 & Halts). exists (t ++ l ++ 124%N :: l' ++ t0), l0.
    rewrite E. rewrite <- !app_assoc. cbn. rewrite <- !app_assoc. split; [reflexivity|]. split; [assumption|]. constructor; auto.
Qed.
Lemma alternatives_loop_runs fuel : forall acc n w pd, length w < fuel ->
  rruns (alternatives_loop vm fuel acc) n w pd (fun ps pre w' pd' =>
    exists alts ps', intern_alts pd alts = (ps', pd') /\ ps = acc ++ ps' /\ (w' = [] \/ tail_text alts pre)).
Proof.
  induction fuel as [|f IH]; intros acc n w pd Hf; [lia|]. cbn [alternatives_loop].
  eapply rruns_bind; [apply r_whitespace_runs|]. intros _ l1 w1 pd1 -> (Hl1 & _ & ->).
  eapply rruns_bind; [apply succeeds_runs|]. intros nl l2 w2 pd2 -> (-> & Hnl).
  assert (blank l2) as Hl2. { destruct nl; [subst; repeat constructor|destruct Hnl as [-> _]; constructor]. }
  eapply rruns_bind; [apply r_whitespace_runs|]. intros _ l3 w3 pd3 -> (Hl3 & _ & ->).
  eapply rruns_bind; [apply succeeds_runs|]. intros bar l4 w4 pd4 -> (-> & Hbar).
  rewrite !app_length in Hf.
  assert (blank (l1 ++ l2 ++ l3)) as Hl by (repeat apply blank_app; assumption).
  destruct bar.
  - subst l4. eapply rruns_bind; [apply r_whitespace_runs|]. intros _ l5 w5 pd5 -> (Hl5 & _ & ->).
    eapply rruns_bind; [apply parse_production_runs|]. intros p pre w6 pd6 -> (a & ixs & Hint & -> & Ht).
    eapply rruns_weaken; [apply IH; cbn in Hf; rewrite !app_length in Hf; lia|].
    intros ps pre7 w7 pd7 -> (alts & ps' & Hia & -> & Htail).
    exists (a :: alts), (production_of ixs :: ps'). cbn [intern_alts]. rewrite Hint, Hia. rewrite <- app_assoc. split; [reflexivity|]. split; [reflexivity|].
    destruct Htail as [?|Htail]; [auto|]. destruct Ht as [Ht|(l6 & t & l7 & -> & H6 & H7 & Ha)].
    + left. apply app_eq_nil in Ht. tauto.
    + right. match goal with |- tail_text _ ?x =>
        replace x with ((l1 ++ l2 ++ l3) ++ 124%N :: (l5 ++ l6) ++ t ++ (l7 ++ pre7)) by (rewrite <- !app_assoc; reflexivity) end.
      apply (tt_cons (l1 ++ l2 ++ l3)); auto using blank_app, tail_text_blank.
  - destruct Hbar as [-> _]. apply rruns_ret. exists [], []. rewrite !app_nil_r. repeat split; auto. right.
    constructor. assumption.
Qed.
Lemma alternatives_runs n w pd : rruns (parse_possible_productions vm) n w pd (fun ps pre w' pd' =>
  exists alts, intern_alts pd alts = (ps, pd') /\
    (w' = [] \/ exists l t l', pre = l ++ t ++ l' /\ blank l /\ blank l' /\ alternatives_text alts t)).
Proof.
  unfold parse_possible_productions. assert (r_size vm (at_ w n pd) = length w) as Hs by reflexivity.
  unfold rruns. rewrite Hs. eapply rruns_bind; [apply parse_production_runs|].
  intros p pre w1 pd1 -> (a & ixs & Hint & -> & Ht).
  eapply rruns_weaken; [apply alternatives_loop_runs; rewrite app_length; lia|].
  intros ps pre2 w2 pd2 -> (alts & ps' & Hia & -> & Htail). exists (a :: alts). cbn [intern_alts]. rewrite Hint, Hia.
  split; [reflexivity|]. destruct Htail as [?|Htail]; [auto|]. destruct Ht as [Ht|(l & t & l' & -> & Hl & Hl' & Ha)].
  - left. apply app_eq_nil in Ht. tauto.
  - right. destruct (tail_text_alternatives a t alts (l' ++ pre2) Ha (tail_text_blank _ _ _ Hl' Htail)) as (t0 & l0 & E & Hl0 & Halts).
    exists l, t0, l0. rewrite <- !app_assoc, E. auto.
Qed.

(** ** Sections, overrides, rules *)
Lemma section_runs name n w pd : rruns (parse_instruction_section vm name) n w pd (fun is pre w' pd' =>
  pd' = pd /\ section_text reads name is pre).
Proof.
  unfold rruns, parse_instruction_section. rewrite r_symbol_eq. destruct w as [|d w].
  { exists (Ok []), [], [], pd. cbn. rewrite Nat.add_0_r. repeat split. constructor. }
  destruct (N.eqb_spec d 123) as [->|Hd].
  2: { exists (Ok []), [], (d :: w), pd. cbn. rewrite Nat.add_0_r. repeat split. constructor. }
  enough (rruns (do _w <- r_whitespace vm;
       do instruction <- (fun s2 : RP I =>
         let g := pp_new_nested (rp_pp s2) (Some 125%N) (Some 92%N) (cur_pos (rp_pp s2)) in
         let '(r, g') := vm_parse_instructions vm (PP str) (pp_tp base_tp) name g in
         (r, mkRP (pp_inner g') (rp_pd s2)));
       do _c <- r_symbol vm 125%N;
       sret instruction) (n + 1) w pd (fun is pre w' pd' => pd' = pd /\ section_text reads name is (123%N :: pre)))
    as (r & pre & w' & pd' & E & -> & Hr).
  { exists r, (123%N :: pre), w', pd'. replace (n + length (123%N :: pre)) with (n + 1 + length pre) by (cbn; lia). auto. }
  eapply rruns_bind; [apply r_whitespace_runs|]. intros _ l w1 pd1 -> (Hl & Hw1 & ->).
  apply rruns_bind with (Q1 := fun is pre w' pd' => pd' = pd /\ forall rest, w' = 125%N :: rest -> reads name pre is).
  - destruct (vr_total vm reads Hvm name w1 (n + 1 + length l)) as (r & g & pre & rest & E & Eg & -> & Hr).
    exists r, pre, rest, pd. cbn [rp_pp rp_pd]. unfold brace_process in E. cbn [cur_pos pp_pos].
    rewrite E. split; [|split; [reflexivity|]].
    + rewrite Eg. reflexivity.
    + destruct r; auto.
  - intros is body w2 pd2 -> (-> & Hread). eapply rruns_bind; [apply r_symbol_runs|]. intros _ pre3 w3 pd3 -> (-> & ->).
    apply rruns_ret. split; [reflexivity|]. rewrite app_nil_r.
    change (123%N :: l ++ body ++ [125%N]) with (lit "{" ++ l ++ body ++ lit "}").
    apply sec_braces; [assumption| |eauto].
    destruct body; [exact Logic.I|exact Hw1].
Qed.
Lemma overrides_runs n w pd : rruns (parse_overrides vm) n w pd (fun ig pre w' pd' =>
  exists o, override_text o pre /\ build_override pd o = (ig, pd')).
Proof.
  unfold parse_overrides. unfold rruns. cbn [rp_pd].
  eapply rruns_bind; [apply succeeds_runs|]. intros dollar l1 w1 pd1 -> (-> & Hd). destruct dollar; cbn [negb].
  2: { destruct Hd as [-> _]. apply rruns_ret. exists OvAbsent. split; [constructor|reflexivity]. }
  subst l1. eapply rruns_bind; [apply r_symbol_runs|]. intros _ l2 w2 pd2 -> (-> & ->).
  eapply rruns_bind; [apply var_name_runs|]. intros x l3 w3 pd3 -> (-> & Hx & _ & ->).
  eapply rruns_bind; [apply r_whitespace_runs|]. intros _ l w4 pd4 -> (Hl & _ & ->).
  eapply rruns_bind; [apply r_symbol_runs|]. intros _ l5 w5 pd5 -> (-> & ->).
  destruct (decide (x = lit "IGNORE")) as [->|Hne].
  - eapply rruns_bind with (Q1 := fun ig pre w' pd' =>
      exists o, build_override pd o = (ig, pd') /\ ((o = OvIgnoreNothing /\ pre = [35%N]) \/ (exists v, o = OvIgnore v /\ pre = v /\ valid_name v))).
    + eapply rruns_bind; [apply succeeds_runs|]. intros hash l6 w6 pd6 -> (-> & Hh). destruct hash.
      * subst l6. apply rruns_ret. exists OvIgnoreNothing. split; [reflexivity|]. left. auto.
      * destruct Hh as [-> _]. eapply rruns_bind; [apply var_name_runs|]. intros v l7 w7 pd7 -> (-> & Hv & _ & ->).
        eapply rruns_bind; [apply add_element_runs|]. intros i l8 w8 pd8 -> (-> & Hi). apply rruns_ret.
        exists (OvIgnore v). cbn [build_override]. rewrite Hi. split; [reflexivity|]. right. exists v. rewrite !app_nil_r. auto.
    + intros ig l6 w6 pd6 -> (o & Ho & Hc). eapply rruns_bind; [apply r_symbol_runs|]. intros _ l7 w7 pd7 -> (-> & ->).
      apply rruns_ret. exists o. rewrite app_nil_r. split; [|assumption]. destruct Hc as [[-> ->]|(v & -> & -> & Hv)].
      * apply (ov_nothing l). assumption.
      * apply (ov_ignore l v); assumption.
  - eapply rruns_bind; [apply rruns_ret with (Q := fun ig pre w' pd' => ig = pr_ignore (parse_rules pd) /\ pre = [] /\ pd' = pd); auto|].
    intros ig l6 w6 pd6 -> (-> & -> & ->). eapply rruns_bind; [apply r_symbol_runs|]. intros _ l7 w7 pd7 -> (-> & ->).
    apply rruns_ret. exists (OvOther x). split; [|reflexivity].
    change (([36%N] ++ [91%N] ++ x ++ l ++ [58%N] ++ [] ++ [93%N] ++ [])) with (lit "$[" ++ x ++ l ++ lit ":]").
    apply ov_other; assumption.
Qed.
Lemma parse_rule_runs n w pd : rruns (parse_rule vm) n w pd (fun kr pre w' pd' =>
  exists r, rule_text reads r pre /\ read_rule pd r = (kr, pd')).
Proof.
  unfold parse_rule.
  eapply rruns_bind; [apply var_name_runs|]. intros x l1 w1 pd1 -> (-> & Hx & _ & ->).
  eapply rruns_bind; [apply add_element_runs|]. intros key l2 w2 pd2 -> (-> & Hkey).
  eapply rruns_bind; [apply r_whitespace_runs|]. intros _ l3 w3 pd3 -> (Hl3 & _ & ->).
  eapply rruns_bind; [apply r_symbol_runs|]. intros _ l4 w4 pd4 -> (-> & ->).
  eapply rruns_bind; [apply r_symbol_runs|]. intros _ l5 w5 pd5 -> (-> & ->).
  eapply rruns_bind; [apply r_whitespace_runs|]. intros _ l6 w6 pd6 -> (Hl6 & _ & ->).
  eapply rruns_bind; [apply overrides_runs|]. intros ig to w7 pd7 -> (o & Hto & Ho).
  eapply rruns_bind; [apply alternatives_runs|]. intros ps ta w8 pd8 -> (alts & Halts & Hta).
  eapply rruns_bind; [apply section_runs|]. intros is ts w9 pd9 -> (-> & Hts).
  eapply rruns_bind; [apply r_whitespace_runs|]. intros _ l10 w10 pd10 -> (Hl10 & _ & ->).
  eapply rruns_bind; [apply r_symbol_runs|]. intros _ l11 w11 pd11 -> (-> & ->).
  apply rruns_ret. exists (mkARule x o alts is). split.
  - destruct Hta as [Hta|(la & t & lb & -> & Hla & Hlb & Ht)].
    { apply app_eq_nil in Hta as [_ Hta]. apply app_eq_nil in Hta as [_ Hta]. discriminate. }
    pose proof (rule_intro reads (mkARule x o alts is) l3 l6 la lb l10 to t ts Hx Hto Ht Hts Hl3 Hl6 Hla Hlb Hl10) as Hr.
    cbn [ar_name] in Hr. rewrite !app_nil_r. rewrite <- !app_assoc. exact Hr.
  - unfold read_rule. cbn [ar_name ar_override ar_alts ar_instr]. rewrite Hkey, Ho, Halts. reflexivity.
Qed.
Lemma rule_text_length (r : arule I) t : rule_text reads r t -> 1 <= length t.
Proof. intros [l1 l2 l3 l4 l5 to ta ts Hx]. destruct (ar_name r); [contradiction|]. cbn. lia. Qed.

(** ** The whole text *)
Lemma rules_loop_runs fuel : forall n w pd, length w < fuel ->
  rruns (rules_loop vm fuel) n w pd (fun _ pre w' pd' =>
    w' = [] /\ exists rs, grammar_text reads rs pre /\ pd' = fold_left build_rule rs pd).
Proof.
  induction fuel as [|f IH]; intros n w pd Hf; [lia|]. cbn [rules_loop].
  eapply rruns_bind; [apply r_whitespace_runs|]. intros _ l w1 pd1 -> (Hl & _ & ->).
  eapply rruns_bind with (Q1 := fun o pre w' pd' => o = head w' /\ pre = [] /\ pd' = pd).
  { unfold rruns, on_pp. cbn [rp_pp rp_pd]. rewrite outer_peek. exists (Ok (head w1)), [], w1, pd. cbn. rewrite Nat.add_0_r. auto. }
  intros o pre w2 pd2 -> (-> & -> & ->). destruct w2 as [|c w2]; cbn [head].
  - apply rruns_ret. split; [reflexivity|]. exists []. rewrite !app_nil_r. split; [constructor; assumption|reflexivity].
  - eapply rruns_bind; [apply parse_rule_runs|]. intros kr t w3 pd3 E (r & Hr & Hrr).
    pose proof (rule_text_length r t Hr) as Hlen. unfold rruns. cbn [rp_pp rp_pd].
    destruct (IH (n + length l + length (@nil N) + length t) w3 (merge_rule vm pd3 kr.2 kr.1)) as (res & pre4 & w4 & pd4 & E4 & -> & Hres).
    { rewrite !app_length in Hf. cbn [app] in *. rewrite E in Hf. rewrite !app_length in Hf. lia. }
    rewrite E4. exists res, pre4, w4, pd4. split; [reflexivity|]. split; [reflexivity|].
    destruct res as [[]|e| |]; auto. destruct Hres as (-> & rs & Hrs & ->). split; [reflexivity|]. exists (r :: rs).
    split; [rewrite app_nil_l; apply gr_cons; assumption|]. cbn [fold_left]. f_equal. unfold build_rule. rewrite Hrr. destruct kr; reflexivity.
Qed.
End rules.
