(** * Reading rule text: every rendering of an abstract grammar is accepted *)
From Verif Require Import Base Peekables Tree Errors ParseFuncs ParserData Vm RuleParsing
  SpecText SpecData SpecGrammar SpecRules SpecContract Streams_proofs ParseFuncs_proofs Terminal_proofs VmText_proofs RuleText_proofs.

Section rules.
Context {U : Unicode} (vm : VM) (Hdis : tables_disjoint).
Notation I := (vm_instr vm).
Notation ST A := (st (RP I) ParserError A).
Context (reads : str -> str -> list I -> Prop) (Hvm : vm_reads vm reads).
Notation at_ w n pd := (mkRP (outer w n) pd).

(** chars after which no element can go on *)
Definition closing (w : str) : Prop := exists c w', w = c :: w' /\ (c = 124%N \/ c = 123%N \/ c = 59%N).
Lemma closing_not_white w : closing w -> not_starting white w.
Proof. intros (c & w' & -> & Hc). cbn. unfold white. destruct Hc as [->|[->| ->]]; discriminate. Qed.
Lemma closing_not_name w : closing w -> not_starting namechar w.
Proof. intros (c & w' & -> & Hc). cbn. intros [H|H]; destruct Hc as [->|[->| ->]]; discriminate. Qed.
Lemma closing_not_element w n : closing w -> exists x, parse_element (outer w n) = (Err x, outer w n).
Proof. intros (c & w' & -> & Hc). destruct Hc as [->|[->| ->]]; eexists; reflexivity. Qed.
Lemma element_text_start e t w : element_text e t -> not_starting white (t ++ w).
Proof.
  intros [x Hx|b Hb]; [|cbn; unfold white; discriminate]. destruct x as [|c cs]; [contradiction|]. cbn.
  intros Hw. apply (Hdis c Hw), alphabetic_namechar, Hx.
Qed.
Lemma elements_text_start es t w : elements_text es t -> not_starting white (t ++ w).
Proof. intros [e te He|e te l es' t' He Hl Ht Hsep]; [|rewrite <- app_assoc]; eapply element_text_start; eassumption. Qed.
Lemma alternative_text_start a t w : alternative_text a t -> not_starting white (t ++ w).
Proof. intros [|es te He]; [cbn; unfold white; discriminate|]. eapply elements_text_start; eassumption. Qed.
Lemma blank_not_name l w : blank l -> not_starting namechar w -> not_starting namechar (l ++ w).
Proof. intros Hl Hw. destruct l as [|c l]; [assumption|]. cbn. apply Hdis. inversion Hl; assumption. Qed.

Lemma ws_eq l w n pd : blank l -> not_starting white w ->
  r_whitespace vm (at_ (l ++ w) n pd) = (Ok tt, at_ w (n + length l) pd).
Proof.
  intros Hl Hw. unfold r_whitespace, on_pp. cbn [rp_pp rp_pd].
  destruct (parse_whitespace_sim base_tp plainR plain_psim (outer (l ++ w) n) n l w eq_refl Hl Hw) as (p' & -> & ->). reflexivity.
Qed.
Lemma ws_none w n pd : not_starting white w -> r_whitespace vm (at_ w n pd) = (Ok tt, at_ w n pd).
Proof. intros Hw. pose proof (ws_eq [] w n pd ltac:(constructor) Hw) as E. cbn [app length] in E. rewrite Nat.add_0_r in E. exact E. Qed.
Lemma ws_skip l w n pd : blank l -> r_whitespace vm (at_ (l ++ w) n pd) = r_whitespace vm (at_ w (n + length l) pd).
Proof.
  intros Hl. destruct (span_exists white w) as (l' & w' & -> & Hl' & Hw').
  rewrite app_assoc, ws_eq by auto using blank_app. rewrite ws_eq by assumption. rewrite app_length, Nat.add_assoc. reflexivity.
Qed.
Lemma symbol_ok c w n pd : r_symbol vm c (at_ (c :: w) n pd) = (Ok tt, at_ w (n + 1) pd).
Proof. rewrite r_symbol_eq, N.eqb_refl. reflexivity. Qed.
Lemma symbol_no c w n pd : head w <> Some c -> succeeds vm (r_symbol vm c) (at_ w n pd) = (Ok false, at_ w n pd).
Proof.
  intros Hw. unfold succeeds. rewrite r_symbol_eq. destruct w as [|d w]; [reflexivity|].
  destruct (N.eqb_spec d c) as [->|]; [cbn in Hw; congruence|reflexivity].
Qed.
Lemma symbol_yes c w n pd : succeeds vm (r_symbol vm c) (at_ (c :: w) n pd) = (Ok true, at_ w (n + 1) pd).
Proof. unfold succeeds. rewrite symbol_ok. reflexivity. Qed.
Lemma name_eq x w n pd : valid_name x -> not_starting namechar w ->
  on_pp vm (parse_var_name base_tp) (at_ (x ++ w) n pd) = (Ok x, at_ w (n + length x) pd).
Proof.
  intros Hx Hw. destruct x as [|c cs]; [contradiction|]. destruct Hx as [Hc Hcs]. unfold on_pp. cbn [rp_pp rp_pd].
  destruct (parse_var_name_ok base_tp plainR plain_psim (outer (c :: cs ++ w) n) n c cs w eq_refl Hc Hcs Hw) as (p' & E & ->).
  cbn [app]. rewrite E. cbn [length]. replace (n + S (length cs)) with (n + 1 + length cs) by lia. reflexivity.
Qed.
Lemma element_eq e t w n : element_text e t -> (e.2 = NonTerminal -> not_starting namechar w) ->
  parse_element (outer (t ++ w) n) = (Ok (Some e), outer w (n + length t)).
Proof.
  intros He Hsep. destruct He as [x Hx|b Hb].
  - destruct x as [|c cs]; [contradiction|]. destruct Hx as [Hc Hcs]. unfold parse_element. rewrite outer_peek. cbn [app head].
    assert (N.eqb c 35 = false) as ->. { apply N.eqb_neq. intros ->. discriminate. }
    assert (N.eqb c 34 = false) as ->. { apply N.eqb_neq. intros ->. discriminate. }
    rewrite Hc. unfold sbind.
    destruct (parse_var_name_ok base_tp plainR plain_psim (outer (c :: cs ++ w) n) n c cs w eq_refl Hc Hcs (Hsep eq_refl)) as (p' & -> & ->).
    unfold sret. cbn [length]. replace (n + S (length cs)) with (n + 1 + length cs) by lia. reflexivity.
  - unfold parse_element. rewrite outer_peek. cbn [app head]. rewrite <- app_assoc. cbn [app].
    change (N.eqb 34 35) with false. change (N.eqb 34 34) with true. cbv iota. unfold sbind.
    rewrite parse_terminal_ok by assumption. unfold sret. cbn [length]. rewrite app_length. cbn.
    replace (n + length b + 2) with (n + S (length b + 1)) by lia. reflexivity.
Qed.

(** ** Productions *)
Lemma loop_text_cons_blank es t l : blank l -> loop_text es t -> loop_text es (l ++ t).
Proof.
  intros Hl [l0 H0|l0 e te es' t' H0 He Hsep Ht]; [constructor; auto using blank_app|].
  rewrite app_assoc. constructor; auto using blank_app.
Qed.
Lemma elements_text_length es t : elements_text es t -> 1 <= length t.
Proof. intros [e te He|e te l es' t' He Hl Ht Hsep]; rewrite ?app_length; apply element_text_length in He; lia. Qed.
Lemma elements_loop_text es t l : elements_text es t -> blank l -> loop_text es (t ++ l).
Proof.
  intros Ht Hl. induction Ht as [e t He|e t l' es t' He Hl' Ht IH Hsep].
  - apply (lt_cons [] e t [] l); auto; [constructor| |constructor; assumption].
    intros _. rewrite <- (app_nil_r l). apply blank_not_name; [assumption|exact Logic.I].
  - rewrite <- !app_assoc. apply (lt_cons [] e t es (l' ++ t' ++ l)); auto using loop_text_cons_blank; [constructor|].
    intros Hnt. specialize (Hsep Hnt). rewrite app_assoc. destruct (l' ++ t') eqn:E; [|exact Hsep].
    apply app_eq_nil in E as [_ E]. apply elements_text_length in Ht. rewrite E in Ht. cbn in Ht. lia.
Qed.
Lemma production_loop_eq es t : loop_text es t -> forall fuel acc n rest pd ixs pd', closing rest ->
  acc ++ ixs <> [] -> interns vm pd es = (ixs, pd') -> length (t ++ rest) < fuel ->
  production_loop vm fuel acc (at_ (t ++ rest) n pd) = (Ok (NotEmpty (acc ++ ixs)), at_ rest (n + length t) pd').
Proof.
  induction 1 as [l Hl|l e te es t Hl He Hsep Ht IH]; intros fuel acc n rest pd ixs pd' Hc Hne Hi Hf; (destruct fuel as [|f]; [lia|]);
    cbn [production_loop]; unfold sbind at 1.
  - rewrite ws_eq by auto using closing_not_white. cbn [interns] in Hi. injection Hi as <- <-. rewrite app_nil_r in *.
    unfold on_pp. cbn [rp_pp rp_pd]. destruct (closing_not_element rest (n + length l) Hc) as [x ->].
    destruct acc; [congruence|reflexivity].
  - rewrite <- !app_assoc. rewrite ws_eq; [|assumption|eapply element_text_start; eassumption].
    unfold on_pp. cbn [rp_pp rp_pd]. rewrite (element_eq e te).
    2: assumption.
    2: { intros Hnt. specialize (Hsep Hnt). destruct t; [apply closing_not_name; assumption|exact Hsep]. }
    cbn [interns] in Hi. unfold sbind, add_element. cbn [rp_pp rp_pd].
    destruct (get_or_add_element_key pd e) as [i pd1]. destruct (interns vm pd1 es) as [is pd2] eqn:Hi2. injection Hi as <- <-.
    rewrite (IH f (acc ++ [i]) _ rest pd1 is pd2); auto.
    + rewrite <- app_assoc. rewrite !app_length, !Nat.add_assoc. reflexivity.
    + destruct acc; discriminate.
    + pose proof (element_text_length e te He) as Hlen. rewrite !app_length in *. lia.
Qed.
(** an alternative followed by layout and a closing char *)
Lemma production_eq l0 a t l rest n pd ixs pd' : blank l0 -> alternative_text a t -> blank l -> closing rest ->
  interns vm pd a = (ixs, pd') ->
  exists l1 l2, l = l1 ++ l2 /\ parse_production vm (at_ (l0 ++ t ++ l ++ rest) n pd)
    = (Ok (production_of ixs), at_ (l2 ++ rest) (n + length l0 + length t + length l1) pd').
Proof.
  intros Hl0 Ha Hl Hc Hi. destruct Ha as [|es t He].
  - exists [], l. split; [reflexivity|]. unfold parse_production.
    generalize (r_size vm (at_ (l0 ++ [35%N] ++ l ++ rest) n pd)) as k. intros k. cbn [production_loop]. unfold sbind.
    rewrite ws_eq; [|assumption|cbn; unfold white; discriminate]. cbn [interns] in Hi. injection Hi as <- <-. cbn. rewrite Nat.add_0_r. reflexivity.
  - exists l, []. rewrite app_nil_r. split; [reflexivity|]. unfold parse_production.
    change (r_size vm (at_ (l0 ++ t ++ l ++ rest) n pd)) with (length (l0 ++ t ++ l ++ rest)).
    replace (l0 ++ t ++ l ++ rest) with ((l0 ++ t ++ l) ++ rest) by (rewrite <- !app_assoc; reflexivity).
    assert (ixs <> []) as Hne.
    { intros ->. pose proof (interns_length vm pd es) as Hil. rewrite Hi in Hil. destruct es; [|discriminate]. inversion He. }
    rewrite (production_loop_eq es (l0 ++ t ++ l) (loop_text_cons_blank _ _ _ Hl0 (elements_loop_text es t l He Hl)) _ [] n rest pd ixs pd'); auto.
    cbn [app]. rewrite !app_length, !Nat.add_assoc. destruct ixs; [congruence|reflexivity].
Qed.

(** ** Alternatives *)
Lemma alternatives_skip l f acc w n pd : blank l ->
  alternatives_loop vm f acc (at_ (l ++ w) n pd) = match f with O => (Diverge, at_ (l ++ w) n pd) | _ => alternatives_loop vm f acc (at_ w (n + length l) pd) end.
Proof. intros Hl. destruct f as [|f]; [reflexivity|]. cbn [alternatives_loop]. unfold sbind at 1 7. rewrite ws_skip by assumption. reflexivity. Qed.
(** what ends the alternatives *)
Definition ends (w : str) : Prop := exists c w', w = c :: w' /\ (c = 123%N \/ c = 59%N).
Lemma ends_closing w : ends w -> closing w.
Proof. intros (c & w' & -> & H). exists c, w'. tauto. Qed.
Lemma tail_text_split alts t rest : tail_text alts t -> ends rest ->
  exists l t', t = l ++ t' /\ blank l /\ closing (t' ++ rest) /\ tail_text alts t'.
Proof.
  intros [l Hl|l l' a t1 rest1 t' H1 H2 H3 H4] He.
  - exists l, []. rewrite app_nil_r. split; [reflexivity|]. split; [assumption|]. split; [apply ends_closing; assumption|constructor; constructor].
  - exists l, (124%N :: l' ++ t1 ++ t'). split; [reflexivity|]. split; [assumption|].
    split; [eexists _, _; split; [reflexivity|auto]|]. apply (tt_cons [] l' a t1 rest1 t'); auto. constructor.
Qed.
Lemma alternatives_loop_eq alts t : tail_text alts t -> forall fuel acc n rest pd ps pd', ends rest ->
  intern_alts vm pd alts = (ps, pd') -> length (t ++ rest) < fuel ->
  alternatives_loop vm fuel acc (at_ (t ++ rest) n pd) = (Ok (acc ++ ps), at_ rest (n + length t) pd').
Proof.
  induction 1 as [l Hl|l l' a t alts t' Hl Hl' Ha Ht IH]; intros fuel acc n rest pd ps pd' He Hi Hf; (destruct fuel as [|f]; [lia|]);
    cbn [alternatives_loop]; unfold sbind at 1.
  - assert (forall c, (c = 10%N \/ c = 124%N) -> head rest <> Some c) as Hh.
    { destruct He as (c & w' & -> & [->| ->]); intros d [->| ->]; discriminate. }
    pose proof (closing_not_white _ (ends_closing _ He)) as Hw.
    rewrite ws_eq by assumption. unfold sbind at 1. rewrite symbol_no by auto. unfold sbind at 1. rewrite ws_none by assumption.
    unfold sbind at 1. rewrite symbol_no by auto. cbn [intern_alts] in Hi. injection Hi as <- <-. rewrite app_nil_r. reflexivity.
  - rewrite <- !app_assoc. cbn [app]. rewrite <- !app_assoc.
    rewrite ws_eq; [|assumption|cbn; unfold white; discriminate].
    unfold sbind at 1. rewrite symbol_no by discriminate. unfold sbind at 1. rewrite ws_none by (cbn; unfold white; discriminate).
    unfold sbind at 1. rewrite symbol_yes. cbv iota. unfold sbind at 1.
    rewrite ws_eq; [|assumption|eapply alternative_text_start; eassumption].
    cbn [intern_alts] in Hi. destruct (interns vm pd a) as [ixs pd1] eqn:Hix. destruct (intern_alts vm pd1 alts) as [ps2 pd2] eqn:Hi2. injection Hi as <- <-.
    destruct (tail_text_split alts t' rest Ht He) as (lb & t'' & -> & Hlb & Hcl & _). rewrite <- app_assoc.
    unfold sbind at 1. destruct (production_eq [] a t lb (t'' ++ rest) (n + length l + 1 + length l') pd ixs pd1 ltac:(constructor) Ha Hlb Hcl Hix) as (l1 & l2 & -> & Epp). cbn [app length] in Epp. rewrite Nat.add_0_r in Epp. rewrite Epp. clear Epp.
    apply Forall_app in Hlb as [Hl1 Hl2].
    assert (length ((l1 ++ l2) ++ t'' ++ rest) < f) as Hf'.
    { repeat (rewrite ?app_length in Hf; cbn [length] in Hf). rewrite !app_length. lia. }
    destruct f as [|f]; [lia|].
    specialize (IH (S f) (acc ++ [production_of ixs]) (n + length l + 1 + length l' + length t) rest pd1 ps2 pd2 He Hi2).
    repeat rewrite <- app_assoc in IH. repeat rewrite <- app_assoc in Hf'. specialize (IH Hf'). rewrite alternatives_skip in IH by assumption. cbv iota in IH.
    rewrite IH. rewrite <- app_assoc. repeat (rewrite ?app_length; cbn [length]).
    match goal with |- (_, at_ _ ?a _) = (_, at_ _ ?b _) => replace a with b by lia end. reflexivity.
Qed.
Lemma alternatives_tail alts t l : alternatives_text alts t -> blank l ->
  exists a rest ta t', alts = a :: rest /\ t ++ l = ta ++ t' /\ alternative_text a ta /\ tail_text rest t'.
Proof.
  intros Ht Hl. induction Ht as [a t Ha|a t l1 l2 rest t' Ha Hl1 Hl2 Ht IH].
  - exists a, [], t, l. repeat split; auto. constructor. assumption.
  - destruct IH as (b & rest' & tb & t2 & -> & E & Hb & Ht2).
    exists a, (b :: rest'), t, (l1 ++ 124%N :: l2 ++ tb ++ t2). split; [reflexivity|].
    rewrite <- !app_assoc. cbn [app]. rewrite <- !app_assoc. rewrite E. split; [reflexivity|]. split; [assumption|]. constructor; auto.
Qed.
Lemma alternatives_eq l0 alts t l n rest pd ps pd' : blank l0 -> alternatives_text alts t -> blank l -> ends rest ->
  intern_alts vm pd alts = (ps, pd') ->
  parse_possible_productions vm (at_ (l0 ++ t ++ l ++ rest) n pd) = (Ok ps, at_ rest (n + length l0 + length t + length l) pd').
Proof.
  intros Hl0 Ht Hl He Hi. destruct (alternatives_tail alts t l Ht Hl) as (a & alts' & ta & t' & -> & E & Ha & Ht').
  cbn [intern_alts] in Hi. destruct (interns vm pd a) as [ixs pd1] eqn:Hix. destruct (intern_alts vm pd1 alts') as [ps2 pd2] eqn:Hi2. injection Hi as <- <-.
  assert (length t + length l = length ta + length t') as Hlen by (rewrite <- !app_length, E; reflexivity).
  replace (t ++ l ++ rest) with (ta ++ t' ++ rest) by (rewrite (app_assoc t l rest), E, <- app_assoc; reflexivity).
  unfold parse_possible_productions. change (r_size vm (at_ (l0 ++ ta ++ t' ++ rest) n pd)) with (length (l0 ++ ta ++ t' ++ rest)). unfold sbind.
  destruct (tail_text_split alts' t' rest Ht' He) as (lb & t'' & -> & Hlb & Hcl & _). rewrite <- app_assoc.
  destruct (production_eq l0 a ta lb (t'' ++ rest) n pd ixs pd1 Hl0 Ha Hlb Hcl Hix) as (l1 & l2 & -> & ->).
  apply Forall_app in Hlb as [Hl1 Hl2].
  assert (length (((l1 ++ l2) ++ t'') ++ rest) < S (length (l0 ++ ta ++ (l1 ++ l2) ++ t'' ++ rest))) as Hf by (rewrite !app_length; lia).
  pose proof (alternatives_loop_eq alts' _ Ht' _ [production_of ixs] (n + length l0 + length ta) rest pd1 ps2 pd2 He Hi2 Hf) as IH.
  rewrite <- !app_assoc in IH. rewrite alternatives_skip in IH by assumption. cbv iota in IH. rewrite <- !app_assoc. rewrite IH. cbn [app].
  rewrite !app_length in Hlen. rewrite !app_length. match goal with |- (_, at_ _ ?a _) = (_, at_ _ ?b _) => replace a with b by lia end. reflexivity.
Qed.

(** ** Overrides, sections, rules *)
Lemma override_eq o to n rest pd : override_text o to -> head rest <> Some 36%N ->
  parse_overrides vm (at_ (to ++ rest) n pd) = (Ok (build_override vm pd o).1, at_ rest (n + length to) (build_override vm pd o).2).
Proof.
  intros Ho Hr. unfold parse_overrides. cbn [rp_pd].
  assert (valid_name (lit "IGNORE")) as Hig by (split; [reflexivity|repeat constructor; left; reflexivity]).
  destruct Ho as [|l Hl|l x Hl Hx|l x Hl Hx Hne].
  - unfold sbind at 1. cbn [app]. rewrite symbol_no by assumption. cbn. rewrite Nat.add_0_r. reflexivity.
  - unfold sbind at 1. rewrite <- !app_assoc. change (lit "$[IGNORE" ++ l ++ lit ":#]" ++ rest) with (36%N :: 91%N :: lit "IGNORE" ++ l ++ 58%N :: 35%N :: 93%N :: rest).
    rewrite symbol_yes. cbn [negb]. unfold sbind at 1. rewrite symbol_ok. unfold sbind at 1. rewrite name_eq.
    2: assumption. 2: { apply blank_not_name; [assumption|]. intros [?|?]; discriminate. }
    unfold sbind at 1. rewrite ws_eq; [|assumption|cbn; unfold white; discriminate]. unfold sbind at 1. rewrite symbol_ok.
    rewrite decide_True by reflexivity. unfold sbind at 1 2. rewrite symbol_yes. cbv iota. unfold sret at 1. unfold sbind at 1. rewrite symbol_ok. unfold sret.
    cbn [build_override fst snd]. rewrite !app_length. cbn [length].
    match goal with |- (_, at_ _ ?a _) = (_, at_ _ ?b _) => replace a with b by (cbn; lia) end. reflexivity.
  - unfold sbind at 1. rewrite <- !app_assoc. change (lit "$[IGNORE" ++ l ++ lit ":" ++ x ++ lit "]" ++ rest) with (36%N :: 91%N :: lit "IGNORE" ++ l ++ 58%N :: x ++ 93%N :: rest).
    rewrite symbol_yes. cbn [negb]. unfold sbind at 1. rewrite symbol_ok. unfold sbind at 1. rewrite name_eq.
    2: assumption. 2: { apply blank_not_name; [assumption|]. intros [?|?]; discriminate. }
    unfold sbind at 1. rewrite ws_eq; [|assumption|cbn; unfold white; discriminate]. unfold sbind at 1. rewrite symbol_ok.
    rewrite decide_True by reflexivity. unfold sbind at 1 2. rewrite symbol_no.
    2: { destruct x as [|c x]; [contradiction|]. destruct Hx as [Hc _]. cbn. intros E. injection E as ->. discriminate. }
    cbv iota. unfold sbind at 1. rewrite name_eq; [|assumption|intros [?|?]; discriminate]. unfold sbind at 1, add_element. cbn [rp_pp rp_pd].
    cbn [build_override]. destruct (get_or_add_element_key pd (x, NonTerminal)) as [i pd1]. unfold sret at 1. unfold sbind at 1. rewrite symbol_ok. unfold sret.
    cbn [fst snd]. rewrite !app_length. cbn [length].
    match goal with |- (_, at_ _ ?a _) = (_, at_ _ ?b _) => replace a with b by (cbn; lia) end. reflexivity.
  - unfold sbind at 1. rewrite <- !app_assoc. change (lit "$[" ++ x ++ l ++ lit ":]" ++ rest) with (36%N :: 91%N :: x ++ l ++ 58%N :: 93%N :: rest).
    rewrite symbol_yes. cbn [negb]. unfold sbind at 1. rewrite symbol_ok. unfold sbind at 1. rewrite name_eq.
    2: assumption. 2: { apply blank_not_name; [assumption|]. intros [?|?]; discriminate. }
    unfold sbind at 1. rewrite ws_eq; [|assumption|cbn; unfold white; discriminate]. unfold sbind at 1. rewrite symbol_ok.
    rewrite decide_False by assumption. unfold sbind at 1. unfold sret at 1. unfold sbind at 1. rewrite symbol_ok. unfold sret.
    cbn [build_override fst snd]. rewrite !app_length. cbn [length].
    match goal with |- (_, at_ _ ?a _) = (_, at_ _ ?b _) => replace a with b by (cbn; lia) end. reflexivity.
Qed.
Lemma section_eq name is ts n rest pd : section_text reads name is ts -> head rest <> Some 123%N ->
  parse_instruction_section vm name (at_ (ts ++ rest) n pd) = (Ok is, at_ rest (n + length ts) pd).
Proof.
  intros Ht Hr. unfold parse_instruction_section. destruct Ht as [|l body is Hl Hb Hread].
  - cbn [app length]. rewrite Nat.add_0_r, r_symbol_eq. destruct rest as [|d w]; [reflexivity|].
    destruct (N.eqb_spec d 123) as [->|]; [cbn in Hr; congruence|reflexivity].
  - rewrite <- !app_assoc. change (lit "{" ++ l ++ body ++ lit "}" ++ rest) with (123%N :: l ++ body ++ 125%N :: rest).
    rewrite symbol_ok. unfold sbind at 1. rewrite ws_eq; [|assumption|destruct body; [cbn; unfold white; discriminate|exact Hb]].
    unfold sbind at 1. cbn [rp_pp rp_pd cur_pos pp_pos].
    destruct (vr_reads vm reads Hvm Hdis name body is (n + 1 + length l) rest Hread) as (g & E & Eg). unfold brace_process in E. rewrite E, Eg.
    unfold sbind. rewrite symbol_ok. unfold sret. rewrite !app_length. cbn [length].
    match goal with |- (_, at_ _ ?a _) = (_, at_ _ ?b _) => replace a with b by (cbn; lia) end. reflexivity.
Qed.
Lemma app3 {A} (a b c a' b' c' x : list A) : a ++ b ++ c = a' ++ b' ++ c' -> a ++ b ++ c ++ x = a' ++ b' ++ c' ++ x.
Proof. intros E. rewrite !(app_assoc a), !(app_assoc a'), <- !app_assoc in *. rewrite (app_assoc b c x), (app_assoc a), E, <- !app_assoc. reflexivity. Qed.
Lemma section_text_start name is ts rest : section_text reads name is ts -> blank rest -> ends (ts ++ rest ++ lit ";") \/ ts = [].
Proof. intros [|l body is' Hl Hb Hr] Hrest; [right; reflexivity|]. left. rewrite <- !app_assoc. eexists _, _. split; [reflexivity|auto]. Qed.
Lemma rule_eq (r : arule I) t n rest pd : rule_text reads r t ->
  parse_rule vm (at_ (t ++ rest) n pd) = (Ok (read_rule vm pd r).1, at_ rest (n + length t) (read_rule vm pd r).2).
Proof.
  intros [l1 l2 l3 l4 l5 to ta ts Hx Hto Hta Hts H1 H2 H3 H4 H5]. unfold parse_rule, read_rule. rewrite <- !app_assoc.
  unfold sbind at 1. rewrite name_eq; [|assumption|apply blank_not_name; [assumption|intros [?|?]; discriminate]].
  unfold sbind at 1, add_element. cbn [rp_pp rp_pd]. destruct (get_or_add_element_key pd (ar_name r, NonTerminal)) as [key pd1].
  unfold sbind at 1. rewrite ws_eq; [|assumption|cbn; unfold white; discriminate].
  change (lit "->" ++ l2 ++ to ++ l3 ++ ta ++ l4 ++ ts ++ l5 ++ lit ";" ++ rest) with (45%N :: 62%N :: l2 ++ to ++ l3 ++ ta ++ l4 ++ ts ++ l5 ++ 59%N :: rest).
  unfold sbind at 1. rewrite symbol_ok. unfold sbind at 1. rewrite symbol_ok.
  assert (forall w, not_starting white (ta ++ w)) as Hta'.
  { intros w. inversion Hta as [a tq Ha|a tq l l' rest' t' Ha]; subst; rewrite <- ?app_assoc; eapply alternative_text_start; eassumption. }
  assert (head ta <> Some 36%N /\ ta <> []) as [Hd Hne].
    { assert (forall e te w, element_text e te -> head (te ++ w) <> Some 36%N /\ te ++ w <> []) as Hel.
      { intros e te w He. split; [|apply element_text_length in He; destruct te; [cbn in He; lia|discriminate]].
        destruct He as [x Hx'|b Hb]; [|discriminate]. destruct x as [|c cs]; [contradiction|]. cbn. destruct Hx' as [Hc _]. intros E. injection E as ->. discriminate. }
      assert (forall a te w, alternative_text a te -> head (te ++ w) <> Some 36%N /\ te ++ w <> []) as Hal.
      { intros a te w [|es te' He]; [split; discriminate|]. destruct He as [e te0 He|e te0 l es' t' He]; rewrite <- ?app_assoc; eapply Hel; eassumption. }
      destruct Hta as [a tq Ha|a tq l l' rest' t' Ha]; [rewrite <- (app_nil_r tq)|]; eapply Hal; eassumption. }
  assert (exists k1 k2, blank k1 /\ blank k2 /\ k1 ++ to ++ k2 = l2 ++ to ++ l3 /\ not_starting white (to ++ k2 ++ ta) /\ head (k2 ++ ta) <> Some 36%N)
    as (k1 & k2 & Hk1 & Hk2 & Ek & Hns & Hhd).
  { assert (forall l w, blank l -> head w <> Some 36%N -> head (l ++ w) <> Some 36%N) as Hbl.
    { intros [|c l] w Hl Hw; [assumption|]. cbn. intros E. injection E as ->. inversion Hl as [|? ? Hc]. discriminate. }
    destruct (decide (to = [])) as [->|Hto'].
    - exists (l2 ++ l3), []. repeat split; auto using blank_app; [constructor|cbn; rewrite app_nil_r; reflexivity|].
      cbn. rewrite <- (app_nil_r ta). apply Hta'.
    - exists l2, l3. repeat split; auto. destruct Hto; [congruence|cbn; unfold white; discriminate..]. }
  replace (l2 ++ to ++ l3 ++ ta ++ l4 ++ ts ++ l5 ++ 59%N :: rest) with (k1 ++ to ++ k2 ++ ta ++ l4 ++ ts ++ l5 ++ 59%N :: rest)
    by (apply app3; exact Ek).
  unfold sbind at 1. rewrite ws_eq; [|assumption|].
  2: { replace (to ++ k2 ++ ta ++ l4 ++ ts ++ l5 ++ 59%N :: rest) with ((to ++ k2 ++ ta) ++ l4 ++ ts ++ l5 ++ 59%N :: rest) by (rewrite <- !app_assoc; reflexivity).
       destruct (to ++ k2 ++ ta) eqn:E; [|exact Hns]. apply app_eq_nil in E as [_ E]. apply app_eq_nil in E as [_ E]. contradiction. }
  unfold sbind at 1. rewrite (override_eq (ar_override r)); [|assumption|].
  2: { rewrite app_assoc. destruct (k2 ++ ta) eqn:E; [|exact Hhd]. apply app_eq_nil in E as [_ E]. contradiction. }
  destruct (build_override vm pd1 (ar_override r)) as [ig pd2] eqn:Hov. cbn [fst snd].
  destruct (intern_alts vm pd2 (ar_alts r)) as [ps pd3] eqn:Hps.
  assert (ends (ts ++ l5 ++ 59%N :: rest) /\ l4 = l4 ++ [] \/ ts = []) as Hends.
  { destruct Hts as [|l body is' Hl Hb Hr]; [right; reflexivity|]. left. rewrite app_nil_r, <- !app_assoc. split; [|reflexivity]. eexists _, _. split; [reflexivity|auto]. }
  (* with no section the layout up to ';' is read with the alternatives *)
  assert (exists m1 m2, blank m1 /\ blank m2 /\ l4 ++ ts ++ l5 = m1 ++ ts ++ m2 /\ ends (ts ++ m2 ++ 59%N :: rest)) as (m1 & m2 & Hm1 & Hm2 & Em & He).
  { destruct Hends as [[He _]|Hts']; [exists l4, l5; auto|]. subst ts. exists (l4 ++ l5), []. split; [apply blank_app; assumption|]. split; [constructor|].
    split; [cbn; rewrite app_nil_r; reflexivity|]. eexists _, _. split; [reflexivity|auto]. }
  replace (l4 ++ ts ++ l5 ++ 59%N :: rest) with (m1 ++ ts ++ m2 ++ 59%N :: rest)
    by (apply app3; symmetry; exact Em).
  unfold sbind at 1. rewrite (alternatives_eq k2 (ar_alts r) ta m1 _ (ts ++ m2 ++ 59%N :: rest) pd2 ps pd3 Hk2 Hta Hm1 He Hps).
  unfold sbind at 1. rewrite section_eq with (is := ar_instr r); [|assumption|].
  2: { destruct m2 as [|c m2]; [discriminate|]. cbn. intros E. injection E as ->. inversion Hm2 as [|? ? Hc]. discriminate. }
  unfold sbind at 1. rewrite ws_eq; [|assumption|cbn; unfold white; discriminate]. unfold sbind. rewrite symbol_ok. unfold sret. cbn [fst snd].
  apply (f_equal length) in Ek, Em. rewrite !app_length in Ek, Em. rewrite !app_length.
  match goal with |- (_, at_ _ ?a _) = (_, at_ _ ?b _) => replace a with b by (cbn [length lit map Ascii.N_of_ascii]; cbn; lia) end. reflexivity.
Qed.

Lemma rule_text_start (r : arule I) t w : rule_text reads r t -> not_starting white (t ++ w) /\ exists c s, t ++ w = c :: s.
Proof.
  intros [l1 l2 l3 l4 l5 to ta ts Hx]. destruct (ar_name r) as [|c x]; [contradiction|]. cbn. split; [|eauto].
  intros Hw. apply (Hdis c Hw), alphabetic_namechar, Hx.
Qed.
Lemma rules_loop_eq rs t : grammar_text reads rs t -> forall fuel n pd, length t < fuel ->
  rules_loop vm fuel (at_ t n pd) = (Ok tt, at_ [] (n + length t) (fold_left (build_rule vm) rs pd)).
Proof.
  induction 1 as [l Hl|r t l rs t' Hl Hr Ht IH]; intros fuel n pd Hf; (destruct fuel as [|f]; [lia|]); cbn [rules_loop]; unfold sbind at 1.
  - rewrite <- (app_nil_r l) at 1. rewrite ws_eq by (auto; exact Logic.I). reflexivity.
  - destruct (rule_text_start r t t' Hr) as [Hs (c & s & E)]. rewrite ws_eq by assumption. unfold sbind at 1.
    unfold on_pp. cbn [rp_pp rp_pd]. rewrite outer_peek. rewrite E. cbn [head]. rewrite <- E. unfold sbind. rewrite (rule_eq r) by assumption. cbn [rp_pp rp_pd].
    pose proof (rule_text_length vm reads r t Hr) as Hlen. rewrite !app_length in Hf.
    specialize (IH f (n + length l + length t) (build_rule vm pd r) ltac:(lia)).
    cbn [fold_left]. rewrite !app_length, !Nat.add_assoc. rewrite <- IH. f_equal. f_equal. unfold build_rule. destruct (read_rule vm pd r) as [[key nr] pd']. reflexivity.
Qed.
End rules.
