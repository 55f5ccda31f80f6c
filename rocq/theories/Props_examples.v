(** * C64: the three example programs *)
From Verif Require Import Base Peekables Tree Errors Sets ParserData Vm SimpleStackVm StackVm RuleParsing FirstSets FollowSets SteuerMap ScriptParser Display DebugFmt Examples
  SpecText SpecData SpecGrammar SpecParser SpecTree SpecScript SpecContract SpecWeave SpecRules SpecNames SpecMath SpecVm SpecRpn SpecCalc
  Grammar_proofs Script_proofs Parse_proofs Construct_proofs Checks Names_proofs RuleBuild_proofs RuleText_proofs Math_proofs Vm_proofs Rpn_proofs
  Props_data Props_steuer Props_script Props_weave Props_rules Props_names Props_math Props_vm Props_rpn Props_calc Samples.

(** The state a calculator begins with, and the lines of its output. *)
Definition machine0 : mach := mkMach [] 0 0 0 [].
Definition lines_of (out : list Z) : list str := map decimal_z out.
(** What the two examples that read a rule file print and how they end, with any script in
    the place of theirs. *)
Definition text_example_does (m : ovf_mode) (lo : Z) (run : nat -> str -> outcome Empty_set unit * list str) : Prop := forall fuel script,
  (length script + 1) * 14 <= fuel -> (Z.of_nat (length script) < 2 ^ 63)%Z ->
  (* a program that runs: its output, then "ok" *)
  (forall l s', program l script -> does_all m lo l machine0 (Some s') -> run fuel script = (Ok tt, lines_of (printed s') ++ [lit "ok"])) /\
  (* an overflow: a panic *)
  (forall l, program l script -> does_all m lo l machine0 None -> fst (run fuel script) = Panic) /\
  (* not a program: a panic, with the output of the items before the error *)
  (forall l ds read rest, broken l ds read rest -> script = read ++ rest -> fst (run fuel script) = Panic /\
    forall s1, does_all m lo l machine0 (Some s1) -> snd (run fuel script) = lines_of (printed s1)).
(** The example that builds its grammar by calls reports an error and goes on. *)
Definition api_example_does {P : Printable} (m : ovf_mode) (lo : Z) (run : nat -> str -> outcome Empty_set unit * list str) : Prop := forall fuel script,
  (length script + 1) * 14 <= fuel -> (Z.of_nat (length script) < 2 ^ 63)%Z ->
  (forall l s', program l script -> does_all m lo l machine0 (Some s') ->
    run fuel script = (Ok tt, lines_of (printed s') ++ [lit "Parsing successful!"; lit "ok"])) /\
  (forall l, program l script -> does_all m lo l machine0 None -> fst (run fuel script) = Panic) /\
  (forall l ds read rest, broken l ds read rest -> script = read ++ rest ->
    (forall s1, does_all m lo l machine0 (Some s1) ->
      exists e, names_place read rest e /\ run fuel script = (Ok tt, lines_of (printed s1) ++ [lit "Parsing error: " ++ debug_parser_error e; lit "ok"])) /\
    (does_all m lo l machine0 None -> fst (run fuel script) = Panic)).

Lemma unfinished_printed ds s : printed (unfinished ds s) = printed s.
Proof. unfold unfinished. revert s. induction ds as [|c ds IH]; intros s; [reflexivity|]. simpl. rewrite IH. reflexivity. Qed.
Lemma decimal_z_of_N n : decimal_z (Z.of_N n) = decimal n.
Proof. unfold decimal_z. destruct (Z.ltb_spec (Z.of_N n) 0); [lia|]. rewrite N2Z.id. reflexivity. Qed.
Lemma text_example_spec {U : Unicode} {H : HashOrder} m' (vm : VM) lines fl rules ps m lo view :
  new_from_text m' vm fl rules = Ok ps -> calculates (vm := vm) m lo view (parse vm ps) -> refuses (vm := vm) m lo view (parse vm ps) ->
  view (vm_new_state vm) = machine0 -> (forall s, lines s = lines_of (printed (view s))) ->
  (lo = 0 \/ lo = - 2 ^ 63)%Z ->
  text_example_does m lo (fun fuel script => text_example m' vm lines fl fuel (Some rules) script).
Proof.
  intros Hps Hc Hr Hv Hl Hlo fuel script Hf Hlen. unfold text_example. rewrite Hps. split; [|split].
  - intros l s' Hp Hd. pose proof (proj1 (Hc fuel script (vm_new_state vm) Hf Hlen) l Hp) as Hs. rewrite Hv in Hs.
    destruct (parse vm ps fuel script (vm_new_state vm)) as [[t|e| |] s1]; try contradiction; pose proof (does_all_det m lo _ _ _ _ Hs Hd) as E; [|discriminate].
    injection E as <-. simpl. rewrite Hl. reflexivity.
  - intros l Hp Hd. pose proof (proj1 (Hc fuel script (vm_new_state vm) Hf Hlen) l Hp) as Hs. rewrite Hv in Hs.
    destruct (parse vm ps fuel script (vm_new_state vm)) as [[t|e| |] s1]; try contradiction; [|reflexivity].
    pose proof (does_all_det m lo _ _ _ _ Hs Hd) as E. discriminate.
  - intros l ds read rest Hb ->. pose proof (Hr fuel l ds read rest (vm_new_state vm) Hf Hlen Hb) as Hs. rewrite Hv in Hs.
    destruct (parse vm ps fuel (read ++ rest) (vm_new_state vm)) as [[t|e| |] s1]; try contradiction; (split; [reflexivity|]); intros s2 Hd.
    + destruct Hs as (_ & s3 & Hd' & Hw). pose proof (does_all_det m lo _ _ _ _ Hd' Hd) as E. injection E as <-. simpl. rewrite Hl, Hw, unfinished_printed. reflexivity.
    + pose proof (does_all_det m lo _ _ _ _ Hs Hd) as E. discriminate.
Qed.

(** ** C64.  The examples simple_stack_based_math.rs and stack_based_math.rs, with their rule
    files and any script. *)
Theorem C64_simple_example : forall (U : Unicode) (H : HashOrder) m m' fl, enough_for_text fl simple_math_rules ->
  text_example_does m 0 (fun fuel script => simple_math_main m' m fl fuel (Some simple_math_rules) script).
Proof.
  intros U H m m' fl Hfl. destruct (C48_simple_calculator U H m m' fl Hfl) as (ps & Hps & Hc). destruct (C65_simple_calculator_errors U H m m' fl Hfl) as (ps' & Hps' & Hr).
  assert (ps' = ps) as -> by congruence. eapply (text_example_spec m' (SimpleStackVm m)); eauto.
  intros s. unfold simple_lines, lines_of. cbn [printed simple_view]. rewrite !map_map. apply map_ext. intros n. rewrite decimal_z_of_N. reflexivity.
Qed.
Theorem C64_stack_example : forall (U : Unicode) (H : HashOrder) m m' fl, enough_for_text fl stack_math_rules ->
  text_example_does m (- 2 ^ 63) (fun fuel script => stack_math_main m' m fl fuel (Some stack_math_rules) script).
Proof.
  intros U H m m' fl Hfl. destruct (C50_stack_calculator U H m m' fl Hfl) as (ps & Hps & Hc). destruct (C65_stack_calculator_errors U H m m' fl Hfl) as (ps' & Hps' & Hr).
  assert (ps' = ps) as -> by congruence. eapply (text_example_spec m' (StackVm m)); eauto.
Qed.
(** A rule file that cannot be read is a panic without output. *)
Theorem C64_no_rule_file : forall (U : Unicode) (H : HashOrder) m m' fl fuel script,
  simple_math_main m' m fl fuel None script = (Panic, []) /\ stack_math_main m' m fl fuel None script = (Panic, []).
Proof. intros. split; reflexivity. Qed.
Theorem C64_api_example : forall (U : Unicode) (H : HashOrder) (P : Printable) m m' fl, enough fl api_data ->
  api_example_does m (- 2 ^ 63) (api_example m' m fl).
Proof.
  intros U H P m m' fl Hfl fuel script Hf Hlen.
  destruct (proj2 (proj1 (C26_construction H m' (StackVm m) fl api_data 0 api_wf api_fits Hfl)) api_constructible) as [ps Hps].
  assert (built m' (StackVm m) fl api_data 0 ps) as Hb by (split; [apply api_wf|]; split; [apply api_fits|assumption]).
  destruct (C65_api_calculator U H m m' fl ps Hb) as [Hc Hr]. unfold api_example. rewrite Hps.
  assert (stack_view (vm_new_state (StackVm m)) = machine0) as Hv by reflexivity.
  split; [|split].
  - intros l s' Hp Hd. pose proof (proj1 (Hc fuel script (vm_new_state (StackVm m)) Hf Hlen) l Hp) as Hs. rewrite Hv in Hs.
    destruct (parse (StackVm m) ps fuel script (vm_new_state (StackVm m))) as [[t|e| |] s1]; try contradiction;
      pose proof (does_all_det m (- 2 ^ 63) _ _ _ _ Hs Hd) as E; [|discriminate].
    injection E as <-. reflexivity.
  - intros l Hp Hd. pose proof (proj1 (Hc fuel script (vm_new_state (StackVm m)) Hf Hlen) l Hp) as Hs. rewrite Hv in Hs.
    destruct (parse (StackVm m) ps fuel script (vm_new_state (StackVm m))) as [[t|e| |] s1]; try contradiction; [|reflexivity].
    pose proof (does_all_det m (- 2 ^ 63) _ _ _ _ Hs Hd) as E. discriminate.
  - intros l ds read rest Hbr ->. pose proof (Hr fuel l ds read rest (vm_new_state (StackVm m)) Hf Hlen Hbr) as Hs. rewrite Hv in Hs.
    destruct (parse (StackVm m) ps fuel (read ++ rest) (vm_new_state (StackVm m))) as [[t|e| |] s1]; try contradiction; (split; [intros s2 Hd|intros Hd]); try reflexivity.
    + destruct Hs as (Hn & s3 & Hd' & Hw). pose proof (does_all_det m (- 2 ^ 63) _ _ _ _ Hd' Hd) as E. injection E as <-. exists e. split; [assumption|].
      f_equal. f_equal. unfold lines_of. rewrite <- (unfinished_printed ds s3), <- Hw. reflexivity.
    + destruct Hs as (_ & s3 & Hd' & _). pose proof (does_all_det m (- 2 ^ 63) _ _ _ _ Hd' Hd) as E. discriminate.
    + pose proof (does_all_det m (- 2 ^ 63) _ _ _ _ Hs Hd) as E. discriminate.
Qed.
(** With the scripts they contain: the value of 1 + 2 + 3 - 4. *)
Lemma example_program : program [Num (lit "1"); Num (lit "2"); Plus; Num (lit "3"); Plus; Num (lit "4"); Minus; Print] example_script.
Proof.
  assert (forall c, forallb (fun c => ((48 <=? c) && (c <=? 57))%N) [c] = true -> good_item (Num [c])) as Hg by (intros c Hc; split; [discriminate|apply digits_check; exact Hc]).
  split; [discriminate|]. split; [|reflexivity].
  repeat (apply Forall_cons; split; [first [exact Logic.I|apply Hg; reflexivity]|]). apply Forall_nil. exact Logic.I.
Qed.
Lemma example_does m lo : (lo = 0 \/ lo = - 2 ^ 63)%Z -> exists s', does_all m lo [Num (lit "1"); Num (lit "2"); Plus; Num (lit "3"); Plus; Num (lit "4"); Minus; Print] machine0 (Some s') /\ printed s' = [2%Z].
Proof.
  intros Hlo. assert (rpn m lo [Num (lit "1"); Num (lit "2"); Plus; Num (lit "3"); Plus; Num (lit "4"); Minus; Print] [] [] [2%Z]) as Hr.
  { assert (forall z, (0 <= z <= 100)%Z -> word m lo z (Some z)) as Hw by (intros z Hz; apply w_fits; unfold in_word; lia).
    repeat (first [eapply rpn_num; [destruct m; vm_compute; discriminate|apply Hw; vm_compute; split; discriminate|]
      |eapply rpn_plus; [apply Hw; vm_compute; split; discriminate|]|eapply rpn_minus; [apply Hw; vm_compute; split; discriminate|]]).
    apply rpn_print. apply rpn_end. }
  destruct (rpn_does m lo Hlo _ _ _ _ Hr (proj1 (proj2 example_program)) machine0 eq_refl) as (s' & D & E1 & E2 & E3). eauto.
Qed.
Theorem C64_the_examples : forall (U : Unicode) (H : HashOrder) (P : Printable) m m' fl fuel,
  enough_for_text fl simple_math_rules -> enough_for_text fl stack_math_rules -> enough fl api_data -> (length example_script + 1) * 14 <= fuel ->
  simple_math_main m' m fl fuel (Some simple_math_rules) example_script = (Ok tt, [lit "2"; lit "ok"]) /\
  stack_math_main m' m fl fuel (Some stack_math_rules) example_script = (Ok tt, [lit "2"; lit "ok"]) /\
  api_example m' m fl fuel example_script = (Ok tt, [lit "2"; lit "Parsing successful!"; lit "ok"]).
Proof.
  intros U H P m m' fl fuel H1 H2 H3 Hf. assert (Z.of_nat (length example_script) < 2 ^ 63)%Z as Hlen by (vm_compute; reflexivity).
  destruct (example_does m 0 (or_introl eq_refl)) as (s0 & D0 & P0). destruct (example_does m (- 2 ^ 63) (or_intror eq_refl)) as (s1 & D1 & P1).
  split; [|split].
  - rewrite (proj1 (C64_simple_example U H m m' fl H1 fuel example_script Hf Hlen) _ _ example_program D0), P0. reflexivity.
  - rewrite (proj1 (C64_stack_example U H m m' fl H2 fuel example_script Hf Hlen) _ _ example_program D1), P1. reflexivity.
  - rewrite (proj1 (C64_api_example U H P m m' fl H3 fuel example_script Hf Hlen) _ _ example_program D1), P1. reflexivity.
Qed.
Print Assumptions C64_simple_example.
Print Assumptions C64_stack_example.
Print Assumptions C64_no_rule_file.
Print Assumptions C64_api_example.
Print Assumptions C64_the_examples.
(** Fuels that suffice. *)
Example C64_example_fuels : exists fl, enough_for_text fl simple_math_rules /\ enough_for_text fl stack_math_rules /\ enough fl api_data.
Proof.
  exists (mkFuels (length simple_math_rules + length stack_math_rules + size (pd_rules api_data) + 2)
    (S (length simple_math_rules * (length simple_math_rules + 1) + length stack_math_rules * (length stack_math_rules + 1) + size (pd_rules api_data) * (length (element_data api_data) + 1)))).
  unfold enough_for_text, enough. cbn [first_fuel follow_fuel].
  generalize (length simple_math_rules) (length stack_math_rules) (size (pd_rules api_data)) (length (element_data api_data)). intros a b c d. nia.
Qed.
