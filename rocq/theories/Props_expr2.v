(** * Property theorems: arithmetic expressions for the calculators (C118) *)
From Verif Require Import Base Peekables Tree Errors Sets ParserData Vm SimpleStackVm StackVm RuleParsing FirstSets FollowSets SteuerMap ScriptParser
  SpecText SpecData SpecGrammar SpecParser SpecTree SpecScript SpecContract SpecWeave SpecRules SpecNames SpecMath SpecVm SpecRpn SpecExpr2
  Grammar_proofs Script_proofs Parse_proofs Construct_proofs Checks Names_proofs RuleBuild_proofs RuleText_proofs Math_proofs Vm_proofs Rpn_proofs
  Props_data Props_steuer Props_script Props_weave Props_rules Props_names Props_math Props_vm Props_rpn Props_calc Samples.
Local Open Scope Z_scope.

Section rpn.
Context (m : ovf_mode) (lo : Z) (Hlo : lo = 0 \/ lo = - 2 ^ 63).
Lemma rpn_app l1 l2 st st1 st2 o1 o2 : rpn m lo l1 st st1 o1 -> rpn m lo l2 st1 st2 o2 -> rpn m lo (l1 ++ l2) st st2 (o1 ++ o2).
Proof.
  intros H. revert l2 st2 o2. induction H; intros l2 st2 o2 H2; cbn [app]; [exact H2|..]; econstructor; eauto.
Qed.
Lemma rpn_app_inv l1 : forall l2 st st2 o, rpn m lo (l1 ++ l2) st st2 o -> exists st1 o1 o2, rpn m lo l1 st st1 o1 /\ rpn m lo l2 st1 st2 o2 /\ o = o1 ++ o2.
Proof.
  induction l1 as [|i l1 IH]; intros l2 st st2 o H; [exists st, [], o; split; [constructor|split; [exact H|reflexivity]]|].
  inversion H as [|? ? ? ? ? ? Hs Hw Hr|? ? ? ? ? ? ? Hw Hr|? ? ? ? ? ? ? Hw Hr|? ? ? ? ? Hr]; subst; destruct (IH _ _ _ _ Hr) as (st1 & o1 & o2 & R1 & R2 & ->).
  - exists st1, o1, o2. split; [econstructor; eassumption|auto].
  - exists st1, o1, o2. split; [econstructor; eassumption|auto].
  - exists st1, o1, o2. split; [econstructor; eassumption|auto].
  - exists st1, (v :: o1), o2. split; [econstructor; eassumption|auto].
Qed.
End rpn.
Definition digits_limit (m : ovf_mode) : Z := match m with Checked => 19 | Wrapping => 2 ^ 32 end.
Lemma checked_value lo e : numbers_within 19 e -> fits lo e -> forall st, rpn Checked lo (postfix e) st (value e :: st) [].
Proof.
  induction e as [ds|a IHa b IHb|a IHa b IHb]; intros Hn Hf st; cbn [postfix value].
  - destruct Hn as (_ & _ & Hn), Hf as [Hf _]. eapply rpn_num; [unfold short_literal; lia|apply w_fits, Hf|constructor].
  - destruct Hn as [Ha Hb], Hf as (Hf & Fa & Fb). change (@nil Z) with (@nil Z ++ [] ++ []).
    eapply rpn_app; [exact (IHa Ha Fa st)|]. eapply rpn_app; [exact (IHb Hb Fb _)|]. eapply rpn_plus; [apply w_fits, Hf|constructor].
  - destruct Hn as [Ha Hb], Hf as (Hf & Fa & Fb). change (@nil Z) with (@nil Z ++ [] ++ []).
    eapply rpn_app; [exact (IHa Ha Fa st)|]. eapply rpn_app; [exact (IHb Hb Fb _)|]. eapply rpn_minus; [apply w_fits, Hf|constructor].
Qed.
Lemma bits_minus a b c d : same_bits a b -> same_bits c d -> same_bits (a - c) (b - d).
Proof. intros [i ->] [j ->]. exists (i - j). lia. Qed.
Lemma wrapping_value lo e : (lo = 0 \/ lo = - 2 ^ 63) -> numbers_within (2 ^ 32) e -> forall v, in_word lo v -> same_bits v (value e) ->
  forall st, rpn Wrapping lo (postfix e) st (v :: st) [].
Proof.
  intros Hlo. induction e as [ds|a IHa b IHb|a IHa b IHb]; intros Hn v Hv Hs st; cbn [postfix value] in *.
  - destruct Hn as (_ & _ & Hn). eapply rpn_num; [exact Hn|apply wrapping_word; [exact Hv|exact Hs]|constructor].
  - destruct Hn as [Ha Hb]. destruct (bits_exist lo (value a)) as (x & X1 & X2), (bits_exist lo (value b)) as (y & Y1 & Y2).
    change (@nil Z) with (@nil Z ++ [] ++ []).
    eapply rpn_app; [exact (IHa Ha x X2 X1 st)|]. eapply rpn_app; [exact (IHb Hb y Y2 Y1 _)|]. eapply rpn_plus; [|constructor].
    apply wrapping_word; [exact Hv|]. eapply same_bits_trans; [exact Hs|]. apply same_bits_add; apply same_bits_sym; assumption.
  - destruct Hn as [Ha Hb]. destruct (bits_exist lo (value a)) as (x & X1 & X2), (bits_exist lo (value b)) as (y & Y1 & Y2).
    change (@nil Z) with (@nil Z ++ [] ++ []).
    eapply rpn_app; [exact (IHa Ha x X2 X1 st)|]. eapply rpn_app; [exact (IHb Hb y Y2 Y1 _)|]. eapply rpn_minus; [|constructor].
    apply wrapping_word; [exact Hv|]. eapply same_bits_trans; [exact Hs|]. apply bits_minus; apply same_bits_sym; assumption.
Qed.
Lemma checked_fits lo e : forall st st' out, rpn Checked lo (postfix e) st st' out -> fits lo e /\ st' = value e :: st.
Proof.
  induction e as [ds|a IHa b IHb|a IHa b IHb]; intros st st' out H; cbn [postfix] in H.
  - inversion H as [|? ? ? ? ? ? Hs Hw Hr| | |]; subst. inversion Hr; subst. apply word_some in Hw as [-> Hw]. split; [split; [exact Hw|exact Logic.I]|reflexivity].
  - apply rpn_app_inv in H as (s1 & o1 & o2 & H1 & H & _). apply rpn_app_inv in H as (s2 & o3 & o4 & H2 & H & _).
    destruct (IHa _ _ _ H1) as [Fa ->], (IHb _ _ _ H2) as [Fb ->]. inversion H as [| |? ? ? ? ? ? ? Hw Hr| |]; subst. inversion Hr; subst. apply word_some in Hw as [-> Hw].
    split; [split; [exact Hw|auto]|reflexivity].
  - apply rpn_app_inv in H as (s1 & o1 & o2 & H1 & H & _). apply rpn_app_inv in H as (s2 & o3 & o4 & H2 & H & _).
    destruct (IHa _ _ _ H1) as [Fa ->], (IHb _ _ _ H2) as [Fb ->]. inversion H as [| | |? ? ? ? ? ? ? Hw Hr|]; subst. inversion Hr; subst. apply word_some in Hw as [-> Hw].
    split; [split; [exact Hw|auto]|reflexivity].
Qed.
Lemma postfix_good n e : numbers_within n e -> Forall good_item (postfix e).
Proof.
  induction e as [ds|a IHa b IHb|a IHa b IHb]; intros Hn; cbn [postfix].
  - destruct Hn as (H1 & H2 & _). constructor; [split; assumption|constructor].
  - destruct Hn as [Ha Hb]. apply Forall_app. split; [auto|]. apply Forall_app. split; [auto|]. constructor; [exact Logic.I|constructor].
  - destruct Hn as [Ha Hb]. apply Forall_app. split; [auto|]. apply Forall_app. split; [auto|]. constructor; [exact Logic.I|constructor].
Qed.
Lemma postfix_limit (P : item -> Prop) n e : P Plus -> P Minus -> (forall ds, Z.of_nat (length ds) <= n -> P (Num ds)) -> numbers_within n e -> Forall P (postfix e).
Proof.
  intros Hp Hm Hd. induction e as [ds|a IHa b IHb|a IHa b IHb]; intros Hn; cbn [postfix].
  - destruct Hn as (_ & _ & H2). constructor; [auto|constructor].
  - destruct Hn as [Ha Hb]. apply Forall_app. split; [auto|]. apply Forall_app. split; [auto|]. constructor; [assumption|constructor].
  - destruct Hn as [Ha Hb]. apply Forall_app. split; [auto|]. apply Forall_app. split; [auto|]. constructor; [assumption|constructor].
Qed.
Lemma postfix_operands e : forall l n, operands (postfix e ++ l) n = operands l (S n).
Proof.
  induction e as [ds|a IHa b IHb|a IHa b IHb]; intros l n; cbn [postfix]; [reflexivity|..]; rewrite <- !app_assoc, IHa, IHb; reflexivity.
Qed.

(** ** C118.  What the calculators do with an expression and "print": in a debug build they print
    its exact value, or panic if some part's value is not a word; in a release build they
    print the low 64 bits of its exact value, whatever happens on the way. *)
Definition prints_values {vm : VM} (m : ovf_mode) (lo : Z) (view : vm_state vm -> mach)
    (run : nat -> str -> vm_state vm -> outcome ParserError (Tree str) * vm_state vm) : Prop :=
  forall fuel e text s, ((length text + 1) * 14 <= fuel)%nat -> Z.of_nat (length text) < 2 ^ 63 ->
  numbers_within (digits_limit m) e -> program (postfix e ++ [Print]) text ->
  (m = Checked /\ ~ fits lo e /\ fst (run fuel text s) = Panic) \/
  (exists v t s', in_word lo v /\ same_bits v (value e) /\ (m = Checked -> fits lo e /\ v = value e) /\
     run fuel text s = (Ok t, s') /\ printed (view s') = printed (view s) ++ [v] /\
     stack (view s') = stack (view s) /\ err (view s') = err (view s)).
Lemma prints_from {vm : VM} m lo view run : (lo = 0 \/ lo = - 2 ^ 63) -> calculates (vm := vm) m lo view run -> prints_values (vm := vm) m lo view run.
Proof.
  intros Hlo Hc fuel e text s Hf Hlen Hn Hp. pose proof (evaluates_from m lo view run Hlo Hc) as He.
  assert (forall v, rpn m lo (postfix e) (stack (view s)) (v :: stack (view s)) [] -> exists t s', run fuel text s = (Ok t, s') /\ printed (view s') = printed (view s) ++ [v] /\
     stack (view s') = stack (view s) /\ err (view s') = err (view s)) as Hrun.
  { intros v Hv. destruct (He fuel (postfix e ++ [Print]) text s (stack (view s)) [v] Hf Hlen Hp) as (t & s' & E & E1 & E2 & E3); [|eauto 10].
    change [v] with ([] ++ [v]). eapply rpn_app; [exact Hv|]. apply rpn_print. constructor. }
  destruct m; cbn [digits_limit] in Hn.
  - pose proof (proj1 (Hc fuel text s Hf Hlen) _ Hp) as Hd.
    assert (forall s', does_all Checked lo (postfix e ++ [Print]) (view s) (Some s') -> fits lo e) as Hfit.
    { intros s' D. destruct (C48_only_evaluation Checked lo (postfix e ++ [Print]) (view s) s' Hlo) as (out & Hr & _); [| |exact D| |].
      - apply Forall_app. split; [eapply postfix_good; exact Hn|]. constructor; [exact Logic.I|constructor].
      - apply Forall_app. split; [|constructor; [exact Logic.I|constructor]]. eapply postfix_limit; [exact Logic.I|exact Logic.I| |exact Hn]. intros ds Hds. split; [|intros _ _; exact Hds]. cbv beta in Hds. lia.
      - rewrite postfix_operands. reflexivity.
      - apply rpn_app_inv in Hr as (s1 & o1 & o2 & Hr & _). exact (proj1 (checked_fits lo e _ _ _ Hr)). }
    destruct (run fuel text s) as [[t|err| |] s'] eqn:Er; try contradiction.
    + right. pose proof (Hfit _ Hd) as Hfits. destruct (Hrun (value e) (checked_value lo e Hn Hfits _)) as (t' & s1 & E & R). injection E as <- <-.
      exists (value e), t, s'. split; [destruct e; exact (proj1 Hfits)|]. split; [apply same_bits_refl|]. split; [auto|]. split; [reflexivity|exact R].
    + left. split; [reflexivity|]. split; [|reflexivity]. intros Hfits. destruct (Hrun (value e) (checked_value lo e Hn Hfits _)) as (t' & s1 & E & _). discriminate.
  - right. destruct (bits_exist lo (value e)) as (v & V1 & V2). destruct (Hrun v (wrapping_value lo e Hlo Hn v V2 V1 _)) as (t & s' & E & R).
    exists v, t, s'. split; [exact V2|]. split; [exact V1|]. split; [discriminate|]. split; [exact E|exact R].
Qed.
Theorem C118_simple_calculator : forall (U : Unicode) (H : HashOrder) m m' fl, enough_for_text fl simple_math_rules ->
  exists ps, new_from_text m' (SimpleStackVm m) fl simple_math_rules = Ok ps /\ prints_values (vm := SimpleStackVm m) m 0 simple_view (parse (SimpleStackVm m) ps).
Proof.
  intros U H m m' fl Hfl. destruct (C48_simple_calculator U H m m' fl Hfl) as (ps & Hps & Hc). exists ps. split; [assumption|]. apply prints_from; auto.
Qed.
Print Assumptions C118_simple_calculator.
Theorem C118_stack_calculator : forall (U : Unicode) (H : HashOrder) m m' fl, enough_for_text fl stack_math_rules ->
  exists ps, new_from_text m' (StackVm m) fl stack_math_rules = Ok ps /\ prints_values (vm := StackVm m) m (- 2 ^ 63) stack_view (parse (StackVm m) ps).
Proof.
  intros U H m m' fl Hfl. destruct (C50_stack_calculator U H m m' fl Hfl) as (ps & Hps & Hc). exists ps. split; [assumption|]. apply prints_from; auto.
Qed.
Print Assumptions C118_stack_calculator.

(** What is left on the stack by expressions that are not printed: their values, the last on top. *)
Definition leaves_values {vm : VM} (m : ovf_mode) (lo : Z) (view : vm_state vm -> mach)
    (run : nat -> str -> vm_state vm -> outcome ParserError (Tree str) * vm_state vm) : Prop :=
  forall fuel es text s, ((length text + 1) * 14 <= fuel)%nat -> Z.of_nat (length text) < 2 ^ 63 ->
  Forall (numbers_within (digits_limit m)) es -> program (postfixes es) text ->
  (m = Checked /\ ~ Forall (fits lo) es /\ fst (run fuel text s) = Panic) \/
  (exists vs t s', Forall2 (fun v e => in_word lo v /\ same_bits v (value e)) vs es /\ (m = Checked -> Forall (fits lo) es /\ vs = map value es) /\
     run fuel text s = (Ok t, s') /\ stack (view s') = rev vs ++ stack (view s) /\
     printed (view s') = printed (view s) /\ err (view s') = err (view s)).
Lemma many_values m lo vs es : Forall2 (fun v e => forall st, rpn m lo (postfix e) st (v :: st) []) vs es -> forall st, rpn m lo (postfixes es) st (rev vs ++ st) [].
Proof.
  induction 1 as [|v e vs es Hv _ IH]; intros st; [constructor|]. unfold postfixes. cbn [map concat rev]. rewrite <- app_assoc.
  change (@nil Z) with (@nil Z ++ []). eapply rpn_app; [apply Hv|]. apply (IH (v :: st)).
Qed.
Lemma many_fit lo es : forall st st' out, rpn Checked lo (postfixes es) st st' out -> Forall (fits lo) es.
Proof.
  induction es as [|e es IH]; intros st st' out H; [constructor|]. unfold postfixes in H. cbn [map concat] in H. apply rpn_app_inv in H as (s1 & o1 & o2 & H1 & H2 & _).
  constructor; [exact (proj1 (checked_fits lo e _ _ _ H1))|exact (IH _ _ _ H2)].
Qed.
Lemma leaves_from {vm : VM} m lo view run : (lo = 0 \/ lo = - 2 ^ 63) -> calculates (vm := vm) m lo view run -> leaves_values (vm := vm) m lo view run.
Proof.
  intros Hlo Hc fuel es text s Hf Hlen Hn Hp. pose proof (evaluates_from m lo view run Hlo Hc) as He.
  assert (forall vs, Forall2 (fun v e => forall st, rpn m lo (postfix e) st (v :: st) []) vs es -> exists t s', run fuel text s = (Ok t, s') /\ stack (view s') = rev vs ++ stack (view s) /\
     printed (view s') = printed (view s) /\ err (view s') = err (view s)) as Hrun.
  { intros vs Hv. destruct (He fuel (postfixes es) text s (rev vs ++ stack (view s)) [] Hf Hlen Hp (many_values m lo vs es Hv _)) as (t & s' & E & E1 & E2 & E3). rewrite app_nil_r in E2. eauto 10. }
  destruct m; cbn [digits_limit] in Hn.
  - pose proof (proj1 (Hc fuel text s Hf Hlen) _ Hp) as Hd.
    assert (Forall (fits lo) es -> Forall2 (fun v e => forall st, rpn Checked lo (postfix e) st (v :: st) []) (map value es) es) as Hvals.
    { intros Hfs. clear -Hn Hfs. induction es as [|e es IH]; [constructor|]. apply Forall_cons in Hn as [Hn1 Hn2], Hfs as [Hf1 Hf2]. constructor; [exact (checked_value lo e Hn1 Hf1)|auto]. }
    destruct (run fuel text s) as [[t|err| |] s'] eqn:Er; try contradiction.
    + right. assert (Forall (fits lo) es) as Hfits.
      { destruct (C48_only_evaluation Checked lo (postfixes es) (view s) (view s') Hlo (proj1 (proj2 Hp))) as (out & Hr & _); [|exact Hd| |exact (many_fit lo es _ _ _ Hr)].
        - clear -Hn. unfold postfixes. induction Hn as [|e es Hn1 _ IH]; [constructor|]. cbn [map concat]. apply Forall_app. split; [|exact IH].
          eapply postfix_limit; [exact Logic.I|exact Logic.I| |exact Hn1]. intros ds Hds. split; [|intros _ _; exact Hds]. cbv beta in Hds. lia.
        - generalize (length (stack (view s))). clear. unfold postfixes. induction es as [|e es IH]; intros n; [reflexivity|]. cbn [map concat]. rewrite postfix_operands. apply IH. }
      destruct (Hrun _ (Hvals Hfits)) as (t' & s1 & E & R). injection E as <- <-.
      exists (map value es), t, s'. split; [|split; [auto|split; [reflexivity|exact R]]].
      clear -Hfits. induction Hfits as [|e es He _ IH]; [constructor|]. constructor; [split; [destruct e; exact (proj1 He)|apply same_bits_refl]|exact IH].
    + left. split; [reflexivity|]. split; [|reflexivity]. intros Hfits. destruct (Hrun _ (Hvals Hfits)) as (t' & s1 & E & _). discriminate.
  - right. assert (exists vs, Forall2 (fun v e => in_word lo v /\ same_bits v (value e)) vs es) as [vs Hvs].
    { clear. induction es as [|e es [vs IH]]; [exists []; constructor|]. destruct (bits_exist lo (value e)) as (v & V1 & V2). exists (v :: vs). constructor; auto. }
    destruct (Hrun vs) as (t & s' & E & R).
    { clear -Hvs Hn Hlo. induction Hvs as [|v e vs es [V1 V2] _ IH]; [constructor|]. apply Forall_cons in Hn as [Hn1 Hn2]. constructor; [exact (wrapping_value lo e Hlo Hn1 v V1 V2)|auto]. }
    exists vs, t, s'. split; [exact Hvs|]. split; [discriminate|]. split; [exact E|exact R].
Qed.
Theorem C118_values_left : forall (U : Unicode) (H : HashOrder) m m' fl, enough_for_text fl simple_math_rules -> enough_for_text fl stack_math_rules ->
  (exists ps, new_from_text m' (SimpleStackVm m) fl simple_math_rules = Ok ps /\ leaves_values (vm := SimpleStackVm m) m 0 simple_view (parse (SimpleStackVm m) ps)) /\
  (exists ps, new_from_text m' (StackVm m) fl stack_math_rules = Ok ps /\ leaves_values (vm := StackVm m) m (- 2 ^ 63) stack_view (parse (StackVm m) ps)).
Proof.
  intros U H m m' fl Hfl Hfl'. split.
  - destruct (C48_simple_calculator U H m m' fl Hfl) as (ps & Hps & Hc). exists ps. split; [assumption|]. apply leaves_from; auto.
  - destruct (C50_stack_calculator U H m m' fl Hfl') as (ps & Hps & Hc). exists ps. split; [assumption|]. apply leaves_from; auto.
Qed.
Print Assumptions C118_values_left.

(** The same for the parser of examples/rust_defined_rules.rs, built through the API. *)
Theorem C118_api_calculator : forall (U : Unicode) (H : HashOrder) m m' fl ps, built m' (StackVm m) fl api_data 0 ps ->
  prints_values (vm := StackVm m) m (- 2 ^ 63) stack_view (parse (StackVm m) ps) /\
  leaves_values (vm := StackVm m) m (- 2 ^ 63) stack_view (parse (StackVm m) ps).
Proof.
  intros U H m m' fl ps Hb. destruct (C65_api_calculator U H m m' fl ps Hb) as [Hc _]. split; [apply prints_from; auto|apply leaves_from; auto].
Qed.
Print Assumptions C118_api_calculator.

(** Every program without "print" that finds its operands on the empty stack is some expressions
    one after the other, in one way only. *)
Fixpoint read_back (l : list item) (st : list expr) : option (list expr) :=
  match l with
  | [] => Some st
  | Num ds :: l' => read_back l' (Lit ds :: st)
  | Plus :: l' => match st with b :: a :: st' => read_back l' (Sum a b :: st') | _ => None end
  | Minus :: l' => match st with b :: a :: st' => read_back l' (Difference a b :: st') | _ => None end
  | Print :: _ => None
  end.
Lemma read_back_postfix e : forall l st, read_back (postfix e ++ l) st = read_back l (e :: st).
Proof. induction e as [ds|a IHa b IHb|a IHa b IHb]; intros l st; cbn [postfix]; [reflexivity|..]; rewrite <- !app_assoc, IHa, IHb; reflexivity. Qed.
Lemma read_back_postfixes es : forall st, read_back (postfixes es) st = Some (rev es ++ st).
Proof.
  unfold postfixes. induction es as [|e es IH]; intros st; [reflexivity|]. cbn [map concat]. rewrite read_back_postfix, IH. cbn [rev]. rewrite <- app_assoc. reflexivity.
Qed.
Lemma postfixes_app es es' : postfixes (es ++ es') = postfixes es ++ postfixes es'.
Proof. unfold postfixes. rewrite map_app, concat_app. reflexivity. Qed.
Lemma read_back_some l : Print ∉ l -> forall st, operands l (length st) = true -> exists es, read_back l st = Some es /\ postfixes (rev st) ++ l = postfixes (rev es).
Proof.
  induction l as [|i l IH]; intros Hp st Ho; [exists st; split; [reflexivity|apply app_nil_r]|]. apply not_elem_of_cons in Hp as [Hi Hp].
  destruct i as [ds| | |]; [| | |congruence]; cbn [operands read_back] in *.
  - destruct (IH Hp (Lit ds :: st) Ho) as (es & E & E'). exists es. split; [exact E|]. rewrite <- E'. cbn [rev]. rewrite postfixes_app, <- app_assoc. reflexivity.
  - destruct st as [|b [|a st]]; [discriminate..|]. destruct (IH Hp (Sum a b :: st) Ho) as (es & E & E'). exists es. split; [exact E|]. rewrite <- E'. cbn [rev].
    rewrite !postfixes_app, <- !app_assoc. unfold postfixes. cbn [map concat postfix]. rewrite !app_nil_r, <- !app_assoc. reflexivity.
  - destruct st as [|b [|a st]]; [discriminate..|]. destruct (IH Hp (Difference a b :: st) Ho) as (es & E & E'). exists es. split; [exact E|]. rewrite <- E'. cbn [rev].
    rewrite !postfixes_app, <- !app_assoc. unfold postfixes. cbn [map concat postfix]. rewrite !app_nil_r, <- !app_assoc. reflexivity.
Qed.
Theorem C118_programs_are_expressions : forall l, Print ∉ l -> (operands l 0 = true <-> exists es, l = postfixes es) /\
  forall es es', l = postfixes es -> l = postfixes es' -> es = es'.
Proof.
  intros l Hp. split; [split|].
  - intros Ho. destruct (read_back_some l Hp [] Ho) as (es & _ & E). exists (rev es). exact E.
  - intros [es ->]. clear Hp. generalize 0%nat. unfold postfixes. induction es as [|e es IH]; intros n; [reflexivity|]. cbn [map concat]. rewrite postfix_operands. apply IH.
  - intros es es' E E'. pose proof (read_back_postfixes es []) as R. pose proof (read_back_postfixes es' []) as R'. rewrite <- E in R. rewrite <- E' in R'.
    rewrite R in R'. injection R' as R'. rewrite !app_nil_r in R'. rewrite <- (rev_involutive es), R'. apply rev_involutive.
Qed.
Print Assumptions C118_programs_are_expressions.

(** Exchanging a part of a program. *)
Lemma wrapping_fits lo e : forall st st' out, rpn Wrapping lo (postfix e) st st' out -> exists v, in_word lo v /\ same_bits v (value e) /\ st' = v :: st /\ out = [].
Proof.
  induction e as [ds|a IHa b IHb|a IHa b IHb]; intros st st' out H; cbn [postfix value] in *.
  - inversion H as [|? ? ? v ? ? Hs Hw Hr| | |]; subst. inversion Hr; subst. match type of Hw with word _ _ _ (Some ?w) => exists w end. split; [eapply word_in; exact Hw|]. split; [eapply word_bits; exact Hw|auto].
  - apply rpn_app_inv in H as (s1 & o1 & o2 & H1 & H & ->). apply rpn_app_inv in H as (s2 & o3 & o4 & H2 & H & ->).
    destruct (IHa _ _ _ H1) as (x & X1 & X2 & -> & ->), (IHb _ _ _ H2) as (y & Y1 & Y2 & -> & ->). inversion H as [| |? ? ? v ? ? ? Hw Hr| |]; subst. inversion Hr; subst.
    match type of Hw with word _ _ _ (Some ?w) => exists w end. split; [eapply word_in; exact Hw|]. split; [|auto]. eapply same_bits_trans; [eapply word_bits; exact Hw|]. apply same_bits_add; assumption.
  - apply rpn_app_inv in H as (s1 & o1 & o2 & H1 & H & ->). apply rpn_app_inv in H as (s2 & o3 & o4 & H2 & H & ->).
    destruct (IHa _ _ _ H1) as (x & X1 & X2 & -> & ->), (IHb _ _ _ H2) as (y & Y1 & Y2 & -> & ->). inversion H as [| | |? ? ? v ? ? ? Hw Hr|]; subst. inversion Hr; subst.
    match type of Hw with word _ _ _ (Some ?w) => exists w end. split; [eapply word_in; exact Hw|]. split; [|auto]. eapply same_bits_trans; [eapply word_bits; exact Hw|]. apply bits_minus; assumption.
Qed.
Lemma checked_quiet lo e : forall st st' out, rpn Checked lo (postfix e) st st' out -> out = [].
Proof.
  induction e as [ds|a IHa b IHb|a IHa b IHb]; intros st st' out H; cbn [postfix] in H.
  - inversion H as [|? ? ? v ? ? Hs Hw Hr| | |]; subst. inversion Hr; subst. reflexivity.
  - apply rpn_app_inv in H as (s1 & o1 & o2 & H1 & H & ->). apply rpn_app_inv in H as (s2 & o3 & o4 & H2 & H & ->).
    rewrite (IHa _ _ _ H1), (IHb _ _ _ H2). inversion H as [| |? ? ? v ? ? ? Hw Hr| |]; subst. inversion Hr; subst. reflexivity.
  - apply rpn_app_inv in H as (s1 & o1 & o2 & H1 & H & ->). apply rpn_app_inv in H as (s2 & o3 & o4 & H2 & H & ->).
    rewrite (IHa _ _ _ H1), (IHb _ _ _ H2). inversion H as [| | |? ? ? v ? ? ? Hw Hr|]; subst. inversion Hr; subst. reflexivity.
Qed.
(** The same value, and in a debug build no part of one has a value that is not a word unless a
    part of the other has. *)
Definition same_value (m : ovf_mode) (lo : Z) (e e' : expr) : Prop :=
  match m with Checked => value e = value e' /\ (fits lo e <-> fits lo e') | Wrapping => same_bits (value e) (value e') end.
Definition item_within (n : Z) (i : item) : Prop := match i with Num ds => Z.of_nat (length ds) <= n | _ => True end.
Lemma same_value_sym m lo e e' : same_value m lo e e' -> same_value m lo e' e.
Proof. destruct m; cbn; [intros [H1 H2]; split; [auto|symmetry; exact H2]|apply same_bits_sym]. Qed.
Lemma exchange_rpn m lo e e' l1 l2 st st' out : (lo = 0 \/ lo = - 2 ^ 63) -> numbers_within (digits_limit m) e' -> same_value m lo e e' ->
  rpn m lo (l1 ++ postfix e ++ l2) st st' out -> rpn m lo (l1 ++ postfix e' ++ l2) st st' out.
Proof.
  intros Hlo Hn Hv H. apply rpn_app_inv in H as (s1 & o1 & o2 & H1 & H & ->). apply rpn_app_inv in H as (s2 & o3 & o4 & H2 & H & ->).
  eapply rpn_app; [exact H1|]. eapply rpn_app; [|exact H]. destruct m; cbn in Hv, Hn.
  - destruct Hv as [Hv Hf]. rewrite (checked_quiet lo e _ _ _ H2). destruct (checked_fits lo e _ _ _ H2) as [Hx ->]. rewrite Hv. apply checked_value; [exact Hn|]. apply Hf, Hx.
  - destruct (wrapping_fits lo e _ _ _ H2) as (v & V1 & V2 & -> & ->). apply wrapping_value; [exact Hlo|exact Hn|exact V1|]. eapply same_bits_trans; [exact V2|exact Hv].
Qed.
Lemma exchange_operands e e' l2 l1 : forall n, operands (l1 ++ postfix e ++ l2) n = operands (l1 ++ postfix e' ++ l2) n.
Proof.
  induction l1 as [|i l1 IH]; intros n; cbn [app]; [rewrite !postfix_operands; reflexivity|]. cbn [operands]. destruct i; [apply IH|..]; destruct n as [|[|n]]; auto.
Qed.
Definition exchanges {vm : VM} (m : ovf_mode) (lo : Z) (view : vm_state vm -> mach)
    (run : nat -> str -> vm_state vm -> outcome ParserError (Tree str) * vm_state vm) : Prop :=
  forall fuel e e' l1 l2 text text' s, ((length text + 1) * 14 <= fuel)%nat -> Z.of_nat (length text) < 2 ^ 63 ->
  ((length text' + 1) * 14 <= fuel)%nat -> Z.of_nat (length text') < 2 ^ 63 ->
  numbers_within (digits_limit m) e -> numbers_within (digits_limit m) e' -> Forall (item_within (digits_limit m)) (l1 ++ l2) -> same_value m lo e e' ->
  program (l1 ++ postfix e ++ l2) text -> program (l1 ++ postfix e' ++ l2) text' ->
  operands (l1 ++ postfix e ++ l2) (length (stack (view s))) = true ->
  match run fuel text s, run fuel text' s with
  | (Ok _, a), (Ok _, b) => stack (view a) = stack (view b) /\ printed (view a) = printed (view b) /\ err (view a) = err (view b)
  | (Panic, _), (Panic, _) => True
  | _, _ => False
  end.
Lemma exchanges_from {vm : VM} m lo view run : (lo = 0 \/ lo = - 2 ^ 63) -> calculates (vm := vm) m lo view run -> exchanges (vm := vm) m lo view run.
Proof.
  intros Hlo Hc. pose proof (evaluates_from m lo view run Hlo Hc) as He.
  assert (forall fuel e e' l1 l2 text text' s, ((length text + 1) * 14 <= fuel)%nat -> Z.of_nat (length text) < 2 ^ 63 ->
    ((length text' + 1) * 14 <= fuel)%nat -> Z.of_nat (length text') < 2 ^ 63 ->
    numbers_within (digits_limit m) e -> numbers_within (digits_limit m) e' -> Forall (item_within (digits_limit m)) (l1 ++ l2) -> same_value m lo e e' ->
    program (l1 ++ postfix e ++ l2) text -> program (l1 ++ postfix e' ++ l2) text' -> operands (l1 ++ postfix e ++ l2) (length (stack (view s))) = true ->
    forall t a, run fuel text s = (Ok t, a) -> exists t' b, run fuel text' s = (Ok t', b) /\ stack (view a) = stack (view b) /\ printed (view a) = printed (view b) /\ err (view a) = err (view b)) as Hone.
  { intros fuel e e' l1 l2 text text' s Hf Hlen Hf' Hlen' Hn Hn' Hl Hv Hp Hp' Ho t a E.
    pose proof (proj1 (Hc fuel text s Hf Hlen) _ Hp) as Hd. rewrite E in Hd.
    apply Forall_app in Hl as [Hl1 Hl2].
    assert (forall i, item_within (digits_limit m) i -> match i with Num ds => Z.of_nat (length ds) <= 2 ^ 32 /\ (m = Checked -> lo < 0 -> Z.of_nat (length ds) <= 19) | _ => True end) as Hw.
    { intros [ds| | |]; try (intros _; exact Logic.I). cbn. destruct m; cbn [digits_limit]; intros Hds; split; try lia; intros; try discriminate; lia. }
    destruct (C48_only_evaluation m lo (l1 ++ postfix e ++ l2) (view s) (view a) Hlo (proj1 (proj2 Hp))) as (out & Hr & Hout); [|exact Hd|exact Ho|].
    { apply Forall_app. split; [eapply Forall_impl; [exact Hl1|exact Hw]|]. apply Forall_app. split; [|eapply Forall_impl; [exact Hl2|exact Hw]].
      eapply postfix_limit; [exact Logic.I|exact Logic.I| |exact Hn]. intros ds Hds. exact (Hw (Num ds) Hds). }
    pose proof (C48_error_register m lo _ _ _ Hd) as Herr. rewrite Ho in Herr.
    destruct (He fuel _ text' s _ _ Hf' Hlen' Hp' (exchange_rpn m lo e e' l1 l2 _ _ _ Hlo Hn' Hv Hr)) as (t' & b & E' & E1 & E2 & E3).
    exists t', b. split; [exact E'|]. split; [auto|]. split; congruence. }
  intros fuel e e' l1 l2 text text' s Hf Hlen Hf' Hlen' Hn Hn' Hl Hv Hp Hp' Ho.
  pose proof (Hone fuel e e' l1 l2 text text' s Hf Hlen Hf' Hlen' Hn Hn' Hl Hv Hp Hp' Ho) as H1.
  pose proof (Hone fuel e' e l1 l2 text' text s Hf' Hlen' Hf Hlen Hn' Hn Hl (same_value_sym _ _ _ _ Hv) Hp' Hp) as H2. rewrite (exchange_operands e' e) in H2. specialize (H2 Ho).
  pose proof (proj1 (Hc fuel text s Hf Hlen) _ Hp) as D1. pose proof (proj1 (Hc fuel text' s Hf' Hlen') _ Hp') as D2.
  destruct (run fuel text s) as [[t|er| |] a]; try contradiction.
  - destruct (H1 t a eq_refl) as (t' & b & -> & R). exact R.
  - destruct (run fuel text' s) as [[t'|er'| |] b]; try contradiction; [|exact Logic.I]. destruct (H2 t' b eq_refl) as (t & a' & E & _). discriminate.
Qed.
(** ** Parts of a program that compute the same number may be exchanged wherever they stand in a
    program that finds its operands: in a release build the same low 64 bits are enough. *)
Theorem C118_exchange : forall (U : Unicode) (H : HashOrder) m m' fl, enough_for_text fl simple_math_rules -> enough_for_text fl stack_math_rules ->
  (exists ps, new_from_text m' (SimpleStackVm m) fl simple_math_rules = Ok ps /\ exchanges (vm := SimpleStackVm m) m 0 simple_view (parse (SimpleStackVm m) ps)) /\
  (exists ps, new_from_text m' (StackVm m) fl stack_math_rules = Ok ps /\ exchanges (vm := StackVm m) m (- 2 ^ 63) stack_view (parse (StackVm m) ps)).
Proof.
  intros U H m m' fl Hfl Hfl'. split.
  - destruct (C48_simple_calculator U H m m' fl Hfl) as (ps & Hps & Hc). exists ps. split; [assumption|]. apply exchanges_from; auto.
  - destruct (C50_stack_calculator U H m m' fl Hfl') as (ps & Hps & Hc). exists ps. split; [assumption|]. apply exchanges_from; auto.
Qed.
Print Assumptions C118_exchange.

(** How much is printed and left, for any program. *)
Lemma does_counts m lo i s t : does m lo i s (Some t) -> length (printed t) = (length (printed s) + match i with Print => 1 | _ => 0 end)%nat.
Proof.
  intros D. inversion D as [| | |? ? ? ? r ? ? X1 X2 Er|? ? ? ? r ? ? X1 X2 Er| | | | | |]; subst; cbn [stacked printed];
    try (rewrite app_length; reflexivity); try (symmetry; apply Nat.add_0_r); (destruct r as [v|]; [|discriminate]); injection Er as <-; symmetry; apply Nat.add_0_r.
Qed.
Lemma does_all_counts m lo l : forall s t, does_all m lo l s (Some t) -> length (printed t) = (length (printed s) + count is_print l)%nat.
Proof.
  unfold count. induction l as [|i l IH]; intros s t D; inversion D as [|? ? ? s1 ? D1 D2|]; subst; [symmetry; apply Nat.add_0_r|].
  rewrite (IH _ _ D2), (does_counts _ _ _ _ _ D1). destruct i; cbn [List.filter is_print length]; lia.
Qed.
Lemma does_height m lo i s t : does m lo i s (Some t) ->
  length (stack t) = match i with Num _ => S (length (stack s)) | _ => Nat.pred (length (stack s)) end.
Proof.
  intros D. inversion D as [| | |? ? ? ? r Es ? X1 X2 Er|? ? ? ? r Es ? X1 X2 Er|? ? Es|? ? Es|? Es|? Es|? ? ? Es|? Es]; subst; cbn [stacked stack length];
    try reflexivity; rewrite Es; try reflexivity; (destruct r as [v|]; [|discriminate]); injection Er as <-; reflexivity.
Qed.
Lemma does_all_height m lo l : forall s t, does_all m lo l s (Some t) -> operands l (length (stack s)) = true ->
  (length (stack t) + length l = length (stack s) + 2 * count is_literal l)%nat.
Proof.
  unfold count. induction l as [|i l IH]; intros s t D Ho; inversion D as [|? ? ? s1 ? D1 D2|]; subst; [cbn; lia|].
  pose proof (does_height _ _ _ _ _ D1) as Hh. specialize (IH _ _ D2). destruct i; cbn [operands List.filter is_literal length] in *.
  - rewrite Hh in IH. specialize (IH Ho). lia.
  - destruct (length (stack s)) as [|[|n]]; [discriminate..|]. rewrite Hh in IH. cbn [Nat.pred] in IH. specialize (IH Ho). lia.
  - destruct (length (stack s)) as [|[|n]]; [discriminate..|]. rewrite Hh in IH. cbn [Nat.pred] in IH. specialize (IH Ho). lia.
  - destruct (length (stack s)) as [|n]; [discriminate|]. rewrite Hh in IH. cbn [Nat.pred] in IH. specialize (IH Ho). lia.
Qed.
(** ** An accepted program prints one number for every "print", whether or not the operands are
    there; if they are, every number adds one value to the stack and everything else takes one away. *)
Definition counts_right {vm : VM} (view : vm_state vm -> mach)
    (run : nat -> str -> vm_state vm -> outcome ParserError (Tree str) * vm_state vm) : Prop :=
  forall fuel l text s t s', ((length text + 1) * 14 <= fuel)%nat -> Z.of_nat (length text) < 2 ^ 63 -> program l text -> run fuel text s = (Ok t, s') ->
  length (printed (view s')) = (length (printed (view s)) + count is_print l)%nat /\
  (operands l (length (stack (view s))) = true -> (length (stack (view s')) + length l = length (stack (view s)) + 2 * count is_literal l)%nat).
Lemma counts_from {vm : VM} m lo view run : calculates (vm := vm) m lo view run -> counts_right (vm := vm) view run.
Proof.
  intros Hc fuel l text s t s' Hf Hlen Hp E. pose proof (proj1 (Hc fuel text s Hf Hlen) l Hp) as D. rewrite E in D. split; [eapply does_all_counts; exact D|eapply does_all_height; exact D].
Qed.
Theorem C118_counts : forall (U : Unicode) (H : HashOrder) m m' fl, enough_for_text fl simple_math_rules -> enough_for_text fl stack_math_rules ->
  (exists ps, new_from_text m' (SimpleStackVm m) fl simple_math_rules = Ok ps /\ counts_right (vm := SimpleStackVm m) simple_view (parse (SimpleStackVm m) ps)) /\
  (exists ps, new_from_text m' (StackVm m) fl stack_math_rules = Ok ps /\ counts_right (vm := StackVm m) stack_view (parse (StackVm m) ps)).
Proof.
  intros U H m m' fl Hfl Hfl'. split.
  - destruct (C48_simple_calculator U H m m' fl Hfl) as (ps & Hps & Hc). exists ps. split; [assumption|]. eapply counts_from; exact Hc.
  - destruct (C50_stack_calculator U H m m' fl Hfl') as (ps & Hps & Hc). exists ps. split; [assumption|]. eapply counts_from; exact Hc.
Qed.
Print Assumptions C118_counts.

(** ** Non-vacuity: (3 + 14) - 20 *)
Example C118_example : let e := Difference (Sum (Lit (lit "3")) (Lit (lit "14"))) (Lit (lit "20")) in
  program (postfix e ++ [Print]) (lit "3 14 + 20 - print") /\ (forall m, numbers_within (digits_limit m) e) /\ value e = -3 /\
  fits (- 2 ^ 63) e /\ ~ fits 0 e /\ (exists fl, enough_for_text fl simple_math_rules /\ enough_for_text fl stack_math_rules).
Proof.
  assert (forall ds, forallb (fun c => ((48 <=? c) && (c <=? 57))%N) ds = true -> Forall digit_char ds) as Hd.
  { intros ds Hds. apply Forall_forall. intros c Hc. rewrite forallb_forall in Hds. apply elem_of_list_In, Hds, andb_prop in Hc as [H1 H2]. apply N.leb_le in H1, H2. split; assumption. }
  intros e. assert (numbers_within 19 e) as Hn.
  { cbn. repeat (split; [try discriminate; apply Hd; reflexivity|]). repeat split; try discriminate; try (apply Hd; reflexivity); vm_compute; discriminate. }
  split; [|split; [|split; [|split; [|split]]]].
  - split; [discriminate|]. split; [|reflexivity]. apply Forall_app. split; [eapply postfix_good; exact Hn|]. constructor; [exact Logic.I|constructor].
  - intros m. cbn in Hn |- *. destruct Hn as [[(a1 & a2 & a3) (b1 & b2 & b3)] (c1 & c2 & c3)]. destruct m; cbn [digits_limit]; repeat split; try assumption; lia.
  - reflexivity.
  - cbn [fits e value]. change (dec_value (lit "3")) with 3%N. change (dec_value (lit "14")) with 14%N. change (dec_value (lit "20")) with 20%N. unfold in_word. repeat split; lia.
  - intros [[Hx _] _]. vm_compute in Hx. apply Hx. reflexivity.
  - exact C48_example_fuels.
Qed.
(** "7 0 1 - + print" and "7 18446744073709551615 + print" in a release build; "7 3 1 - + print" and "7 2 + print" in any. *)
Example C118_exchange_example : let e := Difference (Lit (lit "0")) (Lit (lit "1")) in let e' := Lit (lit "18446744073709551615") in
  let f := Difference (Lit (lit "3")) (Lit (lit "1")) in let f' := Lit (lit "2") in
  same_value Wrapping 0 e e' /\ (forall m, same_value m 0 f f') /\
  numbers_within (2 ^ 32) e /\ numbers_within (2 ^ 32) e' /\ numbers_within 19 f /\ numbers_within 19 f' /\
  program ([Num (lit "7")] ++ postfix e ++ [Plus; Print]) (lit "7 0 1 - + print") /\
  program ([Num (lit "7")] ++ postfix e' ++ [Plus; Print]) (lit "7 18446744073709551615 + print") /\
  program ([Num (lit "7")] ++ postfix f ++ [Plus; Print]) (lit "7 3 1 - + print") /\
  program ([Num (lit "7")] ++ postfix f' ++ [Plus; Print]) (lit "7 2 + print") /\
  operands ([Num (lit "7")] ++ postfix e ++ [Plus; Print]) 0 = true /\ operands ([Num (lit "7")] ++ postfix f ++ [Plus; Print]) 0 = true.
Proof.
  assert (forall ds, forallb (fun c => ((48 <=? c) && (c <=? 57))%N) ds = true -> Forall digit_char ds) as Hd.
  { intros ds Hds. apply Forall_forall. intros c Hc. rewrite forallb_forall in Hds. apply elem_of_list_In, Hds, andb_prop in Hc as [H1 H2]. apply N.leb_le in H1, H2. split; assumption. }
  assert (forall n ds, ds <> [] -> forallb (fun c => ((48 <=? c) && (c <=? 57))%N) ds = true -> (Z.of_nat (length ds) <=? n) = true -> numbers_within n (Lit ds)) as Hw.
  { intros n ds H1 H2 H3. split; [exact H1|]. split; [apply Hd; exact H2|apply Z.leb_le; exact H3]. }
  assert (forall n e, numbers_within n e -> Forall good_item ([Num (lit "7")] ++ postfix e ++ [Plus; Print])) as Hg.
  { intros n e He. constructor; [split; [discriminate|apply Hd; reflexivity]|]. apply Forall_app. split; [eapply postfix_good; exact He|]. constructor; [exact Logic.I|constructor; [exact Logic.I|constructor]]. }
  intros e e' f f'.
  assert (numbers_within (2 ^ 32) e) as N1 by (split; apply Hw; [discriminate|reflexivity|reflexivity|discriminate|reflexivity|reflexivity]).
  assert (numbers_within (2 ^ 32) e') as N2 by (apply Hw; [discriminate|reflexivity|reflexivity]).
  assert (numbers_within 19 f) as N3 by (split; apply Hw; [discriminate|reflexivity|reflexivity|discriminate|reflexivity|reflexivity]).
  assert (numbers_within 19 f') as N4 by (apply Hw; [discriminate|reflexivity|reflexivity]).
  split; [exists (-1); vm_compute; reflexivity|]. split.
  { intros [|]; [|exists 0; vm_compute; reflexivity]. split; [vm_compute; reflexivity|].
    assert (forall z, (0 <=? z) && (z <? 2 ^ 64) = true -> in_word 0 z) as Hi by (intros z Hz; apply andb_prop in Hz as [H1 H2]; apply Z.leb_le in H1; apply Z.ltb_lt in H2; split; lia).
    split; intros _; [split; [apply Hi; vm_compute; reflexivity|exact Logic.I]|]. split; [apply Hi; vm_compute; reflexivity|]. split; (split; [apply Hi; vm_compute; reflexivity|exact Logic.I]). }
  split; [exact N1|]. split; [exact N2|]. split; [exact N3|]. split; [exact N4|].
  split; [split; [discriminate|]; split; [exact (Hg _ _ N1)|vm_compute; reflexivity]|].
  split; [split; [discriminate|]; split; [exact (Hg _ _ N2)|vm_compute; reflexivity]|].
  split; [split; [discriminate|]; split; [exact (Hg _ _ N3)|vm_compute; reflexivity]|].
  split; [split; [discriminate|]; split; [exact (Hg _ _ N4)|vm_compute; reflexivity]|].
  split; vm_compute; reflexivity.
Qed.
