(** * Property theorems: C70, one char of lookahead.  parse is decided by the chars it reads
    and the one after them. *)
From Verif Require Import Base Peekables Tree Errors Sets ParserData Vm RuleParsing FirstSets FollowSets SteuerMap ScriptParser
  SpecText SpecGrammar SpecParser SpecTree SpecScript SpecRules Script_proofs Parse_proofs Local_proofs Props_steuer Props_script.

(** [k] is the number of chars read.  For every parser value and every VM, also one that edits
    the tree or panics: a text that begins with the same [k] chars and goes on with the same
    char, or ends as this one does, has the same result and leaves the same VM state. *)
Theorem C70_one_char_ahead : forall (H : HashOrder) (vm : VM) (ps : Parser (vm_instr vm)) fuel text v,
  let k := cur_pos (ps_in (snd (parse_run vm ps fuel text v))) in
  k <= length text /\ pp_inner (ps_in (snd (parse_run vm ps fuel text v))) = drop k text /\
  (forall e p, fst (parse vm ps fuel text v) = Err e -> error_position e = Some p -> p = k) /\
  forall text', take k text' = take k text -> head (drop k text') = head (drop k text) ->
    parse vm ps fuel text' v = parse vm ps fuel text v.
Proof.
  intros H vm ps fuel text v. unfold parse, parse_run. destruct (position_of (lit "start", NonTerminal) (p_elements ps)) as [start|].
  2:{ cbn. split; [lia|]. split; [rewrite drop_0; reflexivity|]. split; [discriminate|reflexivity]. }
  destruct (nonterminal_local vm ps fuel start None text 0 v tree_new) as (used & rest & v' & t' & r & -> & Hr & E).
  change (mkPS (pp_new ?w None None) ?v tree_new) with (at_ vm w 0 v tree_new) in *.
  rewrite (E rest eq_refl). cbn [snd fst ps_in ps_vm ps_tree at_ cur_pos pp_pos pp_inner Nat.add].
  split; [rewrite app_length; lia|]. split; [rewrite drop_app; reflexivity|]. split.
  - intros e p. destruct r as [[]|e'| |]; cbn [obind]; try discriminate. intros [= ->] Hp. cbn in Hr. apply Hr. exact Hp.
  - intros text' Ht Hh. rewrite take_app in Ht. rewrite drop_app in Hh. rewrite <- (take_drop (length used) text'), Ht.
    change (mkPS (pp_new ?w None None) ?v tree_new) with (at_ vm w 0 v tree_new). rewrite (E _ Hh). reflexivity.
Qed.
Print Assumptions C70_one_char_ahead.
Lemma take_S_split {A} k : forall a b : list A, take (S k) a = take (S k) b -> k < length b -> take k a = take k b /\ head (drop k a) = head (drop k b).
Proof.
  induction k as [|k IH]; intros [|x a] [|y b] E Hl; cbn in *; try discriminate; try lia.
  - injection E as ->. split; reflexivity.
  - injection E as -> E. destruct (IH a b E ltac:(lia)) as [E1 E2]. cbn in E1. rewrite E1. split; [reflexivity|exact E2].
Qed.
(** So an error at a char of the text does not depend on what stands behind that char, and
    nothing that is appended later repairs it. *)
Theorem C70_errors_are_final : forall (H : HashOrder) (vm : VM) (ps : Parser (vm_instr vm)) fuel text v e v' p,
  parse vm ps fuel text v = (Err e, v') -> error_position e = Some p -> p < length text ->
  forall text', take (S p) text' = take (S p) text -> parse vm ps fuel text' v = (Err e, v').
Proof.
  intros H vm ps fuel text v e v' p Hp He Hlt text' Ht. destruct (C70_one_char_ahead H vm ps fuel text v) as (_ & _ & Hk & Hsame).
  assert (p = cur_pos (ps_in (snd (parse_run vm ps fuel text v)))) as Ek by (eapply Hk; [rewrite Hp; reflexivity|exact He]).
  rewrite <- Hp. destruct (take_S_split p text' text Ht Hlt) as [E1 E2]. apply Hsame; rewrite <- Ek; assumption.
Qed.
Print Assumptions C70_errors_are_final.
(** And what stands behind the first char after an accepted prefix does not matter. *)
Theorem C70_accepted_prefix : forall (H : HashOrder) m (vm : VM) fl pd start ps fuel text v t v',
  built m vm fl pd start ps -> start_element pd start -> keeps_tree vm -> parse vm ps fuel text v = (Ok t, v') ->
  exists pt rest, derivation pd pt /\ root pt = start /\ shows pd t pt /\ text = yield pd pt ++ rest /\
    forall rest', look rest' = look rest -> parse vm ps fuel (yield pd pt ++ rest') v = (Ok t, v').
Proof.
  intros H m vm fl pd start ps fuel text v t v' Hb Hst Hk Hp.
  destruct (parse_run vm ps fuel text v) as [r s] eqn:Er. assert (r = Ok t) as -> by (unfold parse in Hp; rewrite Er in Hp; congruence).
  destruct (C30_derivation_tree H m vm fl pd start ps fuel text v t s Hb Hst Hk Er) as (pt & rest & D1 & D2 & D3 & D4 & D5 & D6 & _).
  exists pt, rest. split; [assumption|]. split; [assumption|]. split; [assumption|]. split; [assumption|]. intros rest' Hl.
  destruct (C70_one_char_ahead H vm ps fuel text v) as (_ & _ & _ & Hsame). rewrite Er in Hsame. cbn [snd] in Hsame. rewrite D5, D3 in Hsame.
  rewrite !drop_app, !take_app in Hsame. rewrite <- Hp, D3. apply Hsame; rewrite ?take_app, ?drop_app; [reflexivity|].
  destruct rest as [|c rest], rest' as [|c' rest']; try discriminate; [reflexivity|]. injection Hl as ->. reflexivity.
Qed.
Print Assumptions C70_accepted_prefix.

(** ** Non-vacuity: the parser of start -> "a"; accepts "ab" followed by anything, and rejects
    everything that begins with "b", always for the same reason. *)
Definition a_parser : Parser (vm_instr NullVm) :=
  mkParser {[0 := mkNTRules {[MChar 97%N := NotEmpty [1]]} None []]} [(lit "start", NonTerminal); (lit "a", Terminal)].
Example C70_example : forall (H : HashOrder),
  (exists ps t, built Checked NullVm (mkFuels 4 11) (just_a _) 0 ps /\ forall more, parse NullVm ps 10 (lit "ab" ++ more) 0%N = (Ok t, 0%N)) /\
  exists e, error_position e = Some 0 /\ forall more, parse NullVm a_parser 10 (lit "b" ++ more) 0%N = (Err e, 0%N).
Proof.
  intros H. split.
  - destruct (C34_whole_sentences_only_refuted H Checked) as (ps & Hb & Hst & [t Ht] & _). exists ps, t. split; [exact Hb|]. intros more.
    destruct (C70_accepted_prefix H Checked NullVm _ _ 0 ps 10 (lit "ab") 0%N t 0%N Hb Hst null_keeps_tree Ht) as (pt & rest & D1 & D2 & _ & D4 & Hany).
    rewrite (just_a_sentence _ pt D1 D2) in *. injection D4 as <-. apply (Hany (98%N :: more)). reflexivity.
  - assert (exists e, error_position e = Some 0 /\ parse NullVm a_parser 10 (lit "b") 0%N = (Err e, 0%N)) as (e & He & Ep).
    { eexists (UnexpectedCharError _ _ _). split; [|vm_compute; reflexivity]. reflexivity. }
    exists e. split; [exact He|]. intros more. apply (C70_errors_are_final H NullVm a_parser 10 (lit "b") 0%N e 0%N 0 Ep He ltac:(cbn; lia)). reflexivity.
Qed.
