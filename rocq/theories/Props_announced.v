(** * Property theorems: grammars whose alternatives announce themselves (C91) *)
From Verif Require Import Base Peekables Tree Errors Sets ParserData Vm SimpleStackVm StackVm RuleParsing FirstSets FollowSets SteuerMap ScriptParser
  SpecText SpecData SpecGrammar SpecParser SpecTree SpecScript SpecContract SpecWeave SpecRules SpecNames SpecLanguage SpecSyntax SpecAnnounced
  Grammar_proofs Construct_proofs Checks Tree_proofs Script_proofs Parse_proofs
  Weave_proofs Names_proofs RuleBuild_proofs RuleText_proofs Language_proofs Syntax_proofs Start_proofs Naming_proofs NamingAll_proofs Compose_proofs
  Props_steuer Props_script Props_weave Props_rules Props_vm Props_names Props_language Props_same Props_syntax Props_errors Props_main Samples.

Section announced.
Context {I : Type} (rs : list (arule I)) (Ha : announced rs).
Notation NTm x := (x, NonTerminal).
Lemma an_says x i w : says rs x i w -> exists c s more more', alternatives_for rs x !! i = Some ((c :: s, Terminal) :: more) /\ w = (c :: s, Terminal) :: more'.
Proof.
  intros [w' Hw _|w' y Hw _ _]; destruct (an_quoted _ Ha x w' (elem_of_list_lookup_2 _ _ _ Hw)) as (c & s & more & ->).
  - eauto 10.
  - exists c, s, more. destruct more; cbn; eauto.
Qed.
Lemma an_stays b w z : nderives rs w z -> w = [(b, Terminal)] -> z = [(b, Terminal)].
Proof. intros Hd. induction Hd as [|w w' z Hs _ IH]; [auto|]. intros ->. inversion Hs as [u x v i w0 _ E]. destruct u as [|? [|? ?]]; discriminate. Qed.
Lemma an_nullable c s : ~ nnullable rs [(c :: s, Terminal)].
Proof. intros (x & Hd & He). rewrite (an_stays _ _ _ Hd eq_refl) in He. apply Forall_cons in He as [E _]. discriminate. Qed.
Lemma an_first c s d : nfirst rs [(c :: s, Terminal)] d -> d = c.
Proof.
  intros (x & s' & v & Hd & He). apply an_stays with (b := c :: s) in Hd; [|reflexivity]. symmetry in Hd. destruct x as [|e [|? ?]]; [injection Hd as -> _; reflexivity|discriminate..].
Qed.
Lemma announced_parsable : parsable rs.
Proof.
  split.
  - apply Ha.
  - apply Ha.
  - apply Ha.
  - intros x Ht. assert (exists y, nleft_calls rs x y) as (y & i & u & v & Hs & Hn) by (inversion Ht; eauto).
    apply an_says in Hs as (c & s & more & more' & _ & E). destruct u as [|e u]; [discriminate|]. injection E as -> _.
    change ((c :: s, Terminal) :: u) with ([(c :: s, Terminal)] ++ u) in Hn. apply nnullable_app in Hn as [Hn _]. exact (an_nullable _ _ Hn).
  - intros x i w Hs. apply an_says in Hs as (c & s & more & more' & _ & ->). discriminate.
  - intros x i j w w' l Hs Hs' Hij C C'. apply an_says in Hs as (c & s & m1 & m1' & E1 & ->). apply an_says in Hs' as (c' & s' & m2 & m2' & E2 & ->).
    assert (forall c s y, nchoose rs x ((c :: s, Terminal) :: y) l -> l = MChar c) as Hc.
    { intros d s0 y [(d' & -> & Hd)|[Hn _]]; [apply an_first in Hd as ->; reflexivity|destruct (an_nullable _ _ Hn)]. }
    apply Hc in C. apply Hc in C'. rewrite C in C'. injection C' as <-. apply Hij. exact (an_different _ Ha _ _ _ _ _ _ _ _ E1 E2).
Qed.
Lemma announced_no_empty : no_empty_texts rs.
Proof.
  intros x _ (nt & Hnt & Hroot & Hy). inversion Hnt as [|? i subs Hs Hsubs]; subst; [discriminate|]. injection Hroot as ->.
  apply an_says in Hs as (c & s & more & more' & _ & E). destruct subs as [|[b|] subs]; [discriminate| |discriminate]. injection E as -> _. discriminate Hy.
Qed.
End announced.

(** Such a grammar is accepted with every VM; a script is accepted iff it begins with a
    sentence; no sentence is the beginning of another; and the chars listed in an error
    message are those with which what was read so far can be continued. *)
Theorem C91_announced : forall (U : Unicode) (H : HashOrder) m (vm : VM) reads rs t fl, supported vm reads -> tables_disjoint -> announced rs ->
  grammar_text reads rs t -> (N.of_nat (length t) < 2 ^ 63)%N -> enough_for_text fl t ->
  exists ps, new_from_text m vm fl t = Ok ps /\
  (forall fuel script v v', (length script + 1) * length t <= fuel ->
    (exists tr, parse vm ps fuel script v = (Ok tr, v')) <->
    exists nt rest, nderivation rs nt /\ nroot nt = (lit "start", NonTerminal) /\ script = nyield nt ++ rest /\ run_tree rs nt v = Ok v') /\
  (forall s more, sentence rs s -> sentence rs (s ++ more) -> more = []) /\
  (forall fuel script v c pos ex v', parse vm ps fuel script v = (Err (UnexpectedCharError c pos ex), v') ->
    exists before rest keys, script = before ++ rest /\ pos = length before /\ ex = SpecScript.joined (lit ";") (map member_text keys) /\ NoDup keys /\
      (all_stand_for_text rs -> forall a, a ∈ keys <-> exists more, sentence rs (before ++ more) /\ look more = a)).
Proof.
  intros U H m vm reads rs t fl Hs Hd Ha Ht Hlen Hfl.
  destruct (proj2 (C58_buildable_iff_parsable U H m vm reads _ _ fl Hs Hd Ht Hlen Hfl) (announced_parsable rs Ha)) as [ps Hps]. exists ps. split; [assumption|].
  assert (read_from m vm rs t ps) as Hr by (exists reads, fl; auto 10). pose proof (announced_no_empty rs Ha) as Hne.
  destruct (C61_sentence_prefixes U H m vm rs t ps Hr Hne) as [P1 P2]. split; [exact P1|]. split; [exact P2|].
  intros fuel script v c pos ex v' Hp. destruct (C59_expected_listing U H m vm rs t ps Hr fuel script v c pos ex v' Hp) as (before & rest & keys & E1 & E2 & E3 & E4 & _ & E5 & E6).
  exists before, rest, keys. repeat (split; [assumption|]). intros Hall a. split; [apply E6; assumption|]. intros (more & Hm & <-). apply E5; assumption.
Qed.
Print Assumptions C91_announced.

(** ** Non-vacuity: the grammar of C59's example, [start->"x"num;num->"a"|"b"num;] *)
Section example.
Local Existing Instance ascii_unicode.
Local Existing Instance plain_order.
Example C91_example : announced nx_rules /\ grammar_text null_reads nx_rules nx_text /\ enough_for_text (mkFuels 60 2200) nx_text /\
  sentence nx_rules (lit "xa").
Proof.
  assert (forall x, alternatives_for nx_rules x = alternatives_for nx_rules (lit "start") /\ x = lit "start" \/
                    alternatives_for nx_rules x = alternatives_for nx_rules (lit "num") /\ x = lit "num" \/ alternatives_for nx_rules x = []) as Hx.
  { intros x. destruct (decide (x = lit "start")) as [->|N1]; [auto|]. destruct (decide (x = lit "num")) as [->|N2]; [auto|]. right; right.
    unfold alternatives_for, rules_for, nx_rules. rewrite !filter_cons, filter_nil. cbn [ar_name]. rewrite !decide_False by congruence. reflexivity. }
  assert (alternatives_for nx_rules (lit "start") = [[(lit "x", Terminal); (lit "num", NonTerminal)]]) as Es by reflexivity.
  assert (alternatives_for nx_rules (lit "num") = [[(lit "a", Terminal)]; [(lit "b", Terminal); (lit "num", NonTerminal)]]) as En by reflexivity.
  assert (forall x y, ~ ignores nx_rules x y) as Hni.
  { intros x y (r0 & more & E & Hov). assert (r0 ∈ rules_for x nx_rules) as Hin by (rewrite E; left). apply elem_of_list_filter in Hin as [_ Hin].
    apply elem_of_cons in Hin as [->|Hin]; [discriminate|]. apply elem_of_list_singleton in Hin as ->. discriminate. }
  split; [split|split; [apply nx_text_ok|split]].
  - discriminate.
  - intros x y (w & Hw & Hy). destruct (Hx x) as [[Ex _]|[[Ex _]|Ex]]; rewrite Ex in Hw; [rewrite Es in Hw|rewrite En in Hw|inversion Hw].
    + apply elem_of_list_singleton in Hw as ->. apply elem_of_cons in Hy as [Hy|Hy]; [discriminate|]. apply elem_of_list_singleton in Hy as [= ->]. discriminate.
    + apply elem_of_cons in Hw as [->|Hw]; [apply elem_of_list_singleton in Hy; discriminate|]. apply elem_of_list_singleton in Hw as ->.
      apply elem_of_cons in Hy as [Hy|Hy]; [discriminate|]. apply elem_of_list_singleton in Hy as [= ->]. discriminate.
  - intros x y Hi. destruct (Hni _ _ Hi).
  - intros x w Hw. destruct (Hx x) as [[Ex _]|[[Ex _]|Ex]]; rewrite Ex in Hw; [rewrite Es in Hw|rewrite En in Hw|inversion Hw].
    + apply elem_of_list_singleton in Hw as ->. cbn. eauto.
    + apply elem_of_cons in Hw as [->|Hw]; [cbn; eauto|]. apply elem_of_list_singleton in Hw as ->. cbn. eauto.
  - intros x i j c s s' more more' E1 E2. destruct (Hx x) as [[Ex _]|[[Ex _]|Ex]]; rewrite Ex in E1, E2; [rewrite Es in E1, E2|rewrite En in E1, E2|discriminate E1].
    + destruct i as [|i]; [|discriminate E1]. destruct j as [|j]; [reflexivity|discriminate E2].
    + destruct i as [|[|i]]; [| |discriminate E1]; (destruct j as [|[|j]]; [| |discriminate E2]); try reflexivity; exfalso; apply (f_equal (fun o : option (list (str * ElementType)) => match o with Some ((c :: _, _) :: _) => c | _ => 0%N end)) in E1, E2; cbn in E1, E2; rewrite <- E1 in E2; discriminate E2.
  - split; cbn [first_fuel follow_fuel]; apply Nat.leb_le || apply Nat.ltb_lt; vm_compute; reflexivity.
  - exists (NNode (lit "start") [NLeaf (lit "x"); NNode (lit "num") [NLeaf (lit "a")]]). split; [|split; reflexivity].
    apply (nder_node _ _ 0); [apply plain_says; [|reflexivity]|].
    + intros r Hr. apply elem_of_cons in Hr as [->|Hr]; [reflexivity|]. apply elem_of_list_singleton in Hr as ->. reflexivity.
    + apply Forall_cons; split; [apply leaf_derives|]. apply Forall_cons; split; [apply nx_num|constructor].
Qed.
End example.
