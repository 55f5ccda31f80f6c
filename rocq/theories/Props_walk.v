(** * Property theorems: what the tree shows to instructions and callers (C105) *)
From Verif Require Import Base Peekables Tree Errors Sets ParserData Vm SimpleStackVm StackVm RuleParsing FirstSets FollowSets SteuerMap ScriptParser
  SpecText SpecData SpecGrammar SpecParser SpecTree SpecScript SpecContract SpecWeave SpecRules SpecNames SpecLanguage SpecIgnore SpecSyntax SpecSim SpecWalk Grammar_proofs Construct_proofs Checks Tree_proofs Script_proofs Parse_proofs Sim_proofs Walk_proofs
  Weave_proofs Names_proofs RuleBuild_proofs RuleText_proofs Language_proofs Ignore_proofs Accept_proofs Props_steuer Props_script Props_weave Props_rules Props_vm Props_names Props_language Props_sim Props_errors Props_main SpecRecipes Recipes_proofs Props_recipes Props_depth Props_effect Samples.
Notation start := (lit "start").

(** ** C105.  The returned tree, walked with get_children and get_node from NodeId(0,0), looks
    like the derivation tree of the part of the script that was parsed, and the texts met on
    the way are that part. *)
Theorem C105_returned : forall (U : Unicode) (H : HashOrder) m (vm : VM) rs t ps, read_from m vm rs t ps ->
  forall fuel script v tr v', parse vm ps fuel script v = (Ok tr, v') ->
  exists nt rest, accepts_prefix rs script nt rest /\ looks_like tr (mkNodeId 0 0) nt /\
    script = nyield nt ++ rest /\ forall s, text_under tr (mkNodeId 0 0) s <-> s = nyield nt.
Proof.
  intros U H m vm rs t ps Hr fuel script v tr v' Hp. destruct (read_from_vm m vm rs t ps Hr) as [Hk Hret].
  destruct (read_from_built m vm rs t ps Hr) as (pd & pd' & st & fl & Hd & Hed & Hst & Hb & Hsz). apply built_spec in Hb as (Hwf & Hcon & Htab).
  pose proof (parse_run_spec vm pd' st ps Hwf Hcon Htab Hk st fuel script v Hst (con_start _ _ Hcon)) as Hs.
  unfold parse in Hp. destruct (parse_run vm ps fuel script v) as [o s1]. injection Hp as -> <-. destruct Hs as (pt & rest & v1 & Hpr & -> & -> & _).
  pose proof Hpr as Hpr'. apply pred_sound in Hpr' as (D1 & D2 & D3). exists (named pd' pt), rest.
  assert (looks_like (tree_of (tree_history pd' 0 None pt)) (id_of 0) (named pd' pt)) as Hl.
  { apply located_looks.
    - intros i p d Hi. apply (tree_parents pd' pt 0 None) in Hi; [lia|discriminate].
    - exists [], [], None. rewrite app_nil_r. split; [reflexivity|]. split; [reflexivity|]. intros k q d Hk'. rewrite lookup_nil in Hk'. discriminate. }
  split; [apply (accepts_pred script _ rest Hd Hed Hwf Hcon Hst); eauto|]. split; [exact Hl|]. split; [rewrite named_yield; assumption|].
  intros s. split; [intros Hs; exact (text_under_unique _ _ _ (looks_text _ _ _ Hl) _ Hs)|intros ->; exact (looks_text _ _ _ Hl)].
Qed.
Print Assumptions C105_returned.

(** Every call of execute, in a parse that succeeds and in one that fails: the node it is
    called for belongs to a name with that instruction, the whole branch below it is there
    already and looks like a derivation tree of that name, and its text is a part of the
    script.  (The spy changes nothing.) *)
Theorem C105_instructions : forall (U : Unicode) (H : HashOrder) m (vm : VM) rs t ps, read_from m vm rs t ps ->
  forall fuel script v o v', parse vm ps fuel script v = (o, v') -> finished o ->
  exists calls, parse (spied vm) ps fuel script (v, []) = (o, (v', calls)) /\
  forall tr id i, (tr, id, i) ∈ calls -> exists x nt before after, i ∈ instructions_for rs x /\
    nderivation rs nt /\ nroot nt = (x, NonTerminal) /\ looks_like tr id nt /\ script = before ++ nyield nt ++ after.
Proof.
  intros U H m vm rs t ps Hr fuel script v o v' Hp Hfin. destruct (read_from_vm m vm rs t ps Hr) as [Hk Hret].
  destruct (read_from_built m vm rs t ps Hr) as (pd & pd' & st & fl & Hd & Hed & Hst & Hb & Hsz).
  assert (built m (spied vm) fl pd' st ps) as Hb' by exact Hb. apply built_spec in Hb as (Hwf & Hcon & Htab).
  assert (same_parsers vm (spied vm) eq ps ps) as Hsame.
  { split; [reflexivity|]. intros A. pose (o1 := rules_with_steuermaps ps !! A).
    change (match o1, o1 with Some nt, Some nt' => steuermap nt = steuermap nt' /\ Forall2 eq (nt_instruction nt) (nt_instruction nt') | None, None => True | _, _ => False end).
    destruct o1 as [nt|]; [|exact Logic.I]. split; [reflexivity|]. apply Forall2_same_length_lookup_2; [reflexivity|]. intros k x y Hx Hy. congruence. }
  destruct (C78_simulation H vm (spied vm) eq (fun s s' => fst s' = s) ps ps fuel script v (v, []) (spied_follows vm) (spied_fails vm) Hsame eq_refl) as [E1 E2].
  rewrite Hp in E1, E2. cbn [fst snd] in E1, E2. destruct (parse (spied vm) ps fuel script (v, [])) as [o' [v1 calls]] eqn:Ep. cbn [fst snd] in E1, E2. subst o' v1.
  exists calls. split; [reflexivity|]. intros tr id i Hin.
  assert (exists h text n A k, SpecTree.grown h /\ Walk_proofs.done pd' h n A k text /\ i ∈ instructions_of pd' A /\ tr = tree_of (take k h) /\ id = id_of n /\ exists w, script = text ++ w) as (h & text & n & A & k & Hg & Hdn & Hi & -> & -> & w & ->).
  { destruct o as [tr0|e| |]; [| |contradiction..].
    - destruct (C36_actions_in_post_order H m (spied vm) fl pd' st ps fuel script (v, []) tr0 (v', calls) Hb' Hst (spied_keeps vm Hk) Ep) as (pt & rest & D1 & D2 & D3 & _ & Hrun).
      destruct (spied_actions vm pd' _ _ _ _ _ _ Hrun _ Hin) as [Hx|(n & A & k & i' & Hpo & Hi & Hc)]; [inversion Hx|]. injection Hc as E1 E2 E3. subst i'.
      exists (tree_history pd' 0 None pt), (yield pd' pt), n, A, k. split; [intros j p d Hj; apply (tree_parents pd' pt 0 None) in Hj; [lia|discriminate]|]. split; [|eauto 10].
      pose proof (tree_done pd' pt D1 [] None [] n A k Hpo) as Hx. cbn [app length] in Hx. rewrite app_nil_r in Hx. exact Hx.
    - destruct (C37_effects_of_completed_nodes H m (spied vm) fl pd' st ps fuel script (v, []) e (v', calls) Hb' Hst (spied_keeps vm Hk) Ep) as (stk & rest & D1 & D2 & D3 & _ & Hrun).
      destruct (spied_actions vm pd' _ _ _ _ _ _ Hrun _ Hin) as [Hx|(n & A & k & i' & Hpo & Hi & Hc)]; [inversion Hx|]. injection Hc as E1 E2 E3. subst i'.
      exists (stuck_history pd' 0 None stk), (consumed pd' stk), n, A, k. split; [|split; [|eauto 10]].
      + apply (grown_stuck pd' stk [] None); [intros j p d Hj; rewrite lookup_nil in Hj; discriminate|discriminate].
      + pose proof (stuck_done pd' stk D1 [] None [] n A k Hpo) as Hx. cbn [app length] in Hx. rewrite app_nil_r in Hx. exact Hx. }
  destruct (done_looks pd' h n A k text Hg Hdn) as (s & S1 & [S2 HA] & S3 & u & w' & ->).
  destruct (named_derivation pd pd' rs Hd Hed s S1) as [N1 N2].
  destruct (rule_element pd pd' rs Hd Hed A HA) as [x Hx]. exists x, (named pd' s), u, (w' ++ w). split; [|split; [assumption|split; [congruence|split; [assumption|]]]].
  - destruct HA as [r Hrr]. destruct (says_rule pd pd' rs Hd Hed A r x 0 Hx Hrr) as (_ & _ & Hins). unfold instructions_of in Hi. rewrite Hrr in Hi. rewrite <- Hins. exact Hi.
  - rewrite named_yield, <- !app_assoc. reflexivity.
Qed.
Print Assumptions C105_instructions.

(** ** Non-vacuity: the two digits of [101] are seen by four calls of execute, and a failing
    parse of [1x] has made two. *)
Section example.
Local Existing Instance ascii_unicode.
Local Existing Instance plain_order.
Definition calls_seen (ps : Parser SInstr) (script : str) : bool * nat :=
  match parse (spied (SimpleStackVm Checked)) ps 300 script (mkSState [] 0 0 0 [], []) with
  | (Ok _, (_, calls)) => (true, length calls)
  | (_, (_, calls)) => (false, length calls)
  end.
Definition sees (o : outcome Empty_set (Parser SInstr)) : bool :=
  match o with Ok ps => bool_decide (calls_seen ps (lit "101") = (true, 4) /\ calls_seen ps (lit "1x") = (false, 2)) | _ => false end.
Lemma sees_ok o : sees o = true -> exists ps, o = Ok ps /\ calls_seen ps (lit "101") = (true, 4) /\ calls_seen ps (lit "1x") = (false, 2).
Proof. unfold sees. destruct o as [ps| | |]; try discriminate. intros E. apply bool_decide_eq_true in E. eauto. Qed.
Example C105_example : exists ps, read_from Checked (SimpleStackVm Checked) dg_rules dg_text ps /\
  calls_seen ps (lit "101") = (true, 4) /\ calls_seen ps (lit "1x") = (false, 2).
Proof.
  destruct (sees_ok (new_from_text Checked (SimpleStackVm Checked) (mkFuels 60 2200) dg_text)) as (ps & Hps & Hs); [vm_compute; reflexivity|].
  exists ps. split; [|exact Hs].
  exists simple_reads, (mkFuels 60 2200). split; [constructor|]. split; [apply ascii_tables|]. split; [apply dg_text_ok|]. split; [vm_compute; reflexivity|].
  split; [split; cbn [first_fuel follow_fuel]; apply Nat.leb_le || apply Nat.ltb_lt; vm_compute; reflexivity|exact Hps].
Qed.
End example.
