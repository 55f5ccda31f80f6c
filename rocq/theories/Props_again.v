(** * Property theorems: parsing again what was accepted (C108) *)
From Verif Require Import Base Peekables Tree Errors Sets ParserData Vm SimpleStackVm StackVm RuleParsing FirstSets FollowSets SteuerMap ScriptParser
  SpecText SpecData SpecGrammar SpecParser SpecTree SpecScript SpecContract SpecWeave SpecRules SpecNames SpecLanguage SpecIgnore SpecTyping SpecSyntax SpecWalk SpecDepth Grammar_proofs Construct_proofs Checks Tree_proofs Script_proofs Parse_proofs
  Weave_proofs Names_proofs RuleBuild_proofs RuleText_proofs Language_proofs Ignore_proofs Accept_proofs Props_steuer Props_script Props_weave Props_rules Props_vm Props_names Props_language Props_errors Props_main SpecRecipes Recipes_proofs Props_recipes Props_depth Props_typing Walk_proofs Props_walk Props_effect Samples.
Notation start := (lit "start").

(** A run that succeeds, as a derivation tree. *)
Lemma tree_of_run {H : HashOrder} (vm : VM) pd st ps fuel script v tr w s : wf_grammar pd -> constructible pd st -> parser_table pd st ps -> keeps_tree vm -> start_element pd st ->
  parse vm ps fuel script v = (Ok tr, w) -> text_under tr (mkNodeId 0 0) s ->
  exists pt, derivation pd pt /\ root pt = st /\ yield pd pt = s /\ tr = tree_of (tree_history pd 0 None pt) /\ run_actions pd (tree_history pd 0 None pt) (post_order 0 pt) v = Ok w.
Proof.
  intros Hwf Hcon Htab Hk Hst E T. pose proof (parse_run_spec vm pd st ps Hwf Hcon Htab Hk st fuel script v Hst (con_start _ _ Hcon)) as Hs.
  unfold parse in E. destruct (parse_run vm ps fuel script v) as [o s1]. injection E as -> <-. destruct Hs as (pt & rest & v1 & Hpr & -> & -> & Hrun).
  apply pred_sound in Hpr as (D1 & D2 & D3). exists pt. split; [assumption|]. split; [assumption|]. split; [|split; [reflexivity|exact Hrun]].
  assert (looks_like (tree_of (tree_history pd 0 None pt)) (id_of 0) (named pd pt)) as Hl.
  { apply located_looks.
    - intros i p d Hi. apply (tree_parents pd pt 0 None) in Hi; [lia|discriminate].
    - exists [], [], None. rewrite app_nil_r. split; [reflexivity|]. split; [reflexivity|]. intros k q d Hk'. rewrite lookup_nil in Hk'. discriminate. }
  rewrite <- named_yield. symmetry. exact (text_under_unique _ _ _ (looks_text _ _ _ Hl) _ T).
Qed.

(** ** C108.  The tree and the effect depend on the accepted part only: two runs whose trees
    have the same text under the root have the same tree, whatever follows in the scripts
    and whatever the states, and from the same state they leave the same state. *)
Theorem C108_same_part : forall (U : Unicode) (H : HashOrder) m (vm : VM) rs t ps, read_from m vm rs t ps ->
  forall fuel fuel' script script' v v' tr tr' w w' s, parse vm ps fuel script v = (Ok tr, w) -> parse vm ps fuel' script' v' = (Ok tr', w') ->
  text_under tr (mkNodeId 0 0) s -> text_under tr' (mkNodeId 0 0) s -> tr = tr' /\ (v = v' -> w = w').
Proof.
  intros U H m vm rs t ps Hr fuel fuel' script script' v v' tr tr' w w' s E E' T T'. destruct (read_from_vm m vm rs t ps Hr) as [Hk Hret].
  destruct (read_from_built m vm rs t ps Hr) as (pd & pd' & st & fl & Hd & Hed & Hst & Hb & Hsz). apply built_spec in Hb as (Hwf & Hcon & Htab).
  destruct (tree_of_run vm pd' st ps _ _ _ _ _ s Hwf Hcon Htab Hk Hst E T) as (pt & P1 & P2 & P3 & -> & P5).
  destruct (tree_of_run vm pd' st ps _ _ _ _ _ s Hwf Hcon Htab Hk Hst E' T') as (pt' & Q1 & Q2 & Q3 & -> & Q5).
  assert (forall p, derivation pd' p -> root p = st -> yield pd' p = s -> pred pd' st st s p []) as Hc.
  { intros p D R Y. pose proof (complete pd' st Hwf Hcon p D [] (fun _ => ltac:(rewrite R; exact (fol_start pd' st)))) as Hc. rewrite R, app_nil_r, Y in Hc. exact Hc. }
  assert (pt = pt') as <- by exact (proj1 (proj1 (pred_deterministic pd' st (con_disjoint pd' st Hcon) (wf_rules pd' Hwf)) _ _ _ _ (Hc pt P1 P2 P3) _ _ (Hc pt' Q1 Q2 Q3))).
  split; [reflexivity|]. intros <-. congruence.
Qed.
Print Assumptions C108_same_part.

(** And the accepted part is itself accepted, in the same depth, with the same tree and the
    same effect. *)
Theorem C108_again : forall (U : Unicode) (H : HashOrder) m (vm : VM) rs t ps, read_from m vm rs t ps ->
  forall fuel script v tr w s, parse vm ps fuel script v = (Ok tr, w) -> text_under tr (mkNodeId 0 0) s -> parse vm ps fuel s v = (Ok tr, w).
Proof.
  intros U H m vm rs t ps Hr fuel script v tr w s E T.
  destruct (C105_returned U H m vm rs t ps Hr _ _ _ _ _ E) as (nt & rest & Ha & _ & _ & Ht). apply Ht in T as Es. pose proof Ha as (A1 & A2 & _).
  assert (run_tree rs nt v = Ok w) as Hrun.
  { destruct (read_from_vm m vm rs t ps Hr) as [Hk Hret]. destruct (read_from_built m vm rs t ps Hr) as (pd & pd' & st & fl & Hd & Hed & Hst & Hb & Hsz). apply built_spec in Hb as (Hwf & Hcon & Htab).
    destruct (tree_of_run vm pd' st ps _ _ _ _ _ s Hwf Hcon Htab Hk Hst E T) as (pt & P1 & P2 & P3 & _ & P5). destruct (named_derivation pd pd' rs Hd Hed pt P1) as [N1 N2].
    rewrite P2, <- (ed_verbose pd pd' Hed) in N2. rewrite (proj2 (Hst st) eq_refl) in N2.
    rewrite (C57_unambiguous U H m vm rs t ps Hr nt (named pd' pt) A1 N1 A2 ltac:(congruence)) by (rewrite named_yield; congruence).
    rewrite (run_named pd pd' rs Hd Hed pt v P1). assumption. }
  pose proof (sentence_accepts m vm rs t ps nt Hr A1 A2) as Hs. rewrite <- Es in Hs.
  destruct (C102_depth U H m vm rs t ps Hr _ _ _ _ _ Ha Hrun fuel) as [_ Hd]. destruct (C102_depth U H m vm rs t ps Hr _ _ _ _ _ Hs Hrun fuel) as [Hok _].
  assert (nested_names nt <= fuel) as Hle by (destruct (decide (nested_names nt <= fuel)) as [|Hn]; [assumption|]; specialize (Hd ltac:(lia)); rewrite E in Hd; discriminate).
  destruct (Hok Hle) as (tr' & E' & _). rewrite E'. f_equal. f_equal.
  destruct (C105_returned U H m vm rs t ps Hr _ _ _ _ _ E') as (nt' & rest1 & Ha' & _ & Es' & Ht').
  destruct (C61_accepted_scripts U H m vm rs t ps Hr _ s v (le_n _)) as (_ & _ & _ & _ & Hu). destruct (Hu _ _ _ _ Ha' Hs) as [-> _].
  symmetry. apply (C108_same_part U H m vm rs t ps Hr fuel fuel script s v v tr tr' w w s E E' T). apply Ht'. exact Es.
Qed.
Print Assumptions C108_again.

(** ** Non-vacuity: of [101x] the part [101] is accepted, with four pushes. *)
Section example.
Local Existing Instance ascii_unicode.
Local Existing Instance plain_order.
Example C108_example : exists ps tr v, read_from Checked (SimpleStackVm Checked) dg_rules dg_text ps /\
  parse (SimpleStackVm Checked) ps 300 (lit "101x") (mkSState [] 0 0 0 []) = (Ok tr, v) /\ ss_stack v = [1; 1; 1; 1]%N /\ exists s, text_under tr (mkNodeId 0 0) s.
Proof.
  destruct (ends_with_ok (new_from_text Checked (SimpleStackVm Checked) (mkFuels 60 2200) dg_text) 300 (lit "101x") [1; 1; 1; 1]%N) as (ps & Hps & tr & v & Hrun & Hst); [vm_compute; reflexivity|].
  assert (read_from Checked (SimpleStackVm Checked) dg_rules dg_text ps) as Hr.
  { exists simple_reads, (mkFuels 60 2200). split; [constructor|]. split; [apply ascii_tables|]. split; [apply dg_text_ok|]. split; [vm_compute; reflexivity|].
    split; [split; cbn [first_fuel follow_fuel]; apply Nat.leb_le || apply Nat.ltb_lt; vm_compute; reflexivity|exact Hps]. }
  exists ps, tr, v. split; [exact Hr|]. split; [exact Hrun|]. split; [exact Hst|].
  destruct (C105_returned _ _ _ _ _ _ _ Hr _ _ _ _ _ Hrun) as (nt & rest & _ & _ & _ & Ht). exists (nyield nt). apply Ht. reflexivity.
Qed.
End example.
