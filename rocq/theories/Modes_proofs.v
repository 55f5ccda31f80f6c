(** * Debug and release builds (C79): proofs *)
From Verif Require Import Base Peekables Tree Errors Sets ParserData SimpleGraph NamedGraph Vm SimpleStackVm StackVm RuleParsing FirstSets FollowSets SteuerMap ScriptParser
  SpecText SpecGraph SpecScript SpecSyntax SpecSim Sim_proofs.

Lemma ad_refl {E A} (o : outcome E A) : as_debug o o.
Proof. intros _. reflexivity. Qed.
Lemma ad_bind {E A B} (o o' : outcome E A) (k k' : A -> outcome E B) : as_debug o o' -> (forall a, as_debug (k a) (k' a)) -> as_debug (obind o k) (obind o' k').
Proof. intros Ho Hk Hn. destruct o; cbn in *; [rewrite Ho by discriminate; apply Hk; exact Hn|rewrite Ho by discriminate; reflexivity|congruence|rewrite Ho by discriminate; reflexivity]. Qed.
Lemma ad_fold {E A B} (f f' : B -> A -> outcome E B) l : (forall b a, as_debug (f b a) (f' b a)) -> forall b, as_debug (ofold f b l) (ofold f' b l).
Proof. intros Hf. induction l as [|a l IH]; intros b; cbn [ofold]; [apply ad_refl|]. apply ad_bind; [apply Hf|exact IH]. Qed.
Lemma ad_unwrap {E E' A} (o o' : outcome E A) : as_debug o o' -> as_debug (E := E') (unwrap o) (unwrap o').
Proof. intros Ho Hn. destruct o; cbn in *; try congruence; rewrite Ho by discriminate; reflexivity. Qed.
Lemma ad_usize {E} z : as_debug (E := E) (usize_result Checked z) (usize_result Wrapping z).
Proof. unfold as_debug, usize_result. destruct (_ && _); congruence. Qed.
Lemma ad_isize {E} z : as_debug (E := E) (isize_result Checked z) (isize_result Wrapping z).
Proof. unfold as_debug, isize_result. destruct (_ && _); congruence. Qed.

(** ** The VMs *)
Lemma ad_counting t id i s : as_debug (counting_execute Checked t id i s) (counting_execute Wrapping t id i s).
Proof. apply ad_bind; [apply ad_usize|intros; apply ad_refl]. Qed.
Lemma ad_spop s k k' : (forall v s1, as_debug (k v s1) (k' v s1)) -> as_debug (s_pop s k) (s_pop s k').
Proof. intros Hk. unfold s_pop. destruct (ss_stack s); [apply ad_refl|apply Hk]. Qed.
Lemma ad_kpop s k k' : (forall v s1, as_debug (k v s1) (k' v s1)) -> as_debug (k_pop s k) (k_pop s k').
Proof. intros Hk. unfold k_pop. destruct (ks_stack s); [apply ad_refl|apply Hk]. Qed.
Lemma ad_simple t id i s : as_debug (simple_execute Checked t id i s) (simple_execute Wrapping t id i s).
Proof.
  apply ad_bind; [|intros; apply ad_refl]. destruct i; cbn [simple_exec]; try apply ad_refl.
  - apply ad_spop. intros v s1. apply ad_bind; [apply ad_usize|intros; apply ad_refl].
  - apply ad_bind; [apply ad_usize|intros; apply ad_refl].
  - apply ad_spop. intros v s1. apply ad_bind; [apply ad_usize|intros; apply ad_refl].
  - apply ad_spop. intros v s1. apply ad_bind; [apply ad_usize|intros pw]. apply ad_bind; [apply ad_usize|intros pr]. apply ad_bind; [apply ad_usize|intros; apply ad_refl].
Qed.
Lemma ad_stack t id i s : as_debug (stack_execute Checked t id i s) (stack_execute Wrapping t id i s).
Proof.
  apply ad_bind; [|intros; apply ad_refl]. destruct i; cbn [stack_exec]; try apply ad_refl.
  - apply ad_kpop. intros v s1. apply ad_bind; [apply ad_isize|intros; apply ad_refl].
  - apply ad_bind; [apply ad_isize|intros; apply ad_refl].
  - apply ad_kpop. intros v s1. apply ad_bind; [apply ad_isize|intros; apply ad_refl].
  - apply ad_kpop. intros v s1. apply ad_bind; [apply ad_usize|intros pw]. apply ad_bind; [apply ad_isize|intros pr]. apply ad_bind; [apply ad_isize|intros; apply ad_refl].
Qed.

(** ** Graphs *)
Section graphs.
Context {T : Type}.
Lemma ad_add_edge {E} (g : Graph T) s t : as_debug (E := E) (graph_add_edge Checked g s t) (graph_add_edge Wrapping g s t).
Proof.
  unfold graph_add_edge. destruct (gr_nodes g !! s) as [n|]; [|apply ad_refl]. apply ad_bind; [|intros; apply ad_refl].
  destruct (nd_first n) as [i|]; [|apply ad_refl]. destruct (gr_edges g !! i); [apply ad_usize|apply ad_refl].
Qed.
Lemma ad_graft {E} (g o : Graph T) this other : as_debug (E := E) (add_graph_at_node Checked g o this other) (add_graph_at_node Wrapping g o this other).
Proof. apply ad_add_edge. Qed.
Lemma ad_by_index (g : GraphNamedNodes T) i : as_debug (get_node_by_index Checked g i) (get_node_by_index Wrapping g i).
Proof. apply ad_bind; [apply ad_usize|intros; apply ad_refl]. Qed.
Lemma ad_modify (g : GraphNamedNodes T) i f : as_debug (modify_node_by_index Checked g i f) (modify_node_by_index Wrapping g i f).
Proof. apply ad_bind; [apply ad_by_index|intros; apply ad_refl]. Qed.
Lemma ad_named_edge (g : GraphNamedNodes T) s t : as_debug (named_add_edge Checked g s t) (named_add_edge Wrapping g s t).
Proof. apply ad_bind; [apply ad_refl|intros]. apply ad_bind; [apply ad_refl|intros]. apply ad_bind; [apply ad_add_edge|intros; apply ad_refl]. Qed.
Lemma ad_gcall (g : Graph T) c : as_debug (gcall_do Checked g c) (gcall_do Wrapping g c).
Proof. destruct c; cbn [gcall_do]; try apply ad_refl. apply ad_bind; [apply ad_add_edge|intros; apply ad_refl]. Qed.
Lemma ad_gcalls l : forall g : Graph T, as_debug (gcalls_do Checked g l) (gcalls_do Wrapping g l).
Proof.
  induction l as [|c l IH]; intros g; cbn [gcalls_do]; [apply ad_refl|]. apply ad_bind; [apply ad_gcall|]. intros [r g1]. apply ad_bind; [apply IH|]. intros []. apply ad_refl.
Qed.
Lemma ad_plan (p : gplan T) : as_debug (plan_do Checked p) (plan_do Wrapping p).
Proof.
  induction p as [|p IH c|p IH q IHq this other]; cbn [plan_do]; [apply ad_refl| |].
  - apply ad_bind; [exact IH|]. intros [rs g]. apply ad_bind; [apply ad_gcall|]. intros []. apply ad_refl.
  - apply ad_bind; [exact IH|]. intros [rs g]. apply ad_bind; [exact IHq|]. intros [rs' o]. apply ad_bind; [apply ad_graft|]. intros. apply ad_refl.
Qed.
Lemma ad_ncall (g : GraphNamedNodes T) c : as_debug (ncall_do Checked g c) (ncall_do Wrapping g c).
Proof. destruct c; cbn [ncall_do]; try apply ad_refl. apply ad_named_edge. Qed.
Lemma ad_ncalls l : forall (g : GraphNamedNodes T) r, ncalls_do Checked g l = Some r -> ncalls_do Wrapping g l = Some r.
Proof.
  induction l as [|c l IH]; intros g r; cbn [ncalls_do]; [auto|]. pose proof (ad_ncall g c) as Hc.
  destruct (ncall_do Checked g c) as [g1|e| |] eqn:E; try discriminate; rewrite Hc by discriminate;
    (destruct (ncalls_do Checked _ l) as [[rs g2]|] eqn:E2; [|discriminate]); rewrite (IH _ _ E2); auto.
Qed.
End graphs.

(** ** The analysis *)
Section analysis.
Context {H : HashOrder} {I : Type} (pd : ParserData I).
Lemma ad_mark_loop fs left prod : forall g, as_debug (mark_loop Checked pd prod fs left g) (mark_loop Wrapping pd prod fs left g).
Proof.
  induction prod as [|el rest IH]; intros g; cbn [mark_loop]; [apply ad_refl|]. destruct (get_element pd el) as [[? []]|]; [apply IH| |apply ad_refl].
  apply ad_bind; [apply ad_refl|]. intros [b g1]. apply ad_bind; [|intros; apply IH]. destruct b; [apply ad_named_edge|apply ad_refl].
Qed.
Lemma ad_propagate fuel : forall g, as_debug (propagate Checked fuel g) (propagate Wrapping fuel g).
Proof.
  induction fuel as [|f IH]; intros g; cbn [propagate]; [apply ad_refl|]. apply ad_bind.
  - apply ad_fold. intros acc [name ix]. apply ad_bind; [apply ad_by_index|intros; apply ad_refl].
  - intros [|x l]; [apply ad_refl|]. apply ad_bind; [|exact IH]. apply ad_fold. intros g1 [ix extra]. apply ad_modify.
Qed.
Lemma ad_follow fuel start fs : as_debug (get_follow_sets Checked pd fuel start fs) (get_follow_sets Wrapping pd fuel start fs).
Proof.
  unfold get_follow_sets. apply ad_bind; [apply ad_refl|]. intros g0. apply ad_bind; [apply ad_refl|]. intros g1. apply ad_bind.
  - apply ad_fold. intros g [el r]. apply ad_fold. intros g2 []; [apply ad_mark_loop|apply ad_refl].
  - intros g2. apply ad_bind; [apply ad_propagate|]. intros g3. apply ad_fold. intros sets [name ix]. apply ad_bind; [apply ad_by_index|intros; apply ad_refl].
Qed.
End analysis.
Section construction.
Context {U : Unicode} {H : HashOrder} (vm : VM).
Lemma ad_new_data fl pd start : as_debug (new_from_parser_data Checked vm fl pd start) (new_from_parser_data Wrapping vm fl pd start).
Proof.
  unfold new_from_parser_data. apply ad_bind; [apply ad_refl|]. intros first. apply ad_bind; [apply ad_unwrap, ad_follow|]. intros; apply ad_refl.
Qed.
Lemma ad_new_text fl t : as_debug (new_from_text Checked vm fl t) (new_from_text Wrapping vm fl t).
Proof.
  unfold new_from_text. destruct (parse_rules_fn vm _) as [r s]. apply ad_bind; [apply ad_refl|]. intros _. apply ad_bind; [apply ad_refl|]. intros els.
  apply ad_bind; [apply ad_refl|]. intros first. destruct (get_element_nt_index _ _); [|apply ad_refl]. apply ad_bind; [apply ad_unwrap, ad_follow|]. intros; apply ad_refl.
Qed.
End construction.

(** ** Parsing *)
Section run.
Context {H : HashOrder} {S I : Type} (prs prs' : forall S, TPeek S -> str -> PP S -> outcome ParserError (list I) * PP S)
  (exec exec' : Tree str -> NodeId -> I -> S -> outcome Empty_set (Tree str * S)) (s0 s0' : S).
Hypothesis (Hx : forall t id i s, as_debug (exec t id i s) (exec' t id i s)).
Notation vm := (mkVM S I prs exec s0). Notation vm' := (mkVM S I prs' exec' s0').
Lemma ad_parse (ps : Parser I) fuel text v : fst (parse vm ps fuel text v) <> Panic -> parse vm' ps fuel text v = parse vm ps fuel text v.
Proof.
  intros Hn.
  destruct (steps_parse vm vm' eq eq ps ps) with (okP := false) (okD := true) (fuel := fuel) (text := text) (v := v) (v' := v) as [E1 E2].
  - split; [reflexivity|]. intros A. cbn [vm_instr]. destruct (rules_with_steuermaps ps !! A) as [nt|]; [|exact Logic.I]. split; [reflexivity|]. induction (nt_instruction nt); constructor; auto.
  - intros t id i i' s s' t1 s1 <- <- E. exists s1. split; [|reflexivity]. cbn in *. rewrite <- E. apply Hx. rewrite E. discriminate.
  - discriminate.
  - intros _ t id i i' s s' <- <- E. cbn in *. rewrite <- E. apply Hx. rewrite E. discriminate.
  - reflexivity.
  - destruct (fst (parse vm ps fuel text v)); [exact Logic.I|exact Logic.I|congruence|reflexivity].
  - destruct (parse vm ps fuel text v), (parse vm' ps fuel text v). cbn in *. congruence.
Qed.
End run.
