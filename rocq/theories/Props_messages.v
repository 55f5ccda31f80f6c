(** * Property theorems: the wording of messages (C92) *)
From Verif Require Import Base Tree Errors Sets SpecText Display DebugFmt SpecMessages.

(** Both sides as literals around the same arguments. *)
Ltac hide :=
  repeat match goal with
  | |- context [debug_str ?s] => generalize (debug_str s)
  | |- context [debug_char ?s] => generalize (debug_char s)
  end;
  repeat match goal with |- context [decimal ?s] => generalize (decimal s) end; intros.
Ltac same :=
  match goal with |- ?l = _ => rewrite <- (app_nil_r l) end;
  unfold debug_struct, debug_usize, show_usize, num; cbn [debug_fields map fst snd]; rewrite <- ?app_assoc; hide; vm_compute; reflexivity.
Lemma node_id_message_ok id : show_node_id id = node_id_message id.
Proof. unfold show_node_id, node_id_message. same. Qed.
Lemma reason_message_ok r : reason_text r = reason_message r.
Proof. destruct r; vm_compute; reflexivity. Qed.
(** Every message is its format string with the arguments in place. *)
Theorem C92_messages :
  (forall e, show_parser_error e = parser_message e) /\
  (forall e, show_grammar_error e = grammar_message e) /\
  (forall e, show_tree_error e = tree_message e) /\
  (forall e, show_graph_error e = graph_message e) /\
  (forall id, show_node_id id = node_id_message id) /\
  (forall x, show_member x = member_message x) /\
  (forall x, show_member_e x = member_e_message x).
Proof.
  split; [|split; [|split; [|split; [|split; [|split]]]]].
  - intros e. unfold show_parser_error, parser_message. destruct e; same.
  - intros e. unfold show_grammar_error, grammar_message. destruct e as [i|i|i|i|i| |r pos| | |]; rewrite ?reason_message_ok; same.
  - intros e. unfold show_tree_error, tree_message. destruct e as [id|id|n]; [rewrite node_id_message_ok; generalize (node_id_message id); intros; same..|same].
  - intros e. unfold show_graph_error, graph_message. destruct e; same.
  - exact node_id_message_ok.
  - intros [c|]; same.
  - intros [c| |]; same.
Qed.
Print Assumptions C92_messages.

(** So is every [{:?}] text. *)
Theorem C92_debug : forall (P : Printable),
  (forall e, debug_parser_error e = parser_error_debug e) /\
  (forall e, debug_grammar_error e = grammar_error_debug e) /\
  (forall e, debug_tree_error e = tree_error_debug e) /\
  (forall e, debug_graph_error e = graph_error_debug e) /\
  (forall id, debug_node_id id = node_id_debug id) /\
  (forall t : Tree str, debug_tree debug_str t = tree_debug debug_str t).
Proof.
  intros P.
  assert (forall id, debug_node_id id = node_id_debug id) as Hid by (intros id; unfold debug_node_id, node_id_debug; same).
  assert (forall e, debug_tree_error e = tree_error_debug e) as Ht.
  { intros e. unfold debug_tree_error, tree_error_debug. destruct e as [id|id|n]; [rewrite Hid; generalize (node_id_debug id); intros; same..|same]. }
  assert (forall e, debug_grammar_error e = grammar_error_debug e) as Hg.
  { intros e. unfold debug_grammar_error, grammar_error_debug. destruct e as [i|i|i|i|i| |r pos| | |]; rewrite ?reason_message_ok; same. }
  split; [|split; [exact Hg|split; [exact Ht|split; [|split; [exact Hid|]]]]].
  - intros e. unfold debug_parser_error, parser_error_debug. 
    assert (forall k, lit "could not find production for index " ++ show_usize k = fill "could not find production for index {}" [num k]) as H1 by (intros k; same).
    assert (forall k, lit "keine Action vorhandne f" ++ [252%N] ++ lit "r " ++ show_usize k = fill "keine Action vorhandne für {}" [num k]) as H2 by (intros k; same).
    destruct e; rewrite ?Hg, ?Ht, ?H1, ?H2; repeat match goal with |- context [grammar_error_debug ?x] => generalize (grammar_error_debug x) | |- context [tree_error_debug ?x] => generalize (tree_error_debug x) end; intros; same.
  - intros e. unfold debug_graph_error, graph_error_debug. destruct e; same.
  - assert (forall A (f : A -> str) o, debug_option f o = option_debug f o) as Ho by (intros A f [x|]; [unfold debug_option, option_debug; generalize (f x); intros; same|reflexivity]).
    assert (forall A (f : A -> str) l, debug_list f l = list_debug (map f l)) as Hl.
    { intros A f l. unfold debug_list, list_debug. assert (debug_items f l = commas (map f l)) as ->; [|generalize (commas (map f l)); intros; same].
      induction l as [|x [|y l] IH]; [reflexivity|reflexivity|]. change (f x ++ lit ", " ++ debug_items f (y :: l) = fill "{}, {}" [f x; commas (map f (y :: l))]). rewrite IH.
      generalize (f x), (commas (map f (y :: l))). intros. same. }
    assert (forall n : Node str, debug_node debug_str n = node_debug debug_str n) as Hn.
    { intros n. unfold debug_node, node_debug. rewrite (Ho _ debug_usize (n_parent n)), (Ho _ debug_usize (n_prev n)), (Ho _ debug_usize (n_next n)), (Ho _ debug_usize (n_first n)), (Ho _ debug_usize (n_last n)). change debug_usize with num. generalize (option_debug num (n_parent n)), (option_debug num (n_prev n)), (option_debug num (n_next n)), (option_debug num (n_first n)), (option_debug num (n_last n)). intros. same. }
    intros t. unfold debug_tree, tree_debug. rewrite (Hl _ (debug_node debug_str)), (Hl _ debug_usize). change debug_usize with num. rewrite (map_ext _ _ Hn).
    generalize (list_debug (map (node_debug debug_str) (t_nodes t))), (list_debug (map num (t_free t))). intros. same.
Qed.
Print Assumptions C92_debug.

(** ** Example *)
Example C92_example :
  show_parser_error (UnexpectedCharError 98 12 (lit "a;terminate")) = lit " ""b"" at pos 12 was not expected. Expected a;terminate" /\
  fill "für {} und {}" [lit "a"; lit "b"] = [102; 252; 114; 32; 97; 32; 117; 110; 100; 32; 98]%N.
Proof. split; vm_compute; reflexivity. Qed.
