(** * Debug renderings can be read back *)
From Verif Require Import Base Tree Errors Display DebugFmt SpecText ParseFuncs_proofs Props_errors.
From Coq Require Import Hexadecimal HexadecimalN.

(** A rendering is a code if a text that begins with the rendering of a value, and goes on
    with something other than a digit, begins with the rendering of no other value. *)
Definition stops (r : str) : Prop := not_starting digit_char r.
Definition code {A} (f : A -> str) : Prop := forall x y r r', stops r -> stops r' -> f x ++ r = f y ++ r' -> x = y /\ r = r'.
Ltac stop := first [assumption|exact Logic.I|nodigit].

Section codes.
Context {P : Printable}.

Lemma hex_char_of u c : c ∈ hex_chars u -> (c = 48 \/ c = 49 \/ c = 50 \/ c = 51 \/ c = 52 \/ c = 53 \/ c = 54 \/ c = 55 \/ c = 56 \/ c = 57 \/ c = 97 \/ c = 98 \/ c = 99 \/ c = 100 \/ c = 101 \/ c = 102)%N.
Proof. induction u; cbn [hex_chars]; intros Hc; [inversion Hc|..]; apply elem_of_cons in Hc as [->|Hc]; tauto. Qed.
Lemma hex_chars_split u v r r' : hex_chars u ++ 125%N :: r = hex_chars v ++ 125%N :: r' -> u = v /\ r = r'.
Proof.
  revert v. induction u; intros [] E; cbn [hex_chars] in E; try discriminate E; injection E as E; auto.
  all: destruct (IHu _ E) as [-> ->]; auto.
Qed.
Lemma hex_split n n' r r' : show_hex n ++ 125%N :: r = show_hex n' ++ 125%N :: r' -> n = n' /\ r = r'.
Proof. intros E. apply hex_chars_split in E as [E ->]. split; [|reflexivity]. apply HexadecimalN.Unsigned.to_uint_inj. assumption. Qed.

(** An escape sequence: either a letter, or a backslash and a letter other than [u], or a
    backslash, [u], and a number in braces. *)
Lemma escape_cases q c : (q = 34 \/ q = 39)%N ->
  (escape_debug q c = [c] /\ c <> 92 /\ c <> q)%N \/
  (exists d, escape_debug q c = [92; d] /\ d <> 117 /\
    c = if d =? 48 then 0 else if d =? 116 then 9 else if d =? 114 then 13 else if d =? 110 then 10 else d)%N \/
  escape_debug q c = [92; 117; 123]%N ++ show_hex c ++ [125%N].
Proof.
  intros Hq. unfold escape_debug.
  destruct (N.eqb_spec c 0) as [->|H0]; [right; left; exists 48%N; split; [reflexivity|]; split; [lia|reflexivity]|].
  destruct (N.eqb_spec c 9) as [->|H9]; [right; left; exists 116%N; split; [reflexivity|]; split; [lia|reflexivity]|].
  destruct (N.eqb_spec c 13) as [->|H13]; [right; left; exists 114%N; split; [reflexivity|]; split; [lia|reflexivity]|].
  destruct (N.eqb_spec c 10) as [->|H10]; [right; left; exists 110%N; split; [reflexivity|]; split; [lia|reflexivity]|].
  destruct (N.eqb_spec c 92) as [->|H92]; [right; left; exists 92%N; split; [reflexivity|]; split; [lia|reflexivity]|].
  destruct (N.eqb_spec c q) as [->|Hcq].
  { right; left; exists q; split; [reflexivity|]; split; [lia|]. destruct Hq as [->| ->]; reflexivity. }
  destruct (in_range 32 126 c || ((126 <? c)%N && uni_plain c)); [left; auto|right; right; reflexivity].
Qed.
Lemma escape_split q c c' r r' : (q = 34 \/ q = 39)%N -> escape_debug q c ++ r = escape_debug q c' ++ r' -> c = c' /\ r = r'.
Proof.
  intros Hq. destruct (escape_cases q c Hq) as [(E1 & A1 & A2)|[(d & E1 & A1 & A2)|E1]], (escape_cases q c' Hq) as [(E2 & B1 & B2)|[(d' & E2 & B1 & B2)|E2]];
    rewrite E1, E2; cbn; intros E; injection E; intros; subst; try congruence; auto.
  rewrite <- !app_assoc in *. cbn in *. eapply hex_split. eassumption.
Qed.
Lemma escape_not_quote q c r r' : (q = 34 \/ q = 39)%N -> escape_debug q c ++ r <> q :: r'.
Proof.
  intros Hq. destruct (escape_cases q c Hq) as [(E1 & A1 & A2)|[(d & E1 & A1 & A2)|E1]]; rewrite E1; cbn; intros E; injection E; intros; subst; lia.
Qed.
Lemma code_char : code debug_char.
Proof.
  intros c c' r r' _ _ E. unfold debug_char in E. rewrite <- !app_assoc in E. apply app_inv_head in E.
  apply escape_split in E as [-> E]; [|auto]. apply app_inv_head in E. auto.
Qed.
Lemma code_str : code debug_str.
Proof.
  intros s s' r r' _ _ E. unfold debug_str in E. rewrite <- !app_assoc in E. apply app_inv_head in E. revert s' E.
  induction s as [|c s IH]; intros [|c' s'] E; cbn [map concat] in E.
  - apply (app_inv_head (lit """")) in E. auto.
  - exfalso. rewrite <- app_assoc in E. symmetry in E. exact (escape_not_quote 34 _ _ _ (or_introl eq_refl) E).
  - exfalso. rewrite <- app_assoc in E. exact (escape_not_quote 34 _ _ _ (or_introl eq_refl) E).
  - rewrite <- !app_assoc in E. apply escape_split in E as [-> E]; [|auto]. destruct (IH s' E) as [-> ->]. auto.
Qed.
Lemma code_usize : code debug_usize.
Proof. intros n n' r r' Hr Hr' E. apply (show_split n n' r r' Hr Hr' E). Qed.
Lemma code_option {A} (f : A -> str) : code f -> code (debug_option f).
Proof.
  intros Hf [x|] [y|] r r' Hr Hr' E; cbn [debug_option] in E; try discriminate E.
  - rewrite <- !app_assoc in E. apply app_inv_head, Hf in E as [-> E]; [|nodigit..]. apply app_inv_head in E. auto.
  - apply app_inv_head in E. auto.
Qed.
Lemma code_list {A} (f : A -> str) : code f -> (forall x r r', f x ++ r <> 93%N :: r') -> code (debug_list f).
Proof.
  intros Hf Hn l l' r r' Hr Hr' E. unfold debug_list in E. rewrite <- !app_assoc in E. apply app_inv_head in E.
  assert (forall x l r, debug_items f (x :: l) ++ r = f x ++ match l with [] => r | _ => lit ", " ++ debug_items f l ++ r end) as Hc.
  { intros x [|y l0] r0; [reflexivity|]. cbn [debug_items]. rewrite <- !app_assoc. reflexivity. }
  revert l' E. induction l as [|x l IH]; intros [|y l'] E.
  - apply (app_inv_head (lit "]")) in E. auto.
  - exfalso. rewrite (Hc y l') in E. symmetry in E. exact (Hn _ _ _ E).
  - exfalso. rewrite (Hc x l) in E. exact (Hn _ _ _ E).
  - rewrite !Hc in E. apply Hf in E as [-> E]; [|destruct l; nodigit|destruct l'; nodigit].
    destruct l as [|x2 l], l' as [|y2 l']; try discriminate E.
    + apply app_inv_head in E. auto.
    + apply app_inv_head in E. apply IH in E as [-> ->]. auto.
Qed.

(** The structs, field by field. *)
Ltac field := match goal with
  | E : (_ ++ _) ++ _ = _ |- _ => rewrite <- !app_assoc in E
  | E : lit ?a ++ _ = lit ?a ++ _ |- _ => apply app_inv_head in E
  | E : debug_char _ ++ _ = debug_char _ ++ _ |- _ => apply code_char in E as [? E]; [|stop..]
  | E : debug_str _ ++ _ = debug_str _ ++ _ |- _ => apply code_str in E as [? E]; [|stop..]
  | E : debug_usize _ ++ _ = debug_usize _ ++ _ |- _ => apply code_usize in E as [? E]; [|stop..]
  | E : debug_option debug_usize _ ++ _ = debug_option debug_usize _ ++ _ |- _ => apply (code_option _ code_usize) in E as [? E]; [|stop..]
  end.
Ltac open E := unfold debug_struct in E; cbn [map debug_fields fst snd] in E; rewrite <- ?app_assoc in E.
Lemma code_node_id : code debug_node_id.
Proof. intros [a b] [a' b'] r r' Hr Hr' E. unfold debug_node_id in E. open E. cbn [node_ptr node_pk] in E. repeat field. subst. auto. Qed.
Ltac field2 := first [field|match goal with
  | E : debug_node_id _ ++ _ = debug_node_id _ ++ _ |- _ => apply code_node_id in E as [? E]; [|stop..]
  end].
Lemma code_tree_error : code debug_tree_error.
Proof. intros e e' r r' Hr Hr' E. destruct e, e'; unfold debug_tree_error in E; open E; try discriminate E; repeat field2; subst; auto. Qed.
Lemma code_graph_error : code debug_graph_error.
Proof. intros e e' r r' Hr Hr' E. destruct e, e'; unfold debug_graph_error in E; open E; try discriminate E; repeat field; subst; auto. Qed.
Lemma reason_inj a b : reason_text a = reason_text b -> a = b.
Proof. destruct a, b; auto; discriminate. Qed.
Lemma code_grammar_error : code debug_grammar_error.
Proof.
  intros e e' r r' Hr Hr' E. destruct e, e'; unfold debug_grammar_error in E; open E; try discriminate E; repeat field; subst; auto.
  - match goal with H : show_usize _ = show_usize _ |- _ => apply show_split_nil in H; subst end. auto.
  - match goal with H : reason_text _ = reason_text _ |- _ => apply reason_inj in H; subst end. auto.
Qed.
Lemma code_parser_error : code debug_parser_error.
Proof.
  intros e e' r r' Hr Hr' E. destruct e, e'; unfold debug_parser_error in E; open E; try discriminate E.
  all: repeat (first [field|match goal with
    | E : debug_grammar_error _ ++ _ = debug_grammar_error _ ++ _ |- _ => apply code_grammar_error in E as [? E]; [|stop..]
    | E : debug_tree_error _ ++ _ = debug_tree_error _ ++ _ |- _ => apply code_tree_error in E as [? E]; [|stop..]
    end]); subst; auto.
  all: match goal with H : _ = _ |- _ => repeat (apply app_inv_head in H); apply show_split_nil in H; subst end; auto.
Qed.
Lemma code_node {T} (f : T -> str) : code f -> code (debug_node f).
Proof.
  intros Hf [a b c d e g h] [a' b' c' d' e' g' h'] r r' Hr Hr' E. unfold debug_node in E. open E. cbn [n_parent n_prev n_next n_first n_last n_pk n_data] in E.
  repeat field. apply Hf in E as [? E]; [|stop..]. field. subst. auto.
Qed.
Lemma code_tree {T} (f : T -> str) : code f -> code (debug_tree f).
Proof.
  intros Hf [a b c] [a' b' c'] r r' Hr Hr' E. unfold debug_tree in E. open E. cbn [t_nodes t_free t_counter] in E. repeat field.
  apply code_list in E as [? E]; [|apply code_node; assumption|intros; discriminate|stop..]. repeat field.
  apply code_list in E as [? E]; [|apply code_usize| |stop..].
  - repeat field. subst. auto.
  - intros n x y E'. unfold debug_usize in E'. destruct (show_head n) as (k & z & Ek & [H1 H2]). rewrite Ek in E'. injection E' as -> _. revert H2. vm_compute. auto.
Qed.
Lemma code_inj {A} (f : A -> str) : code f -> forall x y, f x = f y -> x = y.
Proof. intros Hf x y E. apply (Hf x y [] []); [exact Logic.I..|]. rewrite !app_nil_r. assumption. Qed.
End codes.
