(** * Property theorems: [{:?}] of set members, elements and productions (C68, C92) *)
From Verif Require Import Base Tree Errors Sets ParserData Display DebugFmt DebugData SpecText SpecMessages ParseFuncs_proofs Props_errors Debug_proofs Props_debug Props_messages.

Section codes.
Context {P : Printable}.
Ltac open E := unfold debug_struct, debug_tuple in E; cbn [map debug_fields fst snd] in E; rewrite <- ?app_assoc in E.
Ltac strip E := repeat (apply app_inv_head in E).
Lemma code_member : code debug_member.
Proof.
  intros [c|] [c'|] r r' Hr Hr' E; unfold debug_member in E; open E; try discriminate E; strip E; [|auto].
  apply code_char in E as [-> E]; [|nodigit..]. strip E. auto.
Qed.
Lemma code_member_e : code debug_member_e.
Proof.
  intros [c| |] [c'| |] r r' Hr Hr' E; unfold debug_member_e in E; open E; try discriminate E; strip E; [|auto..].
  apply code_char in E as [-> E]; [|nodigit..]. strip E. auto.
Qed.
Lemma code_element_type : code debug_element_type.
Proof. intros [] [] r r' Hr Hr' E; unfold debug_element_type in E; try discriminate E; strip E; auto. Qed.
Lemma code_element_verbose : code debug_element_verbose.
Proof.
  intros [n et] [n' et'] r r' Hr Hr' E. unfold debug_element_verbose in E. open E. strip E. apply code_str in E as [-> E]; [|nodigit..]. strip E.
  apply code_element_type in E as [-> E]; [|nodigit..]. strip E. auto.
Qed.
Lemma code_element : code debug_element.
Proof.
  intros [n et] [n' et'] r r' Hr Hr' E. unfold debug_element in E. open E. strip E. apply code_usize in E as [-> E]; [|nodigit..]. strip E.
  apply code_element_type in E as [-> E]; [|nodigit..]. strip E. auto.
Qed.
Lemma usize_not_bracket n r r' : debug_usize n ++ r <> 93%N :: r'.
Proof. unfold debug_usize. destruct (show_head n) as (c & x & -> & [H1 H2]). intros E. injection E as -> _. vm_compute in H2. congruence. Qed.
Lemma code_production : code debug_production.
Proof.
  intros [l|] [l'|] r r' Hr Hr' E; unfold debug_production in E; open E; try discriminate E; strip E; [|auto].
  apply code_list in E as [-> E]; [|apply code_usize|apply usize_not_bracket|nodigit..]. strip E. auto.
Qed.
End codes.
Theorem C68_debug_tells_data_apart : forall (P : Printable),
  (forall x x', debug_member x = debug_member x' -> x = x') /\
  (forall x x', debug_member_e x = debug_member_e x' -> x = x') /\
  (forall e e', debug_element_verbose e = debug_element_verbose e' -> e = e') /\
  (forall e e', debug_element e = debug_element e' -> e = e') /\
  (forall p p', debug_production p = debug_production p' -> p = p').
Proof.
  intros P. split; [|split; [|split; [|split]]]; apply code_inj; [apply code_member|apply code_member_e|apply code_element_verbose|apply code_element|apply code_production].
Qed.
Print Assumptions C68_debug_tells_data_apart.

(** The texts, as format strings. *)
Section spec.
Context {P : Printable}.
Definition member_debug (x : SetMember) : str := match x with MChar c => fill "Char({})" [debug_char c] | MTerminate => fill "Terminate" [] end.
Definition member_e_debug (x : SetMemberWithEmpty) : str :=
  match x with EChar c => fill "Char({})" [debug_char c] | EEmpty => fill "Empty" [] | ETerminate => fill "Terminate" [] end.
Definition kind_debug (et : ElementType) : str := match et with Terminal => fill "Terminal" [] | NonTerminal => fill "NonTerminal" [] end.
Definition element_verbose_debug (e : str * ElementType) : str := fill "ElementVerbose { name: {}, et: {} }" [debug_str e.1; kind_debug e.2].
Definition element_debug (e : nat * ElementType) : str := fill "Element { ix: {}, et: {} }" [num e.1; kind_debug e.2].
Definition production_debug (p : Production) : str :=
  match p with NotEmpty els => fill "NotEmpty({})" [list_debug (map num els)] | Empty => fill "Empty" [] end.
End spec.
Theorem C92_debug_data : forall (P : Printable),
  (forall x, debug_member x = member_debug x) /\ (forall x, debug_member_e x = member_e_debug x) /\
  (forall e, debug_element_verbose e = element_verbose_debug e) /\ (forall e, debug_element e = element_debug e) /\
  (forall p, debug_production p = production_debug p).
Proof.
  intros P. split; [|split; [|split; [|split]]].
  - intros [c|]; unfold debug_member, member_debug, debug_tuple; same.
  - intros [c| |]; unfold debug_member_e, member_e_debug, debug_tuple; same.
  - intros [n et]. unfold debug_element_verbose, element_verbose_debug. cbn [fst snd]. destruct et; same.
  - intros [n et]. unfold debug_element, element_debug. cbn [fst snd]. destruct et; same.
  - intros [l|]; unfold debug_production, production_debug, debug_tuple; [|same].
    assert (debug_list debug_usize l = list_debug (map num l)) as ->; [|generalize (list_debug (map num l)); intros; same].
    unfold debug_list, list_debug. assert (debug_items debug_usize l = commas (map num l)) as ->; [|generalize (commas (map num l)); intros; same].
    induction l as [|x [|y l] IH]; [reflexivity|reflexivity|]. change (num x ++ lit ", " ++ debug_items debug_usize (y :: l) = fill "{}, {}" [num x; commas (map num (y :: l))]). rewrite IH.
    generalize (num x), (commas (map num (y :: l))). intros. same.
Qed.
Print Assumptions C92_debug_data.
Example C92_data_example : forall (P : Printable), debug_production (NotEmpty [3; 14]) = lit "NotEmpty([3, 14])" /\
  debug_element_verbose (lit "a", NonTerminal) = lit "ElementVerbose { name: ""a"", et: NonTerminal }".
Proof. intros P. split; vm_compute; reflexivity. Qed.
