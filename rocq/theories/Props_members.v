(** * Property theorems: C72, set members: their texts, conversions and the sets of test_helpers. *)
From Verif Require Import Base Sets Helpers Display SpecParser Follow_proofs.

Notation hash := 35%N (only parsing).
Notation bang := 33%N (only parsing).

(** ** The helper sets: '#' is the empty word, '!' the end of the text. *)
Theorem C72_make_memberset : forall chrs x, x ∈ make_memberset chrs <->
  match x with EEmpty => hash ∈ chrs | ETerminate => bang ∈ chrs | EChar c => c ∈ chrs /\ c <> hash /\ c <> bang end.
Proof.
  intros chrs x. unfold make_memberset.
  assert (forall s, x ∈ fold_left (fun (set : gset SetMemberWithEmpty) x => if N.eqb x 35 then {[EEmpty]} ∪ set else if N.eqb x 33 then {[ETerminate]} ∪ set else {[EChar x]} ∪ set) chrs s <->
    x ∈ s \/ match x with EEmpty => hash ∈ chrs | ETerminate => bang ∈ chrs | EChar c => c ∈ chrs /\ c <> hash /\ c <> bang end) as Hg.
  2:{ rewrite Hg. split; [intros [Hx|Hx]; [|exact Hx]; set_solver|auto]. }
  induction chrs as [|a chrs IH]; intros s; cbn [fold_left].
  - destruct x; rewrite ?elem_of_nil; tauto.
  - rewrite IH. destruct (N.eqb_spec a 35) as [->|H1]; [|destruct (N.eqb_spec a 33) as [->|H2]];
      rewrite elem_of_union, elem_of_singleton; destruct x as [c| |]; rewrite elem_of_cons; split; intros Hx; intuition (congruence || auto).
    all: subst; intuition congruence.
Qed.
Print Assumptions C72_make_memberset.
Theorem C72_make_memberset_no_empty : forall chrs x, x ∈ make_memberset_no_empty chrs <->
  match x with MTerminate => bang ∈ chrs | MChar c => c ∈ chrs /\ c <> bang end.
Proof.
  intros chrs x. unfold make_memberset_no_empty.
  assert (forall s, x ∈ fold_left (fun (set : gset SetMember) x => if N.eqb x 33 then {[MTerminate]} ∪ set else {[MChar x]} ∪ set) chrs s <->
    x ∈ s \/ match x with MTerminate => bang ∈ chrs | MChar c => c ∈ chrs /\ c <> bang end) as Hg.
  2:{ rewrite Hg. split; [intros [Hx|Hx]; [|exact Hx]; set_solver|auto]. }
  induction chrs as [|a chrs IH]; intros s; cbn [fold_left].
  - destruct x; rewrite ?elem_of_nil; tauto.
  - rewrite IH. destruct (N.eqb_spec a 33) as [->|H2];
      rewrite elem_of_union, elem_of_singleton; destruct x as [c|]; rewrite elem_of_cons; split; intros Hx; intuition (congruence || auto).
    all: subst; intuition congruence.
Qed.
Print Assumptions C72_make_memberset_no_empty.
(** ** The conversion to members without the empty word loses nothing but the empty word. *)
Theorem C72_conversion : forall x, try_from x = None <-> x = EEmpty.
Proof. intros []; split; intros; congruence || reflexivity || discriminate. Qed.
Print Assumptions C72_conversion.
Theorem C72_conversion_injective : forall x x' y, try_from x = Some y -> try_from x' = Some y -> x = x'.
Proof. intros [c| |] [c'| |] y E E'; cbn in *; congruence. Qed.
Print Assumptions C72_conversion_injective.
Theorem C72_conversion_onto : forall y, exists x, try_from x = Some y.
Proof. intros [c|]; [exists (EChar c)|exists ETerminate]; reflexivity. Qed.
Print Assumptions C72_conversion_onto.
(** Every set of members can be written for the helper, and sets that do not mention '#' are
    converted into each other. *)
Theorem C72_helpers_agree : forall chrs, hash ∉ chrs ->
  collect_members (E := Empty_set) (make_memberset chrs) = Ok (make_memberset_no_empty chrs).
Proof.
  intros chrs Hh. destruct (collect_members_ok (E := Empty_set) (make_memberset chrs)) as (t & -> & Ht).
  { rewrite C72_make_memberset. exact Hh. }
  f_equal. apply set_eq. intros y. rewrite Ht, C72_make_memberset_no_empty. split.
  - intros (x & Hx & E). apply C72_make_memberset in Hx. destruct x; cbn in E; try discriminate; injection E as <-; tauto.
  - destruct y as [c|]; intros Hy; [exists (EChar c)|exists ETerminate]; (split; [|reflexivity]); apply C72_make_memberset; [|exact Hy].
    split; [tauto|]. split; [|tauto]. intros ->. tauto.
Qed.
Print Assumptions C72_helpers_agree.
(** ** The two texts of a member determine it. *)
Theorem C72_texts : forall x y,
  (show_member x = show_member y -> x = y) /\ (member_string x = member_string y -> x = y).
Proof. intros [c|] [c'|]; split; cbn; intros E; try reflexivity; try discriminate; congruence. Qed.
Print Assumptions C72_texts.
Theorem C72_texts_with_empty : forall x y,
  (show_member_e x = show_member_e y -> x = y) /\ (member_e_string x = member_e_string y -> x = y).
Proof. intros [c| |] [c'| |]; split; cbn; intros E; try reflexivity; try discriminate; congruence. Qed.
Print Assumptions C72_texts_with_empty.
(** The texts themselves: a char stands for itself, between quotes when displayed. *)
Theorem C72_the_texts :
  (forall c, member_string (MChar c) = [c] /\ show_member (MChar c) = lit "'" ++ [c] ++ lit "'" /\
             member_e_string (EChar c) = [c] /\ show_member_e (EChar c) = lit "'" ++ [c] ++ lit "'") /\
  member_string MTerminate = lit "terminate" /\ show_member MTerminate = lit "terminate" /\
  member_e_string ETerminate = lit "terminate" /\ show_member_e ETerminate = lit "terminate" /\
  member_e_string EEmpty = lit "empty" /\ show_member_e EEmpty = lit "empty".
Proof. repeat split. Qed.
Print Assumptions C72_the_texts.
(** Conversion keeps the texts. *)
Theorem C72_conversion_keeps_texts : forall x y, try_from x = Some y ->
  show_member y = show_member_e x /\ member_string y = member_e_string x.
Proof. intros [c| |] y; cbn; intros [= <-]; split; reflexivity. Qed.
Print Assumptions C72_conversion_keeps_texts.
Example C72_example : make_memberset (lit "ab!#") = {[EChar 97%N; EChar 98%N; ETerminate; EEmpty]} /\
  make_memberset_no_empty (lit "ab!#") = {[MChar 97%N; MChar 98%N; MChar 35%N; MTerminate]}.
Proof. split; apply set_eq; intros x; [rewrite C72_make_memberset|rewrite C72_make_memberset_no_empty]; cbn; destruct x; set_solver by lia. Qed.
