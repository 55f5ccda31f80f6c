(** * Model of src/test_helpers.rs *)
From Verif Require Import Base Sets.

(** make_memberset (test_helpers.rs:7-19) *)
Definition make_memberset (chrs : str) : gset SetMemberWithEmpty :=
  fold_left (fun set x =>
    if N.eqb x 35 then {[EEmpty]} ∪ set
    else if N.eqb x 33 then {[ETerminate]} ∪ set
    else {[EChar x]} ∪ set) chrs ∅.
(** make_memberset_no_empty (test_helpers.rs:21-31) *)
Definition make_memberset_no_empty (chrs : str) : gset SetMember :=
  fold_left (fun set x =>
    if N.eqb x 33 then {[MTerminate]} ∪ set
    else {[MChar x]} ∪ set) chrs ∅.
