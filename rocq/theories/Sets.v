(** * Model of src/sets.rs *)
From Verif Require Import Base.

(** enum SetMemberWithEmpty (sets.rs:10-15) *)
Inductive SetMemberWithEmpty := EChar (c : char) | EEmpty | ETerminate.
(** enum SetMember (sets.rs:43-47) *)
Inductive SetMember := MChar (c : char) | MTerminate.

Global Instance sme_eq_dec : EqDecision SetMemberWithEmpty.
Proof. solve_decision. Defined.
Global Instance sm_eq_dec : EqDecision SetMember.
Proof. solve_decision. Defined.
Global Instance sme_countable : Countable SetMemberWithEmpty.
Proof.
  apply (inj_countable'
    (fun x => match x with EChar c => Some (Some c) | EEmpty => Some None | ETerminate => None end)
    (fun o => match o with Some (Some c) => EChar c | Some None => EEmpty | None => ETerminate end)).
  by intros [].
Defined.
Global Instance sm_countable : Countable SetMember.
Proof.
  apply (inj_countable'
    (fun x => match x with MChar c => Some c | MTerminate => None end)
    (fun o => match o with Some c => MChar c | None => MTerminate end)).
  by intros [].
Defined.

(** NamedSets, NamedSetsNoEmpty (sets.rs:70-72) *)
Definition NamedSets := gmap nat (gset SetMemberWithEmpty).
Definition NamedSetsNoEmpty := gmap nat (gset SetMember).

(** TryFrom<SetMemberWithEmpty> for SetMember (sets.rs:74-84) *)
Definition try_from (x : SetMemberWithEmpty) : option SetMember :=
  match x with
  | EChar c => Some (MChar c)
  | EEmpty => None
  | ETerminate => Some MTerminate
  end.

(** From<Option<&char>> for SetMember (sets.rs:86-93) *)
Definition member_of_peek (o : option char) : SetMember :=
  match o with None => MTerminate | Some c => MChar c end.

(** Into<String> for SetMember (sets.rs:61-68) *)
Definition member_string (x : SetMember) : str :=
  match x with MChar c => [c] | MTerminate => lit "terminate" end.
(** Into<String> for SetMemberWithEmpty (sets.rs:33-41) *)
Definition member_e_string (x : SetMemberWithEmpty) : str :=
  match x with EChar c => [c] | EEmpty => lit "empty" | ETerminate => lit "terminate" end.

(** [iter().map(|x| SetMember::try_from(x).unwrap()).collect::<HashSet>()] as used
    in follow_sets.rs:140-142 and steuer_sets.rs:18-21: panics on [Empty]. *)
Definition collect_members {E} (s : gset SetMemberWithEmpty) : outcome E (gset SetMember) :=
  ofold (fun acc x => match try_from x with
                      | Some y => Ok ({[y]} ∪ acc)
                      | None => Panic
                      end) ∅ (elements s).
