(** * Specification: what a process with a stop char and an escape char answers
    (no reference to the model's helpers).

    The state is the text, the number of chars consumed and the char the last call looked at
    ([peek_mut] does not count as looking).  A call is stopped in front of the stop char,
    unless the char looked at before it was the escape char.  A call that is not stopped
    answers like a cursor over the text ([SpecText.cursor_step]). *)
From Verif Require Import Base SpecText.

Definition stopped (stop esc : option char) (c : char) (looked : option char) : Prop :=
  exists e, esc = Some e /\ stop = Some c /\ c <> e /\ looked <> Some e.
Global Instance stopped_dec stop esc c looked : Decision (stopped stop esc c looked).
Proof.
  refine (match stop, esc with
  | Some s, Some e => if decide (s = c /\ c <> e /\ looked <> Some e) then left _ else right _
  | _, _ => right _
  end).
  all: unfold stopped; first [ naive_solver | intros (? & ? & ? & ? & ?); naive_solver ].
Defined.

Definition fenced_step (stop esc : option char) (o : cursor_op) (t : str) (i : nat) (looked : option char)
  : option char * (str * nat * option char) :=
  match o, t !! i with
  | _, None => (None, (t, i, looked))
  | CPeekMut f, Some c => (Some c, (<[i := f c]> t, i, looked))
  | _, Some c =>
      if decide (stopped stop esc c looked) then (None, (t, i, Some c))
      else let '(r, (t', i')) := cursor_step o t i in (r, (t', i', Some c))
  end.
Fixpoint fenced_run (stop esc : option char) (l : list cursor_op) (t : str) (i : nat) (looked : option char)
  : list (option char) * (str * nat * option char) :=
  match l with
  | [] => ([], (t, i, looked))
  | o :: l' =>
      let '(r, (t', i', looked')) := fenced_step stop esc o t i looked in
      let '(rs, fin) := fenced_run stop esc l' t' i' looked' in (r :: rs, fin)
  end.

(** The last call of the history consumed the char [c]. *)
Definition just_consumed (c : char) (l : list cursor_op) (answers : list (option char)) : Prop :=
  exists l0 o answers0, l = l0 ++ [o] /\ consumes o = true /\ answers = answers0 ++ [Some c].
