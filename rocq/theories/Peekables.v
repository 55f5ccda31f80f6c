(** * Model of src/peekables.rs *)
From Verif Require Import Base.

(** trait TPeekable (peekables.rs:10-18), together with its supertrait Iterator.
    A value of a type implementing it is a state [S]; each method takes the state
    and returns the new one ([&mut self]).
    - [tp_peek_mut f] models a caller that obtains the [&mut char] of [peek_mut]
      and overwrites the char with [f c]; it returns the char seen before.
    - [tp_size] is not in Rust.  It is an upper bound on the number of further
      chars, used only as loop fuel (exhausting it gives [Diverge]). *)
Record TPeek (S : Type) := mkTPeek {
  tp_next : S -> option char * S;
  tp_peek : S -> option char * S;
  tp_peek_mut : (char -> char) -> S -> option char * S;
  tp_next_if : (char -> bool) -> S -> option char * S;
  tp_next_if_eq : char -> S -> option char * S;
  tp_size : S -> nat;
}.
Arguments mkTPeek {S}.
Arguments tp_next {S}. Arguments tp_peek {S}. Arguments tp_peek_mut {S}.
Arguments tp_next_if {S}. Arguments tp_next_if_eq {S}. Arguments tp_size {S}.

(** PeekableWrapper<Chars> (peekables.rs:20-77) delegates every method to
    std::iter::Peekable<Chars>.  Simplification: the pair (peeked slot, rest of the
    iterator) is represented by the list of chars still to come. *)
Definition base_next (s : str) : option char * str :=
  match s with [] => (None, []) | c :: s' => (Some c, s') end.
Definition base_peek (s : str) : option char * str :=
  match s with [] => (None, []) | c :: _ => (Some c, s) end.
Definition base_peek_mut (f : char -> char) (s : str) : option char * str :=
  match s with [] => (None, []) | c :: s' => (Some c, f c :: s') end.
Definition base_next_if (f : char -> bool) (s : str) : option char * str :=
  match s with
  | [] => (None, [])
  | c :: s' => if f c then (Some c, s') else (None, s)
  end.
Definition base_next_if_eq (e : char) (s : str) : option char * str :=
  base_next_if (N.eqb e) s.
Definition base_tp : TPeek str :=
  mkTPeek base_next base_peek base_peek_mut base_next_if base_next_if_eq length.

(** struct ParseProcess (peekables.rs:79-88) over an inner peekable of state [S]. *)
Record PP (S : Type) := mkPP {
  pp_inner : S;                (* to_parse *)
  pp_pos : nat;                (* current_position; usize, unbounded here: it
                                  counts chars held in memory *)
  pp_stop : option char;       (* stop_on *)
  pp_esc : option char;        (* escape_char *)
  pp_flag : bool;              (* escape *)
}.
Arguments mkPP {S}. Arguments pp_inner {S}. Arguments pp_pos {S}.
Arguments pp_stop {S}. Arguments pp_esc {S}. Arguments pp_flag {S}.

(** ParseProcess::new (peekables.rs:94-106) *)
Definition pp_new {S} (s : S) (stop esc : option char) : PP S :=
  mkPP s 0 stop esc false.
(** ParseProcess::new_nested (peekables.rs:109-122) *)
Definition pp_new_nested {S} (s : S) (stop esc : option char) (gpos : nat) : PP S :=
  mkPP s gpos stop esc false.
(** ParseProcess::cur_pos (peekables.rs:123-125) *)
Definition cur_pos {S} (p : PP S) : nat := pp_pos p.

Definition set_inner {S} (p : PP S) (s : S) : PP S :=
  mkPP s (pp_pos p) (pp_stop p) (pp_esc p) (pp_flag p).
Definition set_flag {S} (p : PP S) (b : bool) : PP S :=
  mkPP (pp_inner p) (pp_pos p) (pp_stop p) (pp_esc p) b.
Definition bump {S} (p : PP S) : PP S :=
  mkPP (pp_inner p) (pp_pos p + 1) (pp_stop p) (pp_esc p) (pp_flag p).

(** ParseProcess::check_allowed (peekables.rs:186-200) *)
Definition check_allowed {S} (T : TPeek S) (p : PP S) : bool * PP S :=
  let '(next, s') := tp_peek T (pp_inner p) in
  let p' := set_inner p s' in
  match next, pp_esc p, pp_stop p with
  | Some c, Some escape_char, Some stop_char =>
      if N.eqb c escape_char then (true, set_flag p' true)
      else if N.eqb c stop_char && negb (pp_flag p) then (false, p')
      else (true, set_flag p' false)
  | _, _, _ => (true, p')
  end.

(** Iterator::next for ParseProcess (peekables.rs:133-142) *)
Definition pp_next {S} (T : TPeek S) (p : PP S) : option char * PP S :=
  let '(ok, p1) := check_allowed T p in
  if negb ok then (None, p1) else
  let '(res, s') := tp_next T (pp_inner p1) in
  let p2 := set_inner p1 s' in
  match res with Some _ => (res, bump p2) | None => (res, p2) end.

(** peek (peekables.rs:149-154) *)
Definition pp_peek {S} (T : TPeek S) (p : PP S) : option char * PP S :=
  let '(ok, p1) := check_allowed T p in
  if negb ok then (None, p1) else
  let '(res, s') := tp_peek T (pp_inner p1) in
  (res, set_inner p1 s').

(** peek_mut (peekables.rs:156-158): no check_allowed *)
Definition pp_peek_mut {S} (T : TPeek S) (f : char -> char) (p : PP S) : option char * PP S :=
  let '(res, s') := tp_peek_mut T f (pp_inner p) in (res, set_inner p s').

(** next_if (peekables.rs:159-168) *)
Definition pp_next_if {S} (T : TPeek S) (f : char -> bool) (p : PP S) : option char * PP S :=
  let '(ok, p1) := check_allowed T p in
  if negb ok then (None, p1) else
  let '(res, s') := tp_next_if T f (pp_inner p1) in
  let p2 := set_inner p1 s' in
  match res with Some _ => (res, bump p2) | None => (res, p2) end.

(** next_if_eq (peekables.rs:170-179) *)
Definition pp_next_if_eq {S} (T : TPeek S) (e : char) (p : PP S) : option char * PP S :=
  let '(ok, p1) := check_allowed T p in
  if negb ok then (None, p1) else
  let '(res, s') := tp_next_if_eq T e (pp_inner p1) in
  let p2 := set_inner p1 s' in
  match res with Some _ => (res, bump p2) | None => (res, p2) end.

Definition pp_size {S} (T : TPeek S) (p : PP S) : nat := tp_size T (pp_inner p).

(** impl TPeekable for ParseProcess (peekables.rs:145-180): a process over a
    process, as used for the text between braces in a rule. *)
Definition pp_tp {S} (T : TPeek S) : TPeek (PP S) :=
  mkTPeek (pp_next T) (pp_peek T) (pp_peek_mut T) (pp_next_if T) (pp_next_if_eq T)
          (pp_size T).
