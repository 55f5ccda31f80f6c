(** * Specifications for the text layer (no reference to the model's helpers). *)
From stdpp Require Import pretty.
From Verif Require Import Base.

(** ** A cursor: a text and an index into it. *)
Inductive cursor_op :=
| CNext                          (* next() *)
| CPeek                          (* peek() *)
| CPeekMut (f : char -> char)    (* overwrite the next char through peek_mut() *)
| CNextIf (f : char -> bool)     (* next_if(f) *)
| CNextIfEq (c : char).          (* next_if_eq(c) *)

(** State: text (only [CPeekMut] changes it) and number of chars consumed. *)
Definition cursor_step (o : cursor_op) (t : str) (i : nat) : option char * (str * nat) :=
  match o, t !! i with
  | CNext, Some c => (Some c, (t, i + 1))
  | CPeek, Some c => (Some c, (t, i))
  | CPeekMut f, Some c => (Some c, (<[i := f c]> t, i))
  | CNextIf f, Some c => if f c then (Some c, (t, i + 1)) else (None, (t, i))
  | CNextIfEq e, Some c => if decide (e = c) then (Some c, (t, i + 1)) else (None, (t, i))
  | _, None => (None, (t, i))
  end.
Fixpoint cursor_run (l : list cursor_op) (t : str) (i : nat) : list (option char) * (str * nat) :=
  match l with
  | [] => ([], (t, i))
  | o :: l' =>
      let '(r, (t', i')) := cursor_step o t i in
      let '(rs, fin) := cursor_run l' t' i' in (r :: rs, fin)
  end.

(** ** Text in front of an unescaped stop char.
    [body] is what a process with stop char [s] and escape char [e] may deliver of
    the text [body ++ rest]: every [s] in [body] directly follows an [e], and the
    text ends or goes on with an [s] that does not follow an [e]. *)
Definition stops_between (s e : char) (body rest : str) : Prop :=
  (forall i, body !! i = Some s -> exists j, i = S j /\ body !! j = Some e) /\
  (rest = [] \/ (head rest = Some s /\ last body <> Some e)).

(** The chars consumed in a history of calls: the answers that are a char, to calls that are
    not peeks. *)
Definition consumes (o : cursor_op) : bool := match o with CPeek | CPeekMut _ => false | _ => true end.
Fixpoint consumed (l : list cursor_op) (answers : list (option char)) : str :=
  match l, answers with
  | o :: l', Some c :: rs => if consumes o then c :: consumed l' rs else consumed l' rs
  | _ :: l', None :: rs => consumed l' rs
  | _, _ => []
  end.
Definition overwrites (o : cursor_op) : Prop := match o with CPeekMut _ => True | _ => False end.

(** ** Decimal numbers *)
Definition digit_char (c : char) : Prop := (48 <= c <= 57)%N.
(** value of a digit string, most significant digit first *)
Definition dec_value (ds : str) : N := foldl (fun a c => a * 10 + (c - 48))%N 0%N ds.
(** the usual decimal rendering without leading zeros *)
Definition decimal (n : N) : str := lit (pretty n).
Definition decimal_z (z : Z) : str :=
  if (z <? 0)%Z then 45%N :: decimal (Z.to_N (- z)) else decimal (Z.to_N z).

(** A text does not start with a char satisfying [P]. *)
Definition not_starting (P : char -> Prop) (w : str) : Prop :=
  match w with [] => True | c :: _ => ~ P c end.

(** ** The inside of a quoted terminal: plain chars, or a backslash and any char. *)
Inductive quoted_body : str -> Prop :=
| qb_nil : quoted_body []
| qb_plain c b : c <> 34%N (* quote *) -> c <> 92%N (* backslash *) ->
    quoted_body b -> quoted_body (c :: b)
| qb_esc d b : quoted_body b -> quoted_body (92%N :: d :: b).

(** Text with no closing quote. *)
Definition unterminated (w : str) : Prop :=
  quoted_body w \/ exists b, quoted_body b /\ w = b ++ [92%N].
