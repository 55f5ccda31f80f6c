(** * Model of src/parse_funcs.rs *)
From Verif Require Import Base Peekables Errors.

Section parse_funcs.
Context {U : Unicode} {S : Type} (T : TPeek S).

Notation ST A := (st (PP S) ParserError A).

(** parse_whitespace (parse_funcs.rs:11-21) *)
Fixpoint whitespace_loop (fuel : nat) : ST unit := fun p =>
  match fuel with
  | O => (Diverge, p)
  | Datatypes.S f =>
      let '(o, p1) := pp_peek T p in
      match o with
      | None => (Ok tt, p1)
      | Some x =>
          if negb (is_whitespace x) then (Ok tt, p1)
          else let '(_, p2) := pp_next T p1 in whitespace_loop f p2
      end
  end.
Definition parse_whitespace : ST unit := fun p =>
  whitespace_loop (Datatypes.S (pp_size T p)) p.

(** parse_digits (parse_funcs.rs:23-38): [cur_char] is the result of the peek done
    before the loop or at the end of the previous iteration. *)
Fixpoint digits_loop (fuel : nat) (cur_char : option char) (acc : str) : ST str := fun p =>
  match fuel with
  | O => (Diverge, p)
  | Datatypes.S f =>
      match cur_char with
      | None => (Ok acc, p)
      | Some x =>
          if negb (is_ascii_digit x) then (Ok acc, p)
          else
            let pos := cur_pos p in
            let '(o, p1) := pp_next T p in
            match o with
            | None => (Err (EndOfCharsError pos), p1)
            | Some c => let '(cur', p2) := pp_peek T p1 in digits_loop f cur' (acc ++ [c]) p2
            end
      end
  end.
Definition parse_digits : ST str := fun p =>
  let '(cur, p1) := pp_peek T p in
  digits_loop (Datatypes.S (pp_size T p)) cur [] p1.

(** parse_required_digits (parse_funcs.rs:40-55) *)
Definition parse_required_digits : ST str := fun p =>
  let pos := cur_pos p in
  let '(o, p1) := pp_peek T p in
  match o with
  | None => (Err (EndOfCharsError pos), p1)
  | Some c =>
      if negb (is_ascii_digit c)
      then (Err (UnexpectedCharError c (cur_pos p1) (lit "digit expected")), p1)
      else parse_digits p1
  end.

(** parse_usize (parse_funcs.rs:57-64) *)
Definition parse_usize : ST N :=
  do s <- parse_required_digits;
  match str_parse_usize s with
  | Some n => sret n
  | None => sfail Impossible
  end.

(** parse_isize (parse_funcs.rs:66-87) *)
Definition parse_isize : ST Z := fun p =>
  let pos := cur_pos p in
  let '(o, p1) := pp_peek T p in
  match o with
  | None => (Err (EndOfCharsError pos), p1)
  | Some c =>
      let finish (prefix : str) : ST Z :=
        do ds <- parse_required_digits;
        match str_parse_isize (prefix ++ ds) with
        | Some z => sret z
        | None => sfail Impossible
        end in
      if N.eqb c 45 (* '-' *) then
        let '(_, p2) := pp_next T p1 in finish [45%N] p2
      else if negb (is_ascii_digit c)
      then (Err (UnexpectedCharError c (cur_pos p1) (lit "digit or - expected")), p1)
      else finish [] p1
  end.

(** parse_symbol (parse_funcs.rs:88-107) *)
Definition parse_symbol (sym : char) : ST unit := fun p =>
  let '(o, p1) := pp_peek T p in
  match o with
  | Some c =>
      if N.eqb c sym then let '(_, p2) := pp_next T p1 in (Ok tt, p2)
      else (Err (UnexpectedCharError c (cur_pos p1) [sym]), p1)
  | None => (Err (EndOfCharsError (cur_pos p1)), p1)
  end.

(** parse_var_name (parse_funcs.rs:109-135) *)
Fixpoint var_name_loop (fuel : nat) (cur_char : option char) (acc : str) : ST str := fun p =>
  match fuel with
  | O => (Diverge, p)
  | Datatypes.S f =>
      match cur_char with
      | None => (Ok acc, p)
      | Some x =>
          if negb (is_alphanumeric x || N.eqb x 95 (* '_' *)) then (Ok acc, p)
          else
            let '(o, p1) := pp_next T p in
            match o with
            | None => (Err (EndOfCharsError (cur_pos p1)), p1)
            | Some c => let '(cur', p2) := pp_peek T p1 in var_name_loop f cur' (acc ++ [c]) p2
            end
      end
  end.
Definition parse_var_name : ST str := fun p =>
  let pos := cur_pos p in
  let '(o, p1) := pp_peek T p in
  match o with
  | None => (Err (EndOfCharsError pos), p1)
  | Some c =>
      if negb (is_alphabetic c)
      then (Err (UnexpectedCharError c (cur_pos p1) (lit "alphabetic character")), p1)
      else
        let '(_, p2) := pp_next T p1 in
        let '(cur, p3) := pp_peek T p2 in
        var_name_loop (Datatypes.S (pp_size T p)) cur [c] p3
  end.
End parse_funcs.
