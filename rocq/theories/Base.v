(** * Base: data shared by every model file.

    Everything here is a model of Rust language features, not of repository
    code: results, panics, divergence, characters, strings, machine integers. *)
From stdpp Require Export gmap list strings.
From Coq Require Export NArith ZArith Lia.
From Coq Require Import Ascii.
#[global] Open Scope nat_scope.

(** ** Results.
    A Rust function that returns [Result<A, E>] can return [Ok] or [Err], can
    panic (index out of bounds, [unwrap] on [None]/[Err], checked overflow) or
    can fail to return at all.  [Panic] and [Diverge] are explicit values.
    [Diverge] is produced only when a loop or a recursion exhausts the fuel it
    was given; the theorems exclude it or talk about it explicitly. *)
Inductive outcome (E A : Type) : Type :=
| Ok (a : A)
| Err (e : E)
| Panic
| Diverge.
Arguments Ok {E A} a.
Arguments Err {E A} e.
Arguments Panic {E A}.
Arguments Diverge {E A}.

Definition obind {E A B} (m : outcome E A) (k : A -> outcome E B) : outcome E B :=
  match m with
  | Ok a => k a
  | Err e => Err e
  | Panic => Panic
  | Diverge => Diverge
  end.

Notation "'let*' x := m 'in' k" := (obind m (fun x => k))
  (at level 200, x name, m at level 100, k at level 200).
Notation "'let*' ' p := m 'in' k" := (obind m (fun p => k))
  (at level 200, p strict pattern, m at level 100, k at level 200).

(** Rust [Result::unwrap]: an [Err] becomes a panic. *)
Definition unwrap {E E' A} (m : outcome E A) : outcome E' A :=
  match m with
  | Ok a => Ok a
  | Err _ => Panic
  | Panic => Panic
  | Diverge => Diverge
  end.

(** Rust [?] with a [From] conversion of the error. *)
Definition map_err {E E' A} (f : E -> E') (m : outcome E A) : outcome E' A :=
  match m with
  | Ok a => Ok a
  | Err e => Err (f e)
  | Panic => Panic
  | Diverge => Diverge
  end.

Definition is_ok {E A} (m : outcome E A) : bool :=
  match m with Ok _ => true | _ => false end.

(** ** Stateful functions ([&mut] arguments): the new state is returned next to
    the result, also when the result is [Err] (Rust does not roll back). *)
Definition st (S E A : Type) : Type := S -> outcome E A * S.

Definition sret {S E A} (a : A) : st S E A := fun s => (Ok a, s).
Definition sfail {S E A} (e : E) : st S E A := fun s => (Err e, s).
Definition sbind {S E A B} (m : st S E A) (k : A -> st S E B) : st S E B :=
  fun s =>
    match m s with
    | (Ok a, s') => k a s'
    | (Err e, s') => (Err e, s')
    | (Panic, s') => (Panic, s')
    | (Diverge, s') => (Diverge, s')
    end.

Notation "'do' x <- m ; k" := (sbind m (fun x => k))
  (at level 200, x name, m at level 100, k at level 200, right associativity).
Notation "'do' ' p <- m ; k" := (sbind m (fun p => k))
  (at level 200, p strict pattern, m at level 100, k at level 200, right associativity).

(** ** Characters and strings.
    A Rust [char] is a Unicode scalar value; here any [N].  A [str]/[String] is
    the list of its chars: the repository only ever looks at strings through
    [chars()], [push], equality and hashing, never at bytes. *)
Notation char := N (only parsing).
Notation str := (list N) (only parsing).

(** String literals of the source: ASCII only. *)
Definition lit (s : string) : str :=
  map (fun a => N_of_ascii a) (list_ascii_of_string s).
Definition chr (a : ascii) : char := N_of_ascii a.

(** [char::is_whitespace], [char::is_alphabetic], [char::is_alphanumeric] are
    the standard library's: exact on ASCII, and table lookups above U+007F.  The
    tables are the three fields of [Unicode]; every theorem holds for any
    contents of them. *)
Class Unicode := {
  uni_white : char -> bool;
  uni_alpha : char -> bool;
  uni_numeric : char -> bool;
}.

Definition in_range (lo hi c : N) : bool := N.leb lo c && N.leb c hi.

(* char::is_ascii_digit *)
Definition is_ascii_digit (c : char) : bool := in_range 48 57 c.
Definition is_ascii_alpha (c : char) : bool := in_range 97 122 c || in_range 65 90 c.

(* char::is_whitespace: ' ' | '\x09'..='\x0d' | c > '\x7f' && table *)
Definition is_whitespace {U : Unicode} (c : char) : bool :=
  N.eqb c 32 || in_range 9 13 c || (N.ltb 127 c && uni_white c).
(* char::is_alphabetic: 'a'..='z' | 'A'..='Z' | c > '\x7f' && table *)
Definition is_alphabetic {U : Unicode} (c : char) : bool :=
  is_ascii_alpha c || (N.ltb 127 c && uni_alpha c).
(* char::is_numeric: '0'..='9' | c > '\x7f' && table *)
Definition is_numeric {U : Unicode} (c : char) : bool :=
  is_ascii_digit c || (N.ltb 127 c && uni_numeric c).
(* char::is_alphanumeric = is_alphabetic || is_numeric *)
Definition is_alphanumeric {U : Unicode} (c : char) : bool :=
  is_alphabetic c || is_numeric c.

(** ** Machine integers: 64-bit target.
    [usize] = u64 and [isize] = i64.  Arithmetic overflow panics in a debug build
    ([Checked]) and wraps in a release build ([Wrapping]); the arithmetic that
    can overflow takes the mode as an argument. *)
Inductive ovf_mode := Checked | Wrapping.

Definition usize_bound : N := 2 ^ 64.
Definition isize_min : Z := (- 2 ^ 63)%Z.
Definition isize_max : Z := (2 ^ 63 - 1)%Z.

(** The exact result of a [usize] operation, given its mathematical value. *)
Definition usize_result {E} (m : ovf_mode) (z : Z) : outcome E N :=
  if (0 <=? z)%Z && (z <? 2 ^ 64)%Z then Ok (Z.to_N z)
  else match m with
       | Checked => Panic
       | Wrapping => Ok (Z.to_N (z mod 2 ^ 64))
       end.

(** Two's complement reinterpretation of an integer as an [isize] ([as isize],
    and the wrapped result of an [isize] operation). *)
Definition wrap_isize (z : Z) : Z := ((z + 2 ^ 63) mod 2 ^ 64 - 2 ^ 63)%Z.

Definition isize_result {E} (m : ovf_mode) (z : Z) : outcome E Z :=
  if (isize_min <=? z)%Z && (z <=? isize_max)%Z then Ok z
  else match m with
       | Checked => Panic
       | Wrapping => Ok (wrap_isize z)
       end.

(** ** [str::parse::<usize>] and [str::parse::<isize>] (core::num, radix 10).
    Empty input and a lone sign are errors; a leading ['+'] is accepted; ['-'] is
    accepted only for the signed type; any other non-digit and any value out of
    range is an error. *)
Fixpoint digits_value (acc : N) (s : str) : option N :=
  match s with
  | [] => Some acc
  | c :: s' => if is_ascii_digit c then digits_value (acc * 10 + (c - 48))%N s' else None
  end.

Definition parse_digits_str (s : str) : option N :=
  match s with [] => None | _ => digits_value 0 s end.

Definition str_parse_usize (s : str) : option N :=
  let body := match s with
              | c :: d :: r => if N.eqb c 43 then d :: r else s
              | _ => s
              end in
  match parse_digits_str body with
  | Some n => if (n <? usize_bound)%N then Some n else None
  | None => None
  end.

Definition str_parse_isize (s : str) : option Z :=
  let '(neg, body) := match s with
                      | c :: d :: r => if N.eqb c 43 then (false, d :: r)
                                       else if N.eqb c 45 then (true, d :: r)
                                       else (false, s)
                      | _ => (false, s)
                      end in
  match parse_digits_str body with
  | Some n =>
      let z := if neg : bool then (- Z.of_N n)%Z else Z.of_N n in
      if (isize_min <=? z)%Z && (z <=? isize_max)%Z then Some z else None
  | None => None
  end.

(** ** Hash iteration order.
    Iterating over a [HashMap] or [HashSet] visits every entry once in an order
    fixed by a random seed.  [ho_iter site l] is the order in which the loop at
    [site] visits the entries [l]; nothing but "it is a permutation" is assumed, and
    every theorem quantifies over it.  A site is the number of the loop in the
    source followed by the indices that tell apart the different collections the
    same loop runs over. *)
Class HashOrder := {
  ho_iter : forall (site : list nat) {A : Type}, list A -> list A;
  ho_perm : forall (site : list nat) (A : Type) (l : list A), ho_iter site l ≡ₚ l;
}.

(** Fold in the [outcome] monad over a list: a [for] loop with [?] inside. *)
Fixpoint ofold {E A B} (f : B -> A -> outcome E B) (b : B) (l : list A) : outcome E B :=
  match l with
  | [] => Ok b
  | a :: l' => let* b' := f b a in ofold f b' l'
  end.
