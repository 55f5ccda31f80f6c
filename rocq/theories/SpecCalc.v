(** * Specification for C65: what a calculator does with a text that is not a program. *)
From Verif Require Import Base Errors SpecText SpecScript SpecVm SpecRpn.

Definition is_number (i : item) : Prop := match i with Num _ => True | _ => False end.
(** Items with a space behind each. *)
Definition each_spaced (l : list item) : str := concat (map (fun i => item_text i ++ lit " ") l).
(** [broken l ds read rest]: the text [read ++ rest] cannot be continued to a program
    behind [read].  The complete items are [l]; [ds] are the digits of a number that is not
    ended by a space or the end of the text. *)
Inductive broken : list item -> str -> str -> str -> Prop :=
(* no item begins here; the first [k] letters of "print" may have been there *)
| br_item l k rest : Forall good_item l -> k < 5 -> lit "print" !! k <> head rest ->
    (forall c rest', k = 0 -> rest = c :: rest' -> ~ digit_char c /\ [c] <> lit "+" /\ [c] <> lit "-") ->
    broken l [] (each_spaced l ++ take k (lit "print")) rest
(* a number with something other than a space behind it *)
| br_number l ds c rest : Forall good_item l -> ds <> [] -> Forall digit_char ds -> ~ digit_char c -> [c] <> lit " " ->
    broken l ds (each_spaced l ++ ds) (c :: rest)
(* another item with something other than a space behind it *)
| br_after l i c rest : Forall good_item l -> good_item i -> ~ is_number i -> [c] <> lit " " ->
    broken (l ++ [i]) [] (each_spaced l ++ item_text i) (c :: rest).
(** The digits of the unfinished number are on the stack, a 1 on top of each. *)
Definition unfinished (ds : str) (s : mach) : mach :=
  fold_left (fun s c => stacked s (1%Z :: digit c :: stack s)) ds s.
(** The error names the first char that was not read, and its position; at the end of the
    text there is no such char and '#' may be named instead. *)
Definition names_place (read rest : str) (e : ParserError) : Prop :=
  match rest with
  | c :: _ => exists expected, e = UnexpectedCharError c (length read) expected
  | [] => e = EndOfCharsError (length read) \/ exists expected, e = UnexpectedCharError 35%N (length read) expected
  end.

(** ** C66: several texts, one after the other, with the same state of the VM.  Each begins
    where the last one, accepted or not, left the machine; a panic ends the session. *)
Inductive reply := Accepted | Refused (e : ParserError).
Inductive session (m : ovf_mode) (lo : Z) : list str -> mach -> list reply -> option mach -> Prop :=
| ses_end s : session m lo [] s [] (Some s)
| ses_program text l texts s s1 rs r : program l text -> does_all m lo l s (Some s1) ->
    session m lo texts s1 rs r -> session m lo (text :: texts) s (Accepted :: rs) r
| ses_broken l ds read rest texts s s1 e rs r : broken l ds read rest -> does_all m lo l s (Some s1) -> names_place read rest e ->
    session m lo texts (unfinished ds s1) rs r -> session m lo ((read ++ rest) :: texts) s (Refused e :: rs) r
| ses_panic text l texts s : program l text -> does_all m lo l s None -> session m lo (text :: texts) s [] None
| ses_broken_panic l ds read rest texts s : broken l ds read rest -> does_all m lo l s None ->
    session m lo ((read ++ rest) :: texts) s [] None.
