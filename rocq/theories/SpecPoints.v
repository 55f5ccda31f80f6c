(** * Specification of where a malformed rule text is rejected (C67). *)
From Verif Require Import Base Peekables Errors ParserData Vm SpecText SpecRules SpecContract.

(** The text can be continued to a rule text. *)
Definition begins {U : Unicode} {I} (reads : str -> str -> list I -> Prop) (w : str) : Prop :=
  exists rs more, grammar_text reads rs (w ++ more).

(** The error names the char in front of which the reader stands ([rest] is what is left);
    "end" is the end of the text or the brace that ends an instruction section. *)
Definition names_char (e : ParserError) (rest : str) : Prop :=
  match e with
  | UnexpectedCharError c _ _ => head rest = Some c
  | EndOfCharsError _ => rest = [] \/ head rest = Some 125%N
  | _ => True
  end.
(** The one error raised behind the offending char: '#' after other elements. *)
Definition is_hash_error (e : ParserError) : bool :=
  match e with GramError (UnexpectedElementError ReasonEmptyWithOthers _) => true | _ => false end.

(** [b] goes on with the same char as [a] does. *)
Definition same_next (a b : str) : Prop := a <> [] /\ head b = head a.

(** What C67 needs to know of a VM besides [vm_reads]: how far it reads a section is decided
    by the text read and the next char, and what it has read can be continued to a section
    text unless it fails with an error without position. *)
Definition vm_points {U : Unicode} (vm : VM) (reads : str -> str -> list (vm_instr vm) -> Prop) : Prop :=
  forall name w n, not_starting white w -> exists r g pre rest,
    vm_parse_instructions vm (PP str) (pp_tp base_tp) name (brace_process w n) = (r, g) /\
    pp_inner g = mkPP rest (n + length pre) None None false /\ w = pre ++ rest /\
    (forall rest2, same_next rest rest2 -> exists g2,
       vm_parse_instructions vm (PP str) (pp_tp base_tp) name (brace_process (pre ++ rest2) n) = (r, g2) /\
       pp_inner g2 = mkPP rest2 (n + length pre) None None false) /\
    let can := exists more is, not_starting white (pre ++ more) /\ reads name (pre ++ more) is in
    match r with
    | Ok _ => can
    | Err e => (error_position e <> None -> can) /\ names_char e rest /\ is_hash_error e = false
    | Panic | Diverge => False
    end.

(** ** Hints (C77).  What an error suggests in place of the char it complains about. *)
Definition alphabetic_hint : str := lit "alphabetic character".
Definition digit_hint : str := lit "digit expected".
Definition suggests {U : Unicode} (expected : str) (c : char) : Prop :=
  expected = [c] \/ (expected = alphabetic_hint /\ is_alphabetic c = true) \/ (expected = digit_hint /\ digit_char c).
Definition hint_of (e : ParserError) : option str :=
  match e with UnexpectedCharError _ _ expected => Some expected | _ => None end.
Definition hint_known (expected : str) : Prop :=
  (exists c, expected = [c]) \/ expected = alphabetic_hint \/ expected = digit_hint.
(** The hints of a VM are good: what it has read, followed by a char it suggests, can be
    continued to a section text; and where it stops without an error (so that '}' is asked
    for next), a section can end. *)
Definition vm_hints {U : Unicode} (vm : VM) (reads : str -> str -> list (vm_instr vm) -> Prop) : Prop :=
  forall name w n r g pre rest, not_starting white w ->
    vm_parse_instructions vm (PP str) (pp_tp base_tp) name (brace_process w n) = (r, g) ->
    pp_inner g = mkPP rest (n + length pre) None None false -> w = pre ++ rest ->
    match r with
    | Ok _ => rest <> [] -> exists is, reads name pre is
    | Err e => forall expected, hint_of e = Some expected -> hint_known expected /\
        forall c, suggests expected c -> exists more is, not_starting white (pre ++ [c] ++ more) /\ reads name (pre ++ [c] ++ more) is
    | _ => True
    end.
