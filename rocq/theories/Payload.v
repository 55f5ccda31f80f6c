(** * What [Parser::new_from_text] says when it panics.
    ScriptParser.v models the call up to "it panics"; here the panic keeps the value that
    [Result::unwrap] prints. *)
From Verif Require Import Base Peekables Tree Errors Sets ParserData Vm RuleParsing FirstSets FollowSets SteuerMap ScriptParser DebugFmt.

(** The [unwrap]s of script_parser.rs:96, 103, 104-109 and 111 (an [Err]), and of :105 (no
    element named start). *)
Inductive complaint := AboutText (e : ParserError) | AboutGrammar (e : GrammarError) | AboutStart.

Section payload.
Context {U : Unicode} {H : HashOrder} (m : ovf_mode) (vm : VM).
Notation I := (vm_instr vm).

(** Parser::new_from_text (script_parser.rs:93-117).  [Err] is a panic of one of the
    [unwrap]s of this function; [Panic] is a panic further down. *)
Definition report_from_text (fl : fuels) (rule_text : str) : outcome complaint (Parser I) :=
  let '(r, s) := parse_rules_fn vm (rp_new vm rule_text) in
  let* _u := map_err AboutText r in
  let pd := rp_pd s in
  let* els := get_elements_verbose pd in
  let* first_dict := map_err AboutGrammar (get_first_sets pd (first_fuel fl)) in
  match get_element_nt_index pd (lit "start") with
  | None => Err AboutStart
  | Some start =>
      let* follow_dict := map_err AboutGrammar (get_follow_sets m pd (follow_fuel fl) start first_dict) in
      let* maps := map_err AboutGrammar (get_steuermaps first_dict follow_dict pd) in
      Ok (parser_new vm maps els)
  end.
(** Parser::new_from_parser_data (script_parser.rs:133-146) *)
Definition report_from_parser_data (fl : fuels) (pd : ParserData I) (start_idx : nat) : outcome complaint (Parser I) :=
  let* first_dict := map_err AboutGrammar (get_first_sets pd (first_fuel fl)) in
  let* follow_dict := map_err AboutGrammar (get_follow_sets m pd (follow_fuel fl) start_idx first_dict) in
  let* els := get_elements_verbose pd in
  let* maps := map_err AboutGrammar (get_steuermaps first_dict follow_dict pd) in
  Ok (parser_new vm maps els).
End payload.

(** core::result::unwrap_failed and core::option::unwrap_failed; the error is printed with
    [{:?}]. *)
Definition panic_message {P : Printable} (c : complaint) : str :=
  match c with
  | AboutText e => lit "called `Result::unwrap()` on an `Err` value: " ++ debug_parser_error e
  | AboutGrammar e => lit "called `Result::unwrap()` on an `Err` value: " ++ debug_grammar_error e
  | AboutStart => lit "called `Option::unwrap()` on a `None` value"
  end.
