(** * Model of src/main.rs *)
From Verif Require Import Base Peekables Tree Errors Sets ParserData Vm RuleParsing FirstSets FollowSets SteuerMap ScriptParser.

Section main.
Context {U : Unicode} {H : HashOrder} (m : ovf_mode).
(** main (main.rs:17-29).  The program arguments and the file system are inputs: [read_file]
    gives the content of a file that can be read as UTF-8.  [args[1]], [args[2]], the two
    [expect]s, [new_from_text] and the last [unwrap] can panic.  [Ok tt] is exit status 0.
    Simplifications: the arguments are valid Unicode ([env::args] panics otherwise); the
    file content does not change between the two reads; [fuel] bounds the recursion depth. *)
Definition main (fl : fuels) (fuel : nat) (read_file : str -> option str) (args : list str) : outcome Empty_set unit :=
  match args !! 1 with
  | None => Panic
  | Some rule_path =>
      match args !! 2 with
      | None => Panic
      | Some script_path =>
          match read_file rule_path with
          | None => Panic
          | Some rules =>
              match read_file script_path with
              | None => Panic
              | Some script =>
                  let* parser := new_from_text m NullVm fl rules in
                  let* _graph := unwrap (fst (parse NullVm parser fuel script (vm_new_state NullVm))) in
                  Ok tt
              end
          end
      end
  end.
End main.
