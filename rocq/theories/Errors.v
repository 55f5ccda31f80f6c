(** * Model of src/errors.rs *)
From Verif Require Import Base Tree.

(** The two German reason texts used in rule_parsing.rs:267-269 and 291-293. *)
Inductive reason := ReasonEmptyWithOthers | ReasonNoElements.

(** enum GrammarError (errors.rs:81-116).  Indices are [nat]. *)
Inductive GrammarError :=
| MissingFollowSet (index : nat)
| MissingElementForIndex (index : nat)
| MissingFirstSet (index : nat)
| MissingSteuerSet (index : nat)
| MissingProduction (index : nat)
| SteuerSetsNotDistinct (steuer_terminal : str) (steuer_char : char) (rule_index : nat)
    (* the field rule_name is the decimal rendering of the rule index *)
| UnexpectedElementError (why : reason) (pos : nat)
| GraphNodeAlreadyExistsError (node_name : nat)
| GraphNodeDoesNotExistsError (node_name : nat)
| GraphIndexOutOfBounds (index : nat).

(** enum ParserError (errors.rs:13-40) *)
Inductive ParserError :=
| UnexpectedCharError (c : char) (pos : nat) (expected : str)
| EndOfCharsError (pos : nat)
| GramError (err : GrammarError)
| UnknownSpecialOperation (operation : str) (pos : nat)
| Impossible
| InternalError (index : nat)
    (* with the message of rule_parsing.rs:389, which names this index *)
| VmError (message : str)
| PTreeError (err : TreeError)
| InternalNoAction (index : nat)
    (* also the variant InternalError, with the message of rule_parsing.rs:95 *).
