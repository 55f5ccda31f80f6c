(** * Model of the Display implementations: the texts a user sees *)
From Verif Require Import Base Tree Errors Sets SpecText.

(** [{}] of usize: decimal without leading zeros.  [{}] of char: the char. *)
Definition show_usize (n : nat) : str := decimal (N.of_nat n).

(** Display of NodeId (tree.rs:18-27) *)
Definition show_node_id (id : NodeId) : str := lit "ptr_in_arr:" ++ show_usize (node_ptr id) ++ lit ", pk:" ++ show_usize (node_pk id).
(** Display of TreeError (tree.rs:302-310) *)
Definition show_tree_error (e : TreeError) : str :=
  match e with
  | NodeDoesNotExist id => show_node_id id ++ lit " does not exists"
  | NodeWasRemoved id => show_node_id id ++ lit " was removed"
  | ChildDoesNotExists nth => show_usize nth ++ lit " does not exist"
  end.

(** GraphError (named_graph.rs:18-23) and its Display (named_graph.rs:27-39) *)
Inductive GraphError :=
| GNodeAlreadyExistsError (node_name : str)
| GNodeDoesNotExistsError (node_name : str)
| GIndexOutOfBounds (index : nat).
Definition show_graph_error (e : GraphError) : str :=
  match e with
  | GNodeAlreadyExistsError n => lit "Node with the name """ ++ n ++ lit """ already exists"
  | GNodeDoesNotExistsError n => lit "Node """ ++ n ++ lit """ does not exist"
  | GIndexOutOfBounds i => lit "Index """ ++ show_usize i ++ lit """ out of bounds"
  end.

(** The reason texts (rule_parsing.rs:267-269, 291-293); 252 is u-umlaut. *)
Definition reason_text (r : reason) : str :=
  match r with
  | ReasonEmptyWithOthers => lit "Leereelemente f" ++ [252%N] ++ lit "r leere Menge darf nicht mit anderen Elementen zusammen stehen"
  | ReasonNoElements => lit "Es wurden keine Elemente gefunden. Es m" ++ [252%N] ++ lit "ssen aber welche gefunden werden oder es muss das Symbol f" ++ [252%N] ++ lit "r leere Menge genutzt werden (#)"
  end.
(** Display of GrammarError (errors.rs:120-152) *)
Definition show_grammar_error (e : GrammarError) : str :=
  match e with
  | MissingFollowSet i => lit " """ ++ show_usize i ++ lit """ has no followset"
  | MissingElementForIndex i => lit " """ ++ show_usize i ++ lit """ has no entry in elements"
  | MissingFirstSet i => lit " """ ++ show_usize i ++ lit """ has no firstset"
  | MissingSteuerSet i => lit " """ ++ show_usize i ++ lit """ has no steuerset"
  | MissingProduction i => lit " """ ++ show_usize i ++ lit """ not in productions"
  | SteuerSetsNotDistinct _ _ _ => lit "steuersets not distinct"
  | UnexpectedElementError why pos => lit " """ ++ reason_text why ++ lit """ at pos " ++ show_usize pos ++ lit " was not expected"
  | GraphNodeAlreadyExistsError _ => lit "graph node already exists"
  | GraphNodeDoesNotExistsError _ => lit "graph node doesn't exists"
  | GraphIndexOutOfBounds _ => lit "graph node index out of bounds"
  end.
(** Display of ParserError (errors.rs:44-67) *)
Definition show_parser_error (e : ParserError) : str :=
  match e with
  | UnexpectedCharError c pos expected =>
      lit " """ ++ [c] ++ lit """ at pos " ++ show_usize pos ++ lit " was not expected. Expected " ++ expected
  | EndOfCharsError pos => lit "There was a char expected but there was none at pos " ++ show_usize pos
  | UnknownSpecialOperation op pos => lit " """ ++ op ++ lit """ at pos " ++ show_usize pos ++ lit " was not expected"
  | GramError _ => lit "There was a Grammar error"
  | Impossible => lit "This error should not be possible"
  | InternalError _ | InternalNoAction _ => lit "There was an internal error"
  | VmError _ => lit "There was a VM error"
  | PTreeError _ => lit "There was a treeerror"
  end.

(** Display of SetMemberWithEmpty and SetMember (sets.rs:17-31, 49-60) *)
Definition show_member_e (x : SetMemberWithEmpty) : str :=
  match x with
  | EChar c => lit "'" ++ [c] ++ lit "'"
  | EEmpty => lit "empty"
  | ETerminate => lit "terminate"
  end.
Definition show_member (x : SetMember) : str :=
  match x with
  | MChar c => lit "'" ++ [c] ++ lit "'"
  | MTerminate => lit "terminate"
  end.

