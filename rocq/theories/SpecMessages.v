(** * Specification for C92: the wording of messages, as format strings. *)
From Verif Require Import Base Tree Errors Sets SpecText Display DebugFmt.

(** A Coq string literal holds UTF-8 bytes; the chars below U+0800. *)
Fixpoint utf8 (bs : list N) : str :=
  match bs with
  | [] => []
  | b :: bs' => if (b <? 128)%N then b :: utf8 bs'
                else match bs' with b' :: bs'' => ((b - 192) * 64 + (b' - 128))%N :: utf8 bs'' | [] => [] end
  end.
(** Each [{}] of the format stands for the next argument. *)
Fixpoint fill_chars (f : str) (args : list str) : str :=
  match f with
  | 123%N :: ((125%N :: f') as f1) => match args with a :: args' => a ++ fill_chars f' args' | [] => 123%N :: fill_chars f1 [] end
  | c :: f' => c :: fill_chars f' args
  | [] => []
  end.
Definition fill (f : string) (args : list str) : str := fill_chars (utf8 (lit f)) args.

(** [{}] of a number *)
Definition num (n : nat) : str := decimal (N.of_nat n).

(** What [{}] prints (errors.rs, tree.rs, named_graph.rs, sets.rs): *)
Definition parser_message (e : ParserError) : str :=
  match e with
  | UnexpectedCharError c pos ex => fill " ""{}"" at pos {} was not expected. Expected {}" [[c]; num pos; ex]
  | EndOfCharsError pos => fill "There was a char expected but there was none at pos {}" [num pos]
  | UnknownSpecialOperation op pos => fill " ""{}"" at pos {} was not expected" [op; num pos]
  | GramError _ => fill "There was a Grammar error" []
  | Impossible => fill "This error should not be possible" []
  | InternalError _ | InternalNoAction _ => fill "There was an internal error" []
  | VmError _ => fill "There was a VM error" []
  | PTreeError _ => fill "There was a treeerror" []
  end.
Definition reason_message (r : reason) : str :=
  match r with
  | ReasonEmptyWithOthers => fill "Leereelemente für leere Menge darf nicht mit anderen Elementen zusammen stehen" []
  | ReasonNoElements => fill "Es wurden keine Elemente gefunden. Es müssen aber welche gefunden werden oder es muss das Symbol für leere Menge genutzt werden (#)" []
  end.
Definition grammar_message (e : GrammarError) : str :=
  match e with
  | MissingFollowSet i => fill " ""{}"" has no followset" [num i]
  | MissingElementForIndex i => fill " ""{}"" has no entry in elements" [num i]
  | MissingFirstSet i => fill " ""{}"" has no firstset" [num i]
  | MissingSteuerSet i => fill " ""{}"" has no steuerset" [num i]
  | MissingProduction i => fill " ""{}"" not in productions" [num i]
  | SteuerSetsNotDistinct _ _ _ => fill "steuersets not distinct" []
  | UnexpectedElementError why pos => fill " ""{}"" at pos {} was not expected" [reason_message why; num pos]
  | GraphNodeAlreadyExistsError _ => fill "graph node already exists" []
  | GraphNodeDoesNotExistsError _ => fill "graph node doesn't exists" []
  | GraphIndexOutOfBounds _ => fill "graph node index out of bounds" []
  end.
Definition node_id_message (id : NodeId) : str := fill "ptr_in_arr:{}, pk:{}" [num (node_ptr id); num (node_pk id)].
Definition tree_message (e : TreeError) : str :=
  match e with
  | NodeDoesNotExist id => fill "{} does not exists" [node_id_message id]
  | NodeWasRemoved id => fill "{} was removed" [node_id_message id]
  | ChildDoesNotExists nth => fill "{} does not exist" [num nth]
  end.
Definition graph_message (e : GraphError) : str :=
  match e with
  | GNodeAlreadyExistsError n => fill "Node with the name ""{}"" already exists" [n]
  | GNodeDoesNotExistsError n => fill "Node ""{}"" does not exist" [n]
  | GIndexOutOfBounds i => fill "Index ""{}"" out of bounds" [num i]
  end.
Definition member_message (x : SetMember) : str := match x with MChar c => fill "'{}'" [[c]] | MTerminate => fill "terminate" [] end.
Definition member_e_message (x : SetMemberWithEmpty) : str :=
  match x with EChar c => fill "'{}'" [[c]] | EEmpty => fill "empty" [] | ETerminate => fill "terminate" [] end.

(** What [{:?}] prints; [quoted] and [quoted_char] are [{:?}] of String and char. *)
Section debug.
Context {P : Printable}.
Notation quoted := debug_str.
Notation quoted_char := debug_char.
Definition node_id_debug (id : NodeId) : str := fill "NodeId { node_ptr: {}, node_pk: {} }" [num (node_ptr id); num (node_pk id)].
Definition tree_error_debug (e : TreeError) : str :=
  match e with
  | NodeDoesNotExist id => fill "NodeDoesNotExist { node_id: {} }" [node_id_debug id]
  | NodeWasRemoved id => fill "NodeWasRemoved { node_id: {} }" [node_id_debug id]
  | ChildDoesNotExists n => fill "ChildDoesNotExists { child_nth: {} }" [num n]
  end.
Definition graph_error_debug (e : GraphError) : str :=
  match e with
  | GNodeAlreadyExistsError n => fill "NodeAlreadyExistsError { node_name: {} }" [quoted n]
  | GNodeDoesNotExistsError n => fill "NodeDoesNotExistsError { node_name: {} }" [quoted n]
  | GIndexOutOfBounds i => fill "IndexOutOfBounds { index: {} }" [num i]
  end.
Definition grammar_error_debug (e : GrammarError) : str :=
  match e with
  | MissingFollowSet i => fill "MissingFollowSet { index: {} }" [num i]
  | MissingElementForIndex i => fill "MissingElementForIndex { index: {} }" [num i]
  | MissingFirstSet i => fill "MissingFirstSet { index: {} }" [num i]
  | MissingSteuerSet i => fill "MissingSteuerSet { index: {} }" [num i]
  | MissingProduction i => fill "MissingProduction { index: {} }" [num i]
  | SteuerSetsNotDistinct t c k => fill "SteuerSetsNotDistinct { steuer_terminal: {}, steuer_char: {}, rule_name: {} }" [quoted t; quoted_char c; quoted (num k)]
  | UnexpectedElementError why pos => fill "UnexpectedElementError { reason: {}, pos: {} }" [quoted (reason_message why); num pos]
  | GraphNodeAlreadyExistsError n => fill "GraphNodeAlreadyExistsError { node_name: {} }" [num n]
  | GraphNodeDoesNotExistsError n => fill "GraphNodeDoesNotExistsError { node_name: {} }" [num n]
  | GraphIndexOutOfBounds i => fill "GraphIndexOutOfBounds { index: {} }" [num i]
  end.
Definition parser_error_debug (e : ParserError) : str :=
  match e with
  | UnexpectedCharError c pos ex => fill "UnexpectedCharError { chr: {}, pos: {}, expected: {} }" [quoted_char c; num pos; quoted ex]
  | EndOfCharsError pos => fill "EndOfCharsError { pos: {} }" [num pos]
  | GramError err => fill "GramError { err: {} }" [grammar_error_debug err]
  | UnknownSpecialOperation op pos => fill "UnknownSpecialOperation { operation: {}, pos: {} }" [quoted op; num pos]
  | Impossible => fill "Impossible" []
  | InternalError k => fill "InternalError { message: {} }" [quoted (fill "could not find production for index {}" [num k])]
  | InternalNoAction k => fill "InternalError { message: {} }" [quoted (fill "keine Action vorhandne für {}" [num k])]
  | VmError msg => fill "VmError { message: {} }" [quoted msg]
  | PTreeError err => fill "TreeError { err: {} }" [tree_error_debug err]
  end.
Definition option_debug {A} (f : A -> str) (o : option A) : str := match o with Some x => fill "Some({})" [f x] | None => fill "None" [] end.
Definition node_debug {T} (f : T -> str) (n : Node T) : str :=
  fill "Node { parent: {}, previous_sibling: {}, next_sibling: {}, first_child: {}, last_child: {}, pk: {}, data: {} }"
    [option_debug num (n_parent n); option_debug num (n_prev n); option_debug num (n_next n); option_debug num (n_first n); option_debug num (n_last n); num (n_pk n); f (n_data n)].
Fixpoint commas (l : list str) : str := match l with [] => [] | [x] => x | x :: l' => fill "{}, {}" [x; commas l'] end.
Definition list_debug (l : list str) : str := fill "[{}]" [commas l].
Definition tree_debug {T} (f : T -> str) (t : Tree T) : str :=
  fill "Tree { nodes: {}, free_node_indexes: {}, counter: {} }" [list_debug (map (node_debug f) (t_nodes t)); list_debug (map num (t_free t)); num (t_counter t)].
End debug.
