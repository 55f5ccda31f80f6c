(** * Model of the derived Debug implementations ([{:?}]) of the error types and of trees *)
From Verif Require Import Base Tree Errors Display SpecText.
From Coq Require Import Hexadecimal HexadecimalN.

(** The standard library's table behind [char::escape_debug]: which chars above U+007E are
    printed as they are (printable and not grapheme-extending).  Theorems hold for any table. *)
Class Printable := { uni_plain : char -> bool }.

Section debug.
Context {P : Printable}.

(** [{:x}] of u32: lower-case hexadecimal without leading zeros *)
Fixpoint hex_chars (u : Hexadecimal.uint) : str :=
  match u with
  | Nil => []
  | D0 u => 48%N :: hex_chars u | D1 u => 49%N :: hex_chars u | D2 u => 50%N :: hex_chars u | D3 u => 51%N :: hex_chars u
  | D4 u => 52%N :: hex_chars u | D5 u => 53%N :: hex_chars u | D6 u => 54%N :: hex_chars u | D7 u => 55%N :: hex_chars u
  | D8 u => 56%N :: hex_chars u | D9 u => 57%N :: hex_chars u | Da u => 97%N :: hex_chars u | Db u => 98%N :: hex_chars u
  | Dc u => 99%N :: hex_chars u | Dd u => 100%N :: hex_chars u | De u => 101%N :: hex_chars u | Df u => 102%N :: hex_chars u
  end.
Definition show_hex (n : N) : str := hex_chars (N.to_hex_uint n).

(** core::char::methods::escape_debug_ext; [q] is the quote to escape (39 for a char, 34 for
    a str). *)
Definition escape_debug (q c : char) : str :=
  if (c =? 0)%N then lit "\0"
  else if (c =? 9)%N then lit "\t"
  else if (c =? 13)%N then lit "\r"
  else if (c =? 10)%N then lit "\n"
  else if (c =? 92)%N then lit "\\"
  else if (c =? q)%N then [92%N; c]
  else if in_range 32 126 c || ((126 <? c)%N && uni_plain c) then [c]
  else lit "\u{" ++ show_hex c ++ lit "}".

(** Debug of char, str and String, usize (and AtomicUsize), Option, Vec (core, alloc) *)
Definition debug_char (c : char) : str := lit "'" ++ escape_debug 39 c ++ lit "'".
Definition debug_str (s : str) : str := lit """" ++ concat (map (escape_debug 34) s) ++ lit """".
Definition debug_usize (n : nat) : str := show_usize n.
Definition debug_option {A} (f : A -> str) (o : option A) : str :=
  match o with None => lit "None" | Some x => lit "Some(" ++ f x ++ lit ")" end.
Fixpoint debug_items {A} (f : A -> str) (l : list A) : str :=
  match l with
  | [] => []
  | [x] => f x
  | x :: l' => f x ++ lit ", " ++ debug_items f l'
  end.
Definition debug_list {A} (f : A -> str) (l : list A) : str := lit "[" ++ debug_items f l ++ lit "]".

(** #[derive(Debug)] of a struct or struct-like variant: [Name { f1: v1, f2: v2 }] *)
Fixpoint debug_fields (l : list (str * str)) : str :=
  match l with
  | [] => []
  | [(f, v)] => f ++ lit ": " ++ v
  | (f, v) :: l' => f ++ lit ": " ++ v ++ lit ", " ++ debug_fields l'
  end.
Definition debug_struct (name : string) (fields : list (string * str)) : str :=
  lit name ++ lit " { " ++ debug_fields (map (fun fv => (lit fv.1, fv.2)) fields) ++ lit " }".

(** Debug of NodeId (tree.rs:8-12) and TreeError (tree.rs:293-298) *)
Definition debug_node_id (id : NodeId) : str :=
  debug_struct "NodeId" [("node_ptr", debug_usize (node_ptr id)); ("node_pk", debug_usize (node_pk id))]%string.
Definition debug_tree_error (e : TreeError) : str :=
  match e with
  | NodeDoesNotExist id => debug_struct "NodeDoesNotExist" [("node_id", debug_node_id id)]%string
  | NodeWasRemoved id => debug_struct "NodeWasRemoved" [("node_id", debug_node_id id)]%string
  | ChildDoesNotExists n => debug_struct "ChildDoesNotExists" [("child_nth", debug_usize n)]%string
  end.
(** Debug of GraphError (named_graph.rs:18-23) *)
Definition debug_graph_error (e : GraphError) : str :=
  match e with
  | GNodeAlreadyExistsError n => debug_struct "NodeAlreadyExistsError" [("node_name", debug_str n)]%string
  | GNodeDoesNotExistsError n => debug_struct "NodeDoesNotExistsError" [("node_name", debug_str n)]%string
  | GIndexOutOfBounds i => debug_struct "IndexOutOfBounds" [("index", debug_usize i)]%string
  end.
(** Debug of GrammarError (errors.rs:80-116).  The field rule_name is a String that holds the
    rule index in decimal (steuer_map.rs:91, 127); [reason] is one of two texts. *)
Definition debug_grammar_error (e : GrammarError) : str :=
  match e with
  | MissingFollowSet i => debug_struct "MissingFollowSet" [("index", debug_usize i)]%string
  | MissingElementForIndex i => debug_struct "MissingElementForIndex" [("index", debug_usize i)]%string
  | MissingFirstSet i => debug_struct "MissingFirstSet" [("index", debug_usize i)]%string
  | MissingSteuerSet i => debug_struct "MissingSteuerSet" [("index", debug_usize i)]%string
  | MissingProduction i => debug_struct "MissingProduction" [("index", debug_usize i)]%string
  | SteuerSetsNotDistinct t c k =>
      debug_struct "SteuerSetsNotDistinct" [("steuer_terminal", debug_str t); ("steuer_char", debug_char c); ("rule_name", debug_str (show_usize k))]%string
  | UnexpectedElementError why pos => debug_struct "UnexpectedElementError" [("reason", debug_str (reason_text why)); ("pos", debug_usize pos)]%string
  | GraphNodeAlreadyExistsError n => debug_struct "GraphNodeAlreadyExistsError" [("node_name", debug_usize n)]%string
  | GraphNodeDoesNotExistsError n => debug_struct "GraphNodeDoesNotExistsError" [("node_name", debug_usize n)]%string
  | GraphIndexOutOfBounds i => debug_struct "GraphIndexOutOfBounds" [("index", debug_usize i)]%string
  end.
(** Debug of ParserError (errors.rs:12-40).  The messages of InternalError are those of
    rule_parsing.rs:389 and 95 (252 is u-umlaut). *)
Definition debug_parser_error (e : ParserError) : str :=
  match e with
  | UnexpectedCharError c pos ex => debug_struct "UnexpectedCharError" [("chr", debug_char c); ("pos", debug_usize pos); ("expected", debug_str ex)]%string
  | EndOfCharsError pos => debug_struct "EndOfCharsError" [("pos", debug_usize pos)]%string
  | GramError err => debug_struct "GramError" [("err", debug_grammar_error err)]%string
  | UnknownSpecialOperation op pos => debug_struct "UnknownSpecialOperation" [("operation", debug_str op); ("pos", debug_usize pos)]%string
  | Impossible => lit "Impossible"
  | InternalError k => debug_struct "InternalError" [("message", debug_str (lit "could not find production for index " ++ show_usize k))]%string
  | InternalNoAction k => debug_struct "InternalError" [("message", debug_str (lit "keine Action vorhandne f" ++ [252%N] ++ lit "r " ++ show_usize k))]%string
  | VmError msg => debug_struct "VmError" [("message", debug_str msg)]%string
  | PTreeError err => debug_struct "TreeError" [("err", debug_tree_error err)]%string
  end.
(** Debug of Node and Tree (tree.rs:28-44) *)
Definition debug_node {T} (f : T -> str) (n : Node T) : str :=
  debug_struct "Node" [("parent", debug_option debug_usize (n_parent n)); ("previous_sibling", debug_option debug_usize (n_prev n));
    ("next_sibling", debug_option debug_usize (n_next n)); ("first_child", debug_option debug_usize (n_first n));
    ("last_child", debug_option debug_usize (n_last n)); ("pk", debug_usize (n_pk n)); ("data", f (n_data n))]%string.
Definition debug_tree {T} (f : T -> str) (t : Tree T) : str :=
  debug_struct "Tree" [("nodes", debug_list (debug_node f) (t_nodes t)); ("free_node_indexes", debug_list debug_usize (t_free t));
    ("counter", debug_usize (t_counter t))]%string.
End debug.
