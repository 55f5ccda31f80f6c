(** * Model of src/script_parser.rs *)
From Verif Require Import Base Peekables Tree Errors Sets ParseFuncs ParserData NamedGraph
  Vm RuleParsing FirstSets FollowSets SteuerMap.

(** struct Parser (script_parser.rs:53-63); the VM is a parameter. *)
Record Parser (I : Type) := mkParser {
  rules_with_steuermaps : gmap nat (NTRules I);
  p_elements : list ElementVerbose;
}.
Arguments mkParser {I}. Arguments rules_with_steuermaps {I}. Arguments p_elements {I}.

(** Loop bounds of the analysis: FIRST recursion depth and FOLLOW rounds. *)
Record fuels := mkFuels { first_fuel : nat; follow_fuel : nat }.

Section script_parser.
Context {U : Unicode} {H : HashOrder} (m : ovf_mode) (vm : VM).
Notation I := (vm_instr vm).

(** Parser::new (script_parser.rs:157-167) *)
Definition parser_new (rs : gmap nat (NTRules I)) (els : list ElementVerbose) : Parser I :=
  mkParser rs els.

(** Parser::new_from_parser_data (script_parser.rs:131-144): every [Err] of the
    analysis becomes a panic. *)
Definition new_from_parser_data (fl : fuels) (pd : ParserData I) (start_idx : nat)
  : outcome Empty_set (Parser I) :=
  let* first_dict := unwrap (get_first_sets pd (first_fuel fl)) in
  let* follow_dict := unwrap (get_follow_sets m pd (follow_fuel fl) start_idx first_dict) in
  let* els := get_elements_verbose pd in
  let* maps := unwrap (get_steuermaps first_dict follow_dict pd) in
  Ok (parser_new maps els).

(** Parser::new_from_text (script_parser.rs:91-115) *)
Definition new_from_text (fl : fuels) (rule_text : str) : outcome Empty_set (Parser I) :=
  let '(r, s) := parse_rules_fn vm (rp_new vm rule_text) in
  let* _u := unwrap r in
  let pd := rp_pd s in
  let* els := get_elements_verbose pd in
  let* first_dict := unwrap (get_first_sets pd (first_fuel fl)) in
  match get_element_nt_index pd (lit "start") with
  | None => Panic
  | Some start =>
      let* follow_dict := unwrap (get_follow_sets m pd (follow_fuel fl) start first_dict) in
      let* maps := unwrap (get_steuermaps first_dict follow_dict pd) in
      Ok (parser_new maps els)
  end.

Context (ps : Parser I).

(** The mutable things of a parse: process over the script, VM state, tree. *)
Record PS := mkPS { ps_in : PP str; ps_vm : vm_state vm; ps_tree : Tree str }.
Notation ST A := (st PS ParserError A).

Definition ps_peek : ST (option char) := fun s =>
  let '(o, p) := pp_peek base_tp (ps_in s) in (Ok o, mkPS p (ps_vm s) (ps_tree s)).
Definition ps_next : ST unit := fun s =>
  let '(_, p) := pp_next base_tp (ps_in s) in (Ok tt, mkPS p (ps_vm s) (ps_tree s)).
Definition ps_pos : ST nat := fun s => (Ok (cur_pos (ps_in s)), s).
Definition ps_add_node (data : str) (parent : option NodeId) : ST NodeId := fun s =>
  let '(r, t) := add_node data parent (ps_tree s) in
  (map_err PTreeError r, mkPS (ps_in s) (ps_vm s) t).

(** [keys().map(Into<String>).collect::<Vec<_>>().join(";")] *)
Fixpoint join (sep : str) (l : list str) : str :=
  match l with
  | [] => []
  | [x] => x
  | x :: l' => x ++ sep ++ join sep l'
  end.
Definition expected_text (el : nat) (sm : Steuermap) : str :=
  join (lit ";") (map member_string (ho_iter [12; el] (map_to_list sm).*1)).

(** get_fitting_production (script_parser.rs:213-241) *)
Definition get_fitting_production (el : nat) (cur : SetMember) : ST Production := fun s =>
  match rules_with_steuermaps ps !! el with
  | None => (Err (GramError (MissingProduction el)), s)
  | Some nt =>
      match steuermap nt !! cur with
      | Some p => (Ok p, s)
      | None =>
          (do o <- ps_peek;
           do pos <- ps_pos;
           sfail (UnexpectedCharError (default 35%N (* '#' *) o) pos
                                      (expected_text el (steuermap nt)))) s
      end
  end.

(** Parser::parse_terminal (script_parser.rs:309-328) *)
Fixpoint terminal_chars (l : str) : ST unit :=
  match l with
  | [] => sret tt
  | c :: l' =>
      do pos <- ps_pos;
      do o <- ps_peek;
      match o with
      | None => sfail (EndOfCharsError pos)
      | Some x =>
          if negb (N.eqb x c)
          then do pos2 <- ps_pos; sfail (UnexpectedCharError x pos2 [c])
          else do _n <- ps_next; terminal_chars l'
      end
  end.
Definition parse_script_terminal (terminal : str) : ST str :=
  do _u <- terminal_chars terminal; sret terminal.

(** run_instructions (script_parser.rs:295-307) *)
Definition run_one (cur_node : NodeId) (i : I) : ST unit := fun s =>
  match vm_execute vm (ps_tree s) cur_node i (ps_vm s) with
  | Ok (t, v) => (Ok tt, mkPS (ps_in s) v t)
  | Err e => match e with end
  | Panic => (Panic, s)
  | Diverge => (Diverge, s)
  end.
Fixpoint run_instructions (cur_node : NodeId) (l : list I) : ST unit :=
  match l with
  | [] => sret tt
  | i :: l' => do _u <- run_one cur_node i; run_instructions cur_node l'
  end.

(** [let _ = tree.add_node(..)] (script_parser.rs:267-270): the result is dropped,
    a panic is not. *)
Definition ps_add_node_ignored (data : str) (parent : option NodeId) : ST unit := fun s =>
  match ps_add_node data parent s with
  | (Ok _, s') => (Ok tt, s')
  | (Err _, s') => (Ok tt, s')
  | (Panic, s') => (Panic, s')
  | (Diverge, s') => (Diverge, s')
  end.

(** parse_production (script_parser.rs:242-293).  Fuel bounds the recursion depth;
    a theorem gives a sufficient amount. *)
Fixpoint parse_nonterminal (fuel : nat) (el : nat) (current_node : option NodeId) : ST unit :=
  match fuel with
  | O => fun s => (Diverge, s)
  | S f =>
      do o <- ps_peek;
      let cur := member_of_peek o in
      match rules_with_steuermaps ps !! el with
      | None => sfail (GramError (MissingProduction el))
      | Some nt =>
          do prod <- get_fitting_production el cur;
          do id <- ps_add_node [] current_node;
          do _u <-
            match prod with
            | Empty => sret tt
            | NotEmpty els =>
                (fix els_loop (els : list nat) : ST unit :=
                   match els with
                   | [] => sret tt
                   | e :: els' =>
                       match p_elements ps !! e with
                       | None => fun s => (Panic, s)
                       | Some (name, Terminal) =>
                           do txt <- parse_script_terminal name;
                           do _a <- ps_add_node_ignored txt (Some id);
                           els_loop els'
                       | Some (_, NonTerminal) =>
                           do _a <- parse_nonterminal f e (Some id);
                           els_loop els'
                       end
                   end) els
            end;
          run_instructions id (nt_instruction nt)
      end
  end.

(** [iter().position(..)] *)
Fixpoint position_of (key : ElementVerbose) (l : list ElementVerbose) : option nat :=
  match l with
  | [] => None
  | x :: l' => if decide (x = key) then Some 0
               else option_map S (position_of key l')
  end.

(** parse (script_parser.rs:193-212).  The tree is dropped on [Err]; the VM state
    is the caller's and keeps every change.  The last component (the process) is
    not observable in Rust; theorems use it to speak about consumed text. *)
Definition parse_run (fuel : nat) (text : str) (v : vm_state vm)
  : outcome ParserError (Tree str) * PS :=
  let s0 := mkPS (pp_new text None None) v tree_new in
  match position_of (lit "start", NonTerminal) (p_elements ps) with
  | None => (Panic, s0)
  | Some start =>
      let '(r, s) := parse_nonterminal fuel start None s0 in
      (let* _u := r in Ok (ps_tree s), s)
  end.
Definition parse (fuel : nat) (text : str) (v : vm_state vm)
  : outcome ParserError (Tree str) * vm_state vm :=
  let '(r, s) := parse_run fuel text v in (r, ps_vm s).
End script_parser.
Arguments mkPS {vm}. Arguments ps_in {vm}. Arguments ps_vm {vm}. Arguments ps_tree {vm}.
