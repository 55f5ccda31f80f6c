(** * Specification for C103: how often a parse reads the script. *)
From Verif Require Import Base Peekables Tree Errors Sets ParserData Vm SteuerMap ScriptParser SpecRules SpecLanguage.

(** [parse] of ScriptParser.v with a counter of the peek and next calls on the script
    (C103_same: nothing else is different): script_parser.rs:193-328, where the reads are
    those of lines 214-241 (get_fitting_production), 242-293 (parse_production) and 309-328
    (parse_terminal).  Reading the position is not counted: it does not touch the script. *)
Section reads.
Context {H : HashOrder} (vm : VM) (ps : Parser (vm_instr vm)).
Notation RS := (PS vm * nat)%type.
Notation ST A := (st RS ParserError A).
Definition quiet {A} (f : st (PS vm) ParserError A) : ST A := fun '(s, n) => let '(r, s') := f s in (r, (s', n)).
Definition reading {A} (f : st (PS vm) ParserError A) : ST A := fun '(s, n) => let '(r, s') := f s in (r, (s', S n)).
Definition reads_fitting (el : nat) (cur : SetMember) : ST Production := fun s =>
  match rules_with_steuermaps ps !! el with
  | None => (Err (GramError (MissingProduction el)), s)
  | Some nt =>
      match steuermap nt !! cur with
      | Some p => (Ok p, s)
      | None =>
          (do o <- reading (ps_peek vm);
           do pos <- quiet (ps_pos vm);
           sfail (UnexpectedCharError (default 35%N o) pos (expected_text el (steuermap nt)))) s
      end
  end.
Fixpoint reads_chars (l : str) : ST unit :=
  match l with
  | [] => sret tt
  | c :: l' =>
      do pos <- quiet (ps_pos vm);
      do o <- reading (ps_peek vm);
      match o with
      | None => sfail (EndOfCharsError pos)
      | Some x =>
          if negb (N.eqb x c)
          then do pos2 <- quiet (ps_pos vm); sfail (UnexpectedCharError x pos2 [c])
          else do _n <- reading (ps_next vm); reads_chars l'
      end
  end.
Definition reads_elements (call : nat -> option NodeId -> ST unit) (id : NodeId) : list nat -> ST unit :=
  fix els_loop (els : list nat) : ST unit :=
    match els with
    | [] => sret tt
    | e :: els' =>
        match p_elements ps !! e with
        | None => fun s => (Panic, s)
        | Some (name, Terminal) =>
            do _t <- reads_chars name;
            do _a <- quiet (ps_add_node_ignored vm name (Some id));
            els_loop els'
        | Some (_, NonTerminal) =>
            do _a <- call e (Some id);
            els_loop els'
        end
    end.
Fixpoint reads_nonterminal (fuel : nat) (el : nat) (current_node : option NodeId) : ST unit :=
  match fuel with
  | O => fun s => (Diverge, s)
  | S f =>
      do o <- reading (ps_peek vm);
      match rules_with_steuermaps ps !! el with
      | None => sfail (GramError (MissingProduction el))
      | Some nt =>
          do prod <- reads_fitting el (member_of_peek o);
          do id <- quiet (ps_add_node vm [] current_node);
          do _u <- match prod with Empty => sret tt | NotEmpty els => reads_elements (reads_nonterminal f) id els end;
          quiet (run_instructions vm id (nt_instruction nt))
      end
  end.
Definition parse_reads (fuel : nat) (text : str) (v : vm_state vm) : outcome ParserError (Tree str) * vm_state vm * nat :=
  let s0 := mkPS (pp_new text None None) v tree_new in
  match position_of (lit "start", NonTerminal) (p_elements ps) with
  | None => (Panic, v, 0)
  | Some start =>
      let '(r, (s, n)) := reads_nonterminal fuel start None (s0, 0) in
      (let* _u := r in Ok (ps_tree s), ps_vm s, n)
  end.
End reads.

(** How many names a tree has. *)
Fixpoint names_in (t : ntree) : nat := match t with NLeaf _ => 0 | NNode _ subs => S (list_sum (map names_in subs)) end.
