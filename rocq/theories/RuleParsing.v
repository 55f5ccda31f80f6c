(** * Model of src/rule_parsing.rs *)
From Verif Require Import Base Peekables Tree Errors ParseFuncs ParserData Vm.

(** struct RuleParser (rule_parsing.rs:26-33): the process over the rule text and
    the data built so far.  The VM is a parameter. *)
Record RP (I : Type) := mkRP {
  rp_pp : PP str;
  rp_pd : ParserData I;
}.
Arguments mkRP {I}. Arguments rp_pp {I}. Arguments rp_pd {I}.

(** parse_terminal (rule_parsing.rs:337-358).  [cur_char] is the char peeked
    before the loop or at the end of the previous iteration. *)
Fixpoint terminal_loop (fuel : nat) (cur_char : char) (escape : bool) (literal : str)
  : st (PP str) ParserError str := fun p =>
  match fuel with
  | O => (Diverge, p)
  | S f =>
      if negb (N.eqb cur_char 34 (* double quote *)) || escape then
        let escape' := N.eqb cur_char 92 (* '\\' *) && negb escape in
        let pos := cur_pos p in
        let '(o, p1) := pp_next base_tp p in
        match o with
        | None => (Err (EndOfCharsError pos), p1)
        | Some c =>
            let pos1 := cur_pos p1 in
            let '(o2, p2) := pp_peek base_tp p1 in
            match o2 with
            | None => (Err (EndOfCharsError pos1), p2)
            | Some c2 => terminal_loop f c2 escape' (literal ++ [c]) p2
            end
        end
      else
        let '(_, p1) := pp_next base_tp p in (Ok literal, p1)
  end.
Definition parse_terminal : st (PP str) ParserError str := fun p =>
  (do _u <- parse_symbol base_tp 34%N;
   fun p1 =>
     let pos := cur_pos p1 in
     let '(o, p2) := pp_peek base_tp p1 in
     match o with
     | None => (Err (EndOfCharsError pos), p2)
     | Some c => terminal_loop (S (pp_size base_tp p)) c false [] p2
     end) p.

Section rule_parsing.
Context {U : Unicode} {H : HashOrder} (vm : VM).
Notation I := (vm_instr vm).
Notation ST A := (st (RP I) ParserError A).

(** Run a function of the process. *)
Definition on_pp {A} (m : st (PP str) ParserError A) : ST A := fun s =>
  let '(r, p) := m (rp_pp s) in (r, mkRP p (rp_pd s)).
(** Run a function of the data. *)
Definition add_element (key : ElementVerbose) : ST nat := fun s =>
  let '(ix, pd) := get_or_add_element_key (rp_pd s) key in (Ok ix, mkRP (rp_pp s) pd).
(** [m.is_ok()]: an [Err] is turned into [false]; state changes are kept. *)
Definition succeeds {A} (m : ST A) : ST bool := fun s =>
  match m s with
  | (Ok _, s') => (Ok true, s')
  | (Err _, s') => (Ok false, s')
  | (Panic, s') => (Panic, s')
  | (Diverge, s') => (Diverge, s')
  end.

(** RuleParser::parse_symbol, parse_whitespace (rule_parsing.rs:328-334) *)
Definition r_symbol (c : char) : ST unit := on_pp (parse_symbol base_tp c).
Definition r_whitespace : ST unit := on_pp (parse_whitespace base_tp).

(** RuleParser::parse_element (rule_parsing.rs:299-326) *)
Definition parse_element : st (PP str) ParserError (option ElementVerbose) := fun p =>
  let '(o, p1) := pp_peek base_tp p in
  match o with
  | Some c =>
      if N.eqb c 35 (* '#' *) then
        let '(_, p2) := pp_next base_tp p1 in (Ok None, p2)
      else if N.eqb c 34 (* double quote *) then
        (do t <- parse_terminal; sret (Some (t, Terminal))) p1
      else if is_alphabetic c then
        (do n <- parse_var_name base_tp; sret (Some (n, NonTerminal))) p1
      else (Err (UnexpectedCharError c (cur_pos p1)
              (lit "char # for empty, "" for terminal ort alphabetic for element")), p1)
  | None => (Err (EndOfCharsError (cur_pos p1)), p1)
  end.

(** RuleParser::parse_production (rule_parsing.rs:257-297).  An error of
    parse_element ends the loop and is dropped.  Fuel: each iteration that goes on
    consumes at least one char. *)
Fixpoint production_loop (fuel : nat) (result : list nat) : ST Production := fun s =>
  match fuel with
  | O => (Diverge, s)
  | S f =>
      (do _u <- r_whitespace;
       fun s1 =>
         match on_pp parse_element s1 with
         | (Ok None, s2) =>
             match result with
             | [] => (Ok Empty, s2)
             | _ => (Err (GramError (UnexpectedElementError ReasonEmptyWithOthers
                                       (cur_pos (rp_pp s2)))), s2)
             end
         | (Ok (Some el), s2) =>
             (do index <- add_element el; production_loop f (result ++ [index])) s2
         | (Err _, s2) =>
             match result with
             | [] => (Err (GramError (UnexpectedElementError ReasonNoElements
                                       (cur_pos (rp_pp s2)))), s2)
             | _ => (Ok (NotEmpty result), s2)
             end
         | (Panic, s2) => (Panic, s2)
         | (Diverge, s2) => (Diverge, s2)
         end) s
  end.
Definition r_size (s : RP I) : nat := pp_size base_tp (rp_pp s).
Definition parse_production : ST Production := fun s => production_loop (S (r_size s)) [] s.

(** RuleParser::parse_possible_productions (rule_parsing.rs:241-255) *)
Fixpoint alternatives_loop (fuel : nat) (elements : list Production) : ST (list Production) :=
  fun s =>
  match fuel with
  | O => (Diverge, s)
  | S f =>
      (do _w <- r_whitespace;
       do _n <- succeeds (r_symbol 10%N (* '\n' *));
       do _w2 <- r_whitespace;
       do bar <- succeeds (r_symbol 124%N (* '|' *));
       if bar : bool then
         do _w3 <- r_whitespace;
         do p <- parse_production;
         alternatives_loop f (elements ++ [p])
       else sret elements) s
  end.
Definition parse_possible_productions : ST (list Production) := fun s =>
  (do p <- parse_production; alternatives_loop (S (r_size s)) [p]) s.

(** RuleParser::parse_instruction_section (rule_parsing.rs:222-239).  The nested
    process borrows the outer one, which is its inner peekable. *)
Definition parse_instruction_section (prod_name : str) : ST (list I) := fun s =>
  match r_symbol 123%N (* '{' *) s with
  | (Ok _, s1) =>
      (do _w <- r_whitespace;
       do instruction <- (fun s2 : RP I =>
         let g := pp_new_nested (rp_pp s2) (Some 125%N (* '}' *)) (Some 92%N (* '\\' *))
                                (cur_pos (rp_pp s2)) in
         let '(r, g') := vm_parse_instructions vm (PP str) (pp_tp base_tp) prod_name g in
         (r, mkRP (pp_inner g') (rp_pd s2)));
       do _c <- r_symbol 125%N;
       sret instruction) s1
  | (Err _, s1) => (Ok [], s1)
  | (Panic, s1) => (Panic, s1)
  | (Diverge, s1) => (Diverge, s1)
  end.

(** RuleParser::parse_overrides (rule_parsing.rs:195-220) *)
Definition parse_overrides : ST (option nat) := fun s =>
  let ignore_this := pr_ignore (parse_rules (rp_pd s)) in
  (do dollar <- succeeds (r_symbol 36%N (* '$' *));
   if negb dollar then sret ignore_this else
   do _b <- r_symbol 91%N (* '[' *);
   do varname <- on_pp (parse_var_name base_tp);
   do _w <- r_whitespace;
   do _c <- r_symbol 58%N (* ':' *);
   do ign <- (if decide (varname = lit "IGNORE") then
                do hash <- succeeds (r_symbol 35%N (* '#' *));
                if hash : bool then sret None
                else do v <- on_pp (parse_var_name base_tp);
                     do ix <- add_element (v, NonTerminal);
                     sret (Some ix)
              else sret ignore_this);
   do _e <- r_symbol 93%N (* ']' *);
   sret ign) s.

(** RuleParser::parse_rule (rule_parsing.rs:133-158) *)
Definition parse_rule : ST (nat * NonTerminalRules I) :=
  do identifier <- on_pp (parse_var_name base_tp);
  do key <- add_element (identifier, NonTerminal);
  do _w <- r_whitespace;
  do _m <- r_symbol 45%N (* '-' *);
  do _g <- r_symbol 62%N (* '>' *);
  do _w2 <- r_whitespace;
  do ignore_this_maybe <- parse_overrides;
  do productions <- parse_possible_productions;
  do instr <- parse_instruction_section identifier;
  do _w3 <- r_whitespace;
  do _s <- r_symbol 59%N (* ';' *);
  sret (key, mkNTR productions ignore_this_maybe instr).

(** RuleParser::merge_rule (rule_parsing.rs:123-131) *)
Definition merge_rule (pd : ParserData I) (rule : NonTerminalRules I) (key : nat)
  : ParserData I :=
  match pd_rules pd !! key with
  | Some r =>
      set_rules pd (<[key := mkNTR (possible_productions r ++ possible_productions rule)
                                   (ntr_ignore r) (instruction r)]> (pd_rules pd))
  | None => set_rules pd (<[key := rule]> (pd_rules pd))
  end.

(** _check_is_derivative (rule_parsing.rs:372-424).  The visited set is threaded
    through the recursion.  Fuel: the recursion goes down only after adding a new
    defined element to [visited]. *)
Fixpoint is_derivative_rec (fuel : nat) (types : list ElementType)
    (rs : gmap nat (NonTerminalRules I)) (left right : nat) (visited : gset nat)
  : outcome ParserError (bool * gset nat) :=
  match fuel with
  | O => Diverge
  | S f =>
      match types !! left with
      | None => Panic
      | Some Terminal => Ok (false, visited)
      | Some NonTerminal =>
          match rs !! left with
          | None => Err (InternalError left)
          | Some r =>
              if left =? right then Ok (true, visited)
              else if decide (left ∈ visited) then Ok (false, visited)
              else
                (* the inner [for el in prod_ne]; [inl] is the early [return Ok(true)] *)
                let els_loop := fix els_loop (els : list nat) (is_der : bool) (vis : gset nat)
                  : outcome ParserError ((gset nat) + (bool * gset nat)) :=
                  match els with
                  | [] => Ok (inr (is_der, vis))
                  | el :: els' =>
                      if el =? right then Ok (inl vis)
                      else if is_der then els_loop els' is_der vis
                      else let* '(b, vis') := is_derivative_rec f types rs el right vis in
                           els_loop els' b vis'
                  end in
                let prods_loop := fix prods_loop (prods : list Production) (is_der : bool)
                    (vis : gset nat) : outcome ParserError (bool * gset nat) :=
                  match prods with
                  | [] => Ok (is_der, vis)
                  | Empty :: prods' => prods_loop prods' is_der vis
                  | NotEmpty els :: prods' =>
                      let* r := els_loop els is_der vis in
                      match r with
                      | inl vis' => Ok (true, vis')
                      | inr (b, vis') => prods_loop prods' b vis'
                      end
                  end in
                prods_loop (possible_productions r) false ({[left]} ∪ visited)
          end
      end
  end.
(** check_is_derivative (rule_parsing.rs:360-370) *)
Definition check_is_derivative (types : list ElementType)
    (rs : gmap nat (NonTerminalRules I)) (left right : nat) : outcome ParserError bool :=
  let* '(b, _v) := is_derivative_rec (S (S (size rs))) types rs left right ∅ in Ok b.

(** weave_in_ignorers_single_production (rule_parsing.rs:174-193): [ig] is pushed
    after every element and the last one popped. *)
Definition weave_single (p : Production) (ig : nat) : Production :=
  match p with
  | NotEmpty els => NotEmpty (removelast (concat (map (fun el => [el; ig]) els)))
  | Empty => Empty
  end.
(** weave_in_ignorers (rule_parsing.rs:159-172) *)
Definition weave_in_ignorers (rule : NonTerminalRules I) (ig : nat) : list Production :=
  map (fun p => weave_single p ig) (possible_productions rule).

(** edit_rules (rule_parsing.rs:65-121): pass 1 decides, for every rule, whether
    to weave; pass 2 rebuilds the map. *)
Definition edit_action (pd : ParserData I) (actions : gmap nat bool)
    (kv : nat * NonTerminalRules I) : outcome ParserError (gmap nat bool) :=
  let* weave :=
    match ntr_ignore kv.2 with
    | Some ig => let* d := check_is_derivative (element_types pd) (pd_rules pd) ig kv.1 in
                 Ok (negb d)
    | None => Ok false
    end in
  Ok (<[kv.1 := weave]> actions).
Definition edit_one (actions : gmap nat bool) (edited : gmap nat (NonTerminalRules I))
    (kv : nat * NonTerminalRules I)
  : outcome ParserError (gmap nat (NonTerminalRules I)) :=
  match actions !! kv.1 with
  | None => Err (InternalNoAction kv.1)
  | Some weave =>
      let rule := kv.2 in
      let new_rul :=
        match ntr_ignore rule with
        | Some ig =>
            if weave : bool then mkNTR (weave_in_ignorers rule ig) (Some ig) (instruction rule)
            else mkNTR (possible_productions rule) None (instruction rule)
        | None => mkNTR (possible_productions rule) None (instruction rule)
        end in
      Ok (<[kv.1 := new_rul]> edited)
  end.
Definition edit_rules (pd : ParserData I) : outcome ParserError (ParserData I) :=
  let* actions := ofold (edit_action pd) ∅ (ho_iter [1] (map_to_list (pd_rules pd))) in
  let* edited := ofold (edit_one actions) ∅ (ho_iter [2] (map_to_list (pd_rules pd))) in
  Ok (set_rules pd edited).

(** parse_rules (rule_parsing.rs:52-63).  Fuel: parse_rule consumes at least one
    char.  When edit_rules fails in its first pass the data are left as they were;
    the second pass cannot fail. *)
Fixpoint rules_loop (fuel : nat) : ST unit := fun s =>
  match fuel with
  | O => (Diverge, s)
  | S f =>
      (do _w <- r_whitespace;
       do o <- on_pp (fun p => let '(o, p1) := pp_peek base_tp p in (Ok o, p1));
       match o with
       | None => sret tt
       | Some _ =>
           do kr <- parse_rule;
           fun s1 => rules_loop f (mkRP (rp_pp s1) (merge_rule (rp_pd s1) kr.2 kr.1))
       end) s
  end.
Definition parse_rules_fn : ST unit := fun s =>
  (do _u <- rules_loop (S (r_size s));
   fun s1 =>
     match edit_rules (rp_pd s1) with
     | Ok pd => (Ok tt, mkRP (rp_pp s1) pd)
     | Err e => (Err e, s1)
     | Panic => (Panic, s1)
     | Diverge => (Diverge, s1)
     end) s.

(** RuleParser::new (rule_parsing.rs:39-50) *)
Definition rp_new (text : str) : RP I := mkRP (pp_new text None None) pd_new.
End rule_parsing.
