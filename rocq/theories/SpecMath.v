(** * The grammar of the repository's calculator examples, by name (C48, C50, C54) *)
From Verif Require Import Base ParserData SimpleStackVm StackVm SpecGrammar SpecNames SpecData.

Definition nt (x : str) : str * ElementType := (x, NonTerminal).
Definition tm (x : str) : str * ElementType := (x, Terminal).
(** The rules of examples/stack_based_math.txt and examples/simple_stack_based_math.txt. *)
Definition math_rules : list (str * list (list (str * ElementType))) := [
  (lit "start", [[nt (lit "terms")]]);
  (lit "terms", [[nt (lit "term"); nt (lit "terms_s")]]);
  (lit "terms_s", [[nt (lit "whitespace"); nt (lit "term"); nt (lit "terms_s")]; []]);
  (lit "term", [[nt (lit "add")]; [nt (lit "sub")]; [nt (lit "number")]; [nt (lit "print")]]);
  (lit "print", [[tm (lit "print")]]);
  (lit "add", [[tm (lit "+")]]);
  (lit "sub", [[tm (lit "-")]]);
  (lit "number", [[nt (lit "digit"); nt (lit "number_s")]]);
  (lit "number_s", [[nt (lit "number_s_")]; []]);
  (lit "number_s_", [[nt (lit "digit"); nt (lit "number_s")]]);
  (lit "digit", [[tm (lit "0")]; [tm (lit "1")]; [tm (lit "2")]; [tm (lit "3")]; [tm (lit "4")];
                 [tm (lit "5")]; [tm (lit "6")]; [tm (lit "7")]; [tm (lit "8")]; [tm (lit "9")]]);
  (lit "whitespaces", [[nt (lit "whitespace"); nt (lit "whitespaces_s")]]);
  (lit "whitespaces_s", [[nt (lit "whitespace"); nt (lit "whitespaces_s")]; []]);
  (lit "whitespace", [[tm (lit " ")]])
].
(** The data hold these rules, the rule [x] with the instructions [ins x], and no other. *)
Definition math_grammar {I} (pd : ParserData I) (ins : str -> list I) : Prop := forall x alts is,
  rule_named pd x alts is <-> (x, alts) ∈ math_rules /\ is = ins x.

(** The instructions written in examples/stack_based_math.txt. *)
Definition stack_instrs (x : str) : list KInstr :=
  if decide (x = lit "print") then [KPopToReg; KPrintReg]
  else if decide (x = lit "add") then [KPopToReg; KAdd]
  else if decide (x = lit "sub") then [KPopToReg; KSub]
  else if decide (x = lit "number") then [KPopDiscard]
  else if decide (x = lit "number_s_") then [KPopToReg; KPopToReg2; KPopDiscard; KPow 10; KRegAddConst 1; KPushReg]
  else if decide (x = lit "digit") then [KPushFromTree; KPushConst 1]
  else [].

(** The calls of examples/rust_defined_rules.rs:16-148, in order; each number is the
    value of the variable named in the comment (the index the earlier call returned). *)
Definition rust_defined_calls : list (pd_call KInstr) := [
  GetOrAdd (lit "start") NonTerminal;        (* 0 start_idx *)
  GetOrAdd (lit "terms") NonTerminal;        (* 1 terms_idx *)
  GetOrAdd (lit "terms_s") NonTerminal;      (* 2 terms_s_idx *)
  GetOrAdd (lit "term") NonTerminal;         (* 3 term_idx *)
  GetOrAdd (lit "add") NonTerminal;          (* 4 add_idx *)
  GetOrAdd (lit "sub") NonTerminal;          (* 5 sub_idx *)
  GetOrAdd (lit "number") NonTerminal;       (* 6 number_idx *)
  GetOrAdd (lit "print") NonTerminal;        (* 7 print_idx *)
  GetOrAdd (lit "number_s") NonTerminal;     (* 8 number_s_idx *)
  GetOrAdd (lit "number_s_") NonTerminal;    (* 9 number_s__idx *)
  GetOrAdd (lit "digit") NonTerminal;        (* 10 digit_idx *)
  GetOrAdd (lit "whitespace") NonTerminal;   (* 11 whitespace_idx *)
  GetOrAdd (lit "whitespaces") NonTerminal;  (* 12 whitespaces_idx *)
  GetOrAdd (lit "whitespaces_s") NonTerminal;(* 13 whitespaces_s_idx *)
  GetOrAdd (lit "+") Terminal;               (* 14 plus_idx *)
  GetOrAdd (lit "-") Terminal;               (* 15 minus_idx *)
  GetOrAdd (lit "print") Terminal;           (* 16 print_term_idx *)
  GetOrAdd (lit " ") Terminal;               (* 17 space_idx *)
  GetOrAdd (lit "0") Terminal; GetOrAdd (lit "1") Terminal; GetOrAdd (lit "2") Terminal;
  GetOrAdd (lit "3") Terminal; GetOrAdd (lit "4") Terminal; GetOrAdd (lit "5") Terminal;
  GetOrAdd (lit "6") Terminal; GetOrAdd (lit "7") Terminal; GetOrAdd (lit "8") Terminal;
  GetOrAdd (lit "9") Terminal;               (* 18-27 digit0_idx .. digit9_idx *)
  AddProduction 0 [1];
  AddProduction 1 [3; 2];
  AddProduction 2 [11; 3; 2];
  AddProduction 2 [];
  AddProduction 3 [4]; AddProduction 3 [5]; AddProduction 3 [6]; AddProduction 3 [7];
  AddProduction 7 [16];
  AddInstructions 7 [KPopToReg; KPrintReg];
  AddProduction 4 [14];
  AddInstructions 4 [KPopToReg; KAdd];
  AddProduction 5 [15];
  AddInstructions 5 [KPopToReg; KSub];
  AddProduction 6 [10; 8];
  AddInstructions 6 [KPopDiscard];
  AddProduction 8 [9];
  AddProduction 8 [];
  AddProduction 9 [10; 8];
  AddInstructions 9 [KPopToReg; KPopToReg2; KPopDiscard; KPow 10; KRegAddConst 1; KPushReg];
  SetProductions 10 [[18]; [19]; [20]; [21]; [22]; [23]; [24]; [25]; [26]; [27]];
  AddInstructions 10 [KPushFromTree; KPushConst 1];
  AddProduction 11 [17];
  AddProduction 12 [11; 13];
  AddProduction 13 [11; 13];
  AddProduction 13 []
].
