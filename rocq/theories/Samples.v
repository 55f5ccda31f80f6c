(** * Concrete inputs: the repository's example grammars, and the simplest
    instances of the two oracle classes.  Used by the non-vacuity examples and by
    the sanity tests; no theorem depends on the choice of instances. *)
From Coq Require Import Ascii String.
From Verif Require Import Base Peekables Tree Errors ParseFuncs ParserData Vm SimpleStackVm
  StackVm Sets RuleParsing FirstSets FollowSets SteuerMap ScriptParser.

(** No char above U+007F is a letter, digit or space. *)
Definition ascii_unicode : Unicode :=
  {| uni_white := fun _ => false; uni_alpha := fun _ => false; uni_numeric := fun _ => false |}.
(** Hash iteration in the order of [map_to_list]. *)
Definition plain_order : HashOrder :=
  {| ho_iter := fun _ _ l => l; ho_perm := fun _ _ l => Permutation_refl l |}.
(** Hash iteration in the reverse order. *)
Definition reverse_order : HashOrder :=
  {| ho_iter := fun _ _ l => reverse l; ho_perm := fun _ _ l => reverse_Permutation l |}.

(** examples/simple_stack_based_math.txt:1-20, verbatim *)
Definition simple_math_rules : str := lit
"start  -> terms;

terms -> term terms_s;
terms_s -> whitespace term terms_s | #;


term -> add|sub|number|print;

print -> ""print"" {};
add -> ""+"" {};
sub -> ""-"" {};

number-> digit number_s {};
number_s -> number_s_ | # {};
number_s_ -> digit number_s {};
digit -> ""0""|""1""|""2""|""3""|""4""|""5""|""6""|""7""|""8""|""9"" {};


whitespaces -> whitespace whitespaces_s;
whitespaces_s -> whitespace whitespaces_s| #;
whitespace -> "" "";".

(** examples/stack_based_math.txt:1-20, verbatim *)
Definition stack_math_rules : str := lit
"start  -> terms;

terms -> term terms_s;
terms_s -> whitespace term terms_s | #;


term -> add|sub|number|print;

print -> ""print"" {PopToReg;PrintReg;};
add -> ""+"" {PopToReg; Add;};
sub -> ""-"" {PopToReg;Sub;};

number-> digit number_s {PopDiscard;};
number_s -> number_s_ | # {};
number_s_ -> digit number_s {PopToReg;PopToReg2;PopDiscard;Pow 10;RegAddConst 1;PushReg;};
digit -> ""0""|""1""|""2""|""3""|""4""|""5""|""6""|""7""|""8""|""9"" {PushFromTree;PushConst 1;};


whitespaces -> whitespace whitespaces_s;
whitespaces_s -> whitespace whitespaces_s| #;
whitespace -> "" "";".

(** The script of examples/stack_based_math.rs:21 *)
Definition math_script : str := lit "1 2 + 3 + 4 - print".
