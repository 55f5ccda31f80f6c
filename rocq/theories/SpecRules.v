(** * Specification of rule text (C11-C17): the syntax as a relation between an
    abstract grammar and its texts, and what parser data for an abstract grammar are. *)
From Verif Require Import Base Errors ParserData SpecText SpecData SpecGrammar.

Section syntax.
Context {U : Unicode}.
Definition white (c : char) : Prop := is_whitespace c = true.
Definition blank (l : str) : Prop := Forall white l.
Definition namechar (c : char) : Prop := is_alphanumeric c = true \/ c = 95%N (* _ *).
Definition valid_name (x : str) : Prop :=
  match x with [] => False | c :: cs => is_alphabetic c = true /\ Forall namechar cs end.
(** No char is both white space and part of a name (true of Unicode). *)
Definition tables_disjoint : Prop := forall c, white c -> ~ namechar c.

(** A name, or a terminal between quotes. *)
Inductive element_text : str * ElementType -> str -> Prop :=
| el_name x : valid_name x -> element_text (x, NonTerminal) x
| el_quoted b : quoted_body b -> element_text (b, Terminal) (34%N :: b ++ [34%N]).

(** One or more elements with layout between them; a name must not run into the
    following element. *)
Inductive elements_text : list (str * ElementType) -> str -> Prop :=
| els_one e t : element_text e t -> elements_text [e] t
| els_cons e t l es t' : element_text e t -> blank l -> elements_text es t' ->
    (e.2 = NonTerminal -> not_starting namechar (l ++ t')) ->
    elements_text (e :: es) (t ++ l ++ t').

(** An alternative: '#' or elements. *)
Inductive alternative_text : list (str * ElementType) -> str -> Prop :=
| alt_empty : alternative_text [] [35%N (* # *)]
| alt_elements es t : elements_text es t -> alternative_text es t.

(** Alternatives separated by '|'. *)
Inductive alternatives_text : list (list (str * ElementType)) -> str -> Prop :=
| alts_one a t : alternative_text a t -> alternatives_text [a] t
| alts_cons a t l l' rest t' : alternative_text a t -> blank l -> blank l' -> alternatives_text rest t' ->
    alternatives_text (a :: rest) (t ++ l ++ 124%N (* | *) :: l' ++ t').

(** The optional override. *)
Inductive override := OvAbsent | OvIgnoreNothing | OvIgnore (x : str) | OvOther (x : str).
Inductive override_text : override -> str -> Prop :=
| ov_absent : override_text OvAbsent []
| ov_nothing l : blank l -> override_text OvIgnoreNothing (lit "$[IGNORE" ++ l ++ lit ":#]")
| ov_ignore l x : blank l -> valid_name x -> override_text (OvIgnore x) (lit "$[IGNORE" ++ l ++ lit ":" ++ x ++ lit "]")
| ov_other l x : blank l -> valid_name x -> x <> lit "IGNORE" -> override_text (OvOther x) (lit "$[" ++ x ++ l ++ lit ":]").

Section rules.
Context {I : Type}.
(** What the VM makes of the text between braces, for a rule of that name. *)
Context (reads : str -> str -> list I -> Prop).

Inductive section_text (name : str) : list I -> str -> Prop :=
| sec_absent : section_text name [] []
| sec_braces l body is : blank l -> not_starting white body -> reads name body is ->
    section_text name is (lit "{" ++ l ++ body ++ lit "}").

Record arule := mkARule {
  ar_name : str;
  ar_override : override;
  ar_alts : list (list (str * ElementType));   (* [[]] is the alternative '#' *)
  ar_instr : list I;
}.
Inductive rule_text (r : arule) : str -> Prop :=
| rule_intro l1 l2 l3 l4 l5 to ta ts :
    valid_name (ar_name r) -> override_text (ar_override r) to ->
    alternatives_text (ar_alts r) ta -> section_text (ar_name r) (ar_instr r) ts ->
    blank l1 -> blank l2 -> blank l3 -> blank l4 -> blank l5 ->
    rule_text r (ar_name r ++ l1 ++ lit "->" ++ l2 ++ to ++ l3 ++ ta ++ l4 ++ ts ++ l5 ++ lit ";").
Inductive grammar_text : list arule -> str -> Prop :=
| gr_end l : blank l -> grammar_text [] l
| gr_cons r t l rs t' : blank l -> rule_text r t -> grammar_text rs t' -> grammar_text (r :: rs) (l ++ t ++ t').

(** one rule in place of two *)
Definition joined (r1 r2 : arule) : arule :=
  mkARule (ar_name r1) (ar_override r1) (ar_alts r1 ++ ar_alts r2) (ar_instr r1).

(** ** Parser data that say exactly the same as the abstract grammar. *)
Definition override_element (o : override) : list (str * ElementType) :=
  match o with OvIgnore x => [(x, NonTerminal)] | _ => [] end.
(** the elements mentioned, in textual order *)
Definition mentioned (r : arule) : list (str * ElementType) :=
  (ar_name r, NonTerminal) :: override_element (ar_override r) ++ concat (ar_alts r).
(** without repetitions, first occurrences kept *)
Fixpoint firsts (seen : list (str * ElementType)) (l : list (str * ElementType)) : list (str * ElementType) :=
  match l with
  | [] => []
  | e :: l' => if decide (e ∈ seen) then firsts seen l' else e :: firsts (e :: seen) l'
  end.
(** the rules given for a name, in textual order *)
Definition rules_for (x : str) (rs : list arule) : list arule := filter (fun r => ar_name r = x) rs.

Section described.
Context (pd : ParserData I).
(** the index vector [p] stands for the alternative [a] *)
Definition stands_for (a : list (str * ElementType)) (p : Production) : Prop :=
  exists ixs, alternative_of ixs p /\ Forall2 (fun e ix => get_element_verbose pd ix = Some e) a ixs.
Definition ignore_is (o : override) (ig : option nat) : Prop :=
  match o with
  | OvIgnore x => exists ix, ig = Some ix /\ get_element_verbose pd ix = Some (x, NonTerminal)
  | _ => ig = None
  end.
Record described (rs : list arule) : Prop := {
  (* the elements are those mentioned, numbered by first occurrence *)
  de_elements : @get_elements_verbose I Empty_set pd = Ok (firsts [] (concat (map mentioned rs)));
  de_numbers : forall key ix, get_element_index pd key = Some ix <-> get_element_verbose pd ix = Some key;
  (* no rule without a definition in the text *)
  de_none : forall A, has_rule pd A -> exists r, r ∈ rs /\ get_element_verbose pd A = Some (ar_name r, NonTerminal);
  (* one rule per name: alternatives of all its definitions in textual order,
     override and instructions of the first *)
  de_rule : forall x r0 more, rules_for x rs = r0 :: more ->
    exists nr, get_rule_by_element_verbose pd x = Some nr /\
      Forall2 stands_for (concat (map ar_alts (r0 :: more))) (possible_productions nr) /\
      ignore_is (ar_override r0) (ntr_ignore nr) /\ instruction nr = ar_instr r0;
  de_global : pr_ignore (parse_rules pd) = None;
}.
(** The same without the numbering: the rules, by name. *)
Record same_rules (rs : list arule) : Prop := {
  sr_numbers : forall key ix, get_element_index pd key = Some ix <-> get_element_verbose pd ix = Some key;
  sr_none : forall A, has_rule pd A -> exists r, r ∈ rs /\ get_element_verbose pd A = Some (ar_name r, NonTerminal);
  sr_rule : forall x r0 more, rules_for x rs = r0 :: more ->
    exists nr, get_rule_by_element_verbose pd x = Some nr /\
      Forall2 stands_for (concat (map ar_alts (r0 :: more))) (possible_productions nr) /\
      ignore_is (ar_override r0) (ntr_ignore nr) /\ instruction nr = ar_instr r0;
  sr_global : pr_ignore (parse_rules pd) = None;
}.
End described.
End rules.
End syntax.
Arguments arule : clear implicits.

(** The position an error carries, if any. *)
Definition error_position (e : ParserError) : option nat :=
  match e with
  | UnexpectedCharError _ pos _ => Some pos
  | EndOfCharsError pos => Some pos
  | UnknownSpecialOperation _ pos => Some pos
  | GramError (UnexpectedElementError _ pos) => Some pos
  | _ => None
  end.

(** ** Instruction sections of the shipped VMs *)
From Verif Require Import Vm SimpleStackVm StackVm.
(** Text that may stand between braces: every '}' follows a backslash, and the text
    does not end in a backslash. *)
Definition brace_free (body : str) : Prop := stops_between 125 92 body [125%N].
Definition null_reads (name body : str) (is : list N) : Prop := brace_free body /\ is = [0%N].
Definition counting_reads (name body : str) (is : list N) : Prop := body = [] /\ is = [0%N].
Definition simple_reads (name body : str) (is : list SInstr) : Prop :=
  brace_free body /\ is = simple_instrs name.

(** Instruction text of StackVm. *)
Definition plain_names : list (str * KInstr) :=
  [(lit "Add", KAdd); (lit "Sub", KSub); (lit "Digit", KDigit); (lit "PopToReg", KPopToReg);
   (lit "PopToReg2", KPopToReg2); (lit "PopDiscard", KPopDiscard); (lit "PushFromTree", KPushFromTree);
   (lit "PushReg", KPushReg); (lit "PushReg2", KPushReg2); (lit "PrintReg", KPrintReg);
   (lit "PrintReg2", KPrintReg2); (lit "PrintError", KPrintError)].
(** a number below 2^63 stands for itself, a larger one for its two's complement *)
Definition as_isize (v : N) : Z := if (v <? 2 ^ 63)%N then Z.of_N v else (Z.of_N v - 2 ^ 64)%Z.
Definition operand_names : list (str * (N -> KInstr)) :=
  [(lit "RegAddConst", fun v => KRegAddConst (as_isize v)); (lit "PushConst", fun v => KPushConst (as_isize v));
   (lit "Pow", fun v => KPow v)].
Section stack_text.
Context {U : Unicode}.
Inductive instr_text : list KInstr -> str -> Prop :=
| in_plain x i : (x, i) ∈ plain_names -> instr_text [i] x
| in_operand x k l ds : (x, k) ∈ operand_names -> blank l -> not_starting namechar (l ++ ds) ->
    ds <> [] -> Forall digit_char ds -> (dec_value ds < 2 ^ 64)%N -> instr_text [k (dec_value ds)] (x ++ l ++ ds)
| in_unknown x : valid_name x -> x ∉ plain_names.*1 -> x ∉ operand_names.*1 -> instr_text [] x.
Inductive instrs_text : list KInstr -> str -> Prop :=
| ins_nil : instrs_text [] []
| ins_cons is t l is' t' : instr_text is t -> blank l -> instrs_text is' t' ->
    instrs_text (is ++ is') (t ++ lit ";" ++ l ++ t').
Definition stack_reads (name body : str) (is : list KInstr) : Prop :=
  exists l t, blank l /\ body = l ++ t /\ instrs_text is t.
End stack_text.
