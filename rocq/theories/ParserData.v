(** * Model of src/parser_data.rs *)
From Verif Require Import Base.

(** enum ElementType (parser_data.rs:254-258) *)
Inductive ElementType := Terminal | NonTerminal.
Global Instance et_eq_dec : EqDecision ElementType.
Proof. solve_decision. Defined.
Global Instance et_countable : Countable ElementType.
Proof.
  apply (inj_countable' (fun x => match x with Terminal => true | NonTerminal => false end)
                        (fun b : bool => if b then Terminal else NonTerminal)).
  by intros [].
Defined.

(** struct ElementVerbose (parser_data.rs:236-252): (name, et) *)
Notation ElementVerbose := (list N * ElementType)%type (only parsing).

(** struct ElementData (parser_data.rs:277-280) *)
Record ElementData := mkElementData { keep_data : bool; ed_name : str }.

(** enum Production (parser_data.rs:282-285).  [Rc<Production>] is modelled by
    value: productions are immutable after construction. *)
Inductive Production := NotEmpty (els : list nat) | Empty.

(** struct NonTerminalRules (parser_data.rs:195-219), over the VM's instruction
    type [I]. *)
Record NonTerminalRules (I : Type) := mkNTR {
  possible_productions : list Production;
  ntr_ignore : option nat;
  instruction : list I;
}.
Arguments mkNTR {I}. Arguments possible_productions {I}. Arguments ntr_ignore {I}.
Arguments instruction {I}.

(** struct ParseRules (parser_data.rs:172-178); RuleMap is HashMap<usize, ..>.
    Iteration order over it is supplied by [ho_iter] where a loop needs it. *)
Record ParseRules (I : Type) := mkParseRules {
  rules : gmap nat (NonTerminalRules I);
  pr_ignore : option nat;
}.
Arguments mkParseRules {I}. Arguments rules {I}. Arguments pr_ignore {I}.

(** struct ParserData (parser_data.rs:21-29) *)
Record ParserData (I : Type) := mkPD {
  parse_rules : ParseRules I;
  element_types : list ElementType;
  element_verbose_map : gmap ElementVerbose nat;
  element_data : list ElementData;
}.
Arguments mkPD {I}. Arguments parse_rules {I}. Arguments element_types {I}.
Arguments element_verbose_map {I}. Arguments element_data {I}.

Section parser_data.
Context {I : Type}.
Implicit Types (pd : ParserData I).

Definition pd_rules pd : gmap nat (NonTerminalRules I) := rules (parse_rules pd).

Definition set_rules pd (r : gmap nat (NonTerminalRules I)) : ParserData I :=
  mkPD (mkParseRules r (pr_ignore (parse_rules pd)))
       (element_types pd) (element_verbose_map pd) (element_data pd).

(** ParserData::new (parser_data.rs:35-45) *)
Definition pd_new : ParserData I := mkPD (mkParseRules ∅ None) [] ∅ [].

(** get_element_data (parser_data.rs:47-49) *)
Definition get_element_data pd (ix : nat) : option ElementData := element_data pd !! ix.

(** get_element (parser_data.rs:50-55): only the type is ever used *)
Definition get_element pd (ix : nat) : option (nat * ElementType) :=
  match element_types pd !! ix with None => None | Some et => Some (ix, et) end.

(** get_element_verbose (parser_data.rs:57-61) *)
Definition get_element_verbose pd (ix : nat) : option ElementVerbose :=
  match element_data pd !! ix, element_types pd !! ix with
  | Some d, Some et => Some (ed_name d, et)
  | _, _ => None
  end.

(** get_elements_verbose (parser_data.rs:63-72): [self.element_types[ix]] panics
    if there are fewer types than data. *)
Fixpoint zip_elements {E} (data : list ElementData) (types : list ElementType)
  : outcome E (list ElementVerbose) :=
  match data with
  | [] => Ok []
  | d :: data' =>
      match types with
      | [] => Panic
      | et :: types' => let* r := zip_elements data' types' in Ok ((ed_name d, et) :: r)
      end
  end.
Definition get_elements_verbose {E} pd : outcome E (list ElementVerbose) :=
  zip_elements (element_data pd) (element_types pd).

(** get_rule_by_key, get_rule_by_element (parser_data.rs:74-79) *)
Definition get_rule_by_key pd (ix : nat) : option (NonTerminalRules I) := pd_rules pd !! ix.

(** get_element_index, get_element_nt_index, get_element_t_index
    (parser_data.rs:149-169) *)
Definition get_element_index pd (key : ElementVerbose) : option nat :=
  element_verbose_map pd !! key.
Definition get_element_nt_index pd (name : str) : option nat :=
  element_verbose_map pd !! ((name, NonTerminal) : ElementVerbose).
Definition get_element_t_index pd (name : str) : option nat :=
  element_verbose_map pd !! ((name, Terminal) : ElementVerbose).

(** get_rule_by_element_verbose (parser_data.rs:81-89) *)
Definition get_rule_by_element_verbose pd (name : str) : option (NonTerminalRules I) :=
  match get_element_index pd (name, NonTerminal) with
  | Some i => get_rule_by_key pd i
  | None => None
  end.

(** get_or_add_element_key (parser_data.rs:91-105) *)
Definition get_or_add_element_key pd (identifier : ElementVerbose) : nat * ParserData I :=
  match element_verbose_map pd !! identifier with
  | None =>
      let index := length (element_data pd) in
      (index,
       mkPD (parse_rules pd)
            (element_types pd ++ [identifier.2])
            (<[identifier := index]> (element_verbose_map pd))
            (element_data pd ++ [mkElementData false identifier.1]))
  | Some ix => (ix, pd)
  end.

(** get_or_add_non_terminal, get_or_add_terminal (parser_data.rs:141-148) *)
Definition get_or_add_non_terminal pd (name : str) := get_or_add_element_key pd (name, NonTerminal).
Definition get_or_add_terminal pd (name : str) := get_or_add_element_key pd (name, Terminal).

(** add_production (parser_data.rs:107-119) *)
Definition production_of (terms : list nat) : Production :=
  match terms with [] => Empty | _ => NotEmpty terms end.
Definition add_production pd (idx : nat) (terms : list nat) : ParserData I :=
  match pd_rules pd !! idx with
  | Some rule =>
      set_rules pd (<[idx := mkNTR (possible_productions rule ++ [production_of terms])
                                   (ntr_ignore rule) (instruction rule)]> (pd_rules pd))
  | None => set_rules pd (<[idx := mkNTR [production_of terms] None []]> (pd_rules pd))
  end.

(** set_productions (parser_data.rs:121-129) *)
Definition set_productions pd (idx : nat) (terms : list (list nat)) : ParserData I :=
  let pd1 := match pd_rules pd !! idx with
             | Some rule =>
                 set_rules pd (<[idx := mkNTR [] (ntr_ignore rule) (instruction rule)]> (pd_rules pd))
             | None => pd
             end in
  fold_left (fun acc t => add_production acc idx t) terms pd1.

(** add_instructions (parser_data.rs:131-139) *)
Definition add_instructions pd (idx : nat) (inst : list I) : ParserData I :=
  match pd_rules pd !! idx with
  | Some rule =>
      set_rules pd (<[idx := mkNTR (possible_productions rule) (ntr_ignore rule) inst]> (pd_rules pd))
  | None => set_rules pd (<[idx := mkNTR [] None inst]> (pd_rules pd))
  end.
End parser_data.
