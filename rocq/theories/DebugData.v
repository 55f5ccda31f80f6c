(** * Model of the derived Debug implementations of set members, elements and productions *)
From Verif Require Import Base Tree Errors Sets ParserData Display DebugFmt SpecText.

Section debug.
Context {P : Printable}.
(** #[derive(Debug)] of a tuple variant with one field: [Name(v)] *)
Definition debug_tuple (name : string) (v : str) : str := lit name ++ lit "(" ++ v ++ lit ")".
(** Debug of SetMemberWithEmpty and SetMember (sets.rs:10-15, 43-47) *)
Definition debug_member_e (x : SetMemberWithEmpty) : str :=
  match x with EChar c => debug_tuple "Char" (debug_char c) | EEmpty => lit "Empty" | ETerminate => lit "Terminate" end.
Definition debug_member (x : SetMember) : str :=
  match x with MChar c => debug_tuple "Char" (debug_char c) | MTerminate => lit "Terminate" end.
(** Debug of ElementType (parser_data.rs:254-258) *)
Definition debug_element_type (et : ElementType) : str := match et with Terminal => lit "Terminal" | NonTerminal => lit "NonTerminal" end.
(** Debug of ElementVerbose (parser_data.rs:236-240): a pair of name and type in the model *)
Definition debug_element_verbose (e : str * ElementType) : str :=
  debug_struct "ElementVerbose" [("name", debug_str e.1); ("et", debug_element_type e.2)]%string.
(** Debug of Element (parser_data.rs:259-263): a pair of index and type in the model *)
Definition debug_element (e : nat * ElementType) : str :=
  debug_struct "Element" [("ix", debug_usize e.1); ("et", debug_element_type e.2)]%string.
(** Debug of Production (parser_data.rs:281-285) *)
Definition debug_production (p : Production) : str :=
  match p with NotEmpty els => debug_tuple "NotEmpty" (debug_list debug_usize els) | Empty => lit "Empty" end.
End debug.
