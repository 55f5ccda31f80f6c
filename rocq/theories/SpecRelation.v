(** * Specification for C116: two sets of instructions for the same rules, compared. *)
From Verif Require Import Base Tree ParserData Vm SpecTree SpecRules SpecLanguage SpecEffect SpecHeights SpecHoare.

(** The rules are the same but for the instructions, which may be written for another VM and
    be more or fewer. *)
Definition rewritten {I J} (r : arule I) (r' : arule J) : Prop :=
  ar_name r = ar_name r' /\ ar_override r = ar_override r' /\ ar_alts r = ar_alts r'.
(** Two runs side by side: both return, with results in [K], or both panic; the second may
    also do anything when the first panics, if [looser]. *)
Definition both_do {A B} (looser : Prop) (K : A * B -> Prop) (o : outcome Empty_set A) (o' : outcome Empty_set B) : Prop :=
  match o with
  | Ok a => match o' with Ok b => K (a, b) | _ => False end
  | Panic => o' = Panic \/ looser
  | _ => False
  end.

Section relation.
Context {vm vm' : VM} (rs : list (arule (vm_instr vm))) (rs' : list (arule (vm_instr vm'))).
Notation states := (vm_state vm * vm_state vm')%type.
(** For every name: with which pairs of states it may be begun, and what both runs then do. *)
Record rcontract := mkRContract { rpre : str -> states -> Prop; rpost : str -> states -> states -> Prop }.
Context (C : rcontract).
Inductive ralong : list (str * ElementType) -> states -> states -> Prop :=
| ral_nil s : ralong [] s s
| ral_text b w s s' : ralong w s s' -> ralong ((b, Terminal) :: w) s s'
| ral_name y w s s1 s' : rpost C y s s1 -> ralong w s1 s' -> ralong ((y, NonTerminal) :: w) s s'.
(** The contract is kept, seen from each alternative of each part of [x] on its own. *)
Definition rkept (looser : Prop) (x : str) : Prop :=
  forall y i w s, part_of rs x y -> says rs y i w -> rpre C y s ->
  (forall w1 z w2 s1, w = w1 ++ (z, NonTerminal) :: w2 -> ralong w1 s s1 -> rpre C z s1) /\
  forall s1, ralong w s s1 -> both_do looser (rpost C y s) (instructions_on rs y w s1.1) (instructions_on rs' y w s1.2).
(** The pairs of states in which an [x] that was begun can be left unfinished. *)
Inductive rbegun : str -> states -> states -> Prop :=
| rbe_choice x s : rbegun x s s
| rbe_text x i w1 b w2 s s' : says rs x i (w1 ++ (b, Terminal) :: w2) -> ralong w1 s s' -> rbegun x s s'
| rbe_inside x i w1 y w2 s s1 s' : says rs x i (w1 ++ (y, NonTerminal) :: w2) -> ralong w1 s s1 -> rbegun y s1 s' -> rbegun x s s'.
End relation.
Arguments rcontract : clear implicits.
