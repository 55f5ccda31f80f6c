(** * Specification for C100: grammars written as expressions. *)
From Verif Require Import Base Tree ParserData Vm SpecText SpecTree SpecRules SpecLanguage SpecRename SpecEffect SpecCompose SpecNested SpecEmbed.
Notation start_name := (lit "start").

Section expr.
Context {I : Type}.
Inductive expr :=
| Nothing (is : list I)              (* no text, then instructions *)
| Word (s : str) (is : list I)       (* a quoted text, then instructions *)
| Alt (e1 e2 : expr)                 (* one or the other *)
| Then (e1 e2 : expr)                (* one after the other *)
| Many (e : expr)                    (* any number of times *)
| Nest (op cl : str) (e : expr).     (* in any number of pairs of brackets *)

(** The rules of an expression: one definition for each operator, with names of its own for
    the operands. *)
Inductive expressed : expr -> list (arule I) -> Prop :=
| ed_nothing is : expressed (Nothing is) [mkARule start_name OvAbsent [[]] is]
| ed_word s is : expressed (Word s is) [mkARule start_name OvAbsent [[(s, Terminal)]] is]
| ed_alt e1 e2 G1 G2 x1 x2 : expressed e1 G1 -> expressed e2 G2 -> unused x1 G1 -> unused x2 G2 -> apart (embedded x1 G1) (embedded x2 G2) ->
    expressed (Alt e1 e2) (either x1 x2 [] (embedded x1 G1) (embedded x2 G2))
| ed_then e1 e2 G1 G2 x1 x2 : expressed e1 G1 -> expressed e2 G2 -> unused x1 G1 -> unused x2 G2 -> apart (embedded x1 G1) (embedded x2 G2) ->
    expressed (Then e1 e2) (in_turn x1 x2 [] (embedded x1 G1) (embedded x2 G2))
| ed_many e G x : expressed e G -> unused x G -> expressed (Many e) (repeated x [] (embedded x G))
| ed_nest op cl e G x : op <> [] -> cl <> [] -> expressed e G -> unused x G -> expressed (Nest op cl e) (nested x op cl [] (embedded x G)).

(** ** The texts: lists of pieces, each a text (or nothing) and what is to be done for it. *)
Notation piece := (option str * list I)%type.
Inductive matches : expr -> list piece -> Prop :=
| ma_nothing is : matches (Nothing is) [(None, is)]
| ma_word s is : matches (Word s is) [(Some s, is)]
| ma_left e1 e2 ps : matches e1 ps -> matches (Alt e1 e2) ps
| ma_right e1 e2 ps : matches e2 ps -> matches (Alt e1 e2) ps
| ma_then e1 e2 ps qs : matches e1 ps -> matches e2 qs -> matches (Then e1 e2) (ps ++ qs)
| ma_many e pss : Forall (matches e) pss -> matches (Many e) (concat pss)
| ma_bare op cl e ps : matches e ps -> matches (Nest op cl e) ps
| ma_nest op cl e ps : matches (Nest op cl e) ps -> matches (Nest op cl e) ([(Some op, [])] ++ ps ++ [(Some cl, [])]).
Definition text_of (ps : list piece) : str := concat (map (fun p => default [] p.1) ps).

(** ** The check *)
(** Can it be empty? *)
Fixpoint empties (e : expr) : bool :=
  match e with
  | Nothing _ => true | Word _ _ => false
  | Alt e1 e2 => empties e1 || empties e2
  | Then e1 e2 => empties e1 && empties e2
  | Many _ => true
  | Nest _ _ e => empties e
  end.
(** What can it begin with? *)
Fixpoint begins_with (e : expr) : list char :=
  match e with
  | Nothing _ => [] | Word s _ => take 1 s
  | Alt e1 e2 => begins_with e1 ++ begins_with e2
  | Then e1 e2 => begins_with e1 ++ if empties e1 then begins_with e2 else []
  | Many e => begins_with e
  | Nest op _ e => take 1 op ++ begins_with e
  end.
(** What may it go on with, where it could end? *)
Fixpoint may_go_on (e : expr) : list char :=
  match e with
  | Nothing _ | Word _ _ => []
  | Alt e1 e2 => may_go_on e1 ++ may_go_on e2 ++ (if empties e1 then begins_with e2 else []) ++ (if empties e2 then begins_with e1 else [])
  | Then e1 e2 => may_go_on e2 ++ if empties e2 then may_go_on e1 else []
  | Many e => begins_with e ++ may_go_on e
  | Nest op _ e => may_go_on e ++ if empties e then take 1 op else []
  end.
(** In front of what is it taken?  Empty brackets stand in front of the closing one. *)
Definition taken_before (e : expr) : list char :=
  begins_with e ++ match e with Nest _ cl e => if empties e then take 1 cl else [] | _ => [] end.
Definition disjoint_chars (l l' : list char) : bool := forallb (fun c => bool_decide (c ∉ l')) l.
Definition nonempty (s : str) : bool := match s with [] => false | _ => true end.
Fixpoint fine (e : expr) : bool :=
  match e with
  | Nothing _ => true
  | Word s _ => nonempty s
  | Alt e1 e2 => fine e1 && fine e2 && negb (empties e1 && empties e2) && disjoint_chars (taken_before e1) (taken_before e2)
  | Then e1 e2 => fine e1 && fine e2 && disjoint_chars (may_go_on e1) (begins_with e2)
  | Many e => fine e && negb (empties e) && disjoint_chars (may_go_on e) (begins_with e)
  | Nest op cl e => fine e && disjoint_chars (take 1 op) (taken_before e) && negb (empties e && negb (disjoint_chars (take 1 op) (take 1 cl))) && disjoint_chars (take 1 cl) (may_go_on e)
  end.
End expr.
Arguments expr : clear implicits.

(** ** What is done: the instructions of the pieces, one after the other, each piece on a
    tree of its own: a node, with the text below it if there is one. *)
Section run.
Context {vm : VM}.
Definition do_piece (p : option str * list (vm_instr vm)) (v : vm_state vm) : outcome Empty_set (vm_state vm) :=
  ofold (fun v ins => let* '(_t, v') := vm_execute vm (own_tree (NNode start_name (match p.1 with Some s => [NLeaf s] | None => [] end))) (mkNodeId 0 0) ins v in Ok v') v p.2.
Definition do_pieces (ps : list (option str * list (vm_instr vm))) (v : vm_state vm) : outcome Empty_set (vm_state vm) := ofold (fun v p => do_piece p v) v ps.
End run.

(** ** Expressions that can be written: quoted texts that are bodies of terminals, brackets
    that are not empty, instructions that the VM reads from the braces of any rule. *)
Section written.
Context {U : Unicode} {I : Type} (reads : str -> str -> list I -> Prop).
Definition readable (is : list I) : Prop := forall nm, valid_name nm -> exists ts, section_text reads nm is ts.
Fixpoint writable (e : expr I) : Prop :=
  match e with
  | Nothing is => readable is
  | Word s is => quoted_body s /\ readable is
  | Alt e1 e2 | Then e1 e2 => writable e1 /\ writable e2
  | Many e => writable e
  | Nest op cl e => (quoted_body op /\ op <> []) /\ (quoted_body cl /\ cl <> []) /\ writable e
  end.
End written.
