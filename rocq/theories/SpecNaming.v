(** * Specification for C83 and C84: giving parts of alternatives a name of their own. *)
From Verif Require Import Base ParserData Tree Vm Sets SpecRules SpecLanguage.

Notation element := (str * ElementType)%type (only parsing).
Section naming.
Context (part : str -> option (list element)).
(** [part n = Some u]: [n] is a new name for [u].  A form with the new names written out: *)
Definition written_out (w : list element) : list element :=
  concat (map (fun e => match e with (n, NonTerminal) => match part n with Some u => u | None => [e] end | _ => [e] end) w).
(** A tree without the nodes of new names: their children take their place. *)
Fixpoint without_new (t : ntree) : list ntree :=
  match t with
  | NLeaf b => [NLeaf b]
  | NNode x subs =>
      let subs' := concat (map without_new subs) in
      match part x with Some _ => subs' | None => [NNode x subs'] end
  end.
Context {I : Type} (rs rs' : list (arule I)).
(** [rs'] is [rs] with parts of alternatives named: start is an old name; new names do not
    occur in [rs]; an old name has the same alternatives in [rs] and, with the new names
    written out, in [rs']; a new name has its part as the only alternative. *)
Record parts_named : Prop := {
  pn_start : part (lit "start") = None;
  pn_fresh : forall n u, part n = Some u -> ~ defined rs n /\ (forall x i w, says rs x i w -> (n, NonTerminal) ∉ w);
  pn_old_parts : forall n u m, part n = Some u -> (m, NonTerminal) ∈ u -> part m = None;
  pn_defined : forall x, part x = None -> defined rs' x <-> defined rs x;
  pn_old : forall x i w, part x = None -> says rs x i w <-> exists w', says rs' x i w' /\ w = written_out w';
  pn_new : forall n u, part n = Some u -> forall i w, says rs' n i w <-> i = 0 /\ w = u;
}.
(** Every new name is used, in one place. *)
Definition used_once : Prop := forall n u, part n = Some u ->
  exists x i a b, says rs' x i (a ++ (n, NonTerminal) :: b) /\
  forall y j a' b', says rs' y j (a' ++ (n, NonTerminal) :: b') -> y = x /\ j = i /\ a' = a /\ b' = b.
(** No part begins with the empty quoted text. *)
Definition parts_begin : Prop := forall n u, part n = Some u -> head u <> Some ([], Terminal).
(** An alternative of an old name begins with a new name, or with an element that does not
    stand for the empty text, or it is the empty alternative. *)
Definition nullable_starts_named : Prop := forall x i e w, part x = None -> says rs' x i (e :: w) ->
  (exists n u, e = (n, NonTerminal) /\ part n = Some u) \/ ~ nnullable rs [e].
End naming.

Section ll1.
Context {I : Type} (rs : list (arule I)).
(** The prediction set of an alternative in the textbook sense. *)
Definition nselect (x : str) (w : list element) (a : SetMember) : Prop :=
  (exists c, a = MChar c /\ nfirst rs w c) \/ (nnullable rs w /\ nfollow rs (x, NonTerminal) a).
(** LL(1) in the textbook sense. *)
Definition ll1 : Prop := forall x i j w w' a, says rs x i w -> says rs x j w' -> i <> j -> nselect x w a -> nselect x w' a -> False.
End ll1.

(** A VM whose instructions do not look at the tree. *)
Definition tree_blind (vm : VM) : Prop := forall t t' id id' i s,
  match vm_execute vm t id i s, vm_execute vm t' id' i s with
  | Ok (_, s1), Ok (_, s2) => s1 = s2
  | Panic, Panic | Diverge, Diverge => True
  | _, _ => False
  end.

(** ** A name of its own for every alternative *)
Section all_alternatives.
Context {I : Type} (new : nat -> str).
Definition numbered (c : nat) (alts : list (list element)) : list (str * list element) := imap (fun j w => (new (c + j), w)) alts.
(** Alternative number [c] of the grammar becomes the new name [new c] alone; behind the rule
    stand the rules of its new names, without braces. *)
Fixpoint all_named (c : nat) (rs : list (arule I)) : list (arule I) :=
  match rs with
  | [] => []
  | r :: rs =>
      mkARule (ar_name r) (ar_override r) (map (fun p => [(p.1, NonTerminal)]) (numbered c (ar_alts r))) (ar_instr r) ::
      map (fun p => mkARule p.1 OvAbsent [p.2] []) (numbered c (ar_alts r)) ++ all_named (c + length (ar_alts r)) rs
  end.
(** The new names are different from each other and from the names of the grammar. *)
Definition fresh_names (rs : list (arule I)) : Prop :=
  (forall i j, new i = new j -> i = j) /\
  forall i, new i <> lit "start" /\ forall r, r ∈ rs -> new i <> ar_name r /\ forall w, w ∈ ar_alts r -> (new i, NonTerminal) ∉ w.
End all_alternatives.
