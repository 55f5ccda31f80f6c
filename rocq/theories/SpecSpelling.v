(** * Specification for C95: quoted texts cut into pieces. *)
From Verif Require Import Base Sets ParserData Vm SpecRules SpecLanguage.
Notation element := (str * ElementType)%type.

(** An element with its quoted text cut into single chars. *)
Definition letters (e : element) : list element :=
  match e with (c :: s, Terminal) => map (fun c => ([c], Terminal)) (c :: s) | _ => [e] end.
Definition spelled (w : list element) : list element := concat (map letters w).
(** Rules that are the same when their quoted texts are cut into single chars; no rule ignores
    anything. *)
Definition same_spelling {I} (rs rs' : list (arule I)) : Prop :=
  Forall2 (fun r r' => ar_name r = ar_name r' /\ ar_override r = ar_override r' /\ map spelled (ar_alts r) = map spelled (ar_alts r') /\ ar_instr r = ar_instr r') rs rs' /\
  forall r, r ∈ rs -> forall y, ar_override r <> OvIgnore y.
(** A tree with its leaves cut in the same way. *)
Fixpoint cut (t : ntree) : list ntree :=
  match t with
  | NLeaf [] => [NLeaf []]
  | NLeaf s => map (fun c => NLeaf [c]) s
  | NNode x subs => [NNode x (concat (map cut subs))]
  end.
