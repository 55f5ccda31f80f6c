(** * Specification of histories of calls on ParserData (C18, C19).
    Only names used here: the calls themselves. *)
From Verif Require Import Base ParserData.

Section spec.
Context {I : Type}.

(** One call of the API that changes a ParserData. *)
Inductive pd_call :=
| GetOrAdd (name : str) (kind : ElementType)      (* get_or_add_terminal / _non_terminal *)
| AddProduction (idx : nat) (terms : list nat)
| SetProductions (idx : nat) (terms : list (list nat))
| AddInstructions (idx : nat) (inst : list I).

Definition pd_do (pd : ParserData I) (c : pd_call) : ParserData I :=
  match c with
  | GetOrAdd n k => snd (get_or_add_element_key pd (n, k))
  | AddProduction i t => add_production pd i t
  | SetProductions i ts => set_productions pd i ts
  | AddInstructions i inst => add_instructions pd i inst
  end.
Definition pd_history (l : list pd_call) : ParserData I := fold_left pd_do l pd_new.

(** The (name, kind) pairs asked for, in the order of their first request. *)
Fixpoint first_requests (seen : list (str * ElementType)) (l : list pd_call)
  : list (str * ElementType) :=
  match l with
  | [] => []
  | GetOrAdd n k :: l' =>
      if decide ((n, k) ∈ seen) then first_requests seen l'
      else (n, k) :: first_requests ((n, k) :: seen) l'
  | _ :: l' => first_requests seen l'
  end.

(** The alternatives added to nonterminal [idx] by add_production calls, in order. *)
Fixpoint added (idx : nat) (l : list pd_call) : list (list nat) :=
  match l with
  | [] => []
  | AddProduction i t :: l' => if i =? idx then t :: added idx l' else added idx l'
  | _ :: l' => added idx l'
  end.
Definition sets_productions (idx : nat) (c : pd_call) : Prop :=
  exists ts, c = SetProductions idx ts.
Definition sets_instructions (idx : nat) (c : pd_call) : Prop :=
  exists inst, c = AddInstructions idx inst.
(** calls after which [idx] certainly has a rule *)
Definition defines (idx : nat) (c : pd_call) : Prop :=
  (exists t, c = AddProduction idx t) \/ (exists ts, ts <> [] /\ c = SetProductions idx ts)
  \/ (exists inst, c = AddInstructions idx inst).

(** What a vector of element indices means as an alternative. *)
Definition alternative_of (terms : list nat) (p : Production) : Prop :=
  (terms = [] /\ p = Empty) \/ (terms <> [] /\ p = NotEmpty terms).
End spec.
Arguments pd_call : clear implicits.
