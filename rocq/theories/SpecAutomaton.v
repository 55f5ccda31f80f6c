(** * Specification for C90: finite automata written as grammars. *)
From Verif Require Import Base Sets ParserData SpecRules SpecLanguage.

(** A state: where it goes with which char, and whether a script may end in it. *)
Record state := mkState { edges : list (char * nat); accepting : bool }.
(** The states; the first one is where a script begins. *)
Definition automaton := list state.
Section automaton.
Context (A : automaton).
(** [A] gets from [q] to [q'] reading [s]. *)
Inductive runs : nat -> str -> nat -> Prop :=
| runs_nil q : runs q [] q
| runs_cons q st c q' s q'' : A !! q = Some st -> (c, q') ∈ edges st -> runs q' s q'' -> runs q (c :: s) q''.
Definition recognised (s : str) : Prop := exists q st, runs 0 s q /\ A !! q = Some st /\ accepting st = true.
(** Deterministic, with a first state, no edge into nowhere, no state that can neither end nor
    go on, and without the two chars that cannot be written between quotes (C82). *)
Record usable : Prop := {
  us_first : is_Some (A !! 0);
  us_targets : forall q st c q', A !! q = Some st -> (c, q') ∈ edges st -> is_Some (A !! q');
  us_deterministic : forall q st, A !! q = Some st -> NoDup (map fst (edges st));
  us_alive : forall q st, A !! q = Some st -> edges st = [] -> accepting st = true;
  us_chars : forall q st c q', A !! q = Some st -> (c, q') ∈ edges st -> c <> 34%N /\ c <> 92%N;
}.
(** From every state some script leads to an accepting one. *)
Definition trim : Prop := forall q, is_Some (A !! q) -> exists s q' st, runs q s q' /\ A !! q' = Some st /\ accepting st = true.
End automaton.

(** ** The grammar *)
(** The first state is called start, the others q, qq, qqq, ... *)
Definition state_name (q : nat) : str := match q with 0 => lit "start" | _ => replicate q 113%N end.
(** [q -> "c" q' | ... | #;] *)
Definition state_alternatives (st : state) : list (list (str * ElementType)) :=
  map (fun '(c, q) => [([c], Terminal); (state_name q, NonTerminal)]) (edges st) ++ (if accepting st then [[]] else []).
Definition state_rules {I} (A : automaton) : list (arule I) :=
  imap (fun q st => mkARule (state_name q) OvAbsent (state_alternatives st) []) A.
(** Its text. *)
Definition alternative_str (w : list (str * ElementType)) : str :=
  match w with
  | [(b, Terminal); (x, NonTerminal)] => lit """" ++ b ++ lit """" ++ x
  | _ => lit "#"
  end.
Fixpoint alternatives_str (ws : list (list (str * ElementType))) : str :=
  match ws with [] => [] | [w] => alternative_str w | w :: ws => alternative_str w ++ lit "|" ++ alternatives_str ws end.
Definition automaton_text (A : automaton) : str :=
  concat (imap (fun q st => state_name q ++ lit "->" ++ alternatives_str (state_alternatives st) ++ lit ";") A).
(** The tree of a run. *)
Fixpoint run_nodes (A : automaton) (q : nat) (s : str) : ntree :=
  NNode (state_name q)
    (match s with
     | [] => []
     | c :: s' => match A !! q ≫= fun st => snd <$> list_find (fun e => e.1 = c) (edges st) with
                  | Some (_, q') => [NLeaf [c]; run_nodes A q' s']
                  | None => []
                  end
     end).
