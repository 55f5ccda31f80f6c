(** * Specification of trees built by add_node (C30, C40-C43) *)
From Verif Require Import Base Tree.

(** A history of successful add_node calls: for each call, the number of the call that
    created the parent (None for a root) and the data. *)
Notation history T := (list (option nat * T)) (only parsing).

Section spec.
Context {T : Type}.
(** Parents were created by earlier calls. *)
Definition grown (h : history T) : Prop :=
  forall i p d, h !! i = Some (Some p, d) -> p < i.
(** The calls that added a child to the node of call [j], oldest first. *)
Definition child_of (h : history T) (j i : nat) : Prop := exists d, h !! i = Some (Some j, d).
Definition kids (h : history T) (j : nat) : list nat :=
  filter (fun i => (h !! i) ≫= fst = Some j) (seq 0 (length h)).
(** Proper descendants. *)
Definition descendant (h : history T) : nat -> nat -> Prop := tc (child_of h).

(** The id handed out by call number [i] when nothing was removed. *)
Definition id_of (i : nat) : NodeId := mkNodeId i i.

(** Doing the calls on the model. *)
Fixpoint do_adds (h : history T) (t : Tree T) : outcome TreeError (list NodeId) * Tree T :=
  match h with
  | [] => (Ok [], t)
  | (p, d) :: h' =>
      match add_node d (option_map id_of p) t with
      | (Ok x, t1) =>
          match do_adds h' t1 with
          | (Ok xs, t2) => (Ok (x :: xs), t2)
          | (e, t2) => (e, t2)
          end
      | (Err e, t1) => (Err e, t1)
      | (Panic, t1) => (Panic, t1)
      | (Diverge, t1) => (Diverge, t1)
      end
  end.
End spec.

(** ** Removing branches *)
Section removal.
Context {T : Type}.
(** Call [i] lies in the branch of [j]. *)
Definition in_branch (h : history T) (j i : nat) : Prop := i = j \/ descendant h j i.
(** [i] was removed by one of the removals [js]. *)
Definition removed (h : history T) (js : list nat) (i : nat) : Prop := exists j, j ∈ js /\ in_branch h j i.
(** Every removal is of a node that exists and was not removed before. *)
Fixpoint removable (h : history T) (before : list nat) (js : list nat) : Prop :=
  match js with
  | [] => True
  | j :: js' => j < length h /\ ~ removed h before j /\ removable h (before ++ [j]) js'
  end.
Fixpoint do_removes (js : list nat) (t : Tree T) : outcome TreeError unit * Tree T :=
  match js with
  | [] => (Ok tt, t)
  | j :: js' =>
      match remove_branch (id_of j) t with
      | (Ok _, t1) => do_removes js' t1
      | (e, t1) => (e, t1)
      end
  end.
End removal.

(** ** Arbitrary calls, with arbitrary ids *)
Section calls.
Context {T : Type}.
Inductive tcall := TAdd (d : T) (parent : option NodeId) | TRemove (id : NodeId).
Inductive tanswer := AAdd (r : outcome TreeError NodeId) | ARemove (r : outcome TreeError unit).
(** Did the call return at all? *)
Definition came_back (a : tanswer) : bool :=
  match a with
  | AAdd (Ok _) | AAdd (Err _) | ARemove (Ok _) | ARemove (Err _) => true
  | _ => false
  end.
Definition do_call (c : tcall) (t : Tree T) : tanswer * Tree T :=
  match c with
  | TAdd d p => let '(r, t') := add_node d p t in (AAdd r, t')
  | TRemove id => let '(r, t') := remove_branch id t in (ARemove r, t')
  end.
(** The program runs the calls one after the other and ends with a call that does not
    come back. *)
Fixpoint do_calls (cs : list tcall) (t : Tree T) : list tanswer * Tree T :=
  match cs with
  | [] => ([], t)
  | c :: cs' =>
      let '(a, t1) := do_call c t in
      if came_back a then let '(rest, t2) := do_calls cs' t1 in (a :: rest, t2) else ([a], t1)
  end.
(** What the add-only calls [cs] must answer after the history [h], and the history they
    lead to. *)
Inductive add_only : history T -> list tcall -> list tanswer -> history T -> Prop :=
| ao_nil h : add_only h [] [] h
| ao_root h d cs rs h' : add_only (h ++ [(None, d)]) cs rs h' ->
    add_only h (TAdd d None :: cs) (AAdd (Ok (id_of (length h))) :: rs) h'
| ao_child h d q cs rs h' : q < length h -> add_only (h ++ [(Some q, d)]) cs rs h' ->
    add_only h (TAdd d (Some (id_of q)) :: cs) (AAdd (Ok (id_of (length h))) :: rs) h'
| ao_stranger h d x cs rs h' : (forall q, q < length h -> x <> id_of q) -> add_only h cs rs h' ->
    add_only h (TAdd d (Some x) :: cs) (AAdd (Err (NodeDoesNotExist x)) :: rs) h'.

(** The node reached from [i] by the child positions [path]. *)
Fixpoint walk (kids_of : nat -> list nat) (i : nat) (path : list nat) : option nat :=
  match path with
  | [] => Some i
  | k :: path' => match kids_of i !! k with Some j => walk kids_of j path' | None => None end
  end.
(** Every query on [t] is answered as by the ordered forest [h] of which the nodes in
    [gone] were cut off; [lk i] are the remaining children of [i]. *)
Record is_forest (t : Tree T) (h : history T) (gone : nat -> Prop) (lk : nat -> list nat) : Prop := {
  (* a live id resolves to its data, under all three lookups *)
  f_live : forall i p d, h !! i = Some (p, d) -> ~ gone i ->
    exists n, get_node t (id_of i) = Ok n /\ get_node_mut t (id_of i) = Ok n /\ node_exists t (id_of i) = true /\ n_data n = d;
  (* a removed id is known to be removed *)
  f_gone : forall i, i < length h -> gone i ->
    get_node t (id_of i) = Err (NodeWasRemoved (id_of i)) /\ get_node_mut t (id_of i) = Err (NodeWasRemoved (id_of i)) /\
    node_exists t (id_of i) = false;
  (* any other id is refused *)
  f_stranger : forall x, (forall i, i < length h -> x <> id_of i) ->
    node_exists t x = false /\ (exists e, get_node t x = Err e) /\ (exists e, get_node_mut t x = Err e);
  (* the live children in insertion order *)
  f_lk : forall i k, k ∈ lk i <-> child_of h i k /\ ~ gone k;
  f_order : forall i, lk i `sublist_of` kids h i;
  f_children : forall i, i < length h -> ~ gone i -> get_children t (id_of i) = Ok (map id_of (lk i));
  (* the live descendants, each once *)
  f_descendants : forall i, i < length h -> ~ gone i ->
    exists ds, get_descendants t (id_of i) = Ok (map id_of ds) /\ NoDup ds /\
      forall j, j ∈ ds <-> descendant h i j /\ ~ gone j;
  (* children by number and nodes by path *)
  f_nth : forall i k n, get_node t (id_of i) = Ok n ->
    match lk i !! k with
    | Some j => exists c, get_nth_child t n k = Ok c /\ get_nth_child_or_none t n k = Ok (Some c) /\ get_node t (id_of j) = Ok c
    | None => get_nth_child t n k = Err (ChildDoesNotExists k) /\ get_nth_child_or_none t n k = Ok None
    end;
  f_path : forall i path, i < length h -> ~ gone i ->
    match walk lk i path with
    | Some j => exists c, get_by_path_or_none t (id_of i) path = Ok (Some c) /\ get_node t (id_of j) = Ok c
    | None => get_by_path_or_none t (id_of i) path = Ok None
    end;
}.
End calls.
Arguments tcall : clear implicits.

(** What was created: the id and the data of every add_node call that returned an id. *)
Section created.
Context {T : Type}.
Fixpoint created (cs : list (tcall T)) (rs : list tanswer) : list (NodeId * T) :=
  match cs, rs with
  | TAdd d _ :: cs', AAdd (Ok x) :: rs' => (x, d) :: created cs' rs'
  | _ :: cs', _ :: rs' => created cs' rs'
  | _, _ => []
  end.
End created.
