(** * Specification for C81: replacing parts of a script, and ignored text. *)
From Verif Require Import Base ParserData SpecRules SpecLanguage.

(** The tree [t] with [s] in the place of the subtree at [path]. *)
Fixpoint replaced (t : ntree) (path : list nat) (s : ntree) : ntree :=
  match path with
  | [] => s
  | k :: path' =>
      match t with
      | NLeaf b => NLeaf b
      | NNode x subs => NNode x (imap (fun j u => if decide (j = k) then replaced u path' s else u) subs)
      end
  end.

Section ignored.
Context {I : Type}.
(** The grammar without its IGNORE overrides. *)
Definition unignored (rs : list (arule I)) : list (arule I) :=
  map (fun r => mkARule (ar_name r) OvAbsent (ar_alts r) (ar_instr r)) rs.
Context (rs : list (arule I)).
(** A tree for [y] between every two neighbours. *)
Inductive gapped (y : str) : list ntree -> list ntree -> Prop :=
| gap_none : gapped y [] []
| gap_one s : gapped y [s] [s]
| gap_more s g s' l l' : nderivation rs g -> nroot g = (y, NonTerminal) -> gapped y (s' :: l) l' -> gapped y (s :: s' :: l) (s :: g :: l').
(** [t] is [t0] with ignored text put in: under every name that ignores some [y] (of which
    it is not a part) a tree for [y] between every two neighbours. *)
Inductive padded : ntree -> ntree -> Prop :=
| pad_leaf b : padded (NLeaf b) (NLeaf b)
| pad_plain x subs0 subs : (forall y, ignores rs x y -> inside rs y x) -> Forall2 padded subs0 subs -> padded (NNode x subs0) (NNode x subs)
| pad_gaps x y subs0 subs1 subs : ignores rs x y -> ~ inside rs y x -> Forall2 padded subs0 subs1 -> gapped y subs1 subs ->
    padded (NNode x subs0) (NNode x subs).
End ignored.
