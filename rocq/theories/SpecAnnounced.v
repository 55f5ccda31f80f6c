(** * Specification for C91: grammars whose alternatives announce themselves. *)
From Verif Require Import Base Sets ParserData SpecRules SpecLanguage.

(** Start is defined, and what is used or ignored; every alternative begins with quoted text;
    two alternatives of the same name never begin with the same char. *)
Record announced {I} (rs : list (arule I)) : Prop := {
  an_start : defined rs (lit "start");
  an_used : forall x y, uses rs x y -> defined rs y;
  an_ignored : forall x y, ignores rs x y -> defined rs y;
  an_quoted : forall x w, w ∈ alternatives_for rs x -> exists c s more, w = (c :: s, Terminal) :: more;
  an_different : forall x i j c s s' more more', alternatives_for rs x !! i = Some ((c :: s, Terminal) :: more) ->
    alternatives_for rs x !! j = Some ((c :: s', Terminal) :: more') -> i = j;
}.
