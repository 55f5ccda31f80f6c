(** * Lemmas about parse_terminal (rule_parsing.rs) *)
From Verif Require Import Base Peekables Errors ParseFuncs ParserData Vm RuleParsing SpecText
  Streams_proofs ParseFuncs_proofs.

Notation outer w n := (mkPP w n None None false).

Lemma outer_next c w n : pp_next base_tp (outer (c :: w) n) = (Some c, outer w (n + 1)).
Proof. reflexivity. Qed.
Lemma outer_next_nil n : pp_next base_tp (outer [] n) = (None, outer [] n).
Proof. reflexivity. Qed.
Lemma outer_peek w n : pp_peek base_tp (outer w n) = (head w, outer w n).
Proof. destruct w; reflexivity. Qed.

(** One step of the loop over a char that belongs to the literal. *)
Lemma terminal_loop_step f c esc lit w n :
  (c <> 34%N \/ esc = true) ->
  terminal_loop (S f) c esc lit (outer (c :: w) n) =
  match w with
  | [] => (Err (EndOfCharsError (n + 1)), outer [] (n + 1))
  | d :: _ => terminal_loop f d (N.eqb c 92 && negb esc) (lit ++ [c]) (outer w (n + 1))
  end.
Proof.
  intros Hc. cbn [terminal_loop].
  assert (negb (N.eqb c 34) || esc = true) as ->.
  { destruct Hc as [Hc| ->]; [|apply orb_true_r]. apply N.eqb_neq in Hc. rewrite Hc. reflexivity. }
  rewrite outer_next, outer_peek. destruct w; reflexivity.
Qed.
Lemma terminal_loop_stop f lit w n :
  terminal_loop (S f) 34 false lit (outer (34%N :: w) n) = (Ok lit, outer w (n + 1)).
Proof. reflexivity. Qed.

Lemma eqb_neq_false c d : c <> d -> N.eqb c d = false.
Proof. apply N.eqb_neq. Qed.

Lemma terminal_loop_body body : quoted_body body -> forall fuel c0 lit rest n,
  head (body ++ 34%N :: rest) = Some c0 -> length body < fuel ->
  terminal_loop fuel c0 false lit (outer (body ++ 34%N :: rest) n)
  = (Ok (lit ++ body), outer rest (n + length body + 1)).
Proof.
  induction 1 as [|c b H1 H2 Hb IH|d b Hb IH]; intros fuel c0 lit rest n Hh Hf.
  - simpl in *. injection Hh as <-. destruct fuel as [|f]; [lia|].
    rewrite terminal_loop_stop, app_nil_r, Nat.add_0_r. reflexivity.
  - simpl in Hh, Hf. injection Hh as <-. destruct fuel as [|f]; [lia|].
    cbn [app]. rewrite terminal_loop_step by auto.
    destruct (b ++ 34%N :: rest) as [|d w] eqn:Hw; [destruct b; discriminate|].
    rewrite (eqb_neq_false c 92) by assumption. cbn [andb]. rewrite <- Hw.
    rewrite IH; [|rewrite Hw; reflexivity|lia].
    rewrite <- app_assoc. cbn [length app]. f_equal. f_equal. lia.
  - simpl in Hh, Hf. injection Hh as <-. destruct fuel as [|[|f]]; [lia|lia|].
    cbn [app]. rewrite terminal_loop_step by (left; discriminate).
    change (N.eqb 92 92 && negb false) with true.
    rewrite terminal_loop_step by auto.
    destruct (b ++ 34%N :: rest) as [|x w] eqn:Hw; [destruct b; discriminate|].
    rewrite andb_false_r. rewrite <- Hw.
    rewrite IH; [|rewrite Hw; reflexivity|lia].
    rewrite <- !app_assoc. cbn [length app]. f_equal. f_equal. lia.
Qed.

Lemma terminal_loop_unterminated body : quoted_body body -> forall tl fuel c0 lit n,
  (tl = [] \/ tl = [92%N]) ->
  head (body ++ tl) = Some c0 -> length (body ++ tl) < fuel ->
  terminal_loop fuel c0 false lit (outer (body ++ tl) n)
  = (Err (EndOfCharsError (n + length (body ++ tl))), outer [] (n + length (body ++ tl))).
Proof.
  induction 1 as [|c b H1 H2 Hb IH|d b Hb IH]; intros tl fuel c0 lit n Htl Hh Hf.
  - destruct Htl as [-> | ->]; [discriminate|]. simpl in *. injection Hh as <-.
    destruct fuel as [|f]; [lia|].
    rewrite terminal_loop_step by (left; discriminate). reflexivity.
  - simpl in Hh, Hf. injection Hh as <-. destruct fuel as [|f]; [lia|].
    cbn [app]. rewrite terminal_loop_step by auto.
    destruct (b ++ tl) as [|d w] eqn:Hw.
    { simpl. reflexivity. }
    rewrite (eqb_neq_false c 92) by assumption. cbn [andb].
    cbn [length]. rewrite <- Hw in *.
    rewrite (IH tl f d); [|assumption|rewrite Hw; reflexivity|simpl in Hf; lia].
    rewrite Hw. cbn [length]. replace (n + 1 + S (length w)) with (n + S (S (length w))) by lia.
    reflexivity.
  - simpl in Hh, Hf. injection Hh as <-. destruct fuel as [|[|f]]; [lia|lia|].
    cbn [app]. rewrite terminal_loop_step by (left; discriminate).
    change (N.eqb 92 92 && negb false) with true.
    rewrite terminal_loop_step by auto.
    destruct (b ++ tl) as [|x w] eqn:Hw.
    { simpl. replace (n + 1 + 1) with (n + 2) by lia. reflexivity. }
    rewrite andb_false_r. cbn [length]. rewrite <- Hw in *.
    rewrite (IH tl f x); [|assumption|rewrite Hw; reflexivity|simpl in Hf; lia].
    rewrite Hw. cbn [length].
    replace (n + 1 + 1 + S (length w)) with (n + S (S (S (length w)))) by lia. reflexivity.
Qed.

Lemma parse_terminal_ok body rest n : quoted_body body ->
  parse_terminal (outer (34%N :: body ++ 34%N :: rest) n)
  = (Ok body, outer rest (n + length body + 2)).
Proof.
  intros Hb. unfold parse_terminal, sbind.
  unfold parse_symbol. rewrite outer_peek. cbn [head]. rewrite N.eqb_refl, outer_next.
  rewrite outer_peek. destruct (head (body ++ 34%N :: rest)) as [c|] eqn:Hh.
  - rewrite (terminal_loop_body body Hb); [|assumption|].
    + simpl. f_equal. f_equal. lia.
    + unfold pp_size; simpl. rewrite app_length. simpl. lia.
  - destruct body; discriminate.
Qed.
Lemma parse_terminal_unterminated w n : unterminated w ->
  parse_terminal (outer (34%N :: w) n)
  = (Err (EndOfCharsError (n + 1 + length w)), outer [] (n + 1 + length w)).
Proof.
  intros Hw.
  assert (exists b tl, quoted_body b /\ (tl = [] \/ tl = [92%N]) /\ w = b ++ tl) as (b & tl & Hb & Htl & ->).
  { destruct Hw as [Hb|(b & Hb & ->)]; [exists w, []|exists b, [92%N]]; rewrite ?app_nil_r; auto. }
  unfold parse_terminal, sbind, parse_symbol. rewrite outer_peek. cbn [head].
  rewrite N.eqb_refl, outer_next, outer_peek.
  destruct (head (b ++ tl)) as [c|] eqn:Hh.
  - rewrite (terminal_loop_unterminated b Hb); auto.
  - destruct (b ++ tl); [simpl; rewrite Nat.add_0_r; reflexivity|discriminate].
Qed.
Lemma quote_split w : (exists body rest, w = body ++ 34%N :: rest /\ quoted_body body) \/ unterminated w.
Proof.
  assert (forall k w, length w <= k ->
    (exists body rest, w = body ++ 34%N :: rest /\ quoted_body body) \/ unterminated w) as Hk.
  { clear. induction k as [|k IH]; intros w Hl.
    - destruct w; [|simpl in Hl; lia]. right. left. constructor.
    - destruct w as [|c w]; [right; left; constructor|].
      destruct (decide (c = 34%N)) as [->|H1].
      { left. exists [], w. split; [reflexivity|constructor]. }
      destruct (decide (c = 92%N)) as [->|H2].
      + destruct w as [|d w].
        { right. right. exists []. split; [constructor|reflexivity]. }
        destruct (IH w) as [(b & r & -> & Hb)|[Hu|(b & Hb & ->)]]; [simpl in Hl; lia| | |].
        * left. exists (92%N :: d :: b), r. split; [reflexivity|constructor; assumption].
        * right. left. constructor; assumption.
        * right. right. exists (92%N :: d :: b). split; [constructor; assumption|reflexivity].
      + destruct (IH w) as [(b & r & -> & Hb)|[Hu|(b & Hb & ->)]]; [simpl in Hl; lia| | |].
        * left. exists (c :: b), r. split; [reflexivity|constructor; assumption].
        * right. left. constructor; assumption.
        * right. right. exists (c :: b). split; [constructor; assumption|reflexivity]. }
  eauto.
Qed.
Lemma parse_terminal_inv w n r p : parse_terminal (outer w n) = (Ok r, p) ->
  quoted_body r /\ exists rest, w = 34%N :: r ++ 34%N :: rest /\ p = outer rest (n + length r + 2).
Proof.
  intros H. destruct w as [|c w]; [discriminate|].
  destruct (decide (c = 34%N)) as [->|Hc].
  - destruct (quote_split w) as [(b & rest & -> & Hb)|Hu].
    + rewrite (parse_terminal_ok b rest n Hb) in H. inversion H; subst. eauto.
    + rewrite (parse_terminal_unterminated w n Hu) in H. discriminate.
  - unfold parse_terminal, sbind, parse_symbol in H. rewrite outer_peek in H. cbn [head] in H.
    rewrite (eqb_neq_false c 34 Hc) in H. discriminate.
Qed.
