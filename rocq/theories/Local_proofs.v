(** * parse looks at what it has read and one char more *)
From Verif Require Import Base Peekables Tree Errors Sets ParserData Vm RuleParsing SteuerMap ScriptParser SpecText SpecRules.

Section local.
Context {H : HashOrder} (vm : VM) (ps : Parser (vm_instr vm)).
Definition at_ (w : str) (n : nat) (v : vm_state vm) (t : Tree str) : PS vm := mkPS (mkPP w n None None false) v t.

Definition local_on {A} (f : st (PS vm) ParserError A) (w : str) (n : nat) (v : vm_state vm) (t : Tree str) : Prop :=
  exists used rest v' t' r, w = used ++ rest /\
    (match r with Err e => forall k, error_position e = Some k -> k = n + length used | _ => True end) /\
    forall rest', head rest' = head rest -> f (at_ (used ++ rest') n v t) = (r, at_ rest' (n + length used) v' t').
Definition local {A} (f : st (PS vm) ParserError A) : Prop := forall w n v t, local_on f w n v t.

(** functions that read nothing *)
Lemma still_local {A} (f : st (PS vm) ParserError A) :
  (forall n v t, exists r v' t', (match r with Err e => error_position e = None | _ => True end) /\ forall w, f (at_ w n v t) = (r, at_ w n v' t')) -> local f.
Proof.
  intros Hf w n v t. destruct (Hf n v t) as (r & v' & t' & Hr & E). exists [], w, v', t', r. split; [reflexivity|]. cbn [length app]. rewrite Nat.add_0_r. split.
  - destruct r; auto. intros k Hk. congruence.
  - intros rest' _. apply E.
Qed.
Lemma ret_local {A} (a : A) : local (sret a).
Proof. apply still_local. intros n v t. exists (Ok a), v, t. split; [exact Logic.I|reflexivity]. Qed.
Lemma fail_local {A} e : error_position e = None -> local (A := A) (sfail e).
Proof. intros He. apply still_local. intros n v t. exists (Err e), v, t. split; [exact He|reflexivity]. Qed.
Lemma panic_local {A} : local (A := A) (fun s => (Panic, s)).
Proof. apply still_local. intros n v t. exists Panic, v, t. split; [exact Logic.I|reflexivity]. Qed.
Lemma diverge_local {A} : local (A := A) (fun s => (Diverge, s)).
Proof. apply still_local. intros n v t. exists Diverge, v, t. split; [exact Logic.I|reflexivity]. Qed.

Lemma head_app {A} (u r r' : list A) : head r' = head r -> head (u ++ r') = head (u ++ r).
Proof. destruct u; [auto|reflexivity]. Qed.
Lemma bind_local_on {A B} (f : st (PS vm) ParserError A) (g : A -> st (PS vm) ParserError B) w n v t :
  local_on f w n v t -> (forall a, local (g a)) -> local_on (sbind f g) w n v t.
Proof.
  intros (u & r & v1 & t1 & o & -> & Ho & Ef) Hg. destruct o as [a|e| |].
  2-4: eexists u, r, v1, t1, _; split; [reflexivity|]; (split; [|intros rest' Hh; unfold sbind; rewrite (Ef rest' Hh); reflexivity]); auto.
  destruct (Hg a r (n + length u) v1 t1) as (u2 & r2 & v2 & t2 & o2 & -> & Ho2 & Eg).
  exists (u ++ u2), r2, v2, t2, o2. split; [apply app_assoc|]. rewrite app_length, Nat.add_assoc. split; [exact Ho2|].
  intros rest' Hh. unfold sbind. rewrite <- app_assoc, (Ef (u2 ++ rest')) by (apply head_app; exact Hh). apply Eg. exact Hh.
Qed.
Lemma bind_local {A B} (f : st (PS vm) ParserError A) (g : A -> st (PS vm) ParserError B) : local f -> (forall a, local (g a)) -> local (sbind f g).
Proof. intros Hf Hg w n v t. apply bind_local_on; [apply Hf|exact Hg]. Qed.

Lemma peek_at w n v t : ps_peek vm (at_ w n v t) = (Ok (head w), at_ w n v t).
Proof. destruct w; reflexivity. Qed.
Lemma next_at c w n v t : ps_next vm (at_ (c :: w) n v t) = (Ok tt, at_ w (n + 1) v t).
Proof. reflexivity. Qed.
Lemma peek_local : local (ps_peek vm).
Proof.
  intros w n v t. exists [], w, v, t, (Ok (head w)). split; [reflexivity|]. split; [exact Logic.I|]. intros rest' Hh. cbn [app length].
  rewrite peek_at, Hh, Nat.add_0_r. reflexivity.
Qed.
Lemma fitting_local el cur : local (get_fitting_production vm ps el cur).
Proof.
  intros w n v t. exists [], w, v, t. unfold get_fitting_production.
  destruct (rules_with_steuermaps ps !! el) as [nt|].
  2:{ eexists. split; [reflexivity|]. split; [|intros rest' _; cbn [app length]; rewrite Nat.add_0_r; reflexivity]. intros k Hk. discriminate. }
  destruct (steuermap nt !! cur) as [p|].
  { eexists. split; [reflexivity|]. split; [|intros rest' _; cbn [app length]; rewrite Nat.add_0_r; reflexivity]. exact Logic.I. }
  eexists (Err (UnexpectedCharError (default 35%N (head w)) n _)). split; [reflexivity|]. split; [cbn; intros k [= <-]; lia|].
  intros rest' Hh. cbn [app length]. unfold sbind. rewrite peek_at, Hh, Nat.add_0_r. reflexivity.
Qed.
Lemma terminal_local l : local (terminal_chars vm l).
Proof.
  induction l as [|c l IH]; intros w n v t; [apply ret_local|]. destruct w as [|x w].
  - exists [], [], v, t, (Err (EndOfCharsError n)). split; [reflexivity|]. split; [cbn; intros k [= <-]; lia|].
    intros [|y rest'] Hh; [|discriminate]. cbn [app length]. rewrite Nat.add_0_r. reflexivity.
  - destruct (N.eqb_spec x c) as [->|Hne].
    + destruct (IH w (n + 1) v t) as (u & r & v' & t' & o & -> & Ho & E). exists (c :: u), r, v', t', o. split; [reflexivity|].
      cbn [length]. replace (n + S (length u)) with (n + 1 + length u) by lia. split; [exact Ho|].
      intros rest' Hh. cbn [app terminal_chars]. unfold sbind at 1. cbn [ps_pos]. unfold sbind at 1. rewrite peek_at. cbn [head]. rewrite N.eqb_refl. cbn [negb].
      unfold sbind at 1. rewrite next_at. apply E. exact Hh.
    + exists [], (x :: w), v, t, (Err (UnexpectedCharError x n [c])). split; [reflexivity|]. split; [cbn; intros k [= <-]; lia|].
      intros rest' Hh. cbn [app length terminal_chars]. rewrite Nat.add_0_r. unfold sbind at 1. cbn [ps_pos]. unfold sbind at 1. rewrite peek_at, Hh. cbn [head].
      apply N.eqb_neq in Hne. rewrite Hne. reflexivity.
Qed.
Lemma run_local id l : local (run_instructions vm id l).
Proof.
  induction l as [|i l IH]; [apply ret_local|]. apply bind_local; [|intros _; exact IH]. apply still_local. intros n v t. unfold run_one. cbn [ps_tree ps_vm at_].
  destruct (vm_execute vm t id i v) as [[t' v']|[]| |]; [exists (Ok tt), v', t'|exists Panic, v, t|exists Diverge, v, t]; (split; [exact Logic.I|reflexivity]).
Qed.
Lemma add_local d p : local (ps_add_node vm d p).
Proof.
  apply still_local. intros n v t. unfold ps_add_node. cbn [ps_tree ps_vm ps_in at_]. destruct (add_node d p t) as [r t']. exists (map_err PTreeError r), v, t'.
  split; [|reflexivity]. destruct r; exact Logic.I || reflexivity.
Qed.
Lemma add_ignored_local d p : local (ps_add_node_ignored vm d p).
Proof.
  apply still_local. intros n v t. unfold ps_add_node_ignored, ps_add_node. cbn [ps_tree ps_vm ps_in at_]. destruct (add_node d p t) as [[a|e| |] t'].
  - exists (Ok tt), v, t'; split; [exact Logic.I|reflexivity].
  - exists (Ok tt), v, t'; split; [exact Logic.I|reflexivity].
  - exists Panic, v, t'; split; [exact Logic.I|reflexivity].
  - exists Diverge, v, t'; split; [exact Logic.I|reflexivity].
Qed.
Lemma nonterminal_local f : forall el node, local (parse_nonterminal vm ps f el node).
Proof.
  induction f as [|f IH]; intros el node; [apply diverge_local|]. cbn [parse_nonterminal]. apply bind_local; [apply peek_local|]. intros o.
  destruct (rules_with_steuermaps ps !! el) as [nt|]; [|apply fail_local; reflexivity].
  apply bind_local; [apply fitting_local|]. intros prod. apply bind_local; [apply add_local|]. intros id. apply bind_local; [|intros _; apply run_local].
  destruct prod as [els|]; [|apply ret_local]. induction els as [|e els IHe]; [apply ret_local|].
  destruct (p_elements ps !! e) as [[name []]|]; [| |apply panic_local].
  - apply bind_local; [|intros txt; apply bind_local; [apply add_ignored_local|intros _; exact IHe]].
    apply bind_local; [apply terminal_local|intros _; apply ret_local].
  - apply bind_local; [apply IH|intros _; exact IHe].
Qed.
End local.
