(** Several declarations of the README one after the other. *)
From Coq Require Import List Arith NArith Bool String Lia.
From Verif Require Import Prelim Chars Syntax Fixity SpecFixity Lexer SpecLexer SpecLexRun Parser SpecParser SpecReadme.
From Verif Require Import ProofLexer4 ProofTable ProofParser7 ProofParser9 ProofReadme2.
Import ListNotations.
Open Scope string_scope.
Open Scope list_scope.

Section WithUcd.
Context {U : ucd}.
Variable HU : letters U.

Definition quiet (v : str) : Prop := stops op_char v /\ stops script v /\ stops (N.eqb 123) v.

Lemma quiet_white w v : all is_white w -> quiet v -> quiet (w ++ v).
Proof. intros W (A&B&C). apply opless; auto. Qed.

Lemma infixes_before os r : infixes_text os r -> forall w0 g v us, all is_white g -> quiet v -> ctokens (w0 ++ g ++ r) v us ->
  exists ts, ctokens w0 (g ++ r ++ v) (ts ++ us) /\ op_tokens ts os.
Proof.
  induction 1 as [o s H|o s w w' os r H W W' R IH]; intros w0 g v us G (Q1&Q2&Q3) T.
  - exists [(token_of o, col_of (w0 ++ g ++ s))]. split; [|apply ot_one]. apply (ct_cons w0 g s (token_of o) v).
    + apply gap_whites; auto.
    + apply infix_token; auto.
    + exact T.
  - destruct (IH (((w0 ++ g ++ s) ++ w ++ [44%N])) w' v us W') as (ts&T'&O). { repeat split; auto. }
    { revert T. repeat (rewrite <- ?app_assoc; cbn [app]). auto. }
    eexists (_ :: _ :: ts). split; [|apply ot_more; exact O].
    rewrite <- app_assoc. apply (ct_cons w0 g s (token_of o)).
    + apply gap_whites; auto.
    + rewrite <- app_assoc. destruct (opless w ((44%N :: w' ++ r) ++ v) W eq_refl eq_refl eq_refl) as (A&B&C). apply infix_token; auto.
    + replace ((w ++ 44%N :: w' ++ r) ++ v) with (w ++ [44%N] ++ w' ++ r ++ v) by (repeat (rewrite <- ?app_assoc; cbn [app]); auto).
      apply (ct_cons _ w [44%N] TComma (w' ++ r ++ v)); [apply gap_whites; auto|apply le_punct; cbn; tauto|exact T'].
Qed.

Lemma infixes_some os r : infixes_text os r -> r <> [].
Proof.
  assert (K : forall o s, infix_text o s -> s <> []).
  { intros o s [s' _|u t N _ _ _] E; [discriminate|]. apply app_eq_nil in E as (->&_). congruence. }
  intros [o s H|o s w w' os' r' H _ _ _] E; [eapply K; eauto|]. apply app_eq_nil in E as (->&_). eapply K; eauto.
Qed.

Lemma op_tokens_before ts os us : op_tokens ts os -> existsb reserved_op os = false -> next_is is_comma us = false -> operators ts os us.
Proof.
  assert (K : forall o, reserved_op o = false -> operator (token_of o) o).
  { intros [s|s]; cbn [token_of reserved_op]; [|constructor]. intros R. apply orb_false_iff in R as (->&->).
    destruct (str_eqb_spec s (lit "-")) as [->|]; [constructor|]. destruct (str_eqb_spec s (lit "@")) as [->|]; constructor. }
  intros O R C. induction O as [o k|o k k' ts os H IH]; cbn in R; apply orb_false_iff in R as (R1&R2).
  - apply os_one; auto.
  - apply os_cons; auto.
Qed.

Lemma fixity_before g d s : fixity_text g d s -> readable_decl g d = true -> forall w0 g0 v us, all is_white g0 -> quiet v ->
  ctokens (w0 ++ g0 ++ s) v us -> next_is is_comma us = false ->
  exists ts, ctokens w0 (g0 ++ s ++ v) (ts ++ us) /\ declares ts d us /\ ts <> [] /\ next_is is_comma ts = false /\ next_is is_semi ts = false.
Proof.
  intros [g' a n p w w' os r P Nw W W' R] Rd w0 g0 v us G0 Q T C. unfold readable_decl in Rd. cbn [d_infixes d_fixity fx_assoc fx_prec] in *.
  apply andb_true_iff in Rd as (R1&R2). apply negb_true_iff in R1.
  assert (A : associativity (word_of a) a) by (destruct a; constructor).
  assert (Lx : forall v, stops word_char v -> stops script v -> lexeme (assoc_text a) (word_of a) v)
    by (intros z X Y; destruct a; apply le_reserved; auto; cbn; tauto).
  assert (Lw : forall v, stops word_char (w ++ v) /\ stops script (w ++ v)).
  { intros z. destruct W as [|c w C0 W]; [congruence|]. split; cbn; [apply (white_word HU)|apply white_script]; auto. }
  replace ((assoc_text a ++ w ++ p ++ w' ++ r) ++ v) with (assoc_text a ++ w ++ p ++ w' ++ r ++ v) by now rewrite <- !app_assoc.
  destruct g'.
  - destruct (infixes_before os r R ((w0 ++ g0 ++ assoc_text a) ++ w ++ p) w' v us W' Q) as (ts&T'&O). { rewrite <- !app_assoc in *. exact T. }
    eexists (_ :: _ :: ts). split; [|split; [apply de_prec; [exact A|eapply prec_small; eauto|eapply op_tokens_before; eauto]|]].
    + apply (ct_cons w0 g0 (assoc_text a) (word_of a)); [apply gap_whites; auto|apply Lx; apply Lw|].
      apply (ct_cons _ w p (TLit (LInt n))); [apply gap_whites; auto| |exact T'].
      apply prec_token; auto. apply white_stops; auto.
      * intros c Cw. destruct (digit c) eqn:D; auto. exfalso. unfold digit, mem in D. apply existsb_exists in D as (x&I&E). apply N.eqb_eq in E as ->.
        cbn in I. repeat (destruct I as [<-|I]; [discriminate Cw|]). destruct I.
      * pose proof (infixes_start os r R) as S0. pose proof (infixes_some os r R) as S1. destruct r; [congruence|exact S0].
    + split; [discriminate|]. destruct a; auto.
  - inversion P; subst. cbn [app] in *.
    destruct (infixes_before os r R (w0 ++ g0 ++ assoc_text a) (w ++ w') v us) as (ts&T'&O); auto. { apply Forall_app. auto. } { rewrite <- !app_assoc in *. exact T. }
    eexists (_ :: ts). split; [|split; [apply de_default; [exact A| |eapply op_tokens_before; eauto]|]].
    + apply (ct_cons w0 g0 (assoc_text a) (word_of a)); [apply gap_whites; auto|apply Lx; apply Lw|]. rewrite <- app_assoc in T'. exact T'.
    + cbn [orb] in R2. rewrite (op_tokens_first _ _ O). exact R2.
    + split; [discriminate|]. destruct a; auto.
Qed.

Lemma fixity_quiet g d s v : fixity_text g d s -> quiet (s ++ v).
Proof. intros [g' a n p w w' os r P Nw W W' R]. destruct a; repeat split; reflexivity. Qed.

Lemma fixities_quiet ds r : fixities_text ds r -> quiet r.
Proof.
  intros [w W|w g d s ds' r' W F R].
  - rewrite <- (app_nil_r w). apply quiet_white; auto. repeat split.
  - apply quiet_white; auto. eapply fixity_quiet; eauto.
Qed.

Lemma fixities_program ds r : fixities_text ds r -> Forall (fun x => readable_decl (fst x) (snd x) = true) ds -> forall w0, exists ts,
  ctokens w0 r ts /\ next_is is_comma ts = false /\ next_is is_semi ts = false /\ program Nat.ltb ts (map (fun x => DInfix (snd x)) ds).
Proof.
  induction 1 as [w W|w g d s ds r W F R IH]; intros Rd w0.
  - exists []. repeat split; try constructor. apply gap_whites; auto.
  - inversion Rd as [|x xs R1 R2]; subst. cbn [fst snd] in R1. destruct (IH R2 (w0 ++ w ++ s)) as (us&T&C&Sm&P).
    destruct (fixity_before g d s F R1 w0 w r us W (fixities_quiet _ _ R) T C) as (ts&T'&D&Nt&C'&Sm').
    exists (ts ++ us). split; auto. destruct ts as [|(a,k) ts]; [congruence|]. split; [exact C'|]. split; [exact Sm'|].
    cbn [map snd]. apply pr_plain; auto. apply do_infix. exact D.
Qed.

End WithUcd.
