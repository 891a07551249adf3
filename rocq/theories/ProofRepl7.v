(** Declarations written one after the other, without anything in between. *)
From Coq Require Import List Arith NArith Bool String Lia.
From Verif Require Import Prelim Chars Syntax Fixity Lexer Parser Repl
  SpecGrapheme SpecLexer SpecLexRun SpecParser SpecFixity SpecRepl ProofLexer ProofLexer2 ProofLexer6 ProofLexer7 ProofLexer8
  ProofParser8 ProofParser9.
Import ListNotations.
Local Open Scope string_scope.
Local Open Scope list_scope.

Section WithUcd.
Context {U : ucd}.
Context (HU : letters U).

Definition letter_i (v : str) : Prop := v = [] \/ starts 105 v.

Lemma letter_i_stops v : letter_i v -> stops op_char v /\ stops script v /\ stops (N.eqb 123) v.
Proof. intros [->|(x&->)]; cbn; auto. Qed.

Lemma ops_before : forall os ss, Forall2 spelled os ss -> os <> [] -> forall w v us,
  letter_i v -> ctokens (w ++ 32%N :: commas ss) v us -> next_is is_comma us = false -> exists ts,
  ctokens w (32%N :: commas ss ++ v) (ts ++ us) /\ operators ts os us /\
  (next_is is_affix ts = true \/ hd [] ss = lit "-" \/ hd [] ss = lit "@").
Proof.
  induction 1 as [|o s os ss H F IH]; [congruence|]. intros _ w v us Lv T C. destruct F as [|o' s' os ss H' F].
  - destruct (letter_i_stops v Lv) as (S1&S2&S3). destruct (spelled_token _ _ H v S1 S2 S3) as (t&L&O&A).
    exists [(t, col_of (w ++ [32%N] ++ s))]. cbn [commas app]. repeat split.
    + apply (ct_cons w [32%N] s t v us); [apply white1|auto|exact T].
    + apply os_one; auto.
    + auto.
  - change (commas (s :: s' :: ss)) with (s ++ 44%N :: 32%N :: commas (s' :: ss)) in *.
    destruct (spelled_token _ _ H (44%N :: 32%N :: commas (s' :: ss) ++ v) eq_refl eq_refl eq_refl) as (t&L&O&A).
    destruct (IH ltac:(discriminate) ((w ++ [32%N] ++ s) ++ [] ++ [44%N]) v us Lv) as (ts&T'&Os&_); auto.
    { revert T. repeat (rewrite <- ?app_assoc; cbn [app]). auto. }
    exists ((t, col_of (w ++ [32%N] ++ s)) :: (TComma, col_of ((w ++ [32%N] ++ s) ++ [] ++ [44%N])) :: ts). split; [|split].
    + rewrite <- app_assoc. cbn [app].
      apply (ct_cons w [32%N] s t); [apply white1|exact L|].
      apply (ct_cons _ [] [44%N] TComma); [constructor| |exact T']. apply le_punct. cbn. tauto.
    + apply os_cons; auto.
    + auto.
Qed.

Lemma declaration_before x d : declaration_text x d -> forall w v us,
  letter_i v -> ctokens (w ++ x) v us -> next_is is_comma us = false -> exists ts,
  ctokens w (x ++ v) (ts ++ us) /\ declares ts d us /\ ts <> [] /\ next_is is_comma ts = false /\ next_is is_semi ts = false.
Proof.
  intros (a&n&os&ss&F&Ne&Hn&->&->) w v us Lv T C. destruct n as [n|]; cbn [prec_text app] in *.
  - destruct (keyword_token a (32%N :: (48 + n)%N :: 32%N :: commas ss ++ v) eq_refl eq_refl) as (t&L&A).
    destruct (digit_token n Hn) as (_&D).
    destruct (ops_before os ss F Ne ((w ++ [] ++ keyword a) ++ [32%N] ++ [(48 + n)%N]) v us Lv) as (ts&T'&O&_); auto.
    { revert T. repeat (rewrite <- ?app_assoc; cbn [app]). auto. }
    eexists (_ :: _ :: ts). split; [|split; [apply de_prec; eauto|]].
    + rewrite <- app_assoc. cbn [app].
      apply (ct_cons w [] (keyword a) t); [constructor|exact L|].
      apply (ct_cons _ [32%N] [(48 + n)%N] (TLit (LInt n))); [apply white1|apply D; reflexivity|exact T'].
    + split; [discriminate|]. destruct A; auto.
  - destruct (keyword_token a (32%N :: commas ss ++ v) eq_refl eq_refl) as (t&L&A).
    destruct (ops_before os ss F Ne (w ++ [] ++ keyword a) v us Lv) as (ts&T'&O&Nx); auto.
    { revert T. repeat (rewrite <- ?app_assoc; cbn [app]). auto. }
    eexists (_ :: ts). split; [|split; [apply de_default; eauto|]].
    + rewrite <- app_assoc. cbn [app].
      apply (ct_cons w [] (keyword a) t); [constructor|exact L|exact T'].
    + destruct Hn. intuition.
    + split; [discriminate|]. destruct A; auto.
Qed.

Lemma declaration_starts x d : declaration_text x d -> starts 105 x.
Proof. intros (a&n&os&ss&_&_&_&->&_). destruct a; eexists; reflexivity. Qed.

Lemma declarations_parse xs ds : Forall2 declaration_text xs ds -> forall w, exists ts,
  ctokens w (List.concat xs) ts /\ next_is is_comma ts = false /\ next_is is_semi ts = false /\
  program Nat.ltb ts (map DInfix ds).
Proof.
  induction 1 as [|x d xs ds H F IH]; intros w; cbn [List.concat map].
  - exists []. repeat split; constructor; constructor.
  - destruct (IH (w ++ x)) as (us&T&C&Sm&P).
    destruct (declaration_before x d H w (List.concat xs) us) as (ts&T'&D&Nt&C'&Sm'); auto.
    { destruct F as [|x' d' xs ds H' F]; [left; reflexivity|]. right. destruct (declaration_starts _ _ H') as (y&->). eexists; reflexivity. }
    exists (ts ++ us). split; auto. destruct ts as [|(a,k) ts]; [congruence|]. split; [exact C'|]. split; [exact Sm'|].
    apply pr_plain; auto. apply do_infix. auto.
Qed.

Lemma declaration_texts_line xs ds : Forall2 declaration_text xs ds -> all not_lf (List.concat xs).
Proof.
  induction 1 as [|x d xs ds (a&n&os&ss&F&Ne&Hn&->&->) Fs IH]; cbn [List.concat]; [constructor|].
  apply Forall_app. split; auto. eapply declaration_line; eauto. destruct n; auto.
Qed.

End WithUcd.
