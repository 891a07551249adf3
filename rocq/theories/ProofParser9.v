(** Texts of declarations. *)
From Coq Require Import List Arith NArith Bool String Lia.
From Verif Require Import Prelim Chars Syntax SpecFixity Lexer SpecLexer SpecLexRun Parser SpecParser.
From Verif Require Import ProofLexer ProofLexer2 ProofLexer6 ProofLexer7 ProofLexer8.
From Verif Require Import ProofParser8.
Import ListNotations.

Section WithUcd.
Context {U : ucd}.
Context (HU : letters U).

Lemma one_line_clean s : all not_lf s -> no_lfcr s.
Proof. intros A a b ->. apply Forall_app in A as (_&A). inversion A. discriminate. Qed.

Lemma spelled_token o s : spelled o s -> forall v, stops op_char v -> stops script v -> stops (N.eqb 123) v ->
  exists t, lexeme s t v /\ operator t o /\ (is_affix t = true \/ s = lit "-" \/ s = lit "@").
Proof.
  intros [s' N A N1 N2 N3|c u s' W A St Sc] v So Ss Sb.
  - destruct (list_eq_dec N.eq_dec s' (lit "-")) as [->|D1].
    { exists TDash. repeat split; auto; [|constructor]. apply le_symbol; cbn; auto. }
    destruct (list_eq_dec N.eq_dec s' (lit "@")) as [->|D2].
    { exists TAt. repeat split; auto; [|constructor]. apply le_symbol; cbn; auto. }
    exists (TAffix s' false). split; [|split; [constructor|auto]].
    replace s' with (s' ++ []) by apply app_nil_r. apply le_op; auto.
    + constructor.
    + rewrite app_nil_r. cbn. intuition.
    + rewrite app_nil_r. auto.
  - eexists. split; [|split; [constructor|left; reflexivity]]. apply le_backquoted; auto.
Qed.

Lemma no_lf (f : chr -> bool) s : f 10%N = false -> all f s -> all not_lf s.
Proof.
  intros F. apply Forall_impl. intros c H. unfold not_lf. destruct (N.eqb_spec c 10) as [->|]; auto. congruence.
Qed.

Lemma spelled_line o s : spelled o s -> all not_lf s.
Proof.
  intros [s' _ A _ _ _|c u s' W A _ Sc].
  - eapply no_lf; [|exact A]. reflexivity.
  - constructor; [reflexivity|].
    assert (C : all not_lf [c]) by (apply (no_lf word_start); [reflexivity|repeat constructor; auto]).
    inversion C; subst. constructor; auto.
    apply Forall_app. split; [apply (no_lf word_char); auto|]. apply Forall_app. split; [apply (no_lf script); auto|repeat constructor].
Qed.

Lemma commas_line os ss : Forall2 spelled os ss -> all not_lf (commas ss).
Proof.
  induction 1 as [|o s os ss H F IH]; [constructor|]. cbn [commas]. apply spelled_line in H.
  destruct ss; auto. repeat (apply Forall_app; split); auto. repeat constructor.
Qed.

Lemma white1 v : gap [32%N] v.
Proof. apply gap_white; [reflexivity|constructor]. Qed.

Lemma ops_tokens : forall os ss, Forall2 spelled os ss -> os <> [] -> forall w, exists ts,
  ctokens w (32%N :: commas ss) ts /\ operators ts os [] /\
  (next_is is_affix ts = true \/ hd [] ss = lit "-" \/ hd [] ss = lit "@").
Proof.
  induction 1 as [|o s os ss H F IH]; [congruence|]. intros _ w. destruct F as [|o' s' os ss H' F].
  - destruct (spelled_token _ _ H [] I I I) as (t&L&O&A).
    exists [(t, col_of (w ++ [32%N] ++ s))]. cbn [commas]. repeat split.
    + replace (32%N :: s) with ([32%N] ++ s ++ []) by (rewrite app_nil_r; auto).
      apply ct_cons; [apply white1|auto|]. apply ct_end. constructor.
    + apply os_one; auto.
    + auto.
  - change (commas (s :: s' :: ss)) with (s ++ 44%N :: 32%N :: commas (s' :: ss)).
    destruct (spelled_token _ _ H (44%N :: 32%N :: commas (s' :: ss)) eq_refl eq_refl eq_refl) as (t&L&O&A).
    destruct (IH ltac:(discriminate) ((w ++ [32%N] ++ s) ++ [] ++ [44%N])) as (ts&T&Os&_).
    eexists. split; [|split].
    + apply (ct_cons w [32%N] s t); [apply white1|exact L|].
      apply (ct_cons _ [] [44%N] TComma); [constructor| |exact T]. apply le_punct. cbn. tauto.
    + apply os_cons; auto.
    + auto.
Qed.

Lemma keyword_token a v : stops word_char v -> stops script v ->
  exists t, lexeme (keyword a) t v /\ associativity t a.
Proof.
  intros W Sc. destruct a; eexists; (split; [apply le_reserved; auto; cbn; tauto|constructor]).
Qed.
Lemma keyword_line a : all not_lf (keyword a).
Proof. destruct a; repeat constructor. Qed.

Lemma digit_token n : (n <= 9)%N -> digit (48 + n) = true /\ forall v, stops digit v -> lexeme [(48 + n)%N] (TLit (LInt n)) v.
Proof.
  intros L. assert (D : digit (48 + n) = true /\ value 10 [(48 + n)%N] = n).
  { assert (I : In n [0; 1; 2; 3; 4; 5; 6; 7; 8; 9]%N).
    { assert (E : exists m, n = N.of_nat m /\ m <= 9) by (exists (N.to_nat n); lia). destruct E as (m&->&Lm).
      do 10 (destruct m as [|m]; [cbn; tauto|]). lia. }
    cbn in I. repeat (destruct I as [<-|I]; [split; reflexivity|]). destruct I. }
  destruct D as (D&V). split; auto. intros v St. rewrite <- V at 2. apply le_int; auto; try discriminate.
  - repeat constructor; auto.
  - rewrite V. lia.
Qed.

Lemma declaration_tokens a n os ss : Forall2 spelled os ss -> os <> [] ->
  match n with Some n => (n <= 9)%N | None => hd [] ss <> lit "-" /\ hd [] ss <> lit "@" end ->
  exists ts, ctokens [] (keyword a ++ prec_text n ++ 32%N :: commas ss) ts /\
    declares ts (mkInfixDecl os (mkFix match n with Some n => n | None => 9%N end a)) [].
Proof.
  intros F Ne Hn. destruct n as [n|]; cbn [prec_text app].
  - destruct (keyword_token a (32%N :: (48 + n)%N :: 32%N :: commas ss) eq_refl eq_refl) as (t&L&A).
    destruct (digit_token n Hn) as (_&D).
    destruct (ops_tokens os ss F Ne (([] ++ [] ++ keyword a) ++ [32%N] ++ [(48 + n)%N])) as (ts&T&O&_).
    eexists. split.
    + apply (ct_cons [] [] (keyword a) t); [constructor|exact L|].
      apply (ct_cons _ [32%N] [(48 + n)%N] (TLit (LInt n))); [apply white1|apply D; reflexivity|exact T].
    + apply de_prec; auto.
  - destruct (keyword_token a (32%N :: commas ss) eq_refl eq_refl) as (t&L&A).
    destruct (ops_tokens os ss F Ne ([] ++ [] ++ keyword a)) as (ts&T&O&Nx).
    eexists. split.
    + apply (ct_cons [] [] (keyword a) t); [constructor|exact L|exact T].
    + apply de_default; auto. destruct Hn. intuition.
Qed.

Lemma declaration_line a n os ss : Forall2 spelled os ss -> match n with Some n => (n <= 9)%N | None => True end ->
  all not_lf (keyword a ++ prec_text n ++ 32%N :: commas ss).
Proof.
  intros F Hn. apply Forall_app. split; [apply keyword_line|]. apply Forall_app. split.
  - destruct n as [n|]; [|constructor]. constructor; [reflexivity|].
    apply (no_lf digit); [reflexivity|]. repeat constructor. apply digit_token; auto.
  - constructor; [reflexivity|]. eapply commas_line; eauto.
Qed.

Lemma atoms_args c ts xs r : atoms ts xs r -> forall f, exprs (fun _ _ => true) (KArgs c f) ts [fold_left App xs f] r.
Proof.
  induction 1 as [r N|t k ts x us xs r A X H IH]; intros f.
  - apply a_nil. destruct r as [|[t k] r]; cbn in *; auto. rewrite andb_true_r. auto.
  - eapply a_cons; eauto.
Qed.

End WithUcd.
