(** Printed patterns are read back. *)
From Coq Require Import List Arith NArith ZArith Bool String Lia.
From Verif Require Import Prelim Chars Syntax Fixity Style SpecStyle SpecLexer SpecParser Printer SpecPrinter.
From Verif Require Import ProofPrinter ProofPrinter2 ProofPrinter3.
Import ListNotations.

Lemma commas_cons s ss : commas (s :: ss) = s ++ flat_map (fun y => 44%N :: 32%N :: y) ss.
Proof.
  revert s. induction ss as [|y ss IH]; intros s; [symmetry; apply app_nil_r|].
  change (commas (s :: y :: ss)) with (s ++ 44%N :: 32%N :: commas (y :: ss)). rewrite IH. reflexivity.
Qed.

Section WithUcd.
Context {U : ucd}.

Definition pat_reads (q : bool) (p : pat) : Prop := forall w, exists ts,
  lexes (fpat p) w ts /\ ts <> [] /\ next_is is_con ts = false /\
  (forall us, next_is is_at us = false -> pats Inner ts [p] us /\ (q = false -> pats Plain ts [p] us)).

Lemma both ts p us q : (forall k, k = Plain \/ k = Inner -> pats k ts [p] us) ->
  pats Inner ts [p] us /\ (q = false -> pats Plain ts [p] us).
Proof. auto. Qed.

Lemma lexes_more x y w ts us : (y = [] \/ y <> [] /\ sep y) -> lexes x w ts -> lexes y (w ++ x) us -> lexes (x ++ y) w (ts ++ us).
Proof.
  intros [->|(N&S1)] A B.
  - rewrite app_nil_r. intros v vs Sv T. specialize (B v vs Sv). cbn [app] in B. rewrite app_nil_r in B.
    replace ((ts ++ us) ++ vs) with (ts ++ us ++ vs) by apply app_assoc. apply A; auto.
  - apply lexes_app; auto.
Qed.

Lemma flat_sep (ss : list str) : flat_map (fun y => 44%N :: 32%N :: y) ss = [] \/
  flat_map (fun y => 44%N :: 32%N :: y) ss <> [] /\ sep (flat_map (fun y => 44%N :: 32%N :: y) ss).
Proof. destruct ss; [auto|right]. split; [discriminate|cbn; tauto]. Qed.

Lemma tail_reads ps : Forall (pat_reads true) ps -> forall w, exists us,
  lexes (flat_map (fun y => 44%N :: 32%N :: y) (map fpat ps)) w us /\ (ps <> [] -> us <> []) /\
  (us = [] \/ next_is is_comma us = true) /\
  (forall r, next_is is_comma r = false -> next_is is_at r = false -> pats (Commas Inner) us ps r).
Proof.
  induction 1 as [|p ps H F IH]; intros w.
  - exists []. split; [apply lexes_nil|]. repeat split; auto; try congruence. intros r C _. apply cs_nil. auto.
  - destruct (H ((w ++ [44%N]) ++ [32%N])) as (ts&L&Nts&_&P).
    destruct (IH (((w ++ [44%N]) ++ [32%N]) ++ fpat p)) as (us&Lu&_&Hu&Pu).
    exists ((TComma, col_of (w ++ [44%N])) :: ts ++ us). split; [|repeat split; try discriminate].
    + cbn [map flat_map app]. apply lexes_punct; [cbn; tauto|]. apply lexes_space.
      apply lexes_more; auto using flat_sep.
    + right. reflexivity.
    + intros r C A. apply cs_cons; auto. apply P. destruct Hu as [->|Hu]; auto. destruct us as [|(t,k) us]; auto.
      cbn in *. destruct t; auto; discriminate.
Qed.

Lemma parens_lexes w x ts : lexes x (w ++ [40%N]) ts ->
  lexes (fparens true x) w ((TParenL, col_of (w ++ [40%N])) :: ts ++ [(TParenR, col_of (w ++ 40%N :: x ++ [41%N]))]).
Proof. intros H. apply lexes_pair; auto; cbn; tauto. Qed.

Lemma pat_front : forall p, readable_pat false p -> after_op (fpat p).
Proof.
  fix IH 1. intros p H. destruct p; inversion H; subst; try (split; [discriminate|split; reflexivity]).
  - apply name_front; auto.
  - match goal with A : a_name s |- _ => destruct (name_front s A) as (N&A1&B) end. cbn [fpat]. destruct s; [congruence|]. split; [discriminate|]. auto.
Qed.

Lemma simple_false p : readable_pat false p -> pat_simple p = true -> p = PWild \/ exists s, p = PVar s.
Proof. intros H. inversion H; subst; cbn; auto; try discriminate; eauto. Qed.

Lemma pat_reads_back : forall q p, readable_pat q p -> pat_reads q p.
Proof.
  fix IH 3. intros q p H w.
  destruct H as [q|q s N|x R|q s p N R|q p R|q p p' ps R F|q ps Ne F].
  - exists [(TUnderscore, col_of (w ++ [95%N]))]. split; [apply lexes_tok|].
    { intros v Sv. apply sep_stops in Sv as (A&B&_). apply le_reserved; auto. cbn. tauto. }
    split; [discriminate|]. split; auto. intros us _. apply both. intros k Hk. apply p_wild. auto.
  - exists [(TLower s, col_of (w ++ s))]. split; [apply lexes_tok|].
    { intros v Sv. apply sep_stops in Sv as (A&B&_). apply name_lexeme; auto. }
    split; [discriminate|]. split; auto. intros us A. apply both. intros k Hk. apply p_var; auto.
  - exists [(TLit x, col_of (w ++ show_lit x))]. split; [apply lexes_tok|].
    { intros v Sv. apply sep_stops in Sv as (_&_&_&D&_). apply lit_lexeme; auto. }
    split; [discriminate|]. split; auto. intros us A. split; [apply p_lit|discriminate].
  - destruct (IH _ _ R ((w ++ s) ++ [64%N])) as (ts&L&Nts&_&P). destruct (pat_front p R) as (Nf&Fo&Fs).
    exists ((TLower s, col_of (w ++ s)) :: (TAt, col_of ((w ++ s) ++ [64%N])) :: ts). split; [|split; [discriminate|split; auto]].
    + cbn [fpat]. apply lexes_front.
      { intros v Sv. apply name_lexeme; auto; reflexivity. }
      apply (lexes_front [64%N]); auto. intros v Sv. apply le_symbol; [cbn; tauto| |]; destruct (fpat p); try congruence; auto.
    + intros us A. apply both. intros k Hk. apply p_as; auto. apply P; auto.
  - destruct (pat_front p R) as (Nf&Fo&Fs).
    assert (G : forall w, exists ts, lexes (fparens (negb (pat_simple p)) (fpat p)) w ts /\
      (forall us, next_is is_at us = false -> pats Plain ts [p] us)).
    { intros w'. destruct (pat_simple p) eqn:E; cbn [negb].
      - destruct (IH _ _ R w') as (ts&L&_&_&P). exists ts. split; auto. intros us A. apply P; auto.
      - destruct (IH _ _ R (w' ++ [40%N])) as (ts&L&Nts&C&P). eexists. split; [apply parens_lexes; eauto|].
        intros us A. apply p_group; auto. apply h_pat; auto. apply P; auto. }
    destruct (G ((w ++ [40%N]) ++ [45%N])) as (ts&L&P).
    eexists. split; [cbn [fpat]; apply parens_lexes; apply (lexes_front [45%N] TDash); [|exact L]|].
    + intros v Sv. apply le_symbol; [cbn; tauto| |]; destruct (pat_simple p); cbn [negb fparens]; destruct (fpat p); try congruence; auto; reflexivity.
    + split; [discriminate|]. split; auto. intros us A. apply both. intros k Hk. apply p_group; auto.
      apply h_neg. apply P. reflexivity.
  - assert (F' : Forall (pat_reads true) (p' :: ps)).
    { revert F. generalize (p' :: ps). clear - IH. fix IHF 2. intros l F. destruct F as [|x l Hx F]; constructor; auto. }
    destruct (IH _ _ R (w ++ [40%N])) as (ts&L&Nts&C&P).
    destruct (tail_reads _ F' ((w ++ [40%N]) ++ fpat p)) as (us&Lu&Nu&Hu&Pu).
    eexists. split.
    { cbn [fpat]. apply parens_lexes. cbn [map]. rewrite commas_cons. apply lexes_app; [exact L|discriminate|cbn; tauto|exact Lu]. }
    split; [discriminate|]. split; auto. intros r A. apply both. intros k Hk. rewrite <- app_assoc.
    specialize (Nu ltac:(discriminate)). apply p_tuple; auto.
    apply h_pat; auto. apply P; auto. destruct Hu as [->|Hu]; auto. destruct us as [|(t,k1) us]; auto.
    cbn in *. destruct t; auto; discriminate.
  - destruct F as [|p ps R F]; [congruence|].
    assert (F' : Forall (pat_reads true) ps).
    { revert F. clear - IH. revert ps. fix IHF 2. intros l F. destruct F as [|x l Hx F]; constructor; auto. }
    destruct (IH _ _ R (w ++ [91%N])) as (ts&L&Nts&C&P).
    destruct (tail_reads _ F' ((w ++ [91%N]) ++ fpat p)) as (us&Lu&Nu&Hu&Pu).
    eexists. split.
    { cbn [fpat]. apply lexes_pair; [cbn; tauto|cbn; tauto|cbn; tauto|]. cbn [map]. rewrite commas_cons.
      apply lexes_more; [apply flat_sep|exact L|exact Lu]. }
    split; [discriminate|]. split; auto. intros r A. apply both. intros k Hk. rewrite <- app_assoc.
    apply p_list; auto. apply P. destruct Hu as [->|Hu]; auto. destruct us as [|(t,k1) us]; auto.
    cbn in *. destruct t; auto; discriminate.
Qed.

End WithUcd.
