(** C109: an expression in parentheses can be exchanged for another. *)
From Coq Require Import List Arith NArith Bool String Lia.
From Verif Require Import Prelim Chars Syntax Lexer SpecLexer ProofLexer Parser SpecParser SpecViable SpecShape SpecCompose SpecExchange
  ProofParser ProofParser3 ProofParser6 ProofParser7 ProofParser12 ProofPrinter3 ProofPrinter8 ProofShape ProofShape2 PropsShape ProofCompose ProofExchange PropsCompose PropsRepl PropsLexer.
Import ListNotations.
Local Open Scope string_scope.
Local Open Scope list_scope.

Section WithUcd.
Context {U : ucd}.
Hypothesis HU : letters U.

Lemma tokens_around a ta s ts b xs : no_lfcr (10%N :: a) -> (a = [] \/ ends_lf a) -> ctokens [] a ta ->
  no_lfcr (10%N :: s) -> ends_lf s -> ctokens [] s ts -> no_lfcr (10%N :: b) -> ctokens [] (a ++ s ++ b) xs ->
  exists tb, xs = ta ++ ts ++ tb /\ ctokens [] b tb.
Proof.
  intros Na Ea Ta Ns Es Ts Nb X.
  assert (N1 : no_lfcr (10%N :: s ++ b)) by (apply nolfcr_join; auto).
  assert (N2 : no_lfcr (10%N :: a ++ s ++ b)) by (destruct Ea as [->|Ea]; [exact N1|apply (nolfcr_join a); auto]).
  destruct (ctokens_unjoin HU _ _ _ Ta Ea _ _ (nolf_cons _ N2) X) as (us&->&X1). cbn [app] in X1.
  assert (X2 : ctokens [] (s ++ b) us).
  { destruct Ea as [->|Ea]; [exact X1|]. rewrite <- (app_nil_r a) in X1. eapply ctokens_before; eauto. }
  destruct (ctokens_unjoin HU _ _ _ Ts (or_intror Es) _ _ (nolf_cons _ N1) X2) as (tb&->&X3). cbn [app] in X3.
  rewrite <- (app_nil_r s) in X3. exists tb. split; auto. eapply ctokens_before; eauto.
Qed.

Lemma around_tokens a ta s ts b tb : (a = [] \/ ends_lf a) -> ctokens [] a ta -> ends_lf s -> ctokens [] s ts -> ctokens [] b tb ->
  ctokens [] (a ++ s ++ b) (ta ++ ts ++ tb).
Proof.
  intros Ea Ta Es Ts Tb. assert (ctokens [] (s ++ b) (ts ++ tb)) by (apply join0; auto).
  eapply ctokens_join; eauto. cbn [app]. destruct Ea as [->|Ea]; auto. rewrite <- (app_nil_r a). apply ctokens_after; auto.
Qed.

(** A program in which the text of an expression stands in parentheses is read
    with the text of another in its place as well, and as the same program with
    the other expression in one place.  The parentheses may stand wherever an
    expression can, but not between a lambda and its arrow. *)
Theorem C109_exchange : forall a ta b s e z f p, no_lfcr (10%N :: a) -> a = [] \/ (exists a0, a = a0 ++ [10%N]) ->
  ctokens [] a ta -> outside_patterns ta -> no_lfcr (10%N :: b) -> expression_text s e -> expression_text z f ->
  (exists l, parse (a ++ group_text s ++ b) = POk p l) ->
  exists q l, parse (a ++ group_text z ++ b) = POk q l /\ swapped_program (Grp e) (Grp f) p q.
Proof.
  intros a ta b s e z f p Na Ea Ta O Nb Xs Xz P.
  apply (text_iff HU) in Xs as (Ns&Es&t1&k1&ts1&T1&D1). apply (text_iff HU) in Xz as (Nz&Ez&t2&k2&ts2&T2&D2).
  assert (N : forall s, no_lfcr (10%N :: s) -> ends_lf s -> no_lfcr (10%N :: group_text s ++ b)).
  { intros s0 N0 E0. apply nolfcr_join; auto using group_clean, group_ends. }
  assert (NN : forall s, no_lfcr (10%N :: s) -> ends_lf s -> no_lfcr (a ++ group_text s ++ b)).
  { intros s0 N0 E0. apply nolf_cons. destruct Ea as [->|Ea]; [cbn [app]; auto|apply (nolfcr_join a); auto]. }
  apply (parse_iff HU) in P as (xs&ds&X&Pr&->); auto.
  pose proof (group_tokens HU _ _ T1 Es) as G1. pose proof (group_tokens HU _ _ T2 Ez) as G2.
  destruct (tokens_around a ta (group_text s) _ b xs Na Ea Ta (group_clean _ Ns Es) (group_ends s) G1 Nb X) as (tb&->&Tb).
  assert (A : forall t k ts e r, exprs Nat.ltb (KExpr k) ((t, k) :: ts) [e] [] ->
    exprs Nat.ltb KAtom ((TParenL, 2) :: ((t, k) :: ts) ++ [(TParenR, 2)]) [Grp e] r).
  { intros t k ts e0 r D. apply t_group. eapply expr_mild; eauto. split; reflexivity. }
  assert (S0 : sees (lexer_new (group_text s ++ b)) (((TParenL, 2) :: ((t1, k1) :: ts1) ++ [(TParenR, 2)]) ++ tb)).
  { apply (sees_source HU); [apply nolf_cons; auto|]. apply join0; auto using group_ends. }
  destruct (program_moves (Grp e) (Grp f) 2 (((t1, k1) :: ts1) ++ [(TParenR, 2)]) (((t2, k2) :: ts2) ++ [(TParenR, 2)]) tb) with (3 := Pr) (pre := ta)
    as (us&d&d'&vs&->&Sd&Pq); auto.
  - intros ts es r D E. pose proof (A _ _ _ _ tb D1) as D0. rewrite <- E in S0. destruct (atom_det HU _ _ _ _ _ _ _ S0 E D D0) as (->&->). auto.
  - assert (Q : exists l, parse (a ++ group_text z ++ b) = POk (fold_left ast_push (us ++ d' :: vs) ast_empty) l).
    { apply (parse_iff HU); auto. eexists _, _. split; [|split; [exact Pq|reflexivity]]. apply around_tokens; auto using group_ends. }
    destruct Q as (l&Q). exists (fold_left ast_push (us ++ d' :: vs) ast_empty), l. split; auto. now apply swapd_program.
Qed.
Print Assumptions C109_exchange.

(** So which texts around it make a program does not depend on the expression. *)
Corollary C109_accepts : forall a ta b s e z f, no_lfcr (10%N :: a) -> a = [] \/ (exists a0, a = a0 ++ [10%N]) ->
  ctokens [] a ta -> outside_patterns ta -> no_lfcr (10%N :: b) -> expression_text s e -> expression_text z f ->
  ((exists p l, parse (a ++ group_text s ++ b) = POk p l) <-> (exists p l, parse (a ++ group_text z ++ b) = POk p l)).
Proof.
  intros a ta b s e z f Na Ea Ta O Nb Xs Xz. split; intros (p&P).
  - destruct (C109_exchange a ta b s e z f p Na Ea Ta O Nb Xs Xz P) as (q&l&Q&_). eauto.
  - destruct (C109_exchange a ta b z f s e p Na Ea Ta O Nb Xz Xs P) as (q&l&Q&_). eauto.
Qed.
Print Assumptions C109_accepts.

(** With the same expression, written otherwise, it is the same program. *)
Lemma swapped_same x e e' : swapped x x e e' -> e = e'.
Proof. induction 1; congruence. Qed.

Corollary C109_rewritten : forall a ta b s z e p, no_lfcr (10%N :: a) -> a = [] \/ (exists a0, a = a0 ++ [10%N]) ->
  ctokens [] a ta -> outside_patterns ta -> no_lfcr (10%N :: b) -> expression_text s e -> expression_text z e ->
  (exists l, parse (a ++ group_text s ++ b) = POk p l) <-> (exists l, parse (a ++ group_text z ++ b) = POk p l).
Proof.
  assert (K : forall a ta b s z e p, no_lfcr (10%N :: a) -> a = [] \/ (exists a0, a = a0 ++ [10%N]) ->
    ctokens [] a ta -> outside_patterns ta -> no_lfcr (10%N :: b) -> expression_text s e -> expression_text z e ->
    (exists l, parse (a ++ group_text s ++ b) = POk p l) -> (exists l, parse (a ++ group_text z ++ b) = POk p l)).
  { intros a ta b s z e p Na Ea Ta O Nb Xs Xz P.
    destruct (C109_exchange a ta b s e z e p Na Ea Ta O Nb Xs Xz P) as (q&l&Q&K1&K2&us&c&c'&vs&K3&K4&S).
    apply swapped_same in S as <-. exists l. rewrite Q. f_equal. destruct p, q. cbn in *. congruence. }
  intros a ta b s z e p Na Ea Ta O Nb Xs Xz. split; intros P; eapply K; eauto.
Qed.
Print Assumptions C109_rewritten.
End WithUcd.

(** ** Examples *)

Local Existing Instance ucd_none.

Definition before_ : str := lit "infixr 4 +;" ++ nl ++ lit "\x -> g +" ++ nl.
Definition after_ : str := lit " x;" ++ nl ++ lit "2".
Definition one_ : str := lit "1" ++ nl.
Definition sum_ : str := lit "f x ~~ a comment" ++ nl ++ lit "+ \y -> y" ++ nl.
Definition sum_e : expr := Bin (App (v_ "f") (v_ "x")) (Standard (lit "+")) (Lam (PVar (lit "y")) (v_ "y")).

Ltac see := match goal with
  | |- sees _ [] => eexists; vm_compute; reflexivity
  | |- sees _ (_ :: _) => eexists; split; [vm_compute; reflexivity|split; [vm_compute; reflexivity|split; [reflexivity|]]]
  end.

Example C109_ex_before : exists ta, ctokens [] before_ ta /\ outside_patterns ta /\ no_lfcr (10%N :: before_) /\ no_lfcr (10%N :: after_) /\
  expression_text one_ (Lit (LInt 1)) /\ expression_text sum_ sum_e.
Proof.
  exists [(TInfixR, 7); (TLit (LInt 4), 9); (TAffix (lit "+") false, 11); (TSemi, 12); (TLambda, 2); (TLower (lit "x"), 3); (TArrow, 6); (TLower (lit "g"), 8);
    (TAffix (lit "+") false, 10)].
  split; [apply (sees_source letters_none); [apply clean_ok; vm_compute; reflexivity|repeat see]|].
  split.
  { intros us k vs E. do 9 (destruct us as [|? us]; [try discriminate E; injection E as _ <-; eexists; cbn; tauto|injection E as _ E]); destruct us; discriminate E. }
  split; [apply clean_ok; vm_compute; reflexivity|]. split; [apply clean_ok; vm_compute; reflexivity|]. split; text.
Qed.

Example C109_ex : exists p q l l', parse (before_ ++ group_text one_ ++ after_) = POk p l /\ parse (before_ ++ group_text sum_ ++ after_) = POk q l' /\
  swapped_program (Grp (Lit (LInt 1))) (Grp sum_e) p q.
Proof.
  do 4 eexists. split; [vm_compute; reflexivity|]. split; [vm_compute; reflexivity|].
  split; [vm_compute; reflexivity|]. split; [vm_compute; reflexivity|].
  eexists [], _, _, _. split; [reflexivity|]. split; [reflexivity|]. apply sw_lam. apply sw_right. apply sw_function. apply sw_here.
Qed.

(** Between a lambda and its arrow they are a pattern: another expression may not do. *)
Theorem C109_patterns_needed : expression_text (lit "x" ++ nl) (v_ "x") /\ expression_text (lit "1 + 2" ++ nl) (Bin (Lit (LInt 1)) (Standard (lit "+")) (Lit (LInt 2))) /\
  (exists p l, parse (lit "\" ++ nl ++ group_text (lit "x" ++ nl) ++ lit "-> y") = POk p l) /\
  (exists e l, parse (lit "\" ++ nl ++ group_text (lit "1 + 2" ++ nl) ++ lit "-> y") = PErr e l).
Proof. split; [text|]. split; [text|]. split; vm_compute; eauto. Qed.
Print Assumptions C109_patterns_needed.
