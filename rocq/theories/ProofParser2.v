(** Every method of the parser is well behaved in the sense of ProofParser.v. *)
From Coq Require Import List Arith NArith Bool String Lia.
From Verif Require Import Prelim Chars Syntax Lexer SpecLexer SpecLexRun Parser.
From Verif Require Import ProofLexer ProofLexer7 ProofParser.
Import ListNotations.

Section WithUcd.
Context {U : ucd}.
Context (HU : letters U).
Context (src : str).

Notation good := (good src).
Notation eats_some := (eats_some src).

(** Continue after a method that has consumed something. *)
Lemma then_less {A B} (m : parser A) (f : A -> parser B) k l :
  good k (less k) (m l) ->
  (forall a l', driven src l' -> left_ l' < k -> good (left_ l') top (f a l')) ->
  good k (less k) (bind m f l).
Proof.
  intros H F. eapply good_bind; [exact H|]. intros a l' R L Q. eapply good_weaken; [apply F; auto|lia|].
  intros b l2 R2 L2 _. red. red in Q. lia.
Qed.
Lemma then_top {A B} (m : parser A) (f : A -> parser B) k l :
  good k top (m l) ->
  (forall a l', driven src l' -> left_ l' <= k -> good (left_ l') top (f a l')) ->
  good k top (bind m f l).
Proof.
  intros H F. eapply good_bind; [exact H|]. intros a l' R L Q. eapply good_weaken; [apply F; auto|lia|].
  intros b l2 R2 L2 _. exact I.
Qed.
Lemma then_less2 {A B} (m : parser A) (f : A -> parser B) k l :
  good k top (m l) ->
  (forall a l', driven src l' -> left_ l' <= k -> good (left_ l') (less (left_ l')) (f a l')) ->
  good k (less k) (bind m f l).
Proof.
  intros H F. eapply good_bind; [exact H|]. intros a l' R L Q. eapply good_weaken; [apply F; auto|lia|].
  intros b l2 R2 L2 H2. red in H2. red. lia.
Qed.
Lemma ret_top {A} (a : A) l : driven src l -> good (left_ l) top (ret a l).
Proof. intros R. apply good_ret; auto. exact I. Qed.
Lemma eat_top l x : driven src l -> wanted x = true -> good (left_ l) top (eat x l).
Proof. intros. apply less_top, good_eat; auto. Qed.

(** [bump] when the next token has been looked at. *)
Lemma bump_then {A} (f : token -> parser A) k l t : driven src l -> holds t l -> sentinel t = false ->
  left_ l <= k ->
  (forall l', driven src l' -> left_ l' < k -> good (left_ l') top (f t l')) ->
  good k (less k) (bind bump f l).
Proof.
  intros R C N L F. assert (Ct : lx_curr l = Some t) by (apply C; intros ->; discriminate).
  destruct (good_bump src l t R Ct N) as (G&P).
  unfold bind. destruct (bump l) as [a l1| | |]; cbn [ProofParser.good] in G; try tauto.
  - destruct G as (R1&L1&->&_). eapply good_weaken; [apply F; auto; lia|lia|]. intros b l2 R2 L2 _. red. lia.
  - cbn. intuition lia.
Qed.

Ltac look l := apply (good_look HU src l); [solve [auto]|solve [auto]|];
  let t := fresh "t" in let l1 := fresh "l1" in let R1 := fresh "R1" in let L1 := fresh "L1" in
  let H := fresh "Ht" in let o := fresh "o" in let E := fresh "Eo" in let E' := fresh "Et" in
  let S := fresh "Stk" in intros t l1 R1 L1 H o E E' S.
Ltac stop := solve [apply good_fail; auto; lia].
Ltac take := eapply bump_then; [solve [eauto]|solve [eauto]|solve [reflexivity|assumption]|solve [auto]|].
Ltac done := intros; apply ret_top; auto.

Lemma good_infix n : eats_some n p_infix.
Proof.
  intros l R _. unfold p_infix. look l. destruct t; try stop; take; done.
Qed.

Lemma good_assoc n l : driven src l -> left_ l < n ->
  good (left_ l) (fun _ l' => left_ l' < left_ l /\ exists l0 t, driven src l0 /\ lx_curr l0 = Some t /\
     infix_keyword t = true /\ l' = snd (lx_bump l0)) (p_assoc l).
Proof.
  intros R _. unfold p_assoc. look l.
  assert (G : forall a : assoc, infix_keyword t = true ->
    good (left_ l) (fun _ l' => left_ l' < left_ l /\ exists l0 t, driven src l0 /\ lx_curr l0 = Some t /\
     infix_keyword t = true /\ l' = snd (lx_bump l0)) ((bump;;; ret a) l1)).
  { intros a K. assert (Ct : lx_curr l1 = Some t) by (apply Ht; intros ->; discriminate).
    assert (N : sentinel t = false) by (destruct t; auto; discriminate).
    destruct (good_bump src l1 t R1 Ct N) as (G&P). unfold bind. destruct (bump l1) as [b l2| | |]; cbn [ProofParser.good ret] in *; auto; [|intuition lia].
    destruct G as (R2&L2&_&E2). repeat split; auto; try lia. exists l1, t. auto. }
  destruct t; try stop; apply G; auto.
Qed.

Lemma good_fixity n : eats_some n p_fixity.
Proof.
  intros l R L. unfold p_fixity. eapply good_bind; [apply (good_assoc n); auto|].
  intros a l1 R1 L1 (Ls&l0&t0&R0&C0&K0&E1). eapply good_bind with (Q := less (left_ l)).
  - unfold p_prec. apply (good_look HU src l1); auto. intros t l2 R2 L2 Ht o Eo Et Stk.
    destruct t; try stop.
    + apply good_ret; auto; try lia. red. lia.
    + destruct l3; try stop. assert (Ct : lx_curr l2 = Some (TLit (LInt n0))) by (apply Ht; discriminate).
      destruct (good_bump src l2 _ R2 Ct eq_refl) as (G&P). unfold bind.
      destruct (bump l2) as [b l3| | |]; cbn [ProofParser.good] in *; auto; [|intuition lia].
      destruct G as (R3&L3&_). destruct (N.leb_spec n0 9).
      * apply good_ret; auto; try lia. red. lia.
      * right. split; auto. exists l0, t0, n0, l2. subst l1. destruct o as [o|]; [|discriminate]. subst o. auto.
  - intros p l2 R2 L2 Q. apply good_ret; auto.
Qed.

Lemma good_infix_decl n : eats_some n p_infix_decl.
Proof.
  intros l R L. unfold p_infix_decl. apply then_less; [apply (good_fixity n); auto|]. intros f l1 R1 L1.
  apply then_top; [apply less_top, (good_infix (S (left_ l1))); auto|]. intros i l2 R2 L2.
  apply then_top; [eapply (comma_list HU src (S (left_ l2))); auto; apply good_infix|]. done.
Qed.

Lemma good_tail {A} n (x : A) f w : eats_some n f -> forall l, driven src l -> left_ l <= n ->
  good (left_ l) top (collection_tail x f w l).
Proof.
  intros F l R L. unfold collection_tail. apply then_top; [eapply comma_list; eauto|]. done.
Qed.

Lemma good_upper n p s l t : eats_some n p -> driven src l -> holds t l -> sentinel t = false -> left_ l <= n ->
  good (left_ l) (less (left_ l)) (upper_pat p s l).
Proof.
  intros P R H N L. unfold upper_pat. take. intros l1 R1 L1. destruct n as [|n]; [lia|].
  apply then_top; [apply (pat_list HU src n); auto; lia|]. intros args l2 R2 L2.
  eapply good_bind. { eapply good_weaken; [apply good_peek_on; auto|lia|]. intros a l3 R3 L3 _. exact L3. }
  intros b l3 R3 L3 L4. destruct b.
  - eapply good_weaken; [apply (good_tail (S n)); auto; lia|lia|]. auto.
  - eapply good_weaken; [apply ret_top; auto|lia|]. auto.
Qed.

Lemma good_lower n p s l t : eats_some n p -> driven src l -> holds t l -> sentinel t = false -> left_ l <= n ->
  good (left_ l) (less (left_ l)) (lower_pat p s l).
Proof.
  intros P R H N L. unfold lower_pat. take. intros l1 R1 L1.
  eapply then_top. { eapply good_weaken; [apply good_bump_on; auto|lia|]. intros; exact I. }
  intros b l2 R2 L2. destruct b; [|apply ret_top; auto].
  apply then_top; [apply less_top, P; auto; lia|]. done.
Qed.

Lemma peek_on_top l x : driven src l -> sentinel x = false -> good (left_ l) top (peek_on x l).
Proof. intros. eapply good_weaken; [apply good_peek_on; auto|lia|]. intros; exact I. Qed.
Lemma bump_on_top l x : driven src l -> sentinel x = false -> good (left_ l) top (bump_on x l).
Proof. intros. eapply good_weaken; [apply good_bump_on; auto|lia|]. intros; exact I. Qed.

Lemma good_brack n p : eats_some n p -> eats_some (S n) (brack_pat p).
Proof.
  intros P l R L. unfold brack_pat. apply then_less; [apply good_eat; auto|]. intros _ l1 R1 L1.
  apply then_top; [apply bump_on_top; auto|]. intros b l2 R2 L2.
  apply then_top.
  { destruct b; [apply ret_top; auto|]. apply then_top; [apply less_top, P; auto; lia|]. intros x l3 R3 L3.
    apply (good_tail n); auto; lia. }
  intros x l3 R3 L3. apply then_top; [apply eat_top; auto|]. done.
Qed.

Lemma good_paren n p q : eats_some n p -> eats_some n q -> eats_some (S n) (paren_pat p q).
Proof.
  intros P Q l R L. unfold paren_pat. apply then_less; [apply good_eat; auto|]. intros _ l1 R1 L1.
  look l1. apply then_top.
  { destruct t; try stop; try (apply less_top; take; done).
    - cbn [begins_pat]. eapply good_weaken; [apply less_top, P; auto; lia|lia|auto].
    - cbn [begins_pat]. eapply good_weaken; [apply less_top, P; auto; lia|lia|auto].
    - cbn [begins_pat]. eapply good_weaken; [apply less_top, P; auto; lia|lia|auto].
    - cbn [begins_pat]. eapply good_weaken; [apply less_top, P; auto; lia|lia|auto].
    - cbn [begins_pat]. eapply good_weaken; [apply less_top, P; auto; lia|lia|auto].
    - apply less_top. take. intros l3 R3 L3. apply then_top; [apply less_top, P; auto; lia|]. done.
    - eapply good_weaken; [apply less_top, (good_upper n p s l0 (TUpper s)); auto; lia|lia|auto].
    - cbn [begins_pat]. eapply good_weaken; [apply less_top, P; auto; lia|lia|auto]. }
  intros x l2 R2 L2. apply then_top; [apply peek_on_top; auto|]. intros b l3 R3 L3.
  apply then_top. { destruct b; [|apply ret_top; auto]. apply (good_tail n); auto. lia. }
  intros y l4 R4 L4. apply then_top; [apply eat_top; auto|]. done.
Qed.

Lemma weak_less {A} k k' (r : parsed A) : good k (less k) r -> k <= k' -> good k' (less k') r.
Proof. intros G L. eapply good_weaken; eauto. unfold less. intros. lia. Qed.

Lemma good_pat : forall n b, eats_some n (pat_f n b).
Proof.
  induction n as [|n IH]; intros b l R L; [lia|]. cbn [pat_f]. look l.
  destruct t; try stop; try (take; done); try (destruct b; [|stop]; take; done).
  - eapply weak_less; [apply (good_paren n); auto; lia|lia].
  - eapply weak_less; [apply (good_brack n); auto; lia|lia].
  - destruct b; [|stop]. take. intros l2 R2 L2. apply less_top, IH; auto. lia.
  - destruct b; [|take; done]. eapply weak_less; [apply (good_upper n _ _ _ (TUpper s)); auto; lia|lia].
  - eapply weak_less; [apply (good_lower n _ _ _ (TLower s)); auto; lia|lia].
Qed.

Lemma good_pattern n : eats_some n pattern.
Proof. intros l R L. unfold pattern. apply good_pat; auto. apply budget_left. Qed.

Lemma good_lambda n f : eats_some n f -> eats_some (S n) (lambda f).
Proof.
  intros F l R L. unfold lambda. apply then_less; [apply good_eat; auto|]. intros _ l1 R1 L1.
  apply then_top; [apply less_top, (good_pattern (S (left_ l1))); auto|]. intros p l2 R2 L2.
  apply then_top; [apply (pat_list HU src (left_ l2)); auto; apply good_pattern|]. intros ps l3 R3 L3.
  apply then_top; [apply eat_top; auto|]. intros _ l4 R4 L4.
  apply then_top; [apply less_top, F; auto; lia|]. done.
Qed.

Lemma good_commas l : driven src l -> good (left_ l) top (many (bump_on TComma) (ret tt) l).
Proof.
  intros R. apply (good_many src (bump_on TComma) (ret tt) (left_ l)); auto. generalize (left_ l) as M. clear l R. intros M l R L.
  unfold once. eapply good_bind; [apply good_bump_on; auto|]. intros b l1 R1 L1 Hb.
  destruct b; (apply good_ret; [auto|auto|]); auto; congruence.
Qed.

Lemma good_paren_expr n f : eats_some n f -> eats_some (S n) (paren_expr f).
Proof.
  intros F l R L. unfold paren_expr. apply then_less; [apply good_eat; auto|]. intros _ l1 R1 L1.
  look l1.
  assert (G : good (left_ l1) top
    ((first <- f;; comma <- peek_on TComma;;
      (if comma then es <- many (bump_on TComma) f;; eat TParenR;;; ret (Tup (first :: es))
       else eat TParenR;;; ret (Grp first))) l0)).
  { eapply good_weaken with (Q := top) (k := left_ l0); [|lia|auto].
    apply then_top; [apply less_top, F; auto; lia|]. intros e l2 R2 L2.
    apply then_top; [apply peek_on_top; auto|]. intros b l3 R3 L3. destruct b.
    - apply then_top; [apply (comma_list HU src n); auto; lia|]. intros es l4 R4 L4.
      apply then_top; [apply eat_top; auto|]. done.
    - apply then_top; [apply eat_top; auto|]. done. }
  destruct t; try stop; try exact G.
  - apply less_top. take. done.
  - eapply good_weaken with (Q := top) (k := left_ l0); [|lia|auto].
    apply then_top; [apply good_commas; auto|]. intros cs l2 R2 L2.
    apply then_top; [apply eat_top; auto|]. done.
  - apply less_top. take. intros l2 R2 L2. apply then_top; [apply eat_top; auto|]. done.
Qed.

Lemma good_items n f : eats_some (S n) f -> forall l, driven src l -> left_ l <= n ->
  good (left_ l) top (many more_items (item f) l).
Proof.
  intros F. apply good_many. intros l R L. unfold once.
  eapply good_bind with (Q := fun _ l' => left_ l' <= left_ l).
  { unfold more_items, is_done. eapply good_weaken with (Q := top) (k := left_ l); [|lia|auto].
    apply then_top. { apply then_top; [eapply good_weaken; [apply good_peek; auto|lia|]; intros; exact I|]. done. }
    intros b l1 R1 L1. destruct b; [apply ret_top; auto|].
    apply then_top; [apply peek_on_top; auto|]. done. }
  intros b l1 R1 L1 _. destruct b; [|apply good_ret; auto; congruence]. eapply good_bind with (Q := less (left_ l)).
  - eapply weak_less; [|exact L1]. unfold item. apply then_less; [apply F; auto; lia|]. intros e l2 R2 L2.
    eapply good_bind; [apply good_peek_on; auto|]. intros b l3 R3 L3 Hb. destruct b.
    + eapply less_top, weak_less; [|exact L3]. eapply good_bump_less; auto.
    + eapply good_weaken; [apply ret_top; auto|lia|auto].
  - intros a l2 R2 L2 Q. apply good_ret; auto.
Qed.

Lemma good_brack_expr n f : eats_some n f -> eats_some (S n) (brack_expr f).
Proof.
  intros F l R L. unfold brack_expr. apply then_less; [apply good_eat; auto|]. intros _ l1 R1 L1.
  apply then_top. { destruct n as [|n]; [lia|]. apply (good_items n); auto. lia. }
  intros es l2 R2 L2. apply then_top; [apply eat_top; auto|]. done.
Qed.

Lemma good_atom n f : eats_some n f -> eats_some (S n) (atom f).
Proof.
  intros F l R L. unfold atom. look l. destruct t; try stop; try (take; done).
  - eapply weak_less; [apply (good_paren_expr n); auto; lia|lia].
  - eapply weak_less; [apply (good_brack_expr n); auto; lia|lia].
  - eapply weak_less; [apply (good_lambda n); auto; lia|lia].
  - take. intros l2 R2 L2. apply then_top; [apply less_top, (good_infix_decl (S (left_ l2))); auto|].
    intros d l3 R3 L3. apply then_top; [apply eat_top; auto|]. intros _ l4 R4 L4.
    apply then_top; [apply less_top, F; auto; lia|]. done.
Qed.

Lemma good_application n f : eats_some (S n) f -> eats_some (S n) (application f).
Proof.
  intros F l R L. unfold application. unfold here, bind at 1. apply then_less; [apply F; auto|].
  intros e l1 R1 L1. apply then_top; [|done]. apply (good_many src _ _ n); auto; [|lia].
  clear l1 R1 L1 e. intros l1 R1 L1. unfold once.
  eapply good_bind with (Q := fun _ l' => left_ l' <= left_ l1).
  { unfold at_arg. eapply good_bind; [apply good_peek; auto|]. intros t l2 R2 L2 _.
    unfold here, bind. apply good_ret; auto. }
  intros b l2 R2 L2 _. destruct b; [|apply good_ret; auto; congruence]. eapply good_bind with (Q := less (left_ l1)).
  - eapply weak_less; [apply F; auto; lia|lia].
  - intros a l3 R3 L3 Q. apply good_ret; auto.
Qed.

Lemma good_chain f M : eats_some (S M) f -> forall n e l, driven src l -> left_ l <= M -> left_ l < n ->
  good (left_ l) top (chain_f n f e l).
Proof.
  intros F. induction n as [|n IH]; intros e l R L Ln; [lia|]. cbn [chain_f].
  pose proof (good_infix (S (left_ l)) l R (Nat.lt_succ_diag_r _)) as G.
  destruct (p_infix l) as [i l1|e1 l1| |]; cbn [ProofParser.good] in G; auto.
  - destruct G as (R1&L1&Ls). red in Ls. look l1. destruct (begins_expr t false); [|stop].
    eapply good_weaken with (Q := top) (k := left_ l0); [|lia|auto].
    apply then_top; [apply less_top, F; auto; lia|]. intros r l3 R3 L3.
    apply then_top; [apply IH; auto; lia|]. done.
  - cbn. unfold top. tauto.
Qed.

Lemma good_binary n f : eats_some (S n) f -> eats_some (S n) (binary f).
Proof.
  intros F l R L. unfold binary. apply then_less; [apply F; auto|]. intros e l1 R1 L1.
  apply (good_chain f n); auto. lia. apply budget_left.
Qed.

Lemma good_expr : forall n, eats_some n (expr_f n).
Proof.
  induction n as [|n IH]; intros l R L; [lia|]. cbn [expr_f].
  apply (good_binary n); auto. apply good_application, good_atom. auto.
Qed.

Lemma good_expression n : eats_some n expression.
Proof. intros l R L. unfold expression. apply good_expr; auto. apply budget_left. Qed.

Lemma good_decl n : eats_some n p_decl.
Proof.
  intros l R L. unfold p_decl. look l.
  assert (G : good (left_ l) (less (left_ l)) ((d <- p_infix_decl;; ret (DInfix d)) l1)).
  { eapply weak_less; [|exact L1]. apply then_less; [apply (good_infix_decl n); auto; lia|]. done. }
  assert (G' : good (left_ l) (less (left_ l)) ((e <- expression;; ret (DExpr e)) l1)).
  { eapply weak_less; [|exact L1]. apply then_less; [apply (good_expression n); auto; lia|]. done. }
  destruct t; try stop; try exact G; exact G'.
Qed.

Lemma good_decls l : driven src l -> good (left_ l) top (p_decls l).
Proof.
  intros R. unfold p_decls. apply (good_many src _ _ (left_ l)); auto. generalize (left_ l) as M. clear l R. intros M l R L. unfold once.
  eapply good_bind with (Q := fun _ l' => left_ l' <= left_ l).
  { unfold is_done. eapply good_weaken with (Q := top) (k := left_ l); [|lia|auto].
    apply then_top; [|done]. apply then_top; [eapply good_weaken; [apply good_peek; auto|lia|]; intros; exact I|]. done. }
  intros b l1 R1 L1 _. destruct b; [|apply good_ret; auto; congruence]. eapply good_bind with (Q := less (left_ l)).
  - eapply weak_less; [|exact L1]. apply then_less; [apply (good_decl (S (left_ l1))); auto|]. intros d l2 R2 L2.
    apply then_top; [|done]. apply then_top; [apply bump_on_top; auto|]. done.
  - intros a l2 R2 L2 Q. apply good_ret; auto.
Qed.

Lemma good_parse l : driven src l -> good (left_ l) top (p_parse l).
Proof. intros R. unfold p_parse. apply then_top; [apply good_decls; auto|]. done. Qed.

End WithUcd.
