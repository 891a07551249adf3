(** Lemmas for C110: two texts with tokens of the same kinds take the parser
    the same way, also when they are rejected. *)
From Coq Require Import List Arith NArith Bool Lia.
From Verif Require Import Prelim Chars Syntax Lexer SpecLexer ProofLexer Parser SpecParser SpecRespell ProofParser3 ProofParser5 ProofParser8.
Import ListNotations.

(** The same complaint, but for where and about what. *)
Definition same_message (e e' : perror) : Prop :=
  match e, e' with
  | Expected x _ _, Expected y _ _ => x = y
  | Unexpected _ _, Unexpected _ _ => True
  | _, _ => False
  end.

Section Two.
Context {U : ucd}.
Hypothesis HU : letters U.
Variables ts0 us0 : list ptok.
Hypothesis K : same_kinds ts0 us0.

Definition paired (c c' : nat) : Prop :=
  exists i a b, nth_error ts0 i = Some a /\ nth_error us0 i = Some b /\ snd a = c /\ snd b = c'.

Definition weak (i : nat) (l l' : lexer) : Prop := sees l (skipn i ts0) /\ sees l' (skipn i us0).
Definition tw (l l' : lexer) : Prop := exists i, weak i l l' /\ (skipn i ts0 = [] \/ paired (lx_col l) (lx_col l')).
Definition pk (t t' : token) (l l' : lexer) : Prop := exists i, weak i l l' /\
  t = look (skipn i ts0) /\ t' = look (skipn i us0) /\ same_kind t t' /\
  (skipn i ts0 = [] \/
   (lx_curr l = Some t /\ lx_curr l' = Some t' /\ paired (lx_col l) (lx_col l') /\ weak (S i) (snd (lx_bump l)) (snd (lx_bump l')))).

Definition blames (e e' : perror) : Prop := same_message e e' /\
  exists i, found e = look (skipn i ts0) /\ found e' = look (skipn i us0).

Definition res {A B} (R : A -> B -> Prop) (p : parsed A) (p' : parsed B) : Prop :=
  match p, p' with
  | PFuel, _ | _, PFuel => True
  | POk a l, POk b l' => R a b /\ tw l l'
  | PErr e l, PErr e' l' => blames e e' /\ tw l l'
  | PPanic x, PPanic y => x = y
  | _, _ => False
  end.
Definition sim {A B} (m : parser A) (m' : parser B) (R : A -> B -> Prop) : Prop := forall l l', tw l l' -> res R (m l) (m' l').
Definition simw {A B} (m : parser A) (m' : parser B) (R : A -> B -> Prop) : Prop := forall i l l', weak i l l' -> res R (m l) (m' l').
Definition simp {A B} (t t' : token) (m : parser A) (m' : parser B) (R : A -> B -> Prop) : Prop := forall l l', pk t t' l l' -> res R (m l) (m' l').
Definition T {A B} (_ : A) (_ : B) : Prop := True.

Lemma pk_tw t t' l l' : pk t t' l l' -> tw l l'.
Proof. intros (i&W&_&_&_&[E|(_&_&Q&_)]); exists i; auto. Qed.
Lemma simw_sim {A B} (m : parser A) (m' : parser B) R : simw m m' R -> sim m m' R.
Proof. intros H l l' (i&W&_). eapply H; eauto. Qed.
Lemma sim_simp {A B} t t' (m : parser A) (m' : parser B) R : sim m m' R -> simp t t' m m' R.
Proof. intros H l l' P. apply H. eapply pk_tw; eauto. Qed.

Lemma bind_res {A B C D} (p : parsed A) (p' : parsed B) (R1 : A -> B -> Prop) (f : A -> parser C) (f' : B -> parser D) R :
  res R1 p p' -> (forall a b, R1 a b -> sim (f a) (f' b) R) ->
  res R (match p with POk a l1 => f a l1 | PErr e l1 => PErr e l1 | PPanic x => PPanic x | PFuel => PFuel end)
        (match p' with POk a l1 => f' a l1 | PErr e l1 => PErr e l1 | PPanic x => PPanic x | PFuel => PFuel end).
Proof.
  intros H G. destruct p as [a l|e l|x|], p' as [b l'|e' l'|y|]; cbn in H |- *; auto; try contradiction.
  - destruct H. apply G; auto.
  - destruct (f a l); auto.
Qed.
Lemma sim_bind {A B C D} (m : parser A) (m' : parser B) R1 (f : A -> parser C) (f' : B -> parser D) R :
  sim m m' R1 -> (forall a b, R1 a b -> sim (f a) (f' b) R) -> sim (bind m f) (bind m' f') R.
Proof. intros H G l l' W. unfold bind. eapply bind_res; eauto. Qed.
Lemma simp_bind {A B C D} t t' (m : parser A) (m' : parser B) R1 (f : A -> parser C) (f' : B -> parser D) R :
  simp t t' m m' R1 -> (forall a b, R1 a b -> sim (f a) (f' b) R) -> simp t t' (bind m f) (bind m' f') R.
Proof. intros H G l l' W. unfold bind. eapply bind_res; eauto. Qed.
Lemma simw_bind {A B C D} (m : parser A) (m' : parser B) R1 (f : A -> parser C) (f' : B -> parser D) R :
  simw m m' R1 -> (forall a b, R1 a b -> sim (f a) (f' b) R) -> simw (bind m f) (bind m' f') R.
Proof. intros H G i l l' W. unfold bind. eapply bind_res; eauto. Qed.
Lemma sim_ret {A B} (a : A) (b : B) (R : A -> B -> Prop) : R a b -> sim (ret a) (ret b) R.
Proof. intros H l l' W. cbn. auto. Qed.

(** * Looking at the next token *)
Lemma skip_cons {X} i (ts : list X) x r : skipn i ts = x :: r -> nth_error ts i = Some x /\ skipn (S i) ts = r.
Proof.
  revert ts. induction i as [|i IH]; intros [|y ts] E; try discriminate E; cbn in E.
  - injection E as <- <-. auto.
  - destruct (IH _ E) as (A&B). split; auto.
Qed.
Lemma both_empty i : skipn i ts0 = [] <-> skipn i us0 = [].
Proof.
  assert (L : List.length ts0 = List.length us0).
  { destruct K as (F&_). clear K. revert us0 F. induction ts0; intros [|? ?] F; inversion F; cbn; auto. }
  split; intros E; apply length_zero_iff_nil; apply (f_equal (@List.length _)) in E; rewrite skipn_length in *; cbn in E; lia.
Qed.
Lemma kinds_nth i a b : nth_error ts0 i = Some a -> nth_error us0 i = Some b -> same_kind (fst a) (fst b).
Proof.
  destruct K as (F&_). revert F i. clear K. revert us0. induction ts0 as [|x xs IH]; intros ys F i A B; [destruct i; discriminate|].
  destruct ys as [|y ys]; [destruct i; discriminate|]. cbn in F. inversion F; subst. destruct i as [|i]; cbn in A, B.
  - injection A as <-. injection B as <-. auto.
  - eapply IH; eauto.
Qed.
Lemma paired_lt c c' d d' : paired c c' -> paired d d' -> Nat.ltb c d = Nat.ltb c' d'.
Proof.
  intros (i&a&b&A&B&<-&<-) (j&a1&b1&A1&B1&<-&<-). destruct K as (_&O). specialize (O i j a a1 b b1 A A1 B B1).
  destruct (Nat.ltb_spec (snd a) (snd a1)), (Nat.ltb_spec (snd b) (snd b1)); auto; lia.
Qed.

Lemma peek_two i l l' : weak i l l' -> exists l1 l1', peek l = POk (look (skipn i ts0)) l1 /\ peek l' = POk (look (skipn i us0)) l1' /\
  pk (look (skipn i ts0)) (look (skipn i us0)) l1 l1'.
Proof.
  intros (S&S'). destruct (peek_run HU l _ S) as (l1&E&S1&H). destruct (peek_run HU l' _ S') as (l1'&E'&S1'&H').
  exists l1, l1'. split; auto. split; auto. exists i. split; [split; auto|]. split; auto. split; auto.
  destruct (skipn i ts0) as [|(t,k) r] eqn:X.
  - pose proof (proj1 (both_empty i) X) as X'. rewrite X'. cbn. split; [constructor|auto].
  - destruct (skipn i us0) as [|(t',k') r'] eqn:X'.
    { apply both_empty in X'. rewrite X in X'. discriminate. }
    destruct (skip_cons _ _ _ _ X) as (A&B). destruct (skip_cons _ _ _ _ X') as (A'&B').
    destruct H as (C&Hk&Sn), H' as (C'&Hk'&Sn'). cbn [look]. split; [exact (kinds_nth i _ _ A A')|].
    right. split; auto. split; auto. split.
    + exists i, (t, k), (t', k'). cbn. auto.
    + split; [rewrite B|rewrite B']; auto.
Qed.

Lemma peek_simw {A B} (f : token -> parser A) (f' : token -> parser B) R :
  (forall t t', same_kind t t' -> simp t t' (f t) (f' t') R) -> simw (t <- peek ;; f t) (t <- peek ;; f' t) R.
Proof.
  intros H i l l' W. destruct (peek_two i l l' W) as (l1&l1'&E&E'&P). unfold bind. rewrite E, E'. apply H; auto. destruct P as (?&_&_&_&X&_). auto.
Qed.
Lemma look_simw {A B} (f : loc -> token -> parser A) (f' : loc -> token -> parser B) R :
  (forall a a' t t', same_kind t t' -> simp t t' (f a t) (f' a' t') R) -> simw (a <- here ;; t <- peek ;; f a t) (a <- here ;; t <- peek ;; f' a t) R.
Proof.
  intros H i l l' W. unfold here, bind at 1. unfold bind at 2.
  apply (peek_simw (f (curr_loc l)) (f' (curr_loc l'))) with (i := i); auto.
Qed.

Lemma bump_simp {A B} t t' (m : parser A) (m' : parser B) R : t <> TEof -> sim m m' R -> simp t t' (bump ;;; m) (bump ;;; m') R.
Proof.
  intros N H l l' (i&W&Et&Et'&Sk&[E|(C&C'&Q&W2)]).
  - rewrite E in Et. contradiction.
  - unfold bind. rewrite (bump_run l t C), (bump_run l' t' C'). apply H. exists (S i). split; auto. rewrite !bump_col. auto.
Qed.
Lemma fail_simp {A B} t t' a a' R : simp t t' (@fail A (Unexpected t a)) (@fail B (Unexpected t' a')) R.
Proof.
  intros l l' P. cbn. split; [|eapply pk_tw; eauto]. destruct P as (i&W&Et&Et'&_). split; [exact I|]. exists i. cbn. auto.
Qed.
Lemma expected_simp {A B} t t' x a a' R : simp t t' (@fail A (Expected x a t)) (@fail B (Expected x a' t')) R.
Proof.
  intros l l' P. cbn. split; [|eapply pk_tw; eauto]. destruct P as (i&W&Et&Et'&_). split; [reflexivity|]. exists i. cbn. auto.
Qed.
Lemma same_kin t t' x : same_kind t t' -> same t x = same t' x.
Proof. intros []; destruct x; auto. Qed.

Lemma is_done_sim : simw is_done is_done eq.
Proof. unfold is_done. apply peek_simw. intros t t' Sk. apply sim_simp, sim_ret. apply same_kin; auto. Qed.
Lemma peek_on_sim x : sim (peek_on x) (peek_on x) eq.
Proof. unfold peek_on. apply simw_sim, peek_simw. intros t t' Sk. apply sim_simp, sim_ret. apply same_kin; auto. Qed.
Lemma not_eof t x : same t x = true -> same TEof x = false -> t <> TEof.
Proof. intros A B ->. congruence. Qed.
Lemma bump_on_sim x : same TEof x = false -> sim (bump_on x) (bump_on x) eq.
Proof.
  intros X l l' (i&W&_). destruct (peek_two i l l' W) as (l1&l1'&E&E'&P). unfold bump_on, peek_on, bind at 1, bind at 1.
  unfold bind at 2, bind at 2. rewrite E, E'. cbn [ret].
  assert (Sk : same_kind (look (skipn i ts0)) (look (skipn i us0))) by (destruct P as (?&_&_&_&Y&_); auto).
  rewrite <- (same_kin _ _ x Sk). destruct (same (look (skipn i ts0)) x) eqn:Sm.
  - eapply bump_simp; eauto using not_eof. apply sim_ret; auto.
  - cbn. split; auto. eapply pk_tw; eauto.
Qed.
Lemma eat_sim x : same TEof x = false -> sim (eat x) (eat x) T.
Proof.
  intros X. unfold eat. apply simw_sim, look_simw. intros a a' t t' Sk. rewrite <- (same_kin _ _ x Sk). destruct (same t x) eqn:Sm.
  - apply bump_simp; eauto using not_eof. apply sim_ret. exact I.
  - apply expected_simp.
Qed.
Lemma ignore_sim x : same TEof x = false -> sim (ignore x) (ignore x) T.
Proof. intros X. unfold ignore. eapply sim_bind; [apply bump_on_sim; auto|]. intros; apply sim_ret. exact I. Qed.

(** * Loops *)
Lemma many_f_simw {A B} n : forall n' c c' (b : parser A) (b' : parser B), simw c c' eq -> sim b b' T -> simw (many_f n c b) (many_f n' c' b') T.
Proof.
  induction n as [|n IH]; intros n' c c' b b' Hc Hb; cbn [many_f]; destruct n' as [|n']; cbn [many_f];
    (eapply simw_bind; [apply Hc|]; intros x y ->; destruct y; [|apply sim_ret; exact I]).
  - intros l l' _. exact I.
  - intros l l' _. exact I.
  - intros l l' _. cbn. destruct (bind b _ l); exact I.
  - eapply sim_bind; [apply Hb|]. intros u v _. eapply sim_bind; [apply simw_sim, IH; auto|]. intros; apply sim_ret; exact I.
Qed.
Lemma many_f_sim {A B} n : forall n' c c' (b : parser A) (b' : parser B), sim c c' eq -> sim b b' T -> sim (many_f n c b) (many_f n' c' b') T.
Proof.
  induction n as [|n IH]; intros n' c c' b b' Hc Hb; cbn [many_f]; destruct n' as [|n']; cbn [many_f];
    (eapply sim_bind; [apply Hc|]; intros x y ->; destruct y; [|apply sim_ret; exact I]).
  - intros l l' _. exact I.
  - intros l l' _. exact I.
  - intros l l' _. cbn. destruct (bind b _ l); exact I.
  - eapply sim_bind; [apply Hb|]. intros u v _. eapply sim_bind; [apply IH; auto|]. intros; apply sim_ret; exact I.
Qed.
Lemma many_sim {A B} c c' (b : parser A) (b' : parser B) : sim c c' eq -> sim b b' T -> sim (many c b) (many c' b') T.
Proof. intros Hc Hb l l' W. unfold many. apply many_f_sim; auto. Qed.
Lemma commas_sim {A B} (b : parser A) (b' : parser B) : sim b b' T -> sim (many (bump_on TComma) b) (many (bump_on TComma) b') T.
Proof. intros H. apply many_sim; auto. apply bump_on_sim; auto. Qed.
Lemma tail_sim {A B} (x : A) (y : B) b b' w w' : sim b b' T -> sim (collection_tail x b w) (collection_tail y b' w') T.
Proof. intros H. unfold collection_tail. eapply sim_bind; [apply commas_sim; auto|]. intros; apply sim_ret; exact I. Qed.

Ltac done_ := apply sim_ret; exact I.
Ltac kinds Sk := destruct Sk as [t| | | |]; [destruct t|..].
Ltac easy1 := first [apply fail_simp | apply bump_simp; [discriminate|done_]].
Ltac looks := apply simw_sim, look_simw; intros la la' t0 t0' Sk.

(** * Declarations of operators *)
Lemma p_infix_sim : sim p_infix p_infix T.
Proof. unfold p_infix. looks. kinds Sk; easy1. Qed.
Lemma p_assoc_sim : sim p_assoc p_assoc T.
Proof. unfold p_assoc. looks. kinds Sk; easy1. Qed.
Lemma p_prec_sim : sim p_prec p_prec T.
Proof.
  unfold p_prec. looks. kinds Sk; try easy1; try (apply sim_simp; done_).
  - match goal with |- simp (TLit ?x) _ _ _ _ => destruct x end; try easy1. apply bump_simp; [discriminate|].
    match goal with |- context [N.leb ?n 9] => destruct (N.leb n 9) end; [done_|]. intros l l' _. reflexivity.
  - destruct x, y; first [apply fail_simp | exfalso; match goal with H : forall n, LInt ?k <> _ |- _ => exact (H k eq_refl) end].
Qed.
Lemma p_infix_decl_sim : sim p_infix_decl p_infix_decl T.
Proof.
  unfold p_infix_decl, p_fixity. eapply sim_bind with (R1 := T); [eapply sim_bind; [apply p_assoc_sim|]; intros ? ? _; eapply sim_bind; [apply p_prec_sim|]; intros; done_|]. intros ? ? _.
  eapply sim_bind; [apply p_infix_sim|]. intros ? ? _. eapply sim_bind; [apply commas_sim, p_infix_sim|]. intros; done_.
Qed.

(** * Patterns *)
Lemma at_pat_sim : sim at_pat at_pat eq.
Proof. unfold at_pat. apply simw_sim, peek_simw. intros t t' Sk. apply sim_simp, sim_ret. destruct Sk; auto. Qed.
Lemma upper_sim p p' s s' : sim p p' T -> forall t t', t <> TEof -> simp t t' (upper_pat p s) (upper_pat p' s') T.
Proof.
  intros H t t' N. unfold upper_pat. apply bump_simp; auto. eapply sim_bind; [apply many_sim; [apply at_pat_sim|auto]|]. intros ? ? _.
  eapply sim_bind; [apply peek_on_sim|]. intros ? c ->. destruct c; [apply tail_sim; auto|done_].
Qed.
Lemma lower_sim p p' s s' : sim p p' T -> forall t t', t <> TEof -> simp t t' (lower_pat p s) (lower_pat p' s') T.
Proof.
  intros H t t' N. unfold lower_pat. apply bump_simp; auto. eapply sim_bind; [apply bump_on_sim; auto|]. intros ? c ->. destruct c; [|done_].
  eapply sim_bind; [apply H|]. intros; done_.
Qed.
Lemma brack_sim p p' : sim p p' T -> sim (brack_pat p) (brack_pat p') T.
Proof.
  intros H. unfold brack_pat. eapply sim_bind; [apply eat_sim; auto|]. intros ? ? _. eapply sim_bind; [apply bump_on_sim; auto|]. intros ? c ->.
  eapply sim_bind with (R1 := T).
  - destruct c; [done_|]. eapply sim_bind; [apply H|]. intros ? ? _. apply tail_sim; auto.
  - intros ? ? _. eapply sim_bind; [apply eat_sim; auto|]. intros; done_.
Qed.
Lemma paren_sim p p' q q' : sim p p' T -> sim q q' T -> sim (paren_pat p q) (paren_pat p' q') T.
Proof.
  intros H G. unfold paren_pat. eapply sim_bind; [apply eat_sim; auto|]. intros ? ? _. looks.
  apply simp_bind with (R1 := T).
  - kinds Sk; cbn [begins_pat]; try easy1; try (apply upper_sim; [auto|discriminate]); try (apply sim_simp; assumption).
    apply bump_simp; [discriminate|]. eapply sim_bind; [apply H|]. intros; done_.
  - intros ? ? _. eapply sim_bind; [apply peek_on_sim|]. intros ? c ->. eapply sim_bind with (R1 := T).
    + destruct c; [apply tail_sim; auto|done_].
    + intros ? ? _. eapply sim_bind; [apply eat_sim; auto|]. intros; done_.
Qed.
Lemma pat_sim n : forall n' inner, sim (pat_f n inner) (pat_f n' inner) T.
Proof.
  induction n as [|n IH]; intros n' inner; [intros l l' _; exact I|].
  destruct n' as [|n']; [intros l l' _; cbn [pat_f]; destruct (bind here _ l); exact I|].
  cbn [pat_f]. looks. kinds Sk; try easy1; try (destruct inner; easy1).
  all: try (apply sim_simp; first [apply paren_sim; apply IH | apply brack_sim; apply IH]).
  all: try (apply lower_sim; [apply IH|discriminate]).
  all: destruct inner; try easy1; try (apply upper_sim; [apply IH|discriminate]).
  apply bump_simp; [discriminate|apply IH].
Qed.
Lemma pattern_sim : sim pattern pattern T.
Proof. intros l l' W. exact (pat_sim (budget l) (budget l') false l l' W). Qed.

(** * Expressions *)
Lemma lambda_sim e e' : sim e e' T -> sim (lambda e) (lambda e') T.
Proof.
  intros H. unfold lambda. eapply sim_bind; [apply eat_sim; auto|]. intros ? ? _. eapply sim_bind; [apply pattern_sim|]. intros ? ? _.
  eapply sim_bind; [apply many_sim; [apply at_pat_sim|apply pattern_sim]|]. intros ? ? _.
  eapply sim_bind; [apply eat_sim; auto|]. intros ? ? _. eapply sim_bind; [apply H|]. intros; done_.
Qed.
Lemma close_sim {A B} x (a : A) (b : B) : same TEof x = false -> sim (eat x ;;; ret a) (eat x ;;; ret b) T.
Proof. intros X. eapply sim_bind; [apply eat_sim; auto|]. intros; done_. Qed.
Lemma paren_expr_sim e e' : sim e e' T -> sim (paren_expr e) (paren_expr e') T.
Proof.
  intros H.
  assert (Go : sim (first <- e ;; comma <- peek_on TComma ;;
           if comma then es <- many (bump_on TComma) e ;; eat TParenR ;;; ret (Tup (first :: es))
           else eat TParenR ;;; ret (Grp first)) (first <- e' ;; comma <- peek_on TComma ;;
           if comma then es <- many (bump_on TComma) e' ;; eat TParenR ;;; ret (Tup (first :: es))
           else eat TParenR ;;; ret (Grp first)) T).
  { eapply sim_bind; [apply H|]. intros ? ? _. eapply sim_bind; [apply peek_on_sim|]. intros ? c ->. destruct c; [|apply close_sim; auto].
    eapply sim_bind; [apply commas_sim; auto|]. intros ? ? _. apply close_sim; auto. }
  unfold paren_expr. eapply sim_bind; [apply eat_sim; auto|]. intros ? ? _. looks.
  kinds Sk; cbn [begins_expr]; try easy1; try (apply sim_simp; exact Go).
  - apply sim_simp. eapply sim_bind; [apply commas_sim; apply sim_ret; exact I|]. intros ? ? _. apply close_sim; auto.
  - apply bump_simp; [discriminate|]. apply close_sim; auto.
  - apply bump_simp; [discriminate|]. apply close_sim; auto.
Qed.
Lemma more_sim : sim more_items more_items eq.
Proof.
  unfold more_items. eapply sim_bind; [apply simw_sim, is_done_sim|]. intros ? d ->. destruct d; [apply sim_ret; auto|].
  eapply sim_bind; [apply peek_on_sim|]. intros ? b ->. apply sim_ret; auto.
Qed.
Lemma item_sim e e' : sim e e' T -> sim (item e) (item e') T.
Proof.
  intros H. unfold item. eapply sim_bind; [apply H|]. intros x y _.
  assert (E : forall (z : expr) l, (comma <- peek_on TComma ;; (if comma then bump ;;; ret z else ret z)) l = (bump_on TComma ;;; ret z) l).
  { intros z l. unfold bump_on, bind. destruct (peek_on TComma l) as [[]| | |]; auto. unfold bump. destruct (lx_bump l0); auto. }
  intros l l' W. rewrite !E. revert l l' W. change (sim (bump_on TComma ;;; ret x) (bump_on TComma ;;; ret y) T).
  eapply sim_bind; [apply bump_on_sim; auto|]. intros; done_.
Qed.
Lemma brack_expr_sim e e' : sim e e' T -> sim (brack_expr e) (brack_expr e') T.
Proof.
  intros H. unfold brack_expr. eapply sim_bind; [apply eat_sim; auto|]. intros ? ? _. eapply sim_bind; [apply many_sim; [apply more_sim|apply item_sim; auto]|].
  intros ? ? _. apply close_sim; auto.
Qed.
Lemma atom_sim e e' : sim e e' T -> simw (atom e) (atom e') T.
Proof.
  intros H. unfold atom. apply look_simw. intros a a' t0 t0' Sk. kinds Sk; try easy1.
  all: try (apply sim_simp; first [apply lambda_sim; assumption|apply paren_expr_sim; assumption|apply brack_expr_sim; assumption]).
  apply bump_simp; [discriminate|]. eapply sim_bind; [apply p_infix_decl_sim|]. intros ? ? _. eapply sim_bind; [apply eat_sim; auto|]. intros ? ? _.
  eapply sim_bind; [apply H|]. intros; done_.
Qed.
Lemma at_arg_sim a a' : paired (l_col a) (l_col a') -> sim (at_arg a) (at_arg a') eq.
Proof.
  intros Q. unfold at_arg. apply simw_sim, peek_simw. intros t t' Sk l l' (i&W&Et&Et'&_&H). unfold here, bind, ret. cbn.
  assert (Ea : arg_expr_tok t = arg_expr_tok t') by (destruct Sk; auto). split.
  - destruct H as [E|(_&_&Q2&_)].
    + rewrite E in Et. cbn in Et. subst t. rewrite <- Ea. auto.
    + rewrite Ea. f_equal. apply paired_lt; auto.
  - exists i. split; auto. destruct H as [E|(_&_&Q2&_)]; auto.
Qed.
Lemma application_sim e e' : sim e e' T -> sim (application (atom e)) (application (atom e')) T.
Proof.
  intros H l l' W. destruct W as (i&W&C). pose proof (atom_sim e e' H i l l' W) as R.
  unfold application, here, bind at 1. unfold bind at 2. destruct C as [E|Q].
  - destruct W as (S&S'). rewrite E in S. pose proof S' as S2. rewrite (proj1 (both_empty i) E) in S2.
    destruct (look_run HU l [] (fun a t => match t with TLambda => lambda e | TParenL => paren_expr e | TBrackL => brack_expr e
      | TLet => bump ;;; d <- p_infix_decl ;; eat TIn ;;; body <- e ;; ret (Let d body)
      | TLit x => bump ;;; ret (Lit x) | TUpper s => bump ;;; ret (Var (IUpper s)) | TLower s => bump ;;; ret (Var (ILower s))
      | t => fail (Unexpected t a) end) S) as (l1&F&_).
    change (atom e l = PErr (Unexpected TEof (curr_loc l)) l1) in F.
    unfold bind. rewrite F in *. destruct (atom e' l') as [| | |]; cbn in R; [contradiction|exact R|contradiction|exact I].
  - unfold bind at 1. unfold bind at 2. eapply bind_res; [exact R|]. intros x y _.
    eapply sim_bind; [apply many_sim; [apply at_arg_sim; exact Q|apply simw_sim, atom_sim; auto]|]. intros; done_.
Qed.
Lemma chain_sim n : forall n' f f' x y, sim f f' T -> sim (chain_f n f x) (chain_f n' f' y) T.
Proof.
  induction n as [|n IH]; intros n' f f' x y H l l' W; destruct n' as [|n']; cbn [chain_f]; pose proof (p_infix_sim l l' W) as R;
    destruct (p_infix l) as [i1 l1|e1 l1|p1|], (p_infix l') as [i2 l2|e2 l2|p2|]; cbn in R; try contradiction; try exact I; try (cbn; auto; fail);
    try (destruct R as (_&R); split; [exact I|exact R]);
    try (match goal with |- res _ ?u PFuel => destruct u; exact I end).
  all: destruct R as (_&R); revert l1 l2 R.
  - apply simw_sim, look_simw. intros a a' t0 t0' Sk.
    assert (E : begins_expr t0 false = begins_expr t0' false) by (destruct Sk; auto). rewrite <- E. destruct (begins_expr t0 false); [|apply fail_simp].
    intros l1 l2 _. exact I.
  - apply simw_sim, look_simw. intros a a' t0 t0' Sk.
    assert (E : begins_expr t0 false = begins_expr t0' false) by (destruct Sk; auto). rewrite <- E. destruct (begins_expr t0 false); [|apply fail_simp].
    intros l1 l2 _. exact I.
  - apply simw_sim, look_simw. intros a a' t0 t0' Sk.
    assert (E : begins_expr t0 false = begins_expr t0' false) by (destruct Sk; auto). rewrite <- E. destruct (begins_expr t0 false); [|apply fail_simp].
    intros l1 l2 _. cbn. destruct (bind f _ l1); exact I.
  - apply simw_sim, look_simw. intros a a' t0 t0' Sk.
    assert (E : begins_expr t0 false = begins_expr t0' false) by (destruct Sk; auto). rewrite <- E. destruct (begins_expr t0 false); [|apply fail_simp].
    apply sim_simp. eapply sim_bind; [apply H|]. intros ? ? _. eapply sim_bind; [apply IH; auto|]. intros; done_.
Qed.
Lemma binary_sim f f' : sim f f' T -> sim (binary f) (binary f') T.
Proof. intros H. unfold binary. eapply sim_bind; [apply H|]. intros x y _ l l' W. exact (chain_sim (budget l) (budget l') f f' x y H l l' W). Qed.
Lemma expr_sim n : forall n', sim (expr_f n) (expr_f n') T.
Proof.
  induction n as [|n IH]; intros n'; [intros l l' _; exact I|].
  destruct n' as [|n']; [intros l l' _; cbn [expr_f]; destruct (binary _ l); exact I|].
  intros l l' W. cbn [expr_f]. exact (binary_sim _ _ (application_sim _ _ (IH n')) l l' W).
Qed.

(** * Programs *)
Lemma p_decl_sim : sim p_decl p_decl T.
Proof.
  assert (E : sim (e <- expression ;; ret (DExpr e)) (e <- expression ;; ret (DExpr e)) T).
  { eapply sim_bind; [intros l l' W; exact (expr_sim (budget l) (budget l') l l' W)|]. intros; done_. }
  assert (D : sim (d <- p_infix_decl ;; ret (DInfix d)) (d <- p_infix_decl ;; ret (DInfix d)) T).
  { eapply sim_bind; [apply p_infix_decl_sim|]. intros; done_. }
  unfold p_decl. looks. kinds Sk; cbn [begins_expr]; try apply fail_simp; apply sim_simp; assumption.
Qed.
Lemma p_parse_sim : simw p_parse p_parse T.
Proof.
  assert (H : simw p_decls p_decls T).
  { intros i l l' W. unfold p_decls, many. refine (many_f_simw _ _ _ _ _ _ _ _ i l l' W).
    - eapply simw_bind; [apply is_done_sim|]. intros ? d ->. apply sim_ret; auto.
    - eapply sim_bind; [apply p_decl_sim|]. intros ? ? _. eapply sim_bind; [apply ignore_sim; auto|]. intros; done_. }
  unfold p_parse. eapply simw_bind; [exact H|]. intros; done_.
Qed.
End Two.
