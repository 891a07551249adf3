(** The parser terminates, fails at positions it reached, and panics for two
    reasons only. *)
From Coq Require Import List Arith NArith Bool String Lia.
From Verif Require Import Prelim Chars Syntax Lexer SpecLexer SpecLexRun Parser.
From Verif Require Import ProofLexer ProofLexer7.
Import ListNotations.

Section WithUcd.
Context {U : ucd}.
Context (HU : letters U).

(** Tokens that are never consumed. *)
Definition sentinel (t : token) : bool := match t with TEof | TError _ => true | _ => false end.

(** How many tokens may still be consumed, at most. *)
Definition left_ (l : lexer) : nat :=
  match lx_curr l with
  | None => List.length (lx_rest l)
  | Some t => if sentinel t then 0 else S (List.length (lx_rest l))
  end.

Context (src : str).

(** The parser looked at the next token at [l0] and could not go on. *)
Definition wanted (x : token) : bool :=
  match x with TParenL | TParenR | TBrackL | TBrackR | TLambda | TArrow | TIn => true | _ => false end.
Definition stuck (e : perror) : Prop :=
  (exists l0 o l1, driven src l0 /\ lx_peek l0 = Ok (o, l1) /\ error_loc e = curr_loc l0 /\
    match e with Expected _ _ t | Unexpected t _ => t end = match o with Some t => t | None => TEof end) /\
  match e with Expected x _ t => wanted x = true /\ t <> x | Unexpected _ _ => True end.

Definition infix_keyword (t : token) : bool :=
  match t with TInfixL | TInfixR | TInfix => true | _ => false end.

Definition bad (p : panic) : Prop :=
  (exists l, driven src l /\ lx_curr l = None /\ lex l = Panic p) \/
  (p = PTodoPrec /\ exists l0 t n l1, driven src l0 /\ lx_curr l0 = Some t /\ infix_keyword t = true /\
     lx_peek (snd (lx_bump l0)) = Ok (Some (TLit (LInt n)), l1) /\ (9 < n)%N).

Definition good {A} (m : nat) (Q : A -> lexer -> Prop) (r : parsed A) : Prop :=
  match r with
  | POk a l => driven src l /\ left_ l <= m /\ Q a l
  | PErr e l => driven src l /\ left_ l <= m /\ stuck e
  | PPanic p => bad p
  | PFuel => False
  end.

Lemma good_bind {A B} (m : parser A) (f : A -> parser B) k Q R l :
  good k Q (m l) ->
  (forall a l', driven src l' -> left_ l' <= k -> Q a l' -> good k R (f a l')) ->
  good k R (bind m f l).
Proof. unfold bind. destruct (m l); cbn [good]; auto. intros (H1&H2&H3) H. auto. Qed.

Lemma good_weaken {A} k k' (Q R : A -> lexer -> Prop) r : good k Q r -> k <= k' ->
  (forall a l, driven src l -> left_ l <= k -> Q a l -> R a l) -> good k' R r.
Proof. destruct r; cbn [good]; auto; intros (H1&H2&H3) L H; split; auto; split; auto; lia. Qed.

Lemma good_ret {A} (a : A) k (Q : A -> lexer -> Prop) l :
  driven src l -> left_ l <= k -> Q a l -> good k Q (ret a l).
Proof. cbn. auto. Qed.

Definition holds (t : token) (l : lexer) : Prop := t <> TEof -> lx_curr l = Some t.

Lemma peek_left l o l1 : lx_peek l = Ok (o, l1) -> left_ l1 <= left_ l.
Proof.
  unfold lx_peek. destruct (lx_curr l) as [t|] eqn:C. { intros E. injection E as <- <-. lia. }
  pose proof (lex_terminates HU l) as F. destruct (lex l) as [[t r]| |]; cbn [obind]; try discriminate.
  cbn [fine] in F. unfold left_ at 2. rewrite C. intros E.
  assert (G : goes l r) by (apply lexed_goes in F; auto). destruct G as (u&(_&Hc&R&_)).
  rewrite C in Hc. assert (Lr : List.length (lx_rest r) <= List.length (lx_rest l)) by (rewrite R, app_length; lia).
  unfold lexed in F.
  destruct t; injection E as E1 E2; subst o l1; unfold left_; cbn [set_curr lx_curr lx_rest sentinel];
    try lia; try (apply moves_len in F; lia).
  rewrite Hc. lia.
Qed.

Lemma good_peek l : driven src l ->
  good (left_ l) (fun t l' => holds t l' /\
    exists o, lx_peek l = Ok (o, l') /\ t = match o with Some t => t | None => TEof end) (peek l).
Proof.
  intros R. unfold peek. destruct (lx_peek l) as [[o l1]|p|] eqn:E.
  - pose proof (peek_left _ _ _ E). pose proof (dr_peek _ _ _ _ R E).
    assert (Hc : forall t, o = Some t -> lx_curr l1 = Some t).
    { unfold lx_peek in E. intros t ->. destruct (lx_curr l) eqn:C. { injection E as <- <-. auto. }
      destruct (lex l) as [[t' r]| |]; cbn [obind] in E; try discriminate.
      destruct t'; try discriminate; injection E as <- <-; auto. }
    destruct o as [t|]; cbn [good]; repeat split; eauto.
    + intros _. auto.
    + intros N. congruence.
  - left. exists l. split; auto. unfold lx_peek in E. destruct (lx_curr l); [discriminate|]. split; auto.
    destruct (lex l) as [[[] ?]| |]; cbn in E; try discriminate. injection E as ->. auto.
  - unfold lx_peek in E. destruct (lx_curr l); [discriminate|]. pose proof (lex_terminates HU l) as F.
    destruct (lex l) as [[[] ?]| |]; cbn in E; try discriminate. destruct F.
Qed.

Lemma good_bump l t : driven src l -> lx_curr l = Some t -> sentinel t = false ->
  good (pred (left_ l)) (fun t' l' => t' = t /\ l' = snd (lx_bump l)) (bump l) /\ 0 < left_ l.
Proof.
  intros R C N. unfold bump, left_. pose proof (dr_bump _ _ R) as R'. unfold lx_bump in *. rewrite C, N in *.
  cbn [good snd] in *. repeat split; auto; lia || cbn; lia.
Qed.

Definition top {A} : A -> lexer -> Prop := fun _ _ => True.
Definition less {A} (k : nat) : A -> lexer -> Prop := fun _ l => left_ l < k.

Lemma same_eq a b : same a b = true -> a = b.
Proof. destruct a, b; intros E; discriminate E || auto. Qed.

Lemma good_peek_on l x : driven src l -> sentinel x = false ->
  good (left_ l) (fun b l' => b = true -> lx_curr l' = Some x) (peek_on x l).
Proof.
  intros R N. unfold peek_on. eapply good_bind; [apply good_peek; auto|].
  intros t l1 R1 L1 (Ht&_). apply good_ret; auto. intros E. apply same_eq in E. subst t.
  apply Ht. intros ->. discriminate.
Qed.

Lemma good_bump_less {A} l t (a : A) k : driven src l -> lx_curr l = Some t -> sentinel t = false ->
  left_ l <= k -> good k (less k) ((bump ;;; ret a) l).
Proof.
  intros R C N L. destruct (good_bump l t R C N) as (G&P). apply good_bind with (Q := less k).
  - eapply good_weaken; [exact G|lia|]. intros b l1 R1 L1 _. red. lia.
  - intros b l1 R1 L1 Q. apply good_ret; auto.
Qed.

Lemma good_bump_on l x : driven src l -> sentinel x = false ->
  good (left_ l) (fun b l' => b = true -> left_ l' < left_ l) (bump_on x l).
Proof.
  intros R N. unfold bump_on. eapply good_bind; [apply good_peek_on; eauto|].
  intros b l1 R1 L1 Hb. destruct b.
  - eapply good_weaken; [eapply good_bump_less; eauto|lia|]. intros a l2 R2 L2 H _. exact H.
  - apply good_ret; auto. discriminate.
Qed.

Lemma good_eat l x : driven src l -> wanted x = true ->
  good (left_ l) (less (left_ l)) (eat x l).
Proof.
  intros R N. assert (Ns : sentinel x = false) by (destruct x; auto; discriminate).
  unfold eat. eapply good_bind. { apply (good_ret (curr_loc l) (left_ l) (fun a l' => a = curr_loc l /\ l' = l)); auto. }
  intros a l0 R0 L0 (->&->). eapply good_bind; [apply good_peek; auto|].
  intros t l1 R1 L1 (Ht&o&E&Eo). destruct (same t x) eqn:S.
  - apply same_eq in S. subst x. eapply good_bump_less; eauto. apply Ht. intros ->. discriminate.
  - cbn. split; auto. split; auto. split; [exists l, o, l1; repeat split; auto|]. split; auto.
    intros ->. destruct x; discriminate.
Qed.

(** [here] then [peek], with the error that follows. *)
Lemma good_look {A} l (f : loc -> token -> parser A) k Q : driven src l -> left_ l <= k ->
  (forall t l1, driven src l1 -> left_ l1 <= left_ l -> holds t l1 ->
     (forall o, lx_peek l = Ok (o, l1) -> t = match o with Some t => t | None => TEof end ->
                stuck (Unexpected t (curr_loc l)) -> good k Q (f (curr_loc l) t l1))) ->
  good k Q ((a <- here ;; t <- peek ;; f a t) l).
Proof.
  intros R L H. unfold here, bind at 1. eapply good_bind. { eapply good_weaken; [apply good_peek; auto|auto|]. intros a l' R' L' Ha. exact Ha. }
  intros t l1 R1 L1 (Ht&o&E&Eo). pose proof (peek_left _ _ _ E). eapply H; eauto.
  split; auto. exists l, o, l1. repeat split; auto.
Qed.

Lemma good_fail {A} e l k (Q : A -> lexer -> Prop) : driven src l -> left_ l <= k -> stuck e ->
  good k Q (fail e l).
Proof. cbn. auto. Qed.

Definition once {A} (cond : parser bool) (body : parser A) : parser (option A) :=
  b <- cond ;; if b then x <- body ;; ret (Some x) else ret None.

Lemma good_many_f {A} (cond : parser bool) (body : parser A) M :
  (forall l, driven src l -> left_ l <= M ->
     good (left_ l) (fun o l' => o <> None -> left_ l' < left_ l) (once cond body l)) ->
  forall n l, driven src l -> left_ l <= M -> left_ l < n -> good (left_ l) top (many_f n cond body l).
Proof.
  intros H. induction n as [|n IH]; intros l R L Ln; [lia|]. specialize (H l R L).
  cbn [many_f]. unfold once, bind in *. destruct (cond l) as [b l1| | |]; cbn [good] in *; auto.
  destruct b; [|cbn in *; unfold top; tauto].
  destruct (body l1) as [x l2| | |]; cbn [good ret] in *; auto. destruct H as (R2&L2&H).
  specialize (H ltac:(discriminate)). specialize (IH l2 R2 ltac:(lia) ltac:(lia)).
  destruct (many_f n cond body l2); cbn [good ret] in *; auto; (split; [tauto|split; [lia|tauto]]).
Qed.

Lemma budget_left l : left_ l < budget l.
Proof. unfold left_, budget. destruct (lx_curr l) as [t|]; [destruct (sentinel t)|]; lia. Qed.

Lemma good_many {A} (cond : parser bool) (body : parser A) M :
  (forall l, driven src l -> left_ l <= M ->
     good (left_ l) (fun o l' => o <> None -> left_ l' < left_ l) (once cond body l)) ->
  forall l, driven src l -> left_ l <= M -> good (left_ l) top (many cond body l).
Proof. intros H l R L. unfold many. eapply good_many_f; eauto. apply budget_left. Qed.

(** Methods that consume at least one token, if they succeed. *)
Definition eats_some {A} (n : nat) (f : parser A) : Prop :=
  forall l, driven src l -> left_ l < n -> good (left_ l) (less (left_ l)) (f l).

Lemma eats_some_le {A} n m (f : parser A) : n <= m -> eats_some m f -> eats_some n f.
Proof. intros L H l R Ln. apply H; auto. lia. Qed.

Lemma less_top {A} k (r : parsed A) : good k (less k) r -> good k top r.
Proof. intros H. eapply good_weaken; eauto. unfold top. auto. Qed.

Lemma comma_list {A} n (f : parser A) : eats_some n f ->
  forall l, driven src l -> left_ l <= n -> good (left_ l) top (many (bump_on TComma) f l).
Proof.
  intros F. apply good_many. intros l R L. unfold once.
  eapply good_bind; [apply good_bump_on; auto|]. intros b l1 R1 L1 Hb. destruct b.
  - specialize (Hb eq_refl). eapply good_bind.
    { eapply good_weaken; [apply F; auto; lia|lia|]. intros a l2 R2 L2 Q. exact Q. }
    intros a l2 R2 L2 Q. apply good_ret; auto. unfold less in Q. lia.
  - apply good_ret; auto; congruence.
Qed.

Lemma pat_list {A} n (f : parser A) : eats_some (S n) f ->
  forall l, driven src l -> left_ l <= n -> good (left_ l) top (many at_pat f l).
Proof.
  intros F. apply good_many. intros l R L. unfold once.
  eapply good_bind. { unfold at_pat. eapply good_bind; [apply good_peek; auto|]. intros t l1 R1 L1 _.
    apply (good_ret (begins_pat t false) (left_ l) (fun _ l' => left_ l' <= left_ l)); auto. }
  intros b l1 R1 L1 _. destruct b; [|apply good_ret; auto; congruence]. eapply good_bind.
  { eapply good_weaken; [apply F; auto; lia|lia|]. intros a l2 R2 L2 Q. exact Q. }
  intros a l2 R2 L2 Q. apply good_ret; auto. unfold less in Q. lia.
Qed.

End WithUcd.
