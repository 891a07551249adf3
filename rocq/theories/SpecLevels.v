(** How many levels of precedence a grouping needs. *)
From Coq Require Import List Arith NArith.
From Verif Require Import Prelim Syntax SpecFixity.
Import ListNotations.

(** The operators of an infix expression, from left to right. *)
Fixpoint operators (e : expr) : list infix :=
  match e with
  | Bin l o r => operators l ++ o :: operators r
  | _ => []
  end.

(** The levels that a grouping needs when its main operator groups to the left
    and when it groups to the right.  An operand on the side to which the main
    operator groups can share its level; on the other side it needs higher ones. *)
Fixpoint needs (e : expr) : nat * nat :=
  match e with
  | Bin l _ r =>
      let (ll, lr) := needs l in
      let (rl, rr) := needs r in
      (Nat.max ll (S (Nat.min rl rr)), Nat.max (S (Nat.min ll lr)) rr)
  | _ => (0, 0)
  end.

Definition levels (e : expr) : nat := let (l, r) := needs e in Nat.min l r.

(** All operators of [e] have a precedence below [n]. *)
Definition within (n : nat) (F : infix -> fixity) (e : expr) : Prop :=
  forall o, In o (operators e) -> (fx_prec (F o) < N.of_nat n)%N.
