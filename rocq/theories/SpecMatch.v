(** Brackets that match (C114). *)
From Coq Require Import List NArith Bool String.
From Verif Require Import Prelim Syntax.
Import ListNotations.

(** What has to come after [(], [[], a backslash and [let]. *)
Definition closer (t : token) : option token :=
  match t with
  | TParenL => Some TParenR
  | TBrackL => Some TBrackR
  | TLambda => Some TArrow
  | TLet => Some TIn
  | _ => None
  end.
Definition closes (t : token) : bool :=
  match t with TParenR | TBrackR | TArrow | TIn => true | _ => false end.

(** [matched st ts]: what [ts] opens it closes in the opposite order, and then
    what [st] asks for. *)
Fixpoint matched (st ts : list token) : Prop :=
  match ts with
  | [] => st = []
  | t :: ts =>
      match closer t with
      | Some c => matched (c :: st) ts
      | None => if closes t then match st with c :: st => c = t /\ matched st ts | [] => False end else matched st ts
      end
  end.

(** Without the second of the brackets that close an empty list among the
    parameters of a lambda; [p] says whether there is a lambda whose arrow has not
    come yet. *)
Fixpoint single (p : bool) (ts : list token) : list token :=
  match ts with
  | [] => []
  | TLambda :: ts => TLambda :: single true ts
  | TArrow :: ts => TArrow :: single false ts
  | TBrackL :: TBrackR :: TBrackR :: ts =>
      if p then TBrackL :: TBrackR :: single p ts
      else TBrackL :: TBrackR :: TBrackR :: single p ts
  | t :: ts => t :: single p ts
  end.

Fixpoint times (f : token -> bool) (ts : list token) : nat :=
  match ts with [] => 0 | t :: ts => (if f t then 1 else 0) + times f ts end.
Definition is_t (k : nat) (t : token) : bool :=
  match t, k with
  | TParenL, 0 | TParenR, 1 | TBrackL, 2 | TBrackR, 3 | TLambda, 4 | TArrow, 5 | TLet, 6 | TIn, 7 => true
  | _, _ => false
  end.
