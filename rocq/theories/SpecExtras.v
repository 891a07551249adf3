(** Specifications for Extras.v. *)
From Coq Require Import List Arith NArith Bool.
From Verif Require Import Prelim Chars Syntax.
Import ListNotations.

(** * Positions in an expression *)

(** The expressions directly inside another, from left to right. *)
Definition children (e : expr) : list expr :=
  match e with
  | Lit _ | Var _ => []
  | App a b | Bin a _ b => [a; b]
  | Lam _ a | Grp a | Neg a | Let _ a => [a]
  | Tup es | List es => es
  end.

(** [at_ e p x]: following the path [p] from [e] leads to [x]. *)
Inductive at_ : expr -> list nat -> expr -> Prop :=
| at_here e : at_ e [] e
| at_child e i c p x : nth_error (children e) i = Some c -> at_ c p x -> at_ e (i :: p) x.

(** Reading order: outer before inner, left before right. *)
Inductive before : list nat -> list nat -> Prop :=
| be_outer i p : before [] (i :: p)
| be_left i j p q : i < j -> before (i :: p) (j :: q)
| be_same i p q : before p q -> before (i :: p) (i :: q).

(** * Names *)

(** A name that is not an operator, with the kind its first letter gives it. *)
Definition well_cased `{U : ucd} (i : ident) : Prop :=
  match i with
  | IUpper (c :: _) => is_upper c = true
  | ILower (c :: _) => is_upper c = false
  | IUpper [] => False
  | _ => True
  end.

(** * Fractional numbers *)

(** The number [m] has [k] decimal digits. *)
Definition places_of (m : N) (k : nat) : Prop :=
  1 <= k /\ (m < 10 ^ N.of_nat k)%N /\ (m <> 0 -> 10 ^ (N.of_nat k - 1) <= m)%N /\ (m = 0%N -> k = 1).
