(** Expressions and programs that differ in one place (C109). *)
From Coq Require Import List.
From Verif Require Import Prelim Chars Syntax SpecParser.
Import ListNotations.

(** The second expression is the first with [y] in one place where that has [x]. *)
Inductive swapped (x y : expr) : expr -> expr -> Prop :=
| sw_here : swapped x y x y
| sw_function a a' b : swapped x y a a' -> swapped x y (App a b) (App a' b)
| sw_argument a b b' : swapped x y b b' -> swapped x y (App a b) (App a b')
| sw_left a a' o b : swapped x y a a' -> swapped x y (Bin a o b) (Bin a' o b)
| sw_right a o b b' : swapped x y b b' -> swapped x y (Bin a o b) (Bin a o b')
| sw_lam p a a' : swapped x y a a' -> swapped x y (Lam p a) (Lam p a')
| sw_grp a a' : swapped x y a a' -> swapped x y (Grp a) (Grp a')
| sw_neg a a' : swapped x y a a' -> swapped x y (Neg a) (Neg a')
| sw_tup us a a' vs : swapped x y a a' -> swapped x y (Tup (us ++ a :: vs)) (Tup (us ++ a' :: vs))
| sw_list us a a' vs : swapped x y a a' -> swapped x y (List (us ++ a :: vs)) (List (us ++ a' :: vs))
| sw_let d a a' : swapped x y a a' -> swapped x y (Let d a) (Let d a').

(** The same declarations, and the same expressions up to such a place in one of them. *)
Definition swapped_program (x y : expr) (a b : ast) : Prop :=
  a_kinds a = a_kinds b /\ a_infxs a = a_infxs b /\
  exists us e e' vs, a_exprs a = us ++ e :: vs /\ a_exprs b = us ++ e' :: vs /\ swapped x y e e'.

(** The tokens do not end between a lambda and its arrow. *)
Definition outside_patterns (ts : list ptok) : Prop :=
  forall us k vs, ts = us ++ (TLambda, k) :: vs -> exists k', In (TArrow, k') vs.
