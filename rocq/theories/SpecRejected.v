(** What is reported about a program with ungroupable chains and what is left of
    it (C118).  Of the resolver only the type of errors and their equality are used. *)
From Coq Require Import List NArith Bool.
From Verif Require Import Prelim Syntax Fixity SpecFixity.
Import ListNotations.

(** Reading from left to right, the first operator that cannot be grouped with
    what stands before it, together with the one it clashes with. *)
Definition first_clash (F : infix -> fixity) (its : list item) (x : assoc_error) : Prop :=
  exists a m b,
    its = a ++ Operator (e_prev x) :: m ++ Operator (e_curr x) :: b
    /\ prec F (e_prev x) = prec F (e_curr x)
    /\ ~ (is_infixl F (e_prev x) /\ is_infixl F (e_curr x))
    /\ ~ (is_infixr F (e_prev x) /\ is_infixr F (e_curr x))
    /\ (forall o, In (Operator o) m -> (prec F (e_prev x) < prec F o)%N)
    /\ e_prev_fix x = F (e_prev x) /\ e_curr_fix x = F (e_curr x)
    /\ (forall o1 o2, ~ clash F (a ++ Operator (e_prev x) :: m) o1 o2).

(** [settles F e e' new]: every chain that can be grouped is, and its operands are
    looked at in turn; one that cannot be is left alone with all that stands in it
    and its first clash reported.  [new] are the reports in reading order. *)
Inductive settles : (infix -> fixity) -> expr -> expr -> list assoc_error -> Prop :=
| st_lit F l : settles F (Lit l) (Lit l) []
| st_var F i : settles F (Var i) (Var i) []
| st_app F a b a' b' n1 n2 : settles F a a' n1 -> settles F b b' n2 -> settles F (App a b) (App a' b') (n1 ++ n2)
| st_grouped F a o b g new : legal F g -> settle_items F (chain (Bin a o b)) (yield g) new -> settles F (Bin a o b) (as_expr g) new
| st_left F a o b x : first_clash F (chain (Bin a o b)) x -> settles F (Bin a o b) (Bin a o b) [x]
| st_lam F p a a' new : settles F a a' new -> settles F (Lam p a) (Lam p a') new
| st_grp F a a' new : settles F a a' new -> settles F (Grp a) (Grp a') new
| st_neg F a a' new : settles F a a' new -> settles F (Neg a) (Neg a') new
| st_tup F es es' new : settle_list F es es' new -> settles F (Tup es) (Tup es') new
| st_list F es es' new : settle_list F es es' new -> settles F (List es) (List es') new
| st_let F d a a' new : settles (scoped F d) a a' new -> settles F (Let d a) (Let d a') new
with settle_items : (infix -> fixity) -> list item -> list item -> list assoc_error -> Prop :=
| si_nil F : settle_items F [] [] []
| si_operand F x y xs ys n1 n2 : settles F x y n1 -> settle_items F xs ys n2 ->
    settle_items F (Operand x :: xs) (Operand y :: ys) (n1 ++ n2)
| si_operator F o xs ys new : settle_items F xs ys new -> settle_items F (Operator o :: xs) (Operator o :: ys) new
with settle_list : (infix -> fixity) -> list expr -> list expr -> list assoc_error -> Prop :=
| sl_nil F : settle_list F [] [] []
| sl_cons F x y xs ys n1 n2 : settles F x y n1 -> settle_list F xs ys n2 -> settle_list F (x :: xs) (y :: ys) (n1 ++ n2).

(** The reports without those that say what one before says. *)
Fixpoint distinct (seen es : list assoc_error) : list assoc_error :=
  match es with
  | [] => []
  | e :: es' => if existsb (fun x => err_eqb x e) seen then distinct seen es' else e :: distinct (seen ++ [e]) es'
  end.
