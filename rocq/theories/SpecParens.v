(** Which expressions are values, and expressions with more parentheses (C107). *)
From Coq Require Import List.
From Verif Require Import Prelim Syntax SpecFixity.
Import ListNotations.

(** [w] as it is typed: the same operands and operators, all chains nested to
    the right as the parser delivers them. *)
Definition as_typed (w : expr) : expr := build (words w).

(** Every operator of [w] may head the operand it heads, under the fixities in
    force where it stands. *)
Inductive fits : (infix -> fixity) -> expr -> Prop :=
| fi_lit F l : fits F (Lit l)
| fi_var F i : fits F (Var i)
| fi_app F a b : fits F a -> fits F b -> fits F (App a b)
| fi_bin F a o b : fits F a -> fits F b ->
    (forall x c y, a = Bin x c y -> left_ok F c o) ->
    (forall x c y, b = Bin x c y -> right_ok F o c) -> fits F (Bin a o b)
| fi_lam F p a : fits F a -> fits F (Lam p a)
| fi_grp F a : fits F a -> fits F (Grp a)
| fi_neg F a : fits F a -> fits F (Neg a)
| fi_tup F es : Forall (fits F) es -> fits F (Tup es)
| fi_list F es : Forall (fits F) es -> fits F (List es)
| fi_let F d a : fits (scoped F d) a -> fits F (Let d a).

(** The second expression is the first with parentheses around some of its parts. *)
Inductive more_parens : expr -> expr -> Prop :=
| mp_here a b : more_parens a b -> more_parens a (Grp b)
| mp_lit l : more_parens (Lit l) (Lit l)
| mp_var i : more_parens (Var i) (Var i)
| mp_app a b a' b' : more_parens a a' -> more_parens b b' -> more_parens (App a b) (App a' b')
| mp_bin a o b a' b' : more_parens a a' -> more_parens b b' -> more_parens (Bin a o b) (Bin a' o b')
| mp_lam p a a' : more_parens a a' -> more_parens (Lam p a) (Lam p a')
| mp_grp a a' : more_parens a a' -> more_parens (Grp a) (Grp a')
| mp_neg a a' : more_parens a a' -> more_parens (Neg a) (Neg a')
| mp_tup es es' : Forall2 more_parens es es' -> more_parens (Tup es) (Tup es')
| mp_list es es' : Forall2 more_parens es es' -> more_parens (List es) (List es')
| mp_let d a a' : more_parens a a' -> more_parens (Let d a) (Let d a').
