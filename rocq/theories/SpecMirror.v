(** Left and right exchanged: operators that group to the left group to the right
    and the other way round, and every infix expression is written from right to
    left. *)
From Coq Require Import List NArith Bool.
From Verif Require Import Prelim Syntax SpecFixity.
Import ListNotations.

Definition other_side (a : assoc) : assoc :=
  match a with ALeft => ARight | ARight => ALeft | ANeither => ANeither end.
Definition turned (f : fixity) : fixity := mkFix (fx_prec f) (other_side (fx_assoc f)).
Definition turned_decl (d : infix_decl) : infix_decl :=
  mkInfixDecl (d_infixes d) (turned (d_fixity d)).

(** The operands of every operator exchanged.  Applications, tuples and lists keep
    their order. *)
Fixpoint mirror (e : expr) : expr :=
  match e with
  | Lit l => Lit l
  | Var i => Var i
  | App a b => App (mirror a) (mirror b)
  | Bin a o b => Bin (mirror b) o (mirror a)
  | Lam p a => Lam p (mirror a)
  | Grp a => Grp (mirror a)
  | Neg a => Neg (mirror a)
  | Tup es => Tup (map mirror es)
  | List es => List (map mirror es)
  | Let d a => Let (turned_decl d) (mirror a)
  end.

(** The same as the parser delivers it: nested to the right again. *)
Definition backwards (e : expr) : expr := build (words (mirror e)).

Definition backwards_ast (a : ast) : ast :=
  mkAst (a_kinds a) (map turned_decl (a_infxs a)) (map backwards (a_exprs a)).
