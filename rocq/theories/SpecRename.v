(** Renaming: other literals, other names of operands, other patterns, and other
    operators, everywhere in an expression, a table and a program; and putting an
    expression in parentheses in the place of a variable. *)
From Coq Require Import List NArith Bool.
From Verif Require Import Prelim Syntax SpecFixity.
Import ListNotations.

Section Renaming.
Variable lits : literal -> literal.
Variable ids : ident -> ident.
Variable pats : pat -> pat.
Variable ops : infix -> infix.

Definition rename_decl (d : infix_decl) : infix_decl :=
  mkInfixDecl (map ops (d_infixes d)) (d_fixity d).

Fixpoint rename (e : expr) : expr :=
  match e with
  | Lit l => Lit (lits l)
  | Var i => Var (ids i)
  | App a b => App (rename a) (rename b)
  | Bin a o b => Bin (rename a) (ops o) (rename b)
  | Lam p a => Lam (pats p) (rename a)
  | Grp a => Grp (rename a)
  | Neg a => Neg (rename a)
  | Tup es => Tup (map rename es)
  | List es => List (map rename es)
  | Let d a => Let (rename_decl d) (rename a)
  end.

Definition rename_ast (a : ast) : ast :=
  mkAst (a_kinds a) (map rename_decl (a_infxs a)) (map rename (a_exprs a)).

Definition rename_table (t : list (infix * fixity)) : list (infix * fixity) :=
  map (fun '(o, f) => (ops o, f)) t.

(** Two operators are the same after renaming exactly if they were before. *)
Definition keeps_apart : Prop :=
  forall a b, symbol (ops a) = symbol (ops b) <-> symbol a = symbol b.
End Renaming.

(** Names are compared character by character. *)
Definition same_name (a b : ident) : bool :=
  match a, b with
  | INil, INil => true
  | ICommas m, ICommas n => Nat.eqb m n
  | IUpper s, IUpper t | ILower s, ILower t | IInfix s, IInfix t => str_eqb s t
  | _, _ => false
  end.

(** [e] with [(u)] in the place of the variable [x]. *)
Section Placing.
Variable x : ident.
Variable u : expr.
Fixpoint place (e : expr) : expr :=
  match e with
  | Lit l => Lit l
  | Var i => if same_name i x then Grp u else Var i
  | App a b => App (place a) (place b)
  | Bin a o b => Bin (place a) o (place b)
  | Lam p a => Lam p (place a)
  | Grp a => Grp (place a)
  | Neg a => Neg (place a)
  | Tup es => Tup (map place es)
  | List es => List (map place es)
  | Let d a => Let d (place a)
  end.
End Placing.

(** The fixities in force where [x] stands in [e], [F] being in force around [e]. *)
Inductive stands (x : ident) : (infix -> fixity) -> expr -> (infix -> fixity) -> Prop :=
| st_here F : stands x F (Var x) F
| st_app_l F a b G : stands x F a G -> stands x F (App a b) G
| st_app_r F a b G : stands x F b G -> stands x F (App a b) G
| st_bin_l F a o b G : stands x F a G -> stands x F (Bin a o b) G
| st_bin_r F a o b G : stands x F b G -> stands x F (Bin a o b) G
| st_lam F p a G : stands x F a G -> stands x F (Lam p a) G
| st_grp F a G : stands x F a G -> stands x F (Grp a) G
| st_neg F a G : stands x F a G -> stands x F (Neg a) G
| st_tup F y es G : In y es -> stands x F y G -> stands x F (Tup es) G
| st_list F y es G : In y es -> stands x F y G -> stands x F (List es) G
| st_let F d a G : stands x (scoped F d) a G -> stands x F (Let d a) G.
