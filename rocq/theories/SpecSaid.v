(** The names, operators and literals of a text and of a program, in order (C113). *)
From Coq Require Import List NArith Bool String.
From Verif Require Import Prelim Syntax.
Import ListNotations.
Local Open Scope string_scope.
Local Open Scope list_scope.

Inductive word :=
| Said (s : str)        (* a name or an operator *)
| Value (x : literal).

(** Within the parameters of a lambda, directly after the keyword of a
    declaration, or elsewhere. *)
Inductive place := Elsewhere | Params | Keyword.
Definition leave (p : place) : place := match p with Keyword => Elsewhere | _ => p end.

(** In a text.  The precedence after a keyword and minus signs in parameters
    are left out. *)
Fixpoint said_from (p : place) (ts : list token) : list word :=
  match ts with
  | [] => []
  | t :: ts =>
      match t with
      | TLambda => said_from Params ts
      | TArrow => said_from Elsewhere ts
      | TInfixL | TInfixR | TInfix => said_from Keyword ts
      | TLit x => match p with Keyword => said_from Elsewhere ts | _ => Value x :: said_from p ts end
      | TDash => match p with Params => said_from p ts | _ => Said (lit "-") :: said_from (leave p) ts end
      | TAt => Said (lit "@") :: said_from (leave p) ts
      | TUpper s | TLower s | TAffix s _ => Said s :: said_from (leave p) ts
      | _ => said_from (leave p) ts
      end
  end.
Definition said_in (ts : list token) : list word := said_from Elsewhere ts.

(** In a program. *)
Definition said_infix (i : infix) : word := match i with Standard s | Promoted s => Said s end.
Definition said_ident (i : ident) : list word :=
  match i with IUpper s | ILower s | IInfix s => [Said s] | INil | ICommas _ => [] end.
Fixpoint said_pat (p : pat) : list word :=
  match p with
  | PWild => []
  | PLit x => [Value x]
  | PVar s => [Said s]
  | PNeg p => said_pat p
  | PCon s ps => Said s :: flat_map said_pat ps
  | PTup ps | PArr ps => flat_map said_pat ps
  | PLnk a b => said_pat a ++ said_pat b
  | PAs s p => Said s :: Said (lit "@") :: said_pat p
  end.
Definition said_decl (d : infix_decl) : list word := map said_infix (d_infixes d).
Fixpoint said (e : expr) : list word :=
  match e with
  | Lit x => [Value x]
  | Var i => said_ident i
  | App a b => said a ++ said b
  | Bin a o b => said a ++ said_infix o :: said b
  | Lam p b => said_pat p ++ said b
  | Grp a | Neg a => said a
  | Tup es | List es => flat_map said es
  | Let d b => said_decl d ++ said b
  end.
Fixpoint said_kinds (ks : list decl_kind) (is : list infix_decl) (es : list expr) : list word :=
  match ks, is, es with
  | KInfix :: ks, i :: is, _ => said_decl i ++ said_kinds ks is es
  | KExpr :: ks, _, e :: es => said e ++ said_kinds ks is es
  | _, _, _ => []
  end.
Definition said_program (a : ast) : list word := said_kinds (a_kinds a) (a_infxs a) (a_exprs a).
