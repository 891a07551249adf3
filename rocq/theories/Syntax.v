(** Data types of src/syntax/token.rs, src/syntax/fixity.rs and
    src/syntax/ast.rs. *)
From Coq Require Import List NArith ZArith Bool.
From Verif Require Import Prelim.
Import ListNotations.

(** src/syntax/token.rs:9-24.  Simplification: unbounded counters. *)
Record loc := mkLoc { l_line : nat; l_col : nat; l_pos : nat }.
Definition loc_default : loc := mkLoc 1 1 0.

(** src/syntax/token.rs:118-126 *)
Record float := mkFloat { f_int : N; f_frac : option N; f_exp : Z }.

(** src/syntax/token.rs:166-171 *)
Inductive literal :=
| LChar (c : chr)
| LStr (s : str)
| LInt (n : N)
| LFrac (f : float).

(** src/syntax/token.rs:373-378 *)
Inductive cperror :=
| CpEmpty
| CpBadConnector (c : chr)
| CpTooLong (s : str)
| CpNotInCharRange (s : str) (n : N).

(** src/syntax/token.rs:387-395 *)
Inductive interror := IIncomplete | IInvalidDigit | IPosOverflow | INegOverflow.

(** src/syntax/token.rs:307-317 *)
Inductive lexerror :=
| EEmptyChar (a b : loc)
| EInvalidEscape (c : chr) (a b : loc)
| EInvalidInt (a : loc) (e : interror)
| EInvalidPromotedInfix (a : loc) (s : str)
| EUnterminatedChar (a b : loc)
| EUnterminatedString (a : loc)
| EUnterminatedComment (a b : loc)
| EInvalidUnicode (a : loc) (e : cperror)
| EUnknown.

(** src/syntax/token.rs:185-211 *)
Inductive token :=
| TParenL | TParenR | TBrackL | TBrackR | TCurlyL | TCurlyR
| TComma | TSemi | TUnderscore | TLambda | TArrow | TDash | TDot | TAt
| TInfixL | TInfixR | TInfix | TLet | TIn
| TUpper (s : str)
| TLower (s : str)
| TAffix (s : str) (promoted : bool)
| TLit (l : literal)
| TEof
| TError (e : lexerror).

(** src/syntax/fixity.rs:13-17 *)
Inductive assoc := ALeft | ARight | ANeither.

(** src/syntax/fixity.rs:50, 78-81: [Prec(u8)] is an [N]. *)
Record fixity := mkFix { fx_prec : N; fx_assoc : assoc }.

(** src/syntax/fixity.rs:90-93 *)
Definition fix_default : fixity := mkFix 9 ALeft.

(** src/syntax/ast.rs:208-211 *)
Inductive infix :=
| Standard (s : str)
| Promoted (s : str).

(** src/syntax/ast.rs:214-218 *)
Definition symbol (i : infix) : str :=
  match i with Standard s | Promoted s => s end.

(** src/syntax/ast.rs:248-252: equality looks at the symbol only. *)
Definition infix_eqb (a b : infix) : bool := str_eqb (symbol a) (symbol b).

(** src/syntax/ast.rs:292-298 *)
Inductive ident :=
| INil
| ICommas (n : nat)
| IUpper (s : str)
| ILower (s : str)
| IInfix (s : str).

(** src/syntax/ast.rs:359-369 *)
Inductive pat :=
| PWild
| PLit (l : literal)
| PVar (s : str)
| PNeg (p : pat)
| PCon (s : str) (ps : list pat)
| PTup (ps : list pat)
| PArr (ps : list pat)
| PLnk (a b : pat)
| PAs (s : str) (p : pat).

(** src/syntax/ast.rs:177-180 *)
Record infix_decl := mkInfixDecl { d_infixes : list infix; d_fixity : fixity }.

(** src/syntax/ast.rs:188-201 *)
Inductive expr :=
| Lit (l : literal)
| Var (i : ident)
| App (f x : expr)
| Bin (l : expr) (o : infix) (r : expr)
| Lam (p : pat) (e : expr)
| Grp (e : expr)
| Neg (e : expr)
| Tup (es : list expr)
| List (es : list expr)
| Let (d : infix_decl) (e : expr).

(** src/syntax/ast.rs:153-156 *)
Inductive decl_kind := KInfix | KExpr.

(** src/syntax/ast.rs:159-162 with [ExprDecl] (183-185) inlined. *)
Inductive decl :=
| DInfix (d : infix_decl)
| DExpr (e : expr).

(** src/syntax/ast.rs:165-170 *)
Definition kind (d : decl) : decl_kind :=
  match d with DInfix _ => KInfix | DExpr _ => KExpr end.

(** src/syntax/ast.rs:6-10 *)
Record ast := mkAst {
  a_kinds : list decl_kind;
  a_infxs : list infix_decl;
  a_exprs : list expr
}.

(** src/syntax/ast.rs:12-20 *)
Definition ast_empty : ast := mkAst [] [] [].

(** src/syntax/ast.rs:23-33 *)
Definition ast_push (a : ast) (d : decl) : ast :=
  match d with
  | DInfix i => mkAst (a_kinds a ++ [kind d]) (a_infxs a ++ [i]) (a_exprs a)
  | DExpr e => mkAst (a_kinds a ++ [kind d]) (a_infxs a) (a_exprs a ++ [e])
  end.

(** src/syntax/ast.rs:48-121: the three slice iterators, each a list of the
    elements not yet yielded from either end. *)
Record ast_iter := mkIter {
  it_kinds : list decl_kind;
  it_infxs : list infix_decl;
  it_exprs : list expr
}.

(** src/syntax/ast.rs:80-88 *)
Definition iter_new (a : ast) : ast_iter := mkIter (a_kinds a) (a_infxs a) (a_exprs a).

(** src/syntax/ast.rs:90-92 *)
Definition iter_len (it : ast_iter) : nat := length (it_kinds it).

(** [slice::Iter::next] and [next_back]. *)
Definition pop_front {A} (l : list A) : option A * list A :=
  match l with [] => (None, []) | x :: l' => (Some x, l') end.

Definition pop_back {A} (l : list A) : option A * list A :=
  match rev l with [] => (None, []) | x :: l' => (Some x, rev l') end.

(** src/syntax/ast.rs:49-61, instantiated at [next] and [next_back]. *)
Definition iter_tick
    (pop : forall A, list A -> option A * list A) (it : ast_iter)
    : option decl * ast_iter :=
  match pop _ (it_kinds it) with
  | (None, ks) => (None, mkIter ks (it_infxs it) (it_exprs it))
  | (Some KInfix, ks) =>
      let (d, is') := pop _ (it_infxs it) in
      (option_map DInfix d, mkIter ks is' (it_exprs it))
  | (Some KExpr, ks) =>
      let (e, es) := pop _ (it_exprs it) in
      (option_map DExpr e, mkIter ks (it_infxs it) es)
  end.

Definition iter_next := iter_tick (@pop_front).
Definition iter_next_back := iter_tick (@pop_back).
