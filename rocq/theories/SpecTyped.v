(** Which of the expressions one can type are printed in a form that can be
    typed again: a condition that can be decided by looking at the expression,
    without any reference to printing or reading. *)
From Coq Require Import List Arith NArith Bool String.
From Verif Require Import Prelim Chars Syntax Fixity SpecLexer Parser SpecPrinter.
Import ListNotations.

(** A fact of Unicode that the model's character table does not know: the
    superscripts and subscripts of the language are not letters. *)
Definition scripts (U : ucd) : Prop := forall c, script c = true -> u_lower c = false /\ u_upper c = false.

Section WithUcd.
Context {U : ucd}.

(** No control characters, except tab, newline and carriage return, and nothing
    that Rust considers unprintable. *)
Definition graphicb (c : chr) : bool :=
  mem [9; 10; 13]%N c || (N.leb 32 c && N.ltb c 127)
  || (N.ltb 127 c && u_printable c && (N.ltb c 768 || negb (u_grext c))).

Definition plain_lit (l : literal) : bool :=
  match l with
  | LChar c => graphicb c
  | LStr s => forallb graphicb s
  | LInt _ | LFrac _ => true
  end.

(** An operator made of a name: at least two characters, the second not an
    apostrophe (it would be a character literal); no line break, no escape. *)
Definition plain_op (o : infix) : bool :=
  match o with
  | Standard _ => true
  | Promoted ((_ :: d :: _) as s) => negb (N.eqb d 39) && negb (mem s 10) && negb (mem s 27)
  | Promoted _ => false
  end.

(** A variable; not an operator in parentheses. *)
Definition plain_name (s : str) : bool :=
  match s with c :: _ => is_lower c | [] => false end
  && forallb (fun c => word_char c || script c) s
  && negb (existsb (str_eqb s) (map fst reserved)).

(** Not the empty list. *)
Fixpoint plain_pat (p : pat) : bool :=
  match p with
  | PWild => true
  | PLit l => plain_lit l
  | PVar s => plain_name s
  | PNeg p => plain_pat p
  | PCon _ ps | PTup ps => forallb plain_pat ps
  | PArr [] => false
  | PArr ps => forallb plain_pat ps
  | PLnk a b => plain_pat a && plain_pat b
  | PAs _ p => plain_pat p
  end.

(** No applied lambda or [let], no section of an operator made of a name. *)
Fixpoint plain_expr (e : expr) : bool :=
  match e with
  | Lit l => plain_lit l
  | Var (IInfix s) => forallb (fun c => op_char c || script c) s
  | Var _ => true
  | App f x => match f with Lam _ _ | Let _ _ => false | _ => true end && plain_expr f && plain_expr x
  | Bin a o b => plain_op o && plain_expr a && plain_expr b
  | Lam p e => plain_pat p && plain_expr e
  | Grp e | Neg e | Let _ e => plain_expr e
  | Tup es | List es => forallb plain_expr es
  end.

(** The tables of operators that one can arrive at: starting from nothing, by
    reading programs, loading the two built-in tables, and clearing. *)
Inductive arrived : resolver -> Prop :=
| ar_new : arrived (mkResolver [] [])
| ar_prelude r : arrived r -> arrived (fst (load_hs_prelude r))
| ar_arithmetic r : arrived r -> arrived (fst (load_arithmetic r))
| ar_clear r : arrived r -> arrived (fst (clear r))
| ar_program r src a l r' a' errs : arrived r -> no_lfcr src -> parse src = POk a l ->
    resolve_ast r a = Ok (r', a', errs) -> arrived r'.

End WithUcd.
