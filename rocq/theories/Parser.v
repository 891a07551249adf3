(** Model of src/syntax/parser.rs. *)
From Coq Require Import List Arith NArith Bool String.
From Verif Require Import Prelim Chars Syntax Lexer.
Import ListNotations.

(** src/syntax/parser.rs:13-17 *)
Inductive perror :=
| Expected (want : token) (at_ : loc) (found : token)
| Unexpected (found : token) (at_ : loc).

(** src/syntax/parser.rs:20-24 *)
Definition error_loc (e : perror) : loc :=
  match e with Expected _ a _ | Unexpected _ a => a end.

(** [Parsed<T>] (src/syntax/parser.rs:67) with the parser's state, which is
    its lexer (69-71).  [PFuel] is the model's own out-of-fuel value, proved
    unreachable in PropsParser.v. *)
Inductive parsed (A : Type) :=
| POk (a : A) (l : lexer)
| PErr (e : perror) (l : lexer)
| PPanic (p : panic)
| PFuel.
Arguments POk {A} a l.
Arguments PErr {A} e l.
Arguments PPanic {A} p.
Arguments PFuel {A}.

(** A method [&mut self -> Parsed<A>]. *)
Definition parser (A : Type) : Type := lexer -> parsed A.

Definition ret {A} (a : A) : parser A := fun l => POk a l.
Definition fail {A} (e : perror) : parser A := fun l => PErr e l.
(** Rust's [?] and [;]. *)
Definition bind {A B} (m : parser A) (f : A -> parser B) : parser B := fun l =>
  match m l with
  | POk a l1 => f a l1
  | PErr e l1 => PErr e l1
  | PPanic p => PPanic p
  | PFuel => PFuel
  end.

Notation "x <- m ;; k" := (bind m (fun x => k)) (at level 61, m at next level, right associativity).
Notation "m ;;; k" := (bind m (fun _ => k)) (at level 61, right associativity).

(** [Token]'s derived equality, used only against the tokens without data. *)
Definition same (a b : token) : bool :=
  match a, b with
  | TParenL, TParenL | TParenR, TParenR | TBrackL, TBrackL | TBrackR, TBrackR
  | TComma, TComma | TSemi, TSemi | TLambda, TLambda | TArrow, TArrow
  | TAt, TAt | TIn, TIn | TEof, TEof => true
  | _, _ => false
  end.

(** src/syntax/parser.rs:465-477 *)
Definition begins_expr (t : token) (allow_neg : bool) : bool :=
  match t with
  | TParenL | TBrackL | TLambda | TLet | TLit _ | TUpper _ | TLower _ => true
  | TDash => allow_neg
  | _ => false
  end.

(** src/syntax/parser.rs:479-483 *)
Definition arg_expr_tok (t : token) : bool :=
  match t with
  | TParenL | TBrackL | TLit _ | TUpper _ | TLower _ => true
  | _ => false
  end.

(** src/syntax/parser.rs:485-497 *)
Definition begins_pat (t : token) (allow_neg : bool) : bool :=
  match t with
  | TUnderscore | TParenL | TParenR | TBrackL | TBrackR | TUpper _ | TLower _ => true
  | TDash => allow_neg
  | _ => false
  end.

Section WithUcd.
Context {U : ucd}.

(** [self.lexer.curr_loc()] *)
Definition here : parser loc := fun l => POk (curr_loc l) l.

(** src/syntax/parser.rs:87-89 *)
Definition peek : parser token := fun l =>
  match lx_peek l with
  | Ok (Some t, l1) => POk t l1
  | Ok (None, l1) => POk TEof l1
  | Panic p => PPanic p
  | NoFuel => PFuel
  end.

(** src/syntax/parser.rs:80-85 *)
Definition is_done : parser bool := t <- peek ;; ret (same t TEof).

(** src/syntax/parser.rs:91-93 *)
Definition peek_on (x : token) : parser bool := t <- peek ;; ret (same t x).

(** src/syntax/parser.rs:95-97 *)
Definition bump : parser token := fun l => let (t, l1) := lx_bump l in POk t l1.

(** src/syntax/parser.rs:99-105 *)
Definition bump_on (x : token) : parser bool :=
  on <- peek_on x ;; if on then bump ;;; ret true else ret false.

(** src/syntax/parser.rs:107-109 *)
Definition ignore (x : token) : parser unit := bump_on x ;;; ret tt.

(** src/syntax/parser.rs:111-120.  No caller looks at the returned span. *)
Definition eat (x : token) : parser unit :=
  a <- here ;; t <- peek ;;
  if same t x then bump ;;; ret tt else fail (Expected x a t).

(** [while cond { push(body?) }].  Every loop of the parser is given more
    steps than there are tokens left. *)
Fixpoint many_f {A} (n : nat) (cond : parser bool) (body : parser A) : parser (list A) :=
  b <- cond ;;
  if b
  then match n with
       | 0 => fun _ => PFuel
       | S n' => x <- body ;; xs <- many_f n' cond body ;; ret (x :: xs)
       end
  else ret [].

Definition budget (l : lexer) : nat := S (S (List.length (lx_rest l))).

Definition many {A} (cond : parser bool) (body : parser A) : parser (list A) :=
  fun l => many_f (budget l) cond body l.

(** src/syntax/parser.rs:254-268 *)
Definition p_infix : parser infix :=
  a <- here ;; t <- peek ;;
  match t with
  | TDash => bump ;;; ret (Standard (lit "-"))
  | TAt => bump ;;; ret (Standard (lit "@"))
  | TAffix s promoted => bump ;;; ret (if promoted then Promoted s else Standard s)
  | t => fail (Unexpected t a)
  end.

(** src/syntax/parser.rs:186-194 *)
Definition p_assoc : parser assoc :=
  a <- here ;; t <- peek ;;
  match t with
  | TInfixL => bump ;;; ret ALeft
  | TInfixR => bump ;;; ret ARight
  | TInfix => bump ;;; ret ANeither
  | t => fail (Unexpected t a)
  end.

(** src/syntax/parser.rs:195-209.  [Prec::default()] is 9 (fixity.rs:50-56). *)
Definition p_prec : parser N :=
  a <- here ;; t <- peek ;;
  match t with
  | TLit (LInt n) => bump ;;; if N.leb n 9 then ret n else fun _ => PPanic PTodoPrec
  | TAffix _ _ => ret 9%N
  | t => fail (Unexpected t a)
  end.

(** src/syntax/parser.rs:185-211 *)
Definition p_fixity : parser fixity :=
  s <- p_assoc ;; p <- p_prec ;; ret (mkFix p s).

(** src/syntax/parser.rs:176-183 *)
Definition p_infix_decl : parser infix_decl :=
  f <- p_fixity ;; i <- p_infix ;; is <- many (bump_on TComma) p_infix ;;
  ret (mkInfixDecl (i :: is) f).

(** src/syntax/parser.rs:357-368 *)
Definition collection_tail {A} (first : A) (each : parser A) (wrap : list A -> A) : parser A :=
  xs <- many (bump_on TComma) each ;; ret (wrap (first :: xs)).

(** [begins_pat(self.peek(), false)] *)
Definition at_pat : parser bool := t <- peek ;; ret (begins_pat t false).

(** src/syntax/parser.rs:307-320 *)
Definition upper_pat (pattern : parser pat) (s : str) : parser pat :=
  bump ;;;
  args <- many at_pat pattern ;;
  comma <- peek_on TComma ;;
  if comma then collection_tail (PCon s args) pattern PTup else ret (PCon s args).

(** src/syntax/parser.rs:322-329 *)
Definition lower_pat (pattern : parser pat) (s : str) : parser pat :=
  bump ;;;
  as_ <- bump_on TAt ;;
  if as_ then p <- pattern ;; ret (PAs s p) else ret (PVar s).

(** src/syntax/parser.rs:296-305 *)
Definition brack_pat (inner_pat : parser pat) : parser pat :=
  eat TBrackL ;;;
  empty <- bump_on TBrackR ;;
  p <- (if empty then ret (PArr [])
        else first <- inner_pat ;; collection_tail first inner_pat PArr) ;;
  eat TBrackR ;;;
  ret p.

(** src/syntax/parser.rs:331-355 *)
Definition paren_pat (pattern inner_pat : parser pat) : parser pat :=
  eat TParenL ;;;
  a <- here ;; t <- peek ;;
  p <- match t with
       | TAffix s _ => bump ;;; ret (PVar s)
       | TUpper s => upper_pat pattern s
       | TDash => bump ;;; p <- pattern ;; ret (PNeg p)
       | t => if begins_pat t true then pattern else fail (Unexpected t a)
       end ;;
  comma <- peek_on TComma ;;
  p <- (if comma then collection_tail p inner_pat PTup else ret p) ;;
  eat TParenR ;;;
  ret p.

(** src/syntax/parser.rs:270-280 ([inner] false) and 282-294 ([inner] true),
    with fuel for their recursion. *)
Fixpoint pat_f (fuel : nat) (inner : bool) (l : lexer) : parsed pat :=
  match fuel with
  | 0 => PFuel
  | S f =>
      let pattern := pat_f f false in
      let inner_pat := pat_f f true in
      (a <- here ;; t <- peek ;;
      match t with
      | TUnderscore => bump ;;; ret PWild
      | TParenL => paren_pat pattern inner_pat
      | TBrackL => brack_pat inner_pat
      | TUpper s => if inner then upper_pat pattern s else bump ;;; ret (PCon s [])
      | TLower s => lower_pat pattern s
      | TLit x => if inner then bump ;;; ret (PLit x) else fail (Unexpected t a)
      | TDash => if inner then bump ;;; pattern else fail (Unexpected t a)
      | t => fail (Unexpected t a)
      end) l
  end.

(** Every recursive call has consumed a token, so this fuel suffices
    (ProofParser.v). *)
Definition pattern : parser pat := fun l => pat_f (budget l) false l.

(** src/syntax/parser.rs:370-381; the [rfold] is [fold_right]. *)
Definition lambda (expression : parser expr) : parser expr :=
  eat TLambda ;;;
  p <- pattern ;;
  ps <- many at_pat pattern ;;
  eat TArrow ;;;
  body <- expression ;;
  ret (fold_right Lam body (p :: ps)).

(** src/syntax/parser.rs:383-420; [Expr::UNIT] is the empty tuple (ast.rs:204). *)
Definition paren_expr (expression : parser expr) : parser expr :=
  eat TParenL ;;;
  a <- here ;; t <- peek ;;
  match t with
  | TParenR => bump ;;; ret (Tup [])
  | TAffix s _ => bump ;;; eat TParenR ;;; ret (Var (IInfix s))
  | TComma =>
      cs <- many (bump_on TComma) (ret tt) ;;
      eat TParenR ;;;
      ret (Var (ICommas (List.length cs)))
  | t =>
      if begins_expr t true
      then first <- expression ;;
           comma <- peek_on TComma ;;
           if comma
           then es <- many (bump_on TComma) expression ;;
                eat TParenR ;;; ret (Tup (first :: es))
           else eat TParenR ;;; ret (Grp first)
      else fail (Unexpected t a)
  end.

(** src/syntax/parser.rs:425: [!self.is_done() && !self.peek_on(BrackR)] *)
Definition more_items : parser bool :=
  d <- is_done ;; if d then ret false else b <- peek_on TBrackR ;; ret (negb b).

(** src/syntax/parser.rs:426-429 *)
Definition item (expression : parser expr) : parser expr :=
  e <- expression ;;
  comma <- peek_on TComma ;;
  if comma then bump ;;; ret e else ret e.

(** src/syntax/parser.rs:422-433 *)
Definition brack_expr (expression : parser expr) : parser expr :=
  eat TBrackL ;;;
  es <- many more_items (item expression) ;;
  eat TBrackR ;;;
  ret (List es).

(** src/syntax/parser.rs:435-462 *)
Definition atom (expression : parser expr) : parser expr :=
  a <- here ;; t <- peek ;;
  match t with
  | TLambda => lambda expression
  | TParenL => paren_expr expression
  | TBrackL => brack_expr expression
  | TLet => bump ;;; d <- p_infix_decl ;; eat TIn ;;; body <- expression ;; ret (Let d body)
  | TLit x => bump ;;; ret (Lit x)
  | TUpper s => bump ;;; ret (Var (IUpper s))
  | TLower s => bump ;;; ret (Var (ILower s))
  | t => fail (Unexpected t a)
  end.

(** src/syntax/parser.rs:223,225: [arg_expr_tok(self.peek()) && column(self)] *)
Definition at_arg (entry : loc) : parser bool :=
  t <- peek ;; a <- here ;; ret (arg_expr_tok t && Nat.ltb (l_col entry) (l_col a)).

(** src/syntax/parser.rs:221-229 *)
Definition application (f : parser expr) : parser expr :=
  a <- here ;;
  e <- f ;;
  args <- many (at_arg a) f ;;
  ret (fold_left App args e).

(** src/syntax/parser.rs:240-251: the loop and [reduce].  The pairs pushed on
    [stack] are kept in the recursion instead. *)
Fixpoint chain_f (n : nat) (f : parser expr) (left : expr) : parser expr := fun l =>
  match p_infix l with
  | PErr _ l1 => POk left l1
  | POk i l1 =>
      (a <- here ;; t <- peek ;;
       if begins_expr t false
       then match n with
            | 0 => fun _ => PFuel
            | S n' => right <- f ;; r <- chain_f n' f right ;; ret (Bin left i r)
            end
       else fail (Unexpected t a)) l1
  | PPanic p => PPanic p
  | PFuel => PFuel
  end.

(** src/syntax/parser.rs:231-252 *)
Definition binary (f : parser expr) : parser expr :=
  left <- f ;; fun l => chain_f (budget l) f left l.

(** src/syntax/parser.rs:213-219, with fuel for the recursion through [atom]. *)
Fixpoint expr_f (fuel : nat) (l : lexer) : parsed expr :=
  match fuel with
  | 0 => PFuel
  | S f => binary (application (atom (expr_f f))) l
  end.

Definition expression : parser expr := fun l => expr_f (budget l) l.

(** src/syntax/parser.rs:165-174 *)
Definition p_decl : parser decl :=
  a <- here ;; t <- peek ;;
  match t with
  | TInfixL | TInfixR | TInfix => d <- p_infix_decl ;; ret (DInfix d)
  | t => if begins_expr t true then e <- expression ;; ret (DExpr e)
         else fail (Unexpected t a)
  end.

(** src/syntax/parser.rs:154-163: the declarations pushed.  The inner test for
    [Eof] repeats the one of [is_done]. *)
Definition p_decls : parser (list decl) :=
  many (d <- is_done ;; ret (negb d)) (d <- p_decl ;; ignore TSemi ;;; ret d).

(** src/syntax/parser.rs:148-163 *)
Definition p_parse : parser ast :=
  ds <- p_decls ;; ret (fold_left ast_push ds ast_empty).

(** src/syntax/parser.rs:499-505 *)
Definition parse_expr (src : str) : parsed expr := expression (lexer_new src).
Definition parse (src : str) : parsed ast := p_parse (lexer_new src).

End WithUcd.
