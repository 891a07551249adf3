(** The grammar of the language, stated on token sequences.  Nothing here
    refers to the parser's state or functions. *)
From Coq Require Import List Arith NArith Bool String.
From Verif Require Import Prelim Chars Syntax SpecLexer.
Import ListNotations.

(** A token with the column just after it. *)
Definition ptok : Type := token * nat.

Section WithUcd.
Context {U : ucd}.

(** [ctokens w s ts]: the text [s], preceded by [w], is the token sequence
    [ts] (compare [tokens] of SpecLexer.v). *)
Inductive ctokens (w : str) : str -> list ptok -> Prop :=
| ct_end g : gap g [] -> ctokens w g []
| ct_cons g s t v ts : gap g (s ++ v) -> lexeme s t v -> ctokens (w ++ g ++ s) v ts ->
    ctokens w (g ++ s ++ v) ((t, col_of (w ++ g ++ s)) :: ts).

End WithUcd.

(** The first token of [r] satisfies [P]. *)
Definition next_is (P : token -> bool) (r : list ptok) : bool :=
  match r with [] => false | (t, _) :: _ => P t end.

Definition is_comma (t : token) : bool := match t with TComma => true | _ => false end.
Definition is_semi (t : token) : bool := match t with TSemi => true | _ => false end.
Definition is_at (t : token) : bool := match t with TAt => true | _ => false end.
Definition is_con (t : token) : bool := match t with TUpper _ => true | _ => false end.
Definition is_affix (t : token) : bool := match t with TAffix _ _ => true | _ => false end.
Definition is_op (t : token) : bool :=
  match t with TDash | TAt | TAffix _ _ => true | _ => false end.
(** Tokens that may follow a pattern only as part of the next one; the closing
    brackets are among them. *)
Definition pat_start (t : token) : bool :=
  match t with
  | TUnderscore | TParenL | TParenR | TBrackL | TBrackR | TUpper _ | TLower _ => true
  | _ => false
  end.
(** Tokens that start an argument of an application. *)
Definition arg_start (t : token) : bool :=
  match t with TParenL | TBrackL | TLit _ | TUpper _ | TLower _ => true | _ => false end.

(** * Operators and fixity declarations *)

Inductive operator : token -> infix -> Prop :=
| op_dash : operator TDash (Standard (lit "-"))
| op_at : operator TAt (Standard (lit "@"))
| op_std s : operator (TAffix s false) (Standard s)
| op_prom s : operator (TAffix s true) (Promoted s).

(** [operators ts is r]: one or more operators separated by commas. *)
Inductive operators : list ptok -> list infix -> list ptok -> Prop :=
| os_one t k i r : operator t i -> next_is is_comma r = false -> operators [(t, k)] [i] r
| os_cons t k i k' ts is r : operator t i -> operators ts is r ->
    operators ((t, k) :: (TComma, k') :: ts) (i :: is) r.

Inductive associativity : token -> assoc -> Prop :=
| as_left : associativity TInfixL ALeft
| as_right : associativity TInfixR ARight
| as_neither : associativity TInfix ANeither.

(** [declares ts d r]: the tokens [ts], followed by [r], are the fixity
    declaration [d]. *)
Inductive declares : list ptok -> infix_decl -> list ptok -> Prop :=
| de_prec t a k n k' ts is r : associativity t a -> (n <= 9)%N -> operators ts is r ->
    declares ((t, k) :: (TLit (LInt n), k') :: ts) (mkInfixDecl is (mkFix n a)) r
| de_default t a k ts is r : associativity t a -> next_is is_affix ts = true -> operators ts is r ->
    declares ((t, k) :: ts) (mkInfixDecl is (mkFix 9 a)) r.

(** * Patterns *)

Inductive pkind :=
| Plain            (* a pattern of a lambda *)
| Inner            (* an element of a tuple or list pattern *)
| Head             (* what comes directly after an opening parenthesis *)
| Con              (* a constructor with arguments *)
| Juxt             (* patterns one after the other *)
| Commas (k : pkind).  (* patterns, each after a comma *)

(** [pats k ts ps r]: the tokens [ts], followed by [r], are the pattern(s) [ps]. *)
Inductive pats : pkind -> list ptok -> list pat -> list ptok -> Prop :=
| p_wild q k r : q = Plain \/ q = Inner -> pats q [(TUnderscore, k)] [PWild] r
| p_var q s k r : q = Plain \/ q = Inner -> next_is is_at r = false ->
    pats q [(TLower s, k)] [PVar s] r
| p_as q s k k' ts p r : q = Plain \/ q = Inner -> pats Plain ts [p] r ->
    pats q ((TLower s, k) :: (TAt, k') :: ts) [PAs s p] r
| p_con s k r : pats Plain [(TUpper s, k)] [PCon s []] r
| p_inner_con ts p r : pats Con ts [p] r -> pats Inner ts [p] r
| p_lit x k r : pats Inner [(TLit x, k)] [PLit x] r
(** the sign is lost *)
| p_minus k ts p r : pats Plain ts [p] r -> pats Inner ((TDash, k) :: ts) [p] r
| p_group q k k' ts p r : q = Plain \/ q = Inner -> pats Head ts [p] ((TParenR, k') :: r) ->
    pats q ((TParenL, k) :: ts ++ [(TParenR, k')]) [p] r
| p_tuple q k k' ts p us ps r : q = Plain \/ q = Inner ->
    pats Head ts [p] (us ++ (TParenR, k') :: r) -> pats (Commas Inner) us ps ((TParenR, k') :: r) ->
    us <> [] -> pats q ((TParenL, k) :: ts ++ us ++ [(TParenR, k')]) [PTup (p :: ps)] r
(** two closing brackets *)
| p_empty q k k1 k2 r : q = Plain \/ q = Inner ->
    pats q [(TBrackL, k); (TBrackR, k1); (TBrackR, k2)] [PArr []] r
| p_list q k k' ts p us ps r : q = Plain \/ q = Inner ->
    pats Inner ts [p] (us ++ (TBrackR, k') :: r) -> pats (Commas Inner) us ps ((TBrackR, k') :: r) ->
    pats q ((TBrackL, k) :: ts ++ us ++ [(TBrackR, k')]) [PArr (p :: ps)] r
| h_op s b k r : pats Head [(TAffix s b, k)] [PVar s] r
| h_neg k ts p r : pats Plain ts [p] r -> pats Head ((TDash, k) :: ts) [PNeg p] r
| h_con ts p r : pats Con ts [p] r -> pats Head ts [p] r
| h_pat ts p r : pats Plain ts [p] r -> next_is is_con ts = false -> pats Head ts [p] r
| c_args s k ts ps r : pats Juxt ts ps r -> next_is is_comma r = false ->
    pats Con ((TUpper s, k) :: ts) [PCon s ps] r
| c_tuple s k ts ps us qs r : pats Juxt ts ps (us ++ r) -> pats (Commas Plain) us qs r -> us <> [] ->
    pats Con ((TUpper s, k) :: ts ++ us) [PTup (PCon s ps :: qs)] r
| j_nil r : next_is pat_start r = false -> pats Juxt [] [] r
| j_cons ts p us ps r : pats Plain ts [p] (us ++ r) -> pats Juxt us ps r ->
    pats Juxt (ts ++ us) (p :: ps) r
| cs_nil q r : next_is is_comma r = false -> pats (Commas q) [] [] r
| cs_cons q k ts p us ps r : q = Plain \/ q = Inner -> pats q ts [p] (us ++ r) -> pats (Commas q) us ps r ->
    pats (Commas q) ((TComma, k) :: ts ++ us) (p :: ps) r.

(** * Expressions *)

Inductive ekind :=
| KExpr (c : nat)             (* an expression whose first application starts at column [c] *)
| KApp (c : nat)              (* an application starting at column [c] *)
| KArgs (c : nat) (f : expr)  (* the arguments that follow [f] in such an application *)
| KAtom
| KItems                      (* the items of a list *)
| KTail.                      (* expressions, each after a comma *)

Section Layout.
(** [lay c k]: an argument that ends at column [k] may belong to an
    application that starts at column [c]. *)
Variable lay : nat -> nat -> bool.

(** The first token of [r] is not an argument of an application starting at [c]. *)
Definition no_arg (c : nat) (r : list ptok) : Prop :=
  match r with [] => True | (t, k) :: _ => arg_start t && lay c k = false end.

(** [exprs k ts es r]: the tokens [ts], followed by [r], are the expression(s) [es]. *)
Inductive exprs : ekind -> list ptok -> list expr -> list ptok -> Prop :=
(** An expression is a chain of applications joined by operators.  The column
    of the first application is given by the context, that of the others is
    the end of their first token. *)
| e_one c ts e r : exprs (KApp c) ts [e] r -> next_is is_op r = false -> exprs (KExpr c) ts [e] r
| e_bin c ts x o i k t k' us e r :
    exprs (KApp c) ts [x] ((o, k) :: ((t, k') :: us) ++ r) -> operator o i ->
    exprs (KExpr k') ((t, k') :: us) [e] r ->
    exprs (KExpr c) (ts ++ (o, k) :: (t, k') :: us) [Bin x i e] r
| e_app c ts f us e r : exprs KAtom ts [f] (us ++ r) -> exprs (KArgs c f) us [e] r ->
    exprs (KApp c) (ts ++ us) [e] r
| a_nil c f r : no_arg c r -> exprs (KArgs c f) [] [f] r
| a_cons c f t k ts x us e r : arg_start t = true -> lay c k = true ->
    exprs KAtom ((t, k) :: ts) [x] (us ++ r) -> exprs (KArgs c (App f x)) us [e] r ->
    exprs (KArgs c f) (((t, k) :: ts) ++ us) [e] r
| t_lit x k r : exprs KAtom [(TLit x, k)] [Lit x] r
| t_upper s k r : exprs KAtom [(TUpper s, k)] [Var (IUpper s)] r
| t_lower s k r : exprs KAtom [(TLower s, k)] [Var (ILower s)] r
| t_lam k ts p ps k' us e r :
    pats Juxt ts (p :: ps) ((TArrow, k') :: us ++ r) -> exprs (KExpr k') us [e] r ->
    exprs KAtom ((TLambda, k) :: ts ++ (TArrow, k') :: us) [fold_right Lam e (p :: ps)] r
| t_unit k k' r : exprs KAtom [(TParenL, k); (TParenR, k')] [Tup []] r
| t_op k s b k1 k' r :
    exprs KAtom [(TParenL, k); (TAffix s b, k1); (TParenR, k')] [Var (IInfix s)] r
| t_commas k cs k' r : cs <> [] -> Forall (fun x => fst x = TComma) cs ->
    exprs KAtom ((TParenL, k) :: cs ++ [(TParenR, k')]) [Var (ICommas (List.length cs))] r
| t_group k t k1 ts e k' r : exprs (KExpr k1) ((t, k1) :: ts) [e] ((TParenR, k') :: r) ->
    exprs KAtom ((TParenL, k) :: ((t, k1) :: ts) ++ [(TParenR, k')]) [Grp e] r
| t_tuple k t k1 ts e us es k' r :
    exprs (KExpr k1) ((t, k1) :: ts) [e] (us ++ (TParenR, k') :: r) ->
    exprs KTail us es ((TParenR, k') :: r) -> us <> [] ->
    exprs KAtom ((TParenL, k) :: ((t, k1) :: ts) ++ us ++ [(TParenR, k')]) [Tup (e :: es)] r
| t_list k ts es k' r : exprs KItems ts es ((TBrackR, k') :: r) ->
    exprs KAtom ((TBrackL, k) :: ts ++ [(TBrackR, k')]) [List es] r
| t_let k ts d k' us e r : declares ts d ((TIn, k') :: us ++ r) -> exprs (KExpr k') us [e] r ->
    exprs KAtom ((TLet, k) :: ts ++ (TIn, k') :: us) [Let d e] r
| tl_nil r : next_is is_comma r = false -> exprs KTail [] [] r
| tl_cons k ts e us es r : exprs (KExpr k) ts [e] (us ++ r) -> exprs KTail us es r ->
    exprs KTail ((TComma, k) :: ts ++ us) (e :: es) r
(** The comma after an item may be missing. *)
| i_nil k r : exprs KItems [] [] ((TBrackR, k) :: r)
| i_comma t k ts e k' us es r : exprs (KExpr k) ((t, k) :: ts) [e] ((TComma, k') :: us ++ r) ->
    exprs KItems us es r -> exprs KItems (((t, k) :: ts) ++ (TComma, k') :: us) (e :: es) r
| i_plain t k ts e us es r : exprs (KExpr k) ((t, k) :: ts) [e] (us ++ r) ->
    next_is is_comma (us ++ r) = false ->
    exprs KItems us es r -> exprs KItems (((t, k) :: ts) ++ us) (e :: es) r.

(** * Programs *)

Inductive decl_of : list ptok -> decl -> list ptok -> Prop :=
| do_infix ts d r : declares ts d r -> decl_of ts (DInfix d) r
| do_expr t k ts e r : exprs (KExpr k) ((t, k) :: ts) [e] r -> decl_of ((t, k) :: ts) (DExpr e) r.

(** [program ts ds]: the tokens [ts] are the declarations [ds].  The semicolon
    after a declaration may be missing. *)
Inductive program : list ptok -> list decl -> Prop :=
| pr_nil : program [] []
| pr_semi ts d k us ds : decl_of ts d ((TSemi, k) :: us) -> program us ds ->
    program (ts ++ (TSemi, k) :: us) (d :: ds)
| pr_plain ts d us ds : decl_of ts d us -> next_is is_semi us = false -> program us ds ->
    program (ts ++ us) (d :: ds).

End Layout.

(** * The form of parsed expressions *)

Inductive level :=
| AsArg       (* an argument of an application *)
| AsAtom
| AsApp       (* an operand of an infix expression *)
| AsExpr.     (* anywhere else *)

Definition sensible (d : infix_decl) : Prop := d_infixes d <> [] /\ (fx_prec (d_fixity d) <= 9)%N.

(** Infix expressions nest to the right only, applications to the left only;
    arguments are literals, names or bracketed; there is no negation and no
    tuple of one. *)
Inductive surface : level -> expr -> Prop :=
| su_lit x : surface AsArg (Lit x)
| su_var i : surface AsArg (Var i)
| su_grp e : surface AsExpr e -> surface AsArg (Grp e)
| su_tup es : List.length es <> 1 -> Forall (surface AsExpr) es -> surface AsArg (Tup es)
| su_list es : Forall (surface AsExpr) es -> surface AsArg (List es)
| su_lam p e : surface AsExpr e -> surface AsAtom (Lam p e)
| su_let d e : sensible d -> surface AsExpr e -> surface AsAtom (Let d e)
| su_atom e : surface AsArg e -> surface AsAtom e
| su_app f x : surface AsApp f -> surface AsArg x -> surface AsApp (App f x)
| su_apps e : surface AsAtom e -> surface AsApp e
| su_bin a o b : surface AsApp a -> surface AsExpr b -> surface AsExpr (Bin a o b)
| su_expr e : surface AsApp e -> surface AsExpr e.

(** * One line *)

(** Columns grow from [c] on. *)
Fixpoint ascending (c : nat) (ts : list ptok) : Prop :=
  match ts with [] => True | (_, k) :: ts' => c < k /\ ascending k ts' end.

(** * Applications and declarations as written *)

(** [atoms ts es r]: the tokens [ts], followed by [r], are the atoms [es], each
    starting with a token that can start an argument.  Layout plays no role. *)
Inductive atoms : list ptok -> list expr -> list ptok -> Prop :=
| at_nil r : next_is arg_start r = false -> atoms [] [] r
| at_cons t k ts x us xs r : arg_start t = true ->
    exprs (fun _ _ => true) KAtom ((t, k) :: ts) [x] (us ++ r) -> atoms us xs r ->
    atoms (((t, k) :: ts) ++ us) (x :: xs) r.

Section WithUcd.
Context {U : ucd}.

(** [spelled o s]: the operator [o] is written [s]. *)
Inductive spelled : infix -> str -> Prop :=
| sp_plain s : s <> [] -> all op_char s -> s <> lit "\" -> s <> lit "->" -> s <> lit "~~" ->
    spelled (Standard s) s
| sp_backquoted c u s : word_start c = true -> all word_char u -> stops word_char s -> all script s ->
    spelled (Promoted (c :: u ++ s)) (96%N :: c :: u ++ s ++ [96%N]).

Fixpoint commas (ss : list str) : str :=
  match ss with
  | [] => []
  | [s] => s
  | s :: ss => s ++ lit ", " ++ commas ss
  end.

Definition keyword (a : assoc) : str :=
  match a with ALeft => lit "infixl" | ARight => lit "infixr" | ANeither => lit "infix" end.

(** A space and one digit, or nothing. *)
Definition prec_text (n : option N) : str := match n with Some n => [32%N; (48 + n)%N] | None => [] end.
End WithUcd.
