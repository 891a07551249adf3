(** The syntax reference of the README, as written there. *)
From Coq Require Import List Arith NArith Bool String.
From Verif Require Import Prelim Chars Syntax SpecLexer SpecParser.
Import ListNotations.

(** * Lexical syntax, README.md:80-109 and 136-163 *)

(** [opchar], [supscr], [subscr], [trails], [digit] *)
Definition opchar : chr -> bool := mem (lit "!#$%&*+./<=>?@\^|-~").
Definition supscr : chr -> bool :=
  mem [8304; 185; 178; 179; 8308; 8309; 8310; 8311; 8312; 8313; 8317; 8318; 8314; 8315]%N.
Definition subscr : chr -> bool :=
  mem [8320; 8321; 8322; 8323; 8324; 8325; 8326; 8327; 8328; 8329; 8333; 8334; 8330; 8331]%N.
Definition trail (c : chr) : bool := supscr c || subscr c.

Section WithUcd.
Context {U : ucd}.

(** [{ upper | lower | digit | "_" }] *)
Definition name_char (c : chr) : bool := is_upper c || is_lower c || digit c || N.eqb c 95.

(** The three forms of [ident]; any number of trailing scripts, as the text says. *)
Definition ident (s : str) : Prop :=
  exists c u t, s = c :: u ++ t /\ (is_lower c = true \/ c = 95%N \/ is_upper c = true) /\
    all name_char u /\ all trail t.

(** [infix], with the operator that is meant. *)
Inductive infix_text : infix -> str -> Prop :=
| in_name s : ident s -> infix_text (Promoted s) (96%N :: s ++ [96%N])
| in_op u t : u <> [] -> all opchar u -> u <> lit "~~" -> all trail t ->
    infix_text (Standard (u ++ t)) (u ++ t).

(** [infixes]; white space around the commas. *)
Inductive infixes_text : list infix -> str -> Prop :=
| is_one o s : infix_text o s -> infixes_text [o] s
| is_more o s w w' os r : infix_text o s -> all is_white w -> all is_white w' -> infixes_text os r ->
    infixes_text (o :: os) (s ++ w ++ 44%N :: w' ++ r).

(** [assoc]: the keyword. *)
Definition assoc_text (a : assoc) : str :=
  match a with ALeft => lit "infixl" | ARight => lit "infixr" | ANeither => lit "infix" end.

(** [prec]: a digit ([true]), or nothing, which means 9. *)
Inductive prec_of : bool -> N -> str -> Prop :=
| pc_digit k : k < 10 -> prec_of true (N.of_nat k) (firstn 1 (skipn k (lit "0123456789")))
| pc_none : prec_of false 9 [].

(** [fixity]; white space between the parts. *)
Inductive fixity_text : bool -> infix_decl -> str -> Prop :=
| fx_text g a n p w w' os r : prec_of g n p -> w <> [] -> all is_white w -> all is_white w' -> infixes_text os r ->
    fixity_text g (mkInfixDecl os (mkFix n a)) (assoc_text a ++ w ++ p ++ w' ++ r).

(** Any number of declarations, with white space between them or none. *)
Inductive fixities_text : list (bool * infix_decl) -> str -> Prop :=
| fs_none w : all is_white w -> fixities_text [] w
| fs_more w g d s ds r : all is_white w -> fixity_text g d s -> fixities_text ds r ->
    fixities_text ((g, d) :: ds) (w ++ s ++ r).

End WithUcd.

(** * Expressions, README.md:165-178 *)

(** The operators among the tokens; the README's [infix] also includes a lone
    backslash and arrow. *)
Definition infix_tok (t : token) : bool :=
  match t with TAffix _ _ | TDash | TAt => true | _ => false end.

(** [pat] is not defined by the README; here a variable or a wildcard. *)
Definition pat_tok (t : token) : bool := match t with TLower _ | TUnderscore => true | _ => false end.

Definition assoc_tok (t : token) : bool := match t with TInfixL | TInfixR | TInfix => true | _ => false end.

Inductive infixes_toks : list token -> Prop :=
| ix_one t : infix_tok t = true -> infixes_toks [t]
| ix_more t ts : infix_tok t = true -> infixes_toks ts -> infixes_toks (t :: TComma :: ts).

Inductive fixity_toks : list token -> Prop :=
| ft_prec a n ts : assoc_tok a = true -> (n <= 9)%N -> infixes_toks ts -> fixity_toks (a :: TLit (LInt n) :: ts)
| ft_none a ts : assoc_tok a = true -> infixes_toks ts -> fixity_toks (a :: ts).

Inductive nonterminal := Expr | Fexp | Aexp | More.

(** [derives x ts]: the nonterminal [x] derives [ts]; [More] is [{ ",", expr }]. *)
Inductive derives : nonterminal -> list token -> Prop :=
| r_lambda ps e : ps <> [] -> Forall (fun t => pat_tok t = true) ps -> derives Expr e ->
    derives Expr (TLambda :: ps ++ TArrow :: e)
| r_let f e : fixity_toks f -> derives Expr e -> derives Expr (TLet :: f ++ TIn :: e)
| r_fexp e : derives Fexp e -> derives Expr e
| r_one a : derives Aexp a -> derives Fexp a
| r_app f a : derives Fexp f -> derives Aexp a -> derives Fexp (f ++ a)
| r_ident s : derives Aexp [TLower s]
| r_literal x : derives Aexp [TLit x]
| r_section t : infix_tok t = true -> derives Aexp [TParenL; t; TParenR]
| r_group e : derives Expr e -> derives Aexp (TParenL :: e ++ [TParenR])
| r_tuple e m : derives Expr e -> derives More m -> m <> [] -> derives Aexp (TParenL :: e ++ m ++ [TParenR])
| r_list e m : derives Expr e -> derives More m -> derives Aexp (TBrackL :: e ++ m ++ [TBrackR])
| r_binary e t e' : derives Expr e -> infix_tok t = true -> derives Expr e' -> derives Aexp (e ++ t :: e')
| r_none : derives More []
| r_more e m : derives Expr e -> derives More m -> derives More (TComma :: e ++ m).

(** Where the README and the program part: a lambda or [let] directly after an
    operand; a minus or at sign directly after an opening parenthesis or the
    keyword of a declaration. *)
Definition ends_operand (t : token) : bool :=
  match t with TLower _ | TLit _ | TParenR | TBrackR => true | _ => false end.
Definition apart (x y : token) : bool :=
  (ends_operand x && match y with TLambda | TLet => true | _ => false end)
  || ((match x with TParenL => true | _ => false end || assoc_tok x) && match y with TDash | TAt => true | _ => false end).

(** The brackets open after some tokens, the innermost first. *)
Fixpoint open_after (st : list token) (ts : list token) : list token :=
  match ts with
  | [] => st
  | t :: ts => open_after match t with
                          | TParenL | TBrackL => t :: st
                          | TParenR | TBrackR => tl st
                          | _ => st
                          end ts
  end.

(** Directly within brackets a lambda or [let] after an operand begins another
    item of the list. *)
Definition tame (ts : list token) : Prop := forall a x y b, ts = a ++ x :: y :: b -> apart x y = true ->
  (y = TLambda \/ y = TLet) /\ hd_error (open_after [] (a ++ [x])) = Some TBrackL.
