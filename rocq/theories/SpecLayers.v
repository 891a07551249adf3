(** Lambdas and lets around texts of expressions (C112). *)
From Coq Require Import List NArith Bool String.
From Verif Require Import Prelim Chars Syntax SpecLexer Parser SpecParser SpecCompose.
Import ListNotations.
Local Open Scope string_scope.
Local Open Scope list_scope.

Definition lambda_text (s d : str) : str := lit "\" ++ nl ++ s ++ lit "->" ++ nl ++ d.
Definition let_text (z d : str) : str := lit "let" ++ nl ++ z ++ lit "in" ++ nl ++ d.

Definition lambdas (ps : list pat) (e : expr) : expr := fold_right Lam e ps.

Section WithUcd.
Context {U : ucd}.

(** Some whole lines that, between a backslash and an arrow, are read as the
    parameters [ps]. *)
Definition parameters_text (s : str) (ps : list pat) : Prop :=
  no_lfcr (10%N :: s) /\ (exists s0, s = s0 ++ [10%N]) /\
  (exists ts, ctokens [] s ts /\ ~ In TArrow (map fst ts)) /\
  exists l, parse (lambda_text s (lit "x" ++ nl)) = POk (only (lambdas ps (Var (ILower (lit "x"))))) l.

(** Some whole lines that are read as the declaration [d], with a semicolon
    after them and without. *)
Definition declaration_text (s : str) (d : infix_decl) : Prop :=
  no_lfcr (10%N :: s) /\ (exists s0, s = s0 ++ [10%N]) /\
  (exists l, parse s = POk (mkAst [Syntax.KInfix] [d] []) l) /\
  (exists l, parse (s ++ lit ";") = POk (mkAst [Syntax.KInfix] [d] []) l).

(** Lambdas and lets around an expression in parentheses. *)
Inductive layered : str -> expr -> Prop :=
| ly_group s e : expression_text s e -> layered (group_text s) (Grp e)
| ly_lambda s ps d e : parameters_text s ps -> layered d e -> layered (lambda_text s d) (lambdas ps e)
| ly_let z dd d e : declaration_text z dd -> layered d e -> layered (let_text z d) (Let dd e).
End WithUcd.
