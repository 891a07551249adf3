(** Texts of expressions, and texts put together from them (C108). *)
From Coq Require Import List NArith Bool String.
From Verif Require Import Prelim Chars Syntax SpecLexer Parser SpecParser.
Import ListNotations.
Local Open Scope string_scope.
Local Open Scope list_scope.

(** The program that is just the expression [e]. *)
Definition only (e : expr) : ast := mkAst [Syntax.KExpr] [] [e].

Section WithUcd.
Context {U : ucd}.

(** Some whole lines that are read as the expression [e], with a semicolon
    after them and without. *)
Definition expression_text (s : str) (e : expr) : Prop :=
  no_lfcr (10%N :: s) /\ (exists s0, s = s0 ++ [10%N]) /\
  (exists l, parse s = POk (only e) l) /\ (exists l, parse (s ++ lit ";") = POk (only e) l).

End WithUcd.

(** [x], the operator [o] and [y], written one after the other: [o] stands
    after the last operand of [x], inside of a lambda or [let] that [x] ends in. *)
Fixpoint extend (x : expr) (o : infix) (y : expr) : expr :=
  match x with
  | Bin a i b => Bin a i (extend b o y)
  | Lam p b => Lam p (extend b o y)
  | Let d b => Let d (extend b o y)
  | _ => Bin x o y
  end.

Definition nl : str := [10%N].

Definition group_text (s : str) : str := lit "(" ++ nl ++ s ++ lit ")" ++ nl.
Definition applied_text (s z : str) : str := group_text s ++ lit " " ++ group_text z.
Definition operator_text (s o z : str) : str := s ++ o ++ nl ++ z.
Definition list_text (ss : list str) : str :=
  lit "[" ++ nl ++ flat_map (fun s => s ++ lit "," ++ nl) ss ++ lit "]" ++ nl.
Definition tuple_text (s : str) (ss : list str) : str :=
  lit "(" ++ nl ++ s ++ flat_map (fun s => lit "," ++ nl ++ s) ss ++ lit ")" ++ nl.
