(** Tokens of the same kind, and other names and literals in a text and in what
    is read from it (C110). *)
From Coq Require Import List NArith Bool.
From Verif Require Import Prelim Chars Syntax SpecLexer SpecParser SpecRename.
Import ListNotations.

(** The same but for the name, or for a literal that is not an integer. *)
Inductive same_kind : token -> token -> Prop :=
| sk_same t : same_kind t t
| sk_upper s z : same_kind (TUpper s) (TUpper z)
| sk_lower s z : same_kind (TLower s) (TLower z)
| sk_affix s z b : same_kind (TAffix s b) (TAffix z b)
| sk_lit x y : (forall n, x <> LInt n) -> (forall n, y <> LInt n) -> same_kind (TLit x) (TLit y).

(** With columns in the same order. *)
Definition same_kinds (ts us : list ptok) : Prop :=
  Forall2 same_kind (map fst ts) (map fst us) /\
  forall i j a b c d, nth_error ts i = Some a -> nth_error ts j = Some b ->
    nth_error us i = Some c -> nth_error us j = Some d -> (snd a < snd b <-> snd c < snd d).

Section Respelling.
Variable nm : str -> str.
Variable lits : literal -> literal.

Definition respell_token (t : token) : token :=
  match t with
  | TUpper s => TUpper (nm s)
  | TLower s => TLower (nm s)
  | TAffix s b => TAffix (nm s) b
  | TLit x => TLit (lits x)
  | _ => t
  end.
Definition respell_ident (i : ident) : ident :=
  match i with
  | IUpper s => IUpper (nm s)
  | ILower s => ILower (nm s)
  | IInfix s => IInfix (nm s)
  | _ => i
  end.
Definition respell_infix (o : infix) : infix :=
  match o with Standard s => Standard (nm s) | Promoted s => Promoted (nm s) end.
Fixpoint respell_pat (p : pat) : pat :=
  match p with
  | PWild => PWild
  | PLit x => PLit (lits x)
  | PVar s => PVar (nm s)
  | PNeg p => PNeg (respell_pat p)
  | PCon s ps => PCon (nm s) (map respell_pat ps)
  | PTup ps => PTup (map respell_pat ps)
  | PArr ps => PArr (map respell_pat ps)
  | PLnk a b => PLnk (respell_pat a) (respell_pat b)
  | PAs s p => PAs (nm s) (respell_pat p)
  end.
(** Everywhere in a program. *)
Definition respell (a : ast) : ast := rename_ast lits respell_ident respell_pat respell_infix a.

(** The two operators that are tokens of their own, and integers, stay. *)
Definition keeps_reserved : Prop :=
  nm [45%N] = [45%N] /\ nm [64%N] = [64%N] /\ (forall x n, lits x = LInt n <-> x = LInt n).
End Respelling.

(** The tokens of the one text are those of the other with other names and
    literals, and their columns are in the same order. *)
Definition respelled (nm : str -> str) (lits : literal -> literal) (ts us : list ptok) : Prop :=
  map fst us = map (respell_token nm lits) (map fst ts) /\
  forall i j a b c d, nth_error ts i = Some a -> nth_error ts j = Some b ->
    nth_error us i = Some c -> nth_error us j = Some d -> (snd a < snd b <-> snd c < snd d).
