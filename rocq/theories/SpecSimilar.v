(** The same complaint about the tokens at the same place of two texts (C111). *)
From Coq Require Import List.
From Verif Require Import Prelim Syntax SpecParser Parser.
Import ListNotations.

Definition token_at (i : nat) (ts : list ptok) : token := nth i (map fst ts) TEof.

Inductive same_complaint (ts us : list ptok) (i : nat) : perror -> perror -> Prop :=
| sc_expected x a a' : same_complaint ts us i (Expected x a (token_at i ts)) (Expected x a' (token_at i us))
| sc_unexpected a a' : same_complaint ts us i (Unexpected (token_at i ts) a) (Unexpected (token_at i us) a').
