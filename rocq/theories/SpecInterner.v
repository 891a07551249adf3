(** Vocabulary for the interner's properties: histories of interning calls
    and what they hand out. *)
From Coq Require Import List Arith NArith.
From Verif Require Import Prelim Interner.
Import ListNotations.

(** The interner after interning the strings [h] in order. *)
Definition run (grant : nat -> nat) (x : lexicon) (h : list str) : lexicon :=
  fold_left (fun x s => fst (intern grant x s)) h x.

(** The global interner after the history [h]. *)
Definition state (grant : nat -> nat) (h : list str) : lexicon :=
  run grant (lexicon_default grant) h.

(** The symbol obtained by interning [s] after the history [h]. *)
Definition symbol_of (grant : nat -> nat) (h : list str) (s : str) : N :=
  snd (intern grant (state grant h) s).

(** The slice behind a symbol, as handed out to callers. *)
Definition slice_of (x : lexicon) (id : N) : option sref := nth_error (x_vec x) (N.to_nat id).

(** The number of distinct strings seen, predefined ones included. *)
Definition distinct (h : list str) : nat :=
  length (nodup (list_eq_dec N.eq_dec) (predefined ++ h)).

(** The allocator gives at least what was asked for. *)
Definition allocator (grant : nat -> nat) : Prop := forall n, n <= grant n.

Definition limit : N := 4294967296.
