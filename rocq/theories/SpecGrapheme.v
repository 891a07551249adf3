(** Words and white space, as specification for src/text/grapheme.rs. *)
From Coq Require Import List NArith.
From Verif Require Import Prelim Chars.
Import ListNotations.

Definition white (s : str) : Prop := Forall (fun c => is_white c = true) s.
Definition word (p : str) : Prop := p <> [] /\ Forall (fun c => is_white c = false) p.
Definition starts_white (s : str) : Prop :=
  match s with [] => True | c :: _ => is_white c = true end.

(** [s] is white space [a], the word [p] and the rest [b]. *)
Definition splits (s a p b : str) : Prop :=
  s = a ++ p ++ b /\ white a /\ word p /\ starts_white b.

(** [t] is [s] without the white space around it. *)
Definition trimmed (s t : str) : Prop :=
  exists a b, s = a ++ t ++ b /\ white a /\ white b
    /\ match t with [] => True | c :: _ => is_white c = false end
    /\ match rev t with [] => True | c :: _ => is_white c = false end.

(** The digits of [n] in base [b], most significant first, without leading
    zeros (a single zero for zero). *)
Definition digits_of (b n : N) (ds : list N) : Prop :=
  Forall (fun d => (d < b)%N) ds
  /\ fold_left (fun a d => (a * b + d)%N) ds 0%N = n
  /\ match ds with [] => False | [_] => True | d :: _ => d <> 0%N end.
