(** Vocabulary for the interner among threads: the texts a thread has interned
    and their numbers. *)
From Coq Require Import List Arith NArith.
From Verif Require Import Prelim Interner SpecInterner Threads.
Import ListNotations.

Definition thread_of (e : event) : nat := match e with Call t _ => t | End t => t end.
Definition of_thread (t : nat) (e : event) : bool := Nat.eqb (thread_of e) t.

(** The texts at the front of a list of items, up to the first that is not a
    plain text. *)
Fixpoint texts (is : list item) : list str :=
  match is with
  | Quiet (AText s) :: is' => s :: texts is'
  | _ => []
  end.
Definition all_texts (is : list item) : Prop := exists ss, is = map (fun s => Quiet (AText s)) ss.

Definition items (k : call) : list item :=
  match k with
  | CLookup _ => []
  | CIntern a => [Quiet a]
  | CIter is => is
  | CArray ss => map Quiet ss
  end.

(** The texts interned by thread [t] in its present life, in order. *)
Definition seen_by (t : nat) (es : list event) : list str :=
  fold_left (fun h e => match e with
    | Call u k => if Nat.eqb u t then h ++ texts (items k) else h
    | End u => if Nat.eqb u t then [] else h
    end) es [].

(** [s] is the [k]-th different text in the history [h]. *)
Definition numbered (h : list str) (k : nat) (s : str) : Prop :=
  exists h1 h2, predefined ++ h = h1 ++ s :: h2 /\ ~ In s h1 /\ length (nodup (list_eq_dec N.eq_dec) h1) = k.

(** The answer to a call made by thread [t] after the events [es], and the text
    read through an answer after the events [es]. *)
Definition asked (grant : nat -> nat) (es : list event) (t : nat) (k : call) : answer :=
  snd (serve grant t (fst (happens grant start es) t) k).
Definition reads (grant : nat -> nat) (es : list event) (r : handed) : option str :=
  read_handed (fst (happens grant start es)) r.
(** Looking up a symbol and reading the text at once. *)
Definition means (grant : nat -> nat) (es : list event) (t : nat) (id : N) (s : str) : Prop :=
  exists r, asked grant es t (CLookup id) = AHanded r /\
    reads grant (es ++ [Call t (CLookup id)]) r = Some s.
