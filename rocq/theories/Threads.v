(** The interner as callers see it: src/text/lexicon.rs:142-148 and 178-232,
    src/text/symbol.rs:17-42 and 78-96.  Every thread has its own [Lexicon]
    behind a [RefCell]; a [Symbol] is a bare number and a text handed out is a
    [&'static str], so both can be passed to other threads. *)
From Coq Require Import List Arith NArith Bool.
From Verif Require Import Prelim Interner.
Import ListNotations.

(** What is passed as [impl AsRef<str>]: a text, or a [Symbol], whose [as_ref]
    (src/text/symbol.rs:84-88) looks itself up in the interner. *)
Inductive arg := AText (s : str) | ASymbol (id : N).

(** An item of an iterator: its [next] may itself use the interner. *)
Inductive item := Quiet (a : arg) | Busy.

Inductive call :=
| CLookup (id : N)             (* Interner::lookup, Symbol::as_str *)
| CIntern (a : arg)            (* Interner::intern, Symbol::intern, From<&str> *)
| CIter (is : list item)       (* Interner::intern_iter *)
| CArray (ss : list arg).      (* Interner::intern_n *)

(** A text handed out: the thread, how many times a thread of this number had
    ended before, and the slice. *)
Record handed := mkHanded { h_thread : nat; h_life : nat; h_ref : sref }.

Inductive answer :=
| Symbols (ids : list N)
| AHanded (r : handed)
| Borrowed   (* panic: already (mutably) borrowed *)
| Missing.   (* panic: index out of bounds *)

Section Alloc.
Variable grant : nat -> nat.

(** [lex.intern(s.as_ref())] while the [RefMut] is alive
    (src/text/lexicon.rs:192, 202, 216): a [Symbol] borrows a second time. *)
Definition intern_arg (x : lexicon) (a : arg) : option (lexicon * N) :=
  match a with
  | AText s => Some (intern grant x s)
  | ASymbol _ => None
  end.

(** The loops of src/text/lexicon.rs:200-203 and 213-218: the [RefMut] lives
    through the loop, so an iterator that uses the interner panics too.
    Strings interned before a panic stay. *)
Fixpoint intern_items (x : lexicon) (is : list item) : lexicon * option (list N) :=
  match is with
  | [] => (x, Some [])
  | Busy :: _ => (x, None)
  | Quiet a :: is' =>
      match intern_arg x a with
      | None => (x, None)
      | Some (x1, id) =>
          let (x2, ids) := intern_items x1 is' in
          (x2, match ids with Some ids => Some (id :: ids) | None => None end)
      end
  end.

(** The lexicon of one thread: how many predecessors have ended, and the
    lexicon, made on first use (src/text/lexicon.rs:142-148). *)
Record cell := mkCell { c_life : nat; c_lex : option lexicon }.

Definition opened (c : cell) : lexicon :=
  match c_lex c with Some x => x | None => lexicon_default grant end.

Definition of_ids (r : lexicon * option (list N)) : lexicon * answer :=
  (fst r, match snd r with Some ids => Symbols ids | None => Borrowed end).

(** src/text/lexicon.rs:184-222 *)
Definition serve (t : nat) (c : cell) (k : call) : cell * answer :=
  let x := opened c in
  let (x', a) :=
    match k with
    | CLookup id =>
        (x, match nth_error (x_vec x) (N.to_nat id) with
            | Some r => AHanded (mkHanded t (c_life c) r)
            | None => Missing
            end)
    | CIntern a => of_ids (intern_items x [Quiet a])
    | CIter is => of_ids (intern_items x is)
    | CArray ss => of_ids (intern_items x (map Quiet ss))
    end in
  (mkCell (c_life c) (Some x'), a).

(** All threads.  An event is a call by a thread or its end, which drops its
    lexicon with all buffers. *)
Definition world := nat -> cell.
Inductive event := Call (t : nat) (k : call) | End (t : nat).

Definition put (w : world) (t : nat) (c : cell) : world := fun u => if Nat.eqb u t then c else w u.

Definition happen (w : world) (e : event) : world * option answer :=
  match e with
  | Call t k => let (c, a) := serve t (w t) k in (put w t c, Some a)
  | End t => (put w t (mkCell (S (c_life (w t))) None), None)
  end.

Definition start : world := fun _ => mkCell 0 None.

(** The world after the events, and the answers in order. *)
Fixpoint happens (w : world) (es : list event) : world * list (option answer) :=
  match es with
  | [] => (w, [])
  | e :: es' =>
      let (w1, a) := happen w e in
      let (w2, r) := happens w1 es' in (w2, a :: r)
  end.

(** Reading through a text handed out; [None] is a read of freed memory. *)
Definition read_handed (w : world) (r : handed) : option str :=
  let c := w (h_thread r) in
  if Nat.eqb (h_life r) (c_life c)
  then match c_lex c with Some x => deref (live x) (h_ref r) | None => None end
  else None.
End Alloc.
