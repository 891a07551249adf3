(** The string interner: src/text/lexicon.rs.

    Memory is explicit: a [String] buffer has an identity, a capacity and its
    text; a [&'static str] is a buffer identity with a byte range, and reading
    it looks the buffer up among the live ones. *)
From Coq Require Import List Arith NArith Bool String.
From Verif Require Import Prelim.
Import ListNotations.

(** A [String]: identity of its allocation, capacity in bytes, contents. *)
Record sbuf := mkBuf { b_id : nat; b_cap : nat; b_text : str }.

(** [type Str = &'static str], src/text/lexicon.rs:7: pointer and byte range. *)
Record sref := mkRef { s_id : nat; s_lo : nat; s_hi : nat }.

(** src/text/lexicon.rs:14-19; [x_next] is the next fresh allocation. *)
Record lexicon := mkLex {
  x_map : list (sref * N);
  x_vec : list sref;
  x_buf : sbuf;
  x_all : list sbuf;
  x_next : nat
}.

(** Reading through a [&'static str]; [None] would be a dangling pointer. *)
Definition deref (bs : list sbuf) (r : sref) : option str :=
  match find (fun b => Nat.eqb (b_id b) (s_id r)) bs with
  | Some b => slice (b_text b) (s_lo r) (s_hi r)
  | None => None
  end.

Definition live (x : lexicon) : list sbuf := x_buf x :: x_all x.

Section Alloc.
(** Capacity actually obtained when asking for [n] bytes: the standard library
    only promises at least [n]. *)
Variable grant : nat -> nat.

(** src/text/lexicon.rs:26-33.  Simplification: the hash map's own capacity
    is not modelled. *)
Definition with_capacity (cap : nat) : lexicon :=
  mkLex [] [] (mkBuf 0 (grant cap) []) [] 1.

(** [usize::next_power_of_two].  Simplification: no overflow. *)
Definition next_pow2 (n : nat) : nat := Nat.pow 2 (Nat.log2_up n).

(** [String::push_str]: appends in place if the capacity suffices, otherwise
    moves the text to a fresh allocation, freeing the old one. *)
Definition push_str (b : sbuf) (fresh : nat) (s : str) : sbuf :=
  if Nat.leb (blen (b_text b) + blen s) (b_cap b)
  then mkBuf (b_id b) (b_cap b) (b_text b ++ s)
  else mkBuf fresh (grant (blen (b_text b) + blen s)) (b_text b ++ s).

(** src/text/lexicon.rs:65-83 *)
Definition alloc (x : lexicon) (s : str) : lexicon * sref :=
  let cap := b_cap (x_buf x) in
  let x1 :=
    if Nat.ltb cap (blen (b_text (x_buf x)) + blen s)
    then let new_cap := next_pow2 (Nat.max cap (blen s) + 1) in
         mkLex (x_map x) (x_vec x) (mkBuf (x_next x) (grant new_cap) [])
           (x_buf x :: x_all x) (S (x_next x))
    else x in
  let start := blen (b_text (x_buf x1)) in
  let buf := push_str (x_buf x1) (x_next x1) s in
  (mkLex (x_map x1) (x_vec x1) buf (x_all x1) (S (x_next x1)),
   mkRef (b_id buf) start (blen (b_text buf))).

(** [self.map.get(string)]: keys are compared by the text they point to. *)
Definition map_get (x : lexicon) (s : str) : option N :=
  match find (fun kv => match deref (live x) (fst kv) with
                        | Some t => str_eqb t s
                        | None => false
                        end) (x_map x) with
  | Some (_, id) => Some id
  | None => None
  end.

(** src/text/lexicon.rs:44-59; the debug assertions are consequences of
    PropsInterner.v.  [as u32] truncates. *)
Definition intern (x : lexicon) (s : str) : lexicon * N :=
  match map_get x s with
  | Some id => (x, id)
  | None =>
      let (x1, r) := alloc x s in
      let id := N.modulo (N.of_nat (List.length (x_map x1))) 4294967296 in
      (mkLex (x_map x1 ++ [(r, id)]) (x_vec x1 ++ [r]) (x_buf x1) (x_all x1) (x_next x1), id)
  end.

(** src/text/lexicon.rs:61-63; [None] in the text would be a dangling pointer. *)
Definition lookup (x : lexicon) (id : N) : outcome (option str) :=
  match nth_error (x_vec x) (N.to_nat id) with
  | Some r => Ok (deref (live x) r)
  | None => Panic PIndex
  end.

(** src/text/lexicon.rs:36-42 *)
Definition with_reserved (ss : list str) : lexicon :=
  fold_left (fun x s => fst (intern x s)) ss (with_capacity (List.length ss)).
End Alloc.

Local Open Scope string_scope.
(** src/text/lexicon.rs:235-264: constant names with their text; the number of
    a constant is its place in the list (lines 106, 171). *)
Definition predefined_table : list (string * string) :=
  [ ("EMPTY", ""); ("UNDERSCORE", "_"); ("UNIT", "()"); ("NIL", "[]"); ("ARROW", "->");
    ("AT", "@"); ("COLON", ":"); ("DOT", "."); ("DOT2", ".."); ("CASH", "$"); ("PLUS", "+");
    ("DASH", "-"); ("STAR", "*"); ("STAR2", "**"); ("CARET", "^"); ("CARET2", "^^");
    ("FSLASH", "/"); ("BSLASH", "\"); ("PERCENT", "%"); ("PIPE", "|"); ("PIPE2", "||");
    ("AMPERSAND", "&"); ("AMPERSAND2", "&&"); ("FIXITY", "fixity"); ("LEFT", "left");
    ("RIGHT", "right"); ("UPPER_L", "L"); ("UPPER_R", "R") ].

(** src/text/lexicon.rs:132-134 *)
Definition predefined : list str := map (fun p => lit (snd p)) predefined_table.

(** src/text/lexicon.rs:136-140 *)
Definition lexicon_default (grant : nat -> nat) : lexicon := with_reserved grant predefined.
