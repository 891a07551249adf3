(** Shared basics of the model: characters, strings, byte slices, outcomes.

    Modelling conventions (apply to the whole development):
    - a Rust [char] is an [N]; a Rust [str]/[String]/[Symbol] is a [list N];
    - [usize] counters that only count characters or bytes are [nat];
    - a Rust panic is the explicit outcome [Panic]. *)
From Coq Require Import List NArith Bool String Ascii Lia.
Import ListNotations.

(** Rust [char].  Simplification: any [N]; no theorem needs the scalar bound
    except where it is stated. *)
Notation chr := N (only parsing).

(** Rust [str]; also [Symbol], see [Interner.v] for the justification. *)
Notation str := (list N) (only parsing).

(** ASCII literals of the Rust source. *)
Fixpoint lit (s : string) : str :=
  match s with
  | EmptyString => []
  | String a s' => N_of_ascii a :: lit s'
  end.

Fixpoint str_eqb (a b : str) : bool :=
  match a, b with
  | [], [] => true
  | x :: a', y :: b' => N.eqb x y && str_eqb a' b'
  | _, _ => false
  end.

(** [char::len_utf8] of the Rust standard library. *)
Definition len_utf8 (c : chr) : nat :=
  if N.ltb c 128 then 1
  else if N.ltb c 2048 then 2
  else if N.ltb c 65536 then 3
  else 4.

(** [str::len]: length in bytes. *)
Fixpoint blen (s : str) : nat :=
  match s with
  | [] => 0
  | c :: s' => len_utf8 c + blen s'
  end.

(** Rest of [s] after exactly [n] bytes; [None] if [n] is not a character
    boundary of [s] or beyond its end (the slice would panic). *)
Fixpoint skip_bytes (n : nat) (s : str) {struct s} : option str :=
  match n with
  | 0 => Some s
  | _ => match s with
         | [] => None
         | c :: s' => if Nat.leb (len_utf8 c) n
                      then skip_bytes (n - len_utf8 c) s'
                      else None
         end
  end.

(** The first [n] bytes of [s]; [None] as for [skip_bytes]. *)
Fixpoint take_bytes (n : nat) (s : str) {struct s} : option str :=
  match n with
  | 0 => Some []
  | _ => match s with
         | [] => None
         | c :: s' => if Nat.leb (len_utf8 c) n
                      then option_map (cons c) (take_bytes (n - len_utf8 c) s')
                      else None
         end
  end.

(** Indexing [&s[lo..hi]] (src/syntax/token.rs:101-107 and the slices of
    src/syntax/lexer.rs): [None] is the panic of an index out of range, not on
    a character boundary, or decreasing. *)
Definition slice (s : str) (lo hi : nat) : option str :=
  if Nat.leb lo hi
  then match skip_bytes lo s with
       | Some s' => take_bytes (hi - lo) s'
       | None => None
       end
  else None.

(** Reasons for which the Rust code panics. *)
Inductive panic :=
| PSlice          (* string slice outside a character boundary *)
| PIdentStart     (* assert! of lexer.rs:464-469 *)
| PTodoPrec       (* todo! of parser.rs:203 *)
| PTodoNeg        (* todo! of fixity.rs:789 *)
| PTodoEmptyChar  (* todo! of token.rs:322 *)
| PStack          (* assert!/unwrap of fixity.rs:166-169,305-307 *)
| PCodePoint      (* expect of lexer.rs:296 *)
| PIndex.         (* vector index out of range, lexicon.rs:62 *)

(** Result of a computation that may panic; [NoFuel] is the model's own
    out-of-fuel value, proved unreachable where fuel is used. *)
Inductive outcome (A : Type) :=
| Ok (a : A)
| Panic (p : panic)
| NoFuel.
Arguments Ok {A} a.
Arguments Panic {A} p.
Arguments NoFuel {A}.

Definition obind {A B} (m : outcome A) (f : A -> outcome B) : outcome B :=
  match m with
  | Ok a => f a
  | Panic p => Panic p
  | NoFuel => NoFuel
  end.

(** Decimal digits of a number, most significant first: Rust's [Display] of
    unsigned integers.  Fuel [S (N.size_nat n)] always suffices
    (ProofGrapheme.v). *)
Fixpoint dec_digits (fuel : nat) (n : N) (acc : str) : str :=
  match fuel with
  | 0 => acc
  | S f => let d := N.add 48 (N.modulo n 10) in
           let q := N.div n 10 in
           if N.eqb q 0 then d :: acc else dec_digits f q (d :: acc)
  end.

Definition show_N (n : N) : str := dec_digits (S (N.size_nat n)) n [].
