(** The hash tables behind [Fixities]: [FnvIndexMap] of src/syntax/fixity.rs:205-206
    and the equalities and hashes of its keys, src/syntax/ast.rs:233-262 and
    283-289, src/text/symbol.rs:5 and 79-83.

    [Fixity.v] takes the table to be a list of pairs searched from the front.
    Here it is what the library [indexmap] 1.9 makes of it: a vector of entries
    in the order of insertion and a hash table of positions in that vector. *)
From Coq Require Import List Arith NArith Bool String.
From Verif Require Import Prelim Syntax Fixity.
Import ListNotations.

(** An entry keeps the hash of its key.  A slot of the hash table holds a
    position; it was put where its hash belongs. *)
Record entry (K V : Type) := mkEntry { n_hash : N; n_key : K; n_val : V }.
Arguments mkEntry {K V} n_hash n_key n_val.
Arguments n_hash {K V} e.
Arguments n_key {K V} e.
Arguments n_val {K V} e.
Record imap (K V : Type) := mkMap { m_slots : list (N * nat); m_entries : list (entry K V) }.
Arguments mkMap {K V} m_slots m_entries.
Arguments m_slots {K V} i.
Arguments m_entries {K V} i.

Definition imap_empty {K V} : imap K V := mkMap [] [].

Section Table.
Variables K V : Type.
(** [Eq] and [Hash] of the keys. *)
Variable eqb : K -> K -> bool.
Variable hash : K -> N.
(** The slots a search for a hash looks at, in its order: which other slots lie
    on the way depends on the size of the table, the tags and the history. *)
Variable scan : N -> list (N * nat) -> list (N * nat).

(** [get_index_of]: the first slot looked at whose entry has a key that is
    [equivalent].  [None] is the panic of a position outside the vector. *)
Fixpoint search (es : list (entry K V)) (p : K -> bool) (ss : list (N * nat)) : option (option nat) :=
  match ss with
  | [] => Some None
  | (_, i) :: r => match nth_error es i with
                   | None => None
                   | Some e => if p (n_key e) then Some (Some i) else search es p r
                   end
  end.

Definition index_by (m : imap K V) (h : N) (p : K -> bool) : option (option nat) :=
  search (m_entries m) p (scan h (m_slots m)).

Definition index_of (m : imap K V) (k : K) : option (option nat) :=
  index_by m (hash k) (fun x => eqb x k).

Definition value_at (m : imap K V) (r : option (option nat)) : option (option V) :=
  match r with
  | None => None
  | Some None => Some None
  | Some (Some i) => match nth_error (m_entries m) i with
                     | Some e => Some (Some (n_val e))
                     | None => None
                     end
  end.

(** [IndexMap::get] and [contains_key]. *)
Definition map_get (m : imap K V) (k : K) : option (option V) := value_at m (index_of m k).

(** [get] with a borrowed form of the key, given the hash of that form and
    which keys are equal to it once borrowed. *)
Definition map_get_by (m : imap K V) (h : N) (p : K -> bool) : option (option V) := value_at m (index_by m h p).

Fixpoint update {A} (i : nat) (f : A -> A) (l : list A) : list A :=
  match l, i with
  | [], _ => []
  | x :: r, 0 => f x :: r
  | x :: r, S j => x :: update j f r
  end.

(** [IndexMap::insert]: replaces the value of an equal key, or takes the next
    position. *)
Definition map_insert (m : imap K V) (k : K) (v : V) : option (imap K V * option V) :=
  match index_of m k with
  | None => None
  | Some (Some i) => match nth_error (m_entries m) i with
                     | Some e => Some (mkMap (m_slots m) (update i (fun e => mkEntry (n_hash e) (n_key e) v) (m_entries m)), Some (n_val e))
                     | None => None
                     end
  | Some None =>
      Some (mkMap ((hash k, List.length (m_entries m)) :: m_slots m) (m_entries m ++ [mkEntry (hash k) k v]), None)
  end.

(** Erasing the slot of a position: the first slot looked at with it. *)
Definition erase (i : nat) (ss : list (N * nat)) : list (N * nat) :=
  filter (fun s => negb (Nat.eqb (snd s) i)) ss.

Definition remove_nth {A} (i : nat) (l : list A) : list A := firstn i l ++ skipn (S i) l.

(** [IndexMap::shift_remove]: the slot goes, the later positions move down by
    one, the vector closes the gap. *)
Definition map_remove (m : imap K V) (k : K) : option (imap K V * option V) :=
  match index_of m k with
  | None => None
  | Some None => Some (m, None)
  | Some (Some i) =>
      match nth_error (m_entries m) i with
      | Some e => Some (mkMap (map (fun s => (fst s, if Nat.ltb i (snd s) then Nat.pred (snd s) else snd s)) (erase i (m_slots m)))
                          (remove_nth i (m_entries m)), Some (n_val e))
      | None => None
      end
  end.

(** [IndexMap::pop]: the last entry and its slot. *)
Definition map_pop (m : imap K V) : imap K V * option (K * V) :=
  match rev (m_entries m) with
  | [] => (m, None)
  | e :: r => (mkMap (erase (List.length r) (m_slots m)) (rev r), Some (n_key e, n_val e))
  end.

(** [IndexMap::iter] *)
Definition map_iter (m : imap K V) : list (K * V) := map (fun e => (n_key e, n_val e)) (m_entries m).

(** The hash table may move its slots around at any time, when it grows or
    shrinks. *)
Definition rehash (ss : list (N * nat)) (m : imap K V) : imap K V := mkMap ss (m_entries m).
End Table.
Arguments search {K V} es p ss.
Arguments index_by {K V} scan m h p.
Arguments index_of {K V} eqb hash scan m k.
Arguments value_at {K V} m r.
Arguments map_get {K V} eqb hash scan m k.
Arguments map_get_by {K V} scan m h p.
Arguments map_insert {K V} eqb hash scan m k v.
Arguments map_remove {K V} eqb hash scan m k.
Arguments map_pop {K V} m.
Arguments map_iter {K V} m.
Arguments rehash {K V} ss m.

(** * Hashes *)

(** FNV-1a of 64 bits, the library [fnv]. *)
Definition fnv_step (h b : N) : N := (N.modulo (N.lxor h b * 1099511628211) 18446744073709551616)%N.
Definition fnv (bs : list N) : N := fold_left fnv_step bs 14695981039346656037%N.

(** Derived [Hash for Symbol], src/text/symbol.rs:5: the four bytes of the
    number, here with the lowest first. *)
Definition symbol_hash (n : N) : N :=
  (fnv [n mod 256; n / 256 mod 256; n / 65536 mod 256; n / 16777216 mod 256])%N.

(** [Hash for Infix], src/syntax/ast.rs:257-261, given the number of a text.
    [Eq for Infix], src/syntax/ast.rs:249-253, is [infix_eqb]. *)
Definition infix_hash (number : str -> N) (i : infix) : N := symbol_hash (number (symbol i)).

(** [Hash for str]: its bytes and a last one. *)
Definition text_hash (bs : list N) : N := fnv (bs ++ [255%N]).
