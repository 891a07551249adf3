(** The hash map of the interner, [FnvHashMap<Str, Symbol>] of
    src/text/lexicon.rs:15: [Interner.v] takes it to be a list searched from the
    front; here it is a hash table. *)
From Coq Require Import List Arith NArith Bool String.
From Verif Require Import Prelim Interner.
Import ListNotations.

(** A slot lies where the hash of its key put it.  The [x_map] of [h_lex] is
    not used. *)
Record hlex := mkHlex { h_lex : lexicon; h_slots : list (N * (sref * N)) }.

Section Lexicon.
Variable grant : nat -> nat.
(** [Hash for str] with the hasher. *)
Variable hash : str -> N.
(** The slots a search for a hash looks at, in its order. *)
Variable scan : N -> list (N * (sref * N)) -> list (N * (sref * N)).

(** [self.map.get(string)], src/text/lexicon.rs:45: keys are compared by the
    text they point to.  [None] would be a dangling key. *)
Fixpoint probe (bs : list sbuf) (s : str) (ss : list (N * (sref * N))) : option (option N) :=
  match ss with
  | [] => Some None
  | (_, (r, id)) :: t => match deref bs r with
                         | None => None
                         | Some u => if str_eqb u s then Some (Some id) else probe bs s t
                         end
  end.

(** [self.map.insert(string, id)], src/text/lexicon.rs:52: a key that is already
    there gets the new value, otherwise a slot is taken. *)
Definition hinsert (bs : list sbuf) (s : str) (r : sref) (id : N) (ss : list (N * (sref * N)))
    : option (list (N * (sref * N))) :=
  match probe bs s (scan (hash s) ss) with
  | None => None
  | Some (Some _) =>
      Some (map (fun p => match deref bs (fst (snd p)) with
                          | Some u => if str_eqb u s then (fst p, (fst (snd p), id)) else p
                          | None => p
                          end) ss)
  | Some None => Some ((hash s, (r, id)) :: ss)
  end.

(** src/text/lexicon.rs:44-59, without its debug assertions. *)
Definition hintern (x : hlex) (s : str) : option (hlex * N) :=
  match probe (live (h_lex x)) s (scan (hash s) (h_slots x)) with
  | None => None
  | Some (Some id) => Some (x, id)
  | Some None =>
      let (x1, r) := alloc grant (h_lex x) s in
      let id := N.modulo (N.of_nat (List.length (h_slots x))) 4294967296 in
      match hinsert (live x1) s r id (h_slots x) with
      | None => None
      | Some ss => Some (mkHlex (mkLex (x_map x1) (x_vec x1 ++ [r]) (x_buf x1) (x_all x1) (x_next x1)) ss, id)
      end
  end.

(** src/text/lexicon.rs:61-63 *)
Definition hlookup (x : hlex) (id : N) : outcome (option str) := lookup (h_lex x) id.

(** src/text/lexicon.rs:26-33 *)
Definition hempty (cap : nat) : hlex := mkHlex (with_capacity grant cap) [].

(** src/text/lexicon.rs:36-42; [None] as above. *)
Fixpoint hinterns (x : hlex) (l : list str) : option hlex :=
  match l with
  | [] => Some x
  | s :: t => match hintern x s with Some (x1, _) => hinterns x1 t | None => None end
  end.

Definition hreserved (l : list str) : option hlex := hinterns (hempty (List.length l)) l.

(** The table moves its slots, when it grows. *)
Definition hmove (f : list (N * (sref * N)) -> list (N * (sref * N))) (x : hlex) : hlex :=
  mkHlex (h_lex x) (f (h_slots x)).
End Lexicon.
