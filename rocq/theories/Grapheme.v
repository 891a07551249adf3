(** String helpers of src/text/grapheme.rs (character classes are in
    Chars.v). *)
From Coq Require Import List Arith NArith Bool.
From Verif Require Import Prelim Chars.
Import ListNotations.

(** [str::trim_start] *)
Fixpoint trim_start (s : str) : str :=
  match s with
  | c :: s' => if is_white c then trim_start s' else s
  | [] => []
  end.

(** [str::trim_end] and [str::trim] *)
Definition trim_end (s : str) : str := rev (trim_start (rev s)).
Definition trim (s : str) : str := trim_end (trim_start s).

(** Longest prefix without white space. *)
Fixpoint take_word (s : str) : str :=
  match s with
  | c :: s' => if is_white c then [] else c :: take_word s'
  | [] => []
  end.

(** [s.split_whitespace().next()] *)
Definition first_word (s : str) : option str :=
  match trim_start s with
  | [] => None
  | s' => Some (take_word s')
  end.

(** src/text/grapheme.rs:28-30; [check] is [pre.check] of the [Match] trait. *)
Definition is_prefix (check : str -> bool) (s : str) : bool :=
  match first_word s with
  | Some t => check t
  | None => false
  end.

(** src/text/grapheme.rs:43-56 *)
Definition strip_prefix (check : str -> bool) (s : str) : outcome str :=
  match first_word s with
  | Some p =>
      if check p
      then if Nat.ltb (blen p) (blen (trim s))
           then match slice s (blen p) (blen s) with
                | Some r => Ok (trim r)
                | None => Panic PSlice
                end
           else Ok []
      else Ok s
  | None => Ok s
  end.

(** src/text/grapheme.rs:385-392, [Match<str> for &str]. *)
Definition is_str (p t : str) : bool := str_eqb p t.

(** src/text/grapheme.rs:349-356, [Match<str> for char]. *)
Definition is_char_str (c : chr) (t : str) : bool :=
  Nat.eqb (len_utf8 c) (blen t)
  && match t with
     | d :: t' => N.eqb d c && match t' with [] => true | _ => false end
     | [] => false
     end.

(** src/text/grapheme.rs:432-435, the loop of [numlen_base]; each iteration
    uses one unit of fuel.  Division by zero panics. *)
Fixpoint numlen_loop (fuel : nat) (base n k : N) : outcome N :=
  if N.eqb n 0 then Ok k
  else match fuel with
       | 0 => NoFuel
       | S f => if N.eqb base 0 then Panic PIndex
                else numlen_loop f base (N.div n base) (N.add k 1)
       end.

(** src/text/grapheme.rs:427-438 *)
Definition numlen_base (base n : N) : outcome N :=
  if N.eqb n 0 then Ok 1%N else numlen_loop (S (N.size_nat n)) base n 0.

(** src/text/grapheme.rs:442-444 *)
Definition numlen (n : N) : outcome N := numlen_base 10 n.

(** src/text/grapheme.rs:462-483: the radix given by a prefix letter. *)
Definition int_prefix_radix (c : chr) : option N :=
  if N.eqb c 98 || N.eqb c 66 then Some 2%N
  else if N.eqb c 111 || N.eqb c 79 then Some 8%N
  else if N.eqb c 120 || N.eqb c 88 then Some 16%N
  else None.
