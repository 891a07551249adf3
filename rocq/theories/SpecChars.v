(** Characters by their code points, digits by their place in a list, and the
    encoding of text as bytes. *)
From Coq Require Import List Arith NArith Bool String.
From Verif Require Import Prelim.
Import ListNotations.
Local Open Scope N_scope.

(** White_Space in PropList.txt of the Unicode character database. *)
Definition white_space : list N :=
  [9; 10; 11; 12; 13; 32; 133; 160; 5760;
   8192; 8193; 8194; 8195; 8196; 8197; 8198; 8199; 8200; 8201; 8202;
   8232; 8233; 8239; 8287; 12288].

Definition small_letters : str := lit "abcdefghijklmnopqrstuvwxyz".
Definition big_letters : str := lit "ABCDEFGHIJKLMNOPQRSTUVWXYZ".
Definition ten_digits : str := lit "0123456789".

(** [digit_of v c]: [c] is written for the value [v]. *)
Definition digit_of (v : nat) (c : chr) : Prop :=
  nth_error (ten_digits ++ small_letters) v = Some c \/ nth_error (ten_digits ++ big_letters) v = Some c.

(** The letter after a backslash and the character meant. *)
Definition escapes : list (chr * chr) :=
  [(116, 9); (110, 10); (114, 13); (34, 34); (39, 39); (92, 92); (98, 8); (102, 12)].

Definition radix_letters : list (str * N) := [(lit "bB", 2); (lit "oO", 8); (lit "xX", 16)].

(** * UTF-8 *)

Definition utf8 (c : chr) : list N :=
  if c <? 128 then [c]
  else if c <? 2048 then [192 + c / 64; 128 + c mod 64]
  else if c <? 65536 then [224 + c / 4096; 128 + (c / 64) mod 64; 128 + c mod 64]
  else [240 + c / 262144; 128 + (c / 4096) mod 64; 128 + (c / 64) mod 64; 128 + c mod 64].

Definition encoded (s : str) : list N := flat_map utf8 s.

(** A byte that does not start a character. *)
Definition continues (b : N) : Prop := 128 <= b < 192.

(** Between two characters: before a byte that starts one, or at the end. *)
Definition boundary (bs : list N) (n : nat) : Prop :=
  n = List.length bs \/ exists b, nth_error bs n = Some b /\ ~ continues b.
