(** Texts made of bytes: src/text/grapheme.rs:274-335 ([bytestring],
    [charstring], [combine_chars]), src/syntax/token.rs:501-509
    ([Char::as_str]), src/syntax/ast.rs:323-338 ([Ident::as_str]). *)
From Coq Require Import List Arith NArith Bool String.
From Verif Require Import Prelim Syntax.
Import ListNotations.
Open Scope N_scope.

(** How a call ends: with a value, with the panic of a slice or of
    [encode_utf8] for want of room, or with the panic of [todo!]. *)
Inductive ending (A : Type) := Ends (a : A) | NoRoom | Unwritten.
Arguments Ends {A} a.
Arguments NoRoom {A}.
Arguments Unwritten {A}.

(** A [&str] as the caller receives it: the bytes it points at, and whether the
    memory still belongs to somebody.  [Kept] is a literal or a borrow of the
    argument.  [Freed] points into a vector that the callee has dropped on
    return, the lifetime having been made up by [transmute]. *)
Inductive view := Kept (bs : list N) | Freed (bs : list N).

(** Reading through it.  No memory is read for an empty slice; reading freed
    memory is undefined, here [None]. *)
Definition read (v : view) : option (list N) :=
  match v with
  | Kept bs => Some bs
  | Freed [] => Some []
  | Freed (_ :: _) => None
  end.

(** [char::encode_utf8] of the standard library: the bytes written, with its
    shifts and masks. *)
Definition encode (c : chr) : list N :=
  let tail n := N.lor (N.land (N.shiftr c n) 63) 128 in
  if c <? 128 then [c]
  else if c <? 2048 then [N.lor (N.land (N.shiftr c 6) 31) 192; tail 0]
  else if c <? 65536 then [N.lor (N.land (N.shiftr c 12) 15) 224; tail 6; tail 0]
  else [N.lor (N.land (N.shiftr c 18) 7) 240; tail 12; tail 6; tail 0].

(** [c.encode_utf8(&mut buf[i..i + n])]: the slice panics when it does not lie
    in the buffer, [encode_utf8] when the slice is too small for [c]. *)
Definition encode_at (c : chr) (buf : list N) (i n : nat) : ending (list N) :=
  if Nat.ltb (List.length buf) (i + n) then NoRoom
  else if Nat.ltb n (len_utf8 c) then NoRoom
  else Ends (firstn i buf ++ encode c ++ skipn (i + len_utf8 c) buf)%list.

(** src/text/grapheme.rs:296-300 and 327-331: the loop over the characters. *)
Fixpoint fill (cs : list chr) (buf : list N) (i : nat) : ending (list N) :=
  match cs with
  | [] => Ends buf
  | c :: r => match encode_at c buf i (len_utf8 c) with
              | Ends buf' => fill r buf' (i + len_utf8 c)
              | NoRoom => NoRoom
              | Unwritten => Unwritten
              end
  end.

(** src/text/grapheme.rs:290-294: the fold; the characters are pushed at the
    end of a vector while their lengths are added.  The addition does not
    overflow: the characters are all in memory. *)
Definition gather (cs : list chr) : nat * list chr :=
  fold_left (fun '(len, v) c => ((len + len_utf8 c)%nat, (v ++ [c])%list)) cs (0%nat, []).

(** The buffer made of a vector of characters. *)
Definition packed (cs : list chr) : ending (list N) :=
  let '(len, v) := gather cs in fill v (repeat 0 len) 0.

Definition escaping (o : ending (list N)) : ending view :=
  match o with Ends bs => Ends (Freed bs) | NoRoom => NoRoom | Unwritten => Unwritten end.

(** src/text/grapheme.rs:285-304; the iterator is the list of what it yields. *)
Definition charstring (cs : list chr) : ending view := escaping (packed cs).

(** src/text/grapheme.rs:306-335; [size_hint] only serves the capacity. *)
Definition combine_chars (pre cs post : list chr) : ending view :=
  escaping (packed (pre ++ cs ++ post)).

(** src/syntax/token.rs:501-509; [None] is [Char::Eof].  The vector is made of
    the length of the character and all of it is handed to [encode_utf8]. *)
Definition char_as_str (c : option chr) : ending view :=
  match c with
  | None => Ends (Kept [])
  | Some c => escaping (encode_at c (repeat 0 (len_utf8 c)) 0 (len_utf8 c))
  end.

(** [c.encode_utf8(&mut buf)], if the statements before did not panic. *)
Definition put (c : chr) (o : ending (list N)) : ending (list N) :=
  match o with Ends buf => encode_at c buf 0 (List.length buf) | NoRoom => NoRoom | Unwritten => Unwritten end.

(** src/syntax/ast.rs:323-338.  [vec![]] has no byte, so there is no room for
    the first parenthesis. *)
Definition ident_as_str (i : ident) : ending view :=
  match i with
  | INil => Ends (Kept [91; 93])
  | ICommas k => escaping (put 41 (Nat.iter k (put 44) (put 40 (Ends []))))
  | IUpper _ | ILower _ | IInfix _ => Unwritten
  end.

(** * [std::str::from_utf8] *)

(** The validation of the standard library (core::str::validations), which
    decides on the first byte how many follow and narrows the second one for
    the first bytes that could start an overlong form, a surrogate or a number
    beyond the last character; and the character read. *)
Definition cont (b : N) : bool := (128 <=? b) && (b <? 192).

Definition second (b b1 : N) : bool :=
  if b =? 224 then (160 <=? b1) && (b1 <? 192)
  else if b =? 237 then (128 <=? b1) && (b1 <? 160)
  else if b =? 240 then (144 <=? b1) && (b1 <? 192)
  else if b =? 244 then (128 <=? b1) && (b1 <? 144)
  else cont b1.

Fixpoint from_utf8 (bs : list N) : option str :=
  match bs with
  | [] => Some []
  | b :: r =>
      if b <? 128 then option_map (cons b) (from_utf8 r)
      else if (194 <=? b) && (b <? 224) then
        match r with
        | b1 :: r1 => if cont b1 then option_map (cons ((b - 192) * 64 + (b1 - 128))) (from_utf8 r1) else None
        | _ => None
        end
      else if (224 <=? b) && (b <? 240) then
        match r with
        | b1 :: b2 :: r2 =>
            if second b b1 && cont b2
            then option_map (cons ((b - 224) * 4096 + (b1 - 128) * 64 + (b2 - 128))) (from_utf8 r2) else None
        | _ => None
        end
      else if (240 <=? b) && (b <? 245) then
        match r with
        | b1 :: b2 :: b3 :: r3 =>
            if second b b1 && cont b2 && cont b3
            then option_map (cons ((b - 240) * 262144 + (b1 - 128) * 4096 + (b2 - 128) * 64 + (b3 - 128)))
                   (from_utf8 r3) else None
        | _ => None
        end
      else None
  end.

(** src/text/grapheme.rs:276-283: the bytes themselves, seen as text. *)
Definition bytestring (bs : list N) : option view :=
  match from_utf8 bs with Some _ => Some (Kept bs) | None => None end.
