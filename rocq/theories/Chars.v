(** Character classification: Rust [char] methods and src/text/grapheme.rs. *)
From Coq Require Import List NArith Bool String.
From Verif Require Import Prelim.
Import ListNotations.
Local Open Scope N_scope.

(** The parts of the Unicode character database that Rust's [char] methods
    consult for characters above U+007F.  The model leaves them arbitrary: all
    theorems hold for every such table. *)
Class ucd := {
  u_lower : chr -> bool;      (* Lowercase *)
  u_upper : chr -> bool;      (* Uppercase *)
  u_alpha : chr -> bool;      (* Alphabetic *)
  u_numeric : chr -> bool;    (* General_Category N* *)
  u_printable : chr -> bool;  (* core::unicode::printable *)
  u_grext : chr -> bool       (* Grapheme_Extend *)
}.

(** A table without any extra property, for examples. *)
Definition ucd_none : ucd :=
  {| u_lower := fun _ => false; u_upper := fun _ => false;
     u_alpha := fun _ => false; u_numeric := fun _ => false;
     u_printable := fun _ => true; u_grext := fun _ => false |}.

Definition between (lo c hi : N) : bool := (lo <=? c) && (c <=? hi).

Definition ascii_lower (c : chr) : bool := between 97 c 122.
Definition ascii_upper (c : chr) : bool := between 65 c 90.
Definition ascii_digit (c : chr) : bool := between 48 c 57.

(** [char::is_whitespace]: the complete Unicode [White_Space] list. *)
Definition is_white (c : chr) : bool :=
  between 9 c 13 || (c =? 32) || (c =? 133) || (c =? 160) || (c =? 5760)
  || between 8192 c 8202 || (c =? 8232) || (c =? 8233) || (c =? 8239)
  || (c =? 8287) || (c =? 12288).

(** [char::is_ascii_hexdigit], used at src/syntax/lexer.rs:277. *)
Definition is_hex (c : chr) : bool :=
  ascii_digit c || between 97 c 102 || between 65 c 70.

Section WithUcd.
Context {U : ucd}.

(** [char::is_lowercase], [is_uppercase], [is_alphabetic], [is_numeric],
    [is_alphanumeric] of the Rust standard library. *)
Definition is_lower (c : chr) : bool := if c <? 128 then ascii_lower c else u_lower c.
Definition is_upper (c : chr) : bool := if c <? 128 then ascii_upper c else u_upper c.
Definition is_alpha (c : chr) : bool :=
  if c <? 128 then ascii_lower c || ascii_upper c else u_alpha c.
Definition is_numeric (c : chr) : bool := if c <? 128 then ascii_digit c else u_numeric c.
Definition is_alnum (c : chr) : bool := is_alpha c || is_numeric c.

(** src/text/grapheme.rs:168-170 *)
Definition has_case (c : chr) : bool := is_upper c || is_lower c.

(** src/text/grapheme.rs:137-139 *)
Definition is_ident_start (c : chr) : bool := (c =? 95) || has_case c.

(** src/text/grapheme.rs:150-152 *)
Definition is_ident_start_ext (c : chr) : bool := (c =? 95) || is_alpha c.

(** src/text/grapheme.rs:178-180 *)
Definition is_ident_char (c : chr) : bool := is_alnum c || (c =? 95) || (c =? 39).

End WithUcd.

(** src/text/grapheme.rs:184-207: one of [~!@#$%^&*-+=<>/\:|?.] *)
Definition is_infix_char (c : chr) : bool :=
  existsb (N.eqb c) [126; 33; 64; 35; 36; 37; 94; 38; 42; 45; 43; 61; 60; 62; 47; 92;
                     58; 124; 63; 46].

(** src/text/grapheme.rs:210-227: subscript digits, parentheses, plus, minus *)
Definition is_subscript (c : chr) : bool :=
  between 8320 c 8329 || (c =? 8333) || (c =? 8334) || (c =? 8330) || (c =? 8331).

(** src/text/grapheme.rs:230-247 *)
Definition is_superscript (c : chr) : bool :=
  (c =? 8304) || (c =? 185) || (c =? 178) || (c =? 179) || between 8308 c 8313
  || (c =? 8317) || (c =? 8318) || (c =? 8314) || (c =? 8315).

(** src/text/grapheme.rs:252-254 *)
Definition is_trailing (c : chr) : bool := is_subscript c || is_superscript c.

(** src/text/grapheme.rs:256-268 *)
Definition get_escaped (c : chr) : chr :=
  if c =? 116 then 9
  else if c =? 110 then 10
  else if c =? 114 then 13
  else if c =? 34 then 34
  else if c =? 39 then 39
  else if c =? 92 then 92
  else if c =? 98 then 8
  else if c =? 102 then 12
  else c.

(** src/text/grapheme.rs:270-272 *)
Definition is_escapable (c : chr) : bool :=
  existsb (N.eqb c) [116; 110; 114; 34; 39; 92; 98; 102].

(** src/text/grapheme.rs:131-133; [char::is_digit(radix)] for radix 2..36 is
    modelled by [digit_in]. *)
Definition digit_in (radix : N) (c : chr) : bool :=
  if ascii_digit c then c - 48 <? radix
  else if ascii_lower c then c - 87 <? radix
  else if ascii_upper c then c - 55 <? radix
  else false.

Definition is_num_char (radix : N) (c : chr) (first : bool) : bool :=
  digit_in radix c || (negb first && (c =? 95)).
