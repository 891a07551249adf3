(** Comparing and naming small things: [Char] with [char], text formats with
    bytes, and the texts that [Debug] and [Display] give symbols and colours. *)
From Coq Require Import List Arith NArith Bool String.
From Verif Require Import Prelim Chars Style Printer.
Import ListNotations.
Local Open Scope N_scope.

(** * [Char], src/syntax/token.rs:434-440; [None] is [Char::Eof]. *)

(** src/syntax/token.rs:442-451 *)
Definition char_deref (c : option chr) : chr := match c with None => 0 | Some c => c end.

(** src/syntax/token.rs:453-457 *)
Definition char_eq (c : option chr) (d : chr) : bool := char_deref c =? d.
(** src/syntax/token.rs:459-463 *)
Definition eq_char (c : chr) (d : option chr) : bool := c =? char_deref d.
(** src/syntax/token.rs:465-469 *)
Definition char_eq_ref (c : option chr) (d : chr) : bool := char_deref c =? d.
(** src/syntax/token.rs:471-475 *)
Definition ref_eq_char (c : chr) (d : option chr) : bool := c =? char_deref d.
(** Derived [PartialEq], src/syntax/token.rs:435. *)
Definition char_eqb (c d : option chr) : bool :=
  match c, d with
  | None, None => true
  | Some a, Some b => a =? b
  | _, _ => false
  end.
(** src/syntax/token.rs:477-485 *)
Definition char_from (o : option chr) : option chr := match o with Some c => Some c | None => None end.
(** src/syntax/token.rs:488-490 *)
Definition char_is_eof (c : option chr) : bool := match c with None => true | Some _ => false end.
(** src/syntax/token.rs:492-499 *)
Definition char_len (c : option chr) : nat := len_utf8 (match c with None => 0 | Some c => c end).

(** * Formats *)

(** src/text/style.rs:35-37 *)
Definition format_eq_byte (f : format) (b : N) : bool := format_code f =? b.
(** src/text/style.rs:41-43 *)
Definition byte_eq_format (b : N) (f : format) : bool := b =? format_code f.
(** src/text/style.rs:51-55 with the discriminants of 254-299: [stringify!]. *)
Definition format_str (f : format) : str :=
  lit match f with
      | FReset => "0" | FBold => "1" | FDim => "2" | FItalic => "3" | FUnderlined => "4"
      | FBlinking => "5" | FInverted => "7" | FHidden => "8" | FStrikethrough => "9"
      end%string.

(** src/text/style.rs:74-135: each format has a struct without fields of the same
    name, here the format itself.  [as_byte], [as_str], [deref] and the comparisons
    with bytes (112-122) and with formats (124-134). *)
Definition unit_byte (v : format) : N := format_code v.
Definition unit_str (v : format) : str := format_str v.
Definition unit_deref (v : format) : format := v.
Definition unit_eq_byte (v : format) (b : N) : bool := b =? unit_byte v.
Definition unit_eq_format (v f : format) : bool :=
  match v, f with
  | FReset, FReset | FBold, FBold | FDim, FDim | FItalic, FItalic | FUnderlined, FUnderlined
  | FBlinking, FBlinking | FInverted, FInverted | FHidden, FHidden | FStrikethrough, FStrikethrough => true
  | _, _ => false
  end.

(** * Texts *)

(** src/text/color.rs:300-307 *)
Definition show_color (c : color) : str := match c with Ansi a => ansi_str a | Rgb c => show_rgb c end.

Section WithUcd.
Context {U : ucd}.
(** [Debug for Symbol], src/text/symbol.rs:105-109; a symbol is its number, with
    the text the interner has for it. *)
Definition debug_symbol (n : N) (s : str) : str :=
  lit "Symbol(" ++ show_N n ++ lit ")(" ++ debug_str s ++ lit ")".

(** [Debug for DebugSymbol], src/text/symbol.rs:93-97.  Simplification: not with
    the flag [#], which breaks the line. *)
Definition debug_debug_symbol (n : N) (s : str) : str := lit "Symbol(" ++ debug_symbol n s ++ lit ")".

(** [Display], src/text/symbol.rs:99-103 and 111-115.  Simplification: without width
    and precision. *)
Definition show_symbol (n : N) (s : str) : str := s.
End WithUcd.
