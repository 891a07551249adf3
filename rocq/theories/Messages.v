(** The texts of error messages: src/syntax/token.rs:241-433,
    src/syntax/parser.rs:26-65, src/repl/session.rs:21-89. *)
From Coq Require Import List NArith ZArith Bool String.
From Verif Require Import Prelim Chars Syntax Fixity Style Lexer Parser Printer.
Import ListNotations.
Local Open Scope N_scope.

Definition show_nat (n : nat) : str := show_N (N.of_nat n).

(** src/syntax/token.rs:36-40 *)
Definition show_loc (a : loc) : str :=
  [91] ++ show_nat (l_pos a) ++ lit "]:" ++ show_nat (l_line a) ++ [58] ++ show_nat (l_col a).

(** src/syntax/token.rs:412-433 *)
Definition int_error_text (e : interror) : str * str :=
  match e with
  | IIncomplete => (lit "no digits found after the numeric prefix ", lit " while parsing into an integer")
  | IInvalidDigit => (lit "invalid digit found in the token ", lit " while parsing into an integer")
  | IPosOverflow => (lit "the token ", lit " is too large to be correctly parsed into an integer")
  | INegOverflow => (lit "the token ", lit " is too small to be correctly parsed into an integer")
  end.

(** src/syntax/token.rs:346-365 *)
Definition show_cperror (a : loc) (e : cperror) : str :=
  match e with
  | CpEmpty => lit "expected codepoint for unicode escape at " ++ show_loc a
  | CpBadConnector c =>
      lit "invalid character `" ++ c
      :: lit "` found following unicode escape `\u`; expected `+` or hexadecimal after"
  | CpTooLong s => lit "unicode escape `" ++ s ++ lit "` is more than the maximum length of 6 hex digits"
  | CpNotInCharRange s n =>
      lit "the integer `" ++ s ++ lit "` (" ++ show_N n
      ++ lit ") is out of the range for valid character values"
  end.

(** src/syntax/token.rs:319-369.  [EmptyChar] is [todo!()]. *)
Definition show_lexerror (e : lexerror) : outcome str :=
  match e with
  | EEmptyChar _ _ => Panic PTodoEmptyChar
  | EInvalidEscape c _ _ =>
      Ok (lit "the sequence `\" ++ c :: lit "` is not a valid character escape")
  | EInvalidInt a e => let (x, y) := int_error_text e in Ok (x ++ lit "at " ++ show_loc a ++ y)
  | EInvalidPromotedInfix a s =>
      Ok (lit "invalid identifier `" ++ s ++ lit "` in operator promotion at " ++ show_loc a)
  | EUnterminatedChar a _ => Ok (lit "unterminated character literal starting at " ++ show_loc a)
  | EUnterminatedString a => Ok (lit "unterminated string literal starting at " ++ show_loc a)
  | EUnterminatedComment a _ =>
      Ok (lit "block comment starting at " ++ show_nat (l_line a) ++ [58] ++ show_nat (l_col a)
          ++ lit " was not terminated")
  | EInvalidUnicode a e => Ok (show_cperror a e)
  | EUnknown => Ok (lit "unknown lexer error")
  end.

Section WithUcd.
Context {U : ucd}.

(** src/syntax/token.rs:241-304.  A character literal given to the macro is
    shown as the character, anything else as it is written. *)
Definition show_token (t : token) : outcome str :=
  match t with
  | TParenL => Ok [40]
  | TParenR => Ok [41]
  | TBrackL => Ok [91]
  | TBrackR => Ok [93]
  | TCurlyL => Ok [123]
  | TCurlyR => Ok [125]
  | TComma => Ok [44]
  | TSemi => Ok [59]
  | TUnderscore => Ok [95]
  | TDash => Ok [45]
  | TDot => Ok [46]
  | TAt => Ok [64]
  | TLambda => Ok [92]
  | TArrow => Ok (lit "->")
  | TInfixL => Ok (lit "infixl")
  | TInfixR => Ok (lit "infixr")
  | TInfix => Ok (lit "infix")
  | TLet => Ok (lit "let")
  | TIn => Ok (lit "in")
  | TUpper s | TLower s => Ok s
  | TAffix s promoted => Ok (if promoted then 39 :: s else s)
  | TLit l => Ok (show_lit l)
  | TEof => Ok [0]
  | TError e => show_lexerror e
  end.

(** src/syntax/parser.rs:54-65 *)
Definition show_perror (e : perror) : outcome str :=
  match e with
  | Expected t a found =>
      obind (show_token t) (fun x => obind (show_token found) (fun y =>
      Ok (lit "expected `" ++ x ++ lit "`, but found `" ++ y ++ lit "` at " ++ show_loc a)))
  | Unexpected t a =>
      obind (show_token t) (fun x => Ok (lit "unexpected token `" ++ x ++ lit "` found at " ++ show_loc a))
  end.

(** src/syntax/parser.rs:26-35 *)
Definition show_perror_without_loc (e : perror) : outcome str :=
  match e with
  | Expected t _ found =>
      obind (show_token t) (fun x => obind (show_token found) (fun y =>
      Ok (lit "expected `" ++ x ++ lit "`, but found `" ++ y ++ lit "`")))
  | Unexpected t _ => obind (show_token t) (fun x => Ok (lit "unexpected token `" ++ x ++ lit "`"))
  end.

(** src/repl/session.rs:15-19 *)
Inductive repl_error :=
| ErrParser (e : perror)
| ErrResolver (es : list assoc_error).

(** src/text/style.rs:454-456 and 846-913: [fresh_suffix] shows the styled text
    and then the other, unstyled.  [styled] wraps both in a style without
    settings, which still writes the closing sequence. *)
Definition error_label : str := in_red (lit "[Error]:") ++ [32].
Definition in_blue (s : str) : str := style_display (set_fg_color (Ansi Blue) cfg_default) s.

(** src/repl/session.rs:64-89 *)
Definition show_error (e : repl_error) : outcome str :=
  obind
    match e with
    | ErrParser e => show_perror e
    | ErrResolver [e] => Ok (show_assoc_error e)
    | ErrResolver es => Ok (flat_map (fun e => [10; 32; 32] ++ show_assoc_error e) es)
    end
    (fun s => Ok (style_display cfg_default error_label ++ s)).

(** src/repl/session.rs:33-61 *)
Definition show_error_with_path (e : repl_error) (path : str) : outcome str :=
  obind
    match e with
    | ErrParser e =>
        obind (show_perror_without_loc e) (fun s =>
        Ok ([32] ++ in_blue ([40] ++ path ++ [58] ++ show_nat (l_line (error_loc e)) ++ [58]
                             ++ show_nat (l_col (error_loc e)) ++ lit ") ") ++ s))
    | ErrResolver es =>
        Ok (in_blue ([40] ++ path ++ [41]) ++ flat_map (fun e => [10; 32; 32] ++ show_assoc_error e) es)
    end
    (fun s => Ok (error_label ++ s)).

End WithUcd.
