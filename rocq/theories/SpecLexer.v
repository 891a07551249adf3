(** What the lexer should do, stated on texts: positions and the lexical
    grammar.  Nothing here refers to the lexer's state or functions; the
    primitives are Rust's character classes ([is_lower], [is_upper],
    [is_alnum], [is_white]) and the interpretation of digits. *)
From Coq Require Import List Arith NArith Bool String.
From Verif Require Import Prelim Chars Syntax.
Import ListNotations.

(** * Positions *)

Fixpoint take_while (f : chr -> bool) (s : str) : str :=
  match s with
  | [] => []
  | c :: s' => if f c then c :: take_while f s' else []
  end.

Definition not_lf (c : chr) : bool := negb (N.eqb c 10).

(** Line, column and byte offset after the text [w]. *)
Definition line_of (w : str) : nat := 1 + count_occ N.eq_dec w 10%N.
Definition col_of (w : str) : nat := 1 + List.length (take_while not_lf (rev w)).
Definition loc_of (w : str) : loc := mkLoc (line_of w) (col_of w) (blen w).

(** No newline is directly followed by a carriage return. *)
Definition no_lfcr (s : str) : Prop := forall a b, s <> a ++ [10; 13]%N ++ b.

(** The text without the carriage returns directly after a newline. *)
Fixpoint strip (s : str) : str :=
  match s with
  | [] => []
  | c :: s' =>
      c :: match s' with
           | [] => []
           | d :: s'' => if N.eqb c 10 && N.eqb d 13 then strip s'' else strip s'
           end
  end.

(** * Character classes *)

Definition all (f : chr -> bool) (s : str) : Prop := Forall (fun c => f c = true) s.

(** The text does not start with such a character. *)
Definition stops (f : chr -> bool) (s : str) : Prop :=
  match s with [] => True | c :: _ => f c = false end.

Definition mem (s : str) (c : chr) : bool := existsb (N.eqb c) s.

Definition op_char : chr -> bool := mem (lit "~!@#$%^&*-+=<>/\:|?.").
(** superscripts 0-9 ( ) + -, then subscripts 0-9 ( ) + - *)
Definition script : chr -> bool :=
  mem [8304; 185; 178; 179; 8308; 8309; 8310; 8311; 8312; 8313; 8317; 8318; 8314; 8315;
       8320; 8321; 8322; 8323; 8324; 8325; 8326; 8327; 8328; 8329; 8333; 8334; 8330; 8331]%N.
Definition digit : chr -> bool := mem (lit "0123456789").
Definition hexdigit : chr -> bool := mem (lit "0123456789abcdefABCDEF").

Section WithUcd.
Context {U : ucd}.
Definition word_start (c : chr) : bool := N.eqb c 95 || is_upper c || is_lower c.
Definition word_char (c : chr) : bool := is_alnum c || N.eqb c 95 || N.eqb c 39.
End WithUcd.

(** Facts of Unicode that the model has to assume of its otherwise arbitrary
    character table: cased characters are alphabetic (Alphabetic includes
    Lowercase and Uppercase by definition), alphabetic and numeric characters are
    not white space, and no character is both lowercase and uppercase. *)
Definition letters (U : ucd) : Prop :=
  forall c,
    (u_lower c = true \/ u_upper c = true -> u_alpha c = true) /\
    (u_alpha c = true \/ u_numeric c = true -> is_white c = false) /\
    (u_lower c = true -> u_upper c = false).

(** * Numbers *)

Definition digit_value (c : chr) : N :=
  (if digit c then c - 48 else if N.leb 97 c then c - 87 else c - 55)%N.

Definition value (radix : N) (s : str) : N :=
  fold_left (fun acc c => acc * radix + digit_value c)%N s 0%N.

Definition scalar (n : N) : Prop := (n < 55296 \/ 57344 <= n < 1114112)%N.

(** * Words, symbols, escapes *)

Definition reserved : list (str * token) :=
  [(lit "_", TUnderscore); (lit "infixl", TInfixL); (lit "infixr", TInfixR);
   (lit "infix", TInfix); (lit "let", TLet); (lit "in", TIn)].

Definition symbols : list (str * token) :=
  [(lit "\", TLambda); (lit "-", TDash); (lit "->", TArrow); (lit "@", TAt)].

Definition puncts : list (chr * token) :=
  [(40%N, TParenL); (41%N, TParenR); (91%N, TBrackL); (93%N, TBrackR);
   (123%N, TCurlyL); (125%N, TCurlyR); (44%N, TComma); (59%N, TSemi)].

(** character after the backslash, character denoted: t, n, r, double quote,
    apostrophe, backslash, b, f *)
Definition escapes : list (chr * chr) :=
  [(116, 9); (110, 10); (114, 13); (34, 34); (39, 39); (92, 92); (98, 8); (102, 12)]%N.

Definition escapable (c : chr) : Prop := exists d, In (c, d) escapes.

(** [contents b s]: what stands between the quotes of a string literal, and
    the string it denotes. *)
Inductive contents : str -> str -> Prop :=
| co_nil : contents [] []
| co_char c b s : c <> 34%N -> c <> 92%N -> contents b s -> contents (c :: b) (c :: s)
| co_escape e d b s : In (e, d) escapes -> contents b s -> contents (92%N :: e :: b) (d :: s)
| co_other c b s : ~ escapable c -> c <> 10%N -> contents b s ->
    contents (92%N :: c :: b) (c :: s)
| co_continue w b s : all is_white w -> stops is_white b -> contents b s ->
    contents (92%N :: 10%N :: w ++ b) s.

(** * Comments *)

(** [closes d s]: [s] is a text that, started at nesting depth [d], closes all
    [d] open comments exactly at its end.  Marks are read left to right. *)
Inductive closes : nat -> str -> Prop :=
| cl_done : closes 0 []
| cl_close d s : closes d s -> closes (S d) (125%N :: 126%N :: s)
| cl_open d s : closes (S (S d)) s -> closes (S d) (126%N :: 123%N :: s)
| cl_other d c s : closes (S d) s ->
    (c = 125%N -> stops (N.eqb 126%N) s) -> (c = 126%N -> stops (N.eqb 123%N) s) ->
    closes (S d) (c :: s).

Section WithUcd.
Context {U : ucd}.

(** [gap g v]: the text [g], followed by [v], is skipped between tokens.  A
    block comment takes the character after its closing mark with it. *)
Inductive gap : str -> str -> Prop :=
| gap_nil v : gap [] v
| gap_white c g v : is_white c = true -> gap g v -> gap (c :: g) v
| gap_line b g v : all not_lf b -> stops not_lf (g ++ v) ->
    stops op_char (b ++ g ++ v) -> stops script (b ++ g ++ v) ->
    gap g v -> gap (126%N :: 126%N :: b ++ g) v
| gap_block b x g v : closes 1 b -> List.length x <= 1 -> (x = [] -> g ++ v = []) ->
    gap g v -> gap (126%N :: 123%N :: b ++ x ++ g) v.

(** [lexeme s t v]: the text [s], followed by [v], is read as the token [t]. *)
Inductive lexeme : str -> token -> str -> Prop :=
| le_punct c t v : In (c, t) puncts -> lexeme [c] t v
| le_reserved s t v : In (s, t) reserved -> stops word_char v -> stops script v ->
    lexeme s t v
| le_name c u s v :
    is_lower c = true -> is_upper c = false ->
    all word_char (c :: u) -> all script s -> stops word_char (s ++ v) -> stops script v ->
    ~ In (c :: u ++ s) (map fst reserved) ->
    lexeme (c :: u ++ s) (TLower (c :: u ++ s)) v
| le_int s v : s <> [] -> all digit s -> stops digit v -> (value 10 s < 2 ^ 64)%N ->
    lexeme s (TLit (LInt (value 10 s))) v
| le_string b s v : contents b s -> lexeme (34%N :: b ++ [34%N]) (TLit (LStr s)) v
| le_char c v : c <> 39%N -> c <> 92%N -> c <> 0%N ->
    lexeme [39%N; c; 39%N] (TLit (LChar c)) v
| le_escape e d v : In (e, d) escapes -> lexeme [39%N; 92%N; e; 39%N] (TLit (LChar d)) v
(** A unicode escape takes the character after its closing quote with it. *)
| le_unicode u p h x v :
    u = 117%N \/ u = 85%N -> p = [] \/ p = [43%N] ->
    h <> [] -> all hexdigit h -> List.length h <= 6 -> scalar (value 16 h) ->
    List.length x <= 1 -> (x = [] -> v = []) ->
    lexeme (39%N :: 92%N :: u :: p ++ h ++ 39%N :: x) (TLit (LChar (value 16 h))) v
| le_backquoted c u s v :
    word_start c = true -> all word_char u -> stops word_char s -> all script s ->
    lexeme (96%N :: c :: u ++ s ++ [96%N]) (TAffix (c :: u ++ s) true) v
| le_quoted c u s v :
    word_start c = true -> all word_char u -> all script s ->
    stops word_char (s ++ v) -> stops script v ->
    stops (N.eqb 39%N) (u ++ s ++ v) -> stops is_white (u ++ s ++ v) ->
    lexeme (39%N :: c :: u ++ s) (TAffix (c :: u ++ s) true) v
(** An apostrophe, any character and white space: the white space becomes part
    of the operator's name. *)
| le_quoted_white c d v : c <> 39%N -> c <> 92%N -> c <> 0%N -> is_white d = true ->
    lexeme [39%N; c; d] (TAffix [c; d] true) v
| le_symbol s t v : In (s, t) symbols -> stops op_char v -> stops script v -> lexeme s t v
| le_op u s v :
    u <> [] -> all op_char u -> all script s -> stops op_char (s ++ v) -> stops script v ->
    ~ In (u ++ s) (map fst symbols) -> u ++ s <> lit "~~" ->
    (u ++ s = lit "~" -> stops (N.eqb 123%N) v) ->
    lexeme (u ++ s) (TAffix (u ++ s) false) v.

(** * Mistakes *)

(** [unclosed b]: no string literal ends within [b]. *)
Definition unclosed (b : str) : Prop := forall b1 s b2, b = b1 ++ 34%N :: b2 -> ~ contents b1 s.

(** [unclosed_comment b]: a comment opened before [b] does not close in it. *)
Definition unclosed_comment (b : str) : Prop := forall b1 b2, b = b1 ++ b2 -> ~ closes 1 b1.

(** The text up to, but without, the next [q], and that [q] if it is there. *)
Definition upto (q : chr) (b x v : str) : Prop :=
  all (fun c => negb (N.eqb c q)) b /\ (x = [q] \/ x = [] /\ v = []).

(** [mistake w s e v]: the text [s], after [w] and before [v], is the error
    [e].  Positions in [e] are those of [w] plus some part of [s]. *)
Inductive mistake (w : str) : str -> lexerror -> str -> Prop :=
| mi_unknown c v : word_start c = false -> op_char c = false -> digit c = false ->
    is_white c = false -> ~ In c (map fst puncts) -> c <> 39%N -> c <> 34%N -> c <> 96%N ->
    mistake w [] EUnknown (c :: v)
| mi_int s v : s <> [] -> all digit s -> stops digit v -> (2 ^ 64 <= value 10 s)%N ->
    mistake w s (EInvalidInt (loc_of w) IPosOverflow) v
| mi_string b : unclosed b -> mistake w (34%N :: b) (EUnterminatedString (loc_of w)) []
| mi_comment b : unclosed_comment b ->
    mistake w (126%N :: 123%N :: b) (EUnterminatedComment (loc_of w) (loc_of w)) []
| mi_backquoted c u s v :
    word_start c = true -> all word_char u -> all script s ->
    stops word_char (s ++ v) -> stops script v -> stops (N.eqb 96%N) v ->
    mistake w (96%N :: c :: u ++ s) (EInvalidPromotedInfix (loc_of (w ++ [96%N])) (c :: u ++ s)) v
| mi_backquote b x v : upto 96%N b x v -> stops word_start (b ++ x ++ v) ->
    mistake w (96%N :: b ++ x) (EInvalidPromotedInfix (loc_of (w ++ [96%N])) b) v
| mi_empty v : mistake w [39%N; 39%N] (EEmptyChar (loc_of w) (loc_of w)) v
| mi_quote v : stops (fun c => negb (N.eqb c 0)) v ->
    mistake w [39%N] (EUnterminatedChar (loc_of w) (loc_of w)) v
| mi_char c b v : c <> 39%N -> c <> 92%N -> c <> 0%N -> word_start c = false ->
    all (fun c => is_alnum c || N.eqb c 95) b -> stops (fun c => is_alnum c || N.eqb c 95) v ->
    stops (N.eqb 39%N) (b ++ v) -> stops is_white (b ++ v) ->
    mistake w (39%N :: c :: b) (EUnterminatedChar (loc_of w) (loc_of w)) v
| mi_escape_end : mistake w [39%N; 92%N] (EUnterminatedChar (loc_of w) (loc_of w)) []
| mi_escape_long e b x v : escapable e -> upto 39%N b x v -> (b = [] -> x = []) ->
    mistake w (39%N :: 92%N :: e :: b ++ x) (EUnterminatedChar (loc_of w) (loc_of w)) v
| mi_escape c b x v : ~ escapable c -> c <> 117%N -> c <> 85%N -> upto 39%N b x v ->
    mistake w (39%N :: 92%N :: c :: b ++ x) (EInvalidEscape c (loc_of w) (loc_of w)) v
| mi_connector u p b c v : u = 117%N \/ u = 85%N -> p = [] \/ p = [43%N] ->
    (p = [] -> stops (N.eqb 43) (b ++ v)) ->
    all (fun c => negb (N.eqb c 39)) b -> stops (fun c => negb (N.eqb c 39)) v ->
    c = match b ++ v with [] => 0%N | c :: _ => c end -> hexdigit c = false ->
    mistake w (39%N :: 92%N :: u :: p ++ b)
      (EInvalidUnicode (loc_of (w ++ 39%N :: 92%N :: u :: p)) (CpBadConnector c)) v
| mi_hex_open u p h b v : u = 117%N \/ u = 85%N -> p = [] \/ p = [43%N] ->
    h <> [] -> all hexdigit h -> stops hexdigit (b ++ v) -> stops (N.eqb 39%N) (b ++ v) ->
    all (fun c => negb (N.eqb c 39)) b -> stops (fun c => negb (N.eqb c 39)) v ->
    mistake w (39%N :: 92%N :: u :: p ++ h ++ b)
      (EUnterminatedChar (loc_of w) (loc_of (w ++ 39%N :: 92%N :: u :: p ++ h ++ b))) v
| mi_hex_long u p h v : u = 117%N \/ u = 85%N -> p = [] \/ p = [43%N] ->
    all hexdigit h -> 6 < List.length h ->
    mistake w (39%N :: 92%N :: u :: p ++ h ++ [39%N])
      (EInvalidUnicode (loc_of (w ++ 39%N :: 92%N :: u :: p)) (CpTooLong h)) v
| mi_hex_range u p h x v : u = 117%N \/ u = 85%N -> p = [] \/ p = [43%N] ->
    h <> [] -> all hexdigit h -> List.length h <= 6 -> ~ scalar (value 16 h) ->
    List.length x <= 1 -> (x = [] -> v = []) ->
    mistake w (39%N :: 92%N :: u :: p ++ h ++ 39%N :: x)
      (EInvalidUnicode (loc_of (w ++ 39%N :: 92%N :: u :: p)) (CpNotInCharRange h (value 16 h))) v.

(** An identifier starting with an uppercase letter, or with an underscore but
    longer than that. *)
Definition odd_name (r : str) : Prop :=
  exists c v, r = c :: v /\ word_start c = true /\ is_lower c = false /\
              (c = 95%N -> ~ (stops word_char v /\ stops script v)).

(** [tokens s ts]: the whole text [s] is the token sequence [ts]. *)
Inductive tokens : str -> list token -> Prop :=
| tk_end g : gap g [] -> tokens g []
| tk_cons g s t v ts : gap g (s ++ v) -> lexeme s t v -> tokens v ts ->
    tokens (g ++ s ++ v) (t :: ts).

End WithUcd.
