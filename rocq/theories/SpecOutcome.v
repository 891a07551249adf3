(** What comes next in a text, and what becomes of a whole text.  Nothing here
    refers to the lexer's or the parser's functions. *)
From Coq Require Import List Arith NArith Bool.
From Verif Require Import Prelim Chars Syntax SpecLexer SpecParser SpecViable.
Import ListNotations.

(** * The next thing in a text *)

Inductive item :=
| IEnd
| IToken (t : token)
| IMistake (e : lexerror)
| IOddName.

Section WithUcd.
Context {U : ucd}.

(** [comes w r g s i v]: in the text [r], after [w], the gap [g] is followed by
    [i], written [s], and that by [v]. *)
Inductive comes (w : str) : str -> str -> str -> item -> str -> Prop :=
| co_end g : gap g [] -> comes w g g [] IEnd []
| co_token g s t v : gap g (s ++ v) -> lexeme s t v -> comes w (g ++ s ++ v) g s (IToken t) v
| co_mistake g s e v : gap g (s ++ v) -> mistake (w ++ g) s e v -> comes w (g ++ s ++ v) g s (IMistake e) v
| co_odd g r : gap g r -> odd_name r -> comes w (g ++ r) g [] IOddName r.

(** * The outcome of parsing *)

(** [begins w ts]: some text after [w], read as the tokens [ts], makes it a
    program. *)
Definition begins (w : str) (ts : list ptok) : Prop :=
  exists v us ds, no_lfcr (w ++ v) /\ leads [] (w ++ v) ts w v /\ ctokens w v us /\ program Nat.ltb (ts ++ us) ds.

(** The number after a fixity keyword that is too large for a precedence. *)
Definition bad_prec (ts : list ptok) (t : token) : Prop :=
  exists us k kw a n, ts = us ++ [(kw, k)] /\ associativity kw a /\ t = TLit (LInt n) /\ (9 < n)%N.

Inductive verdict :=
| Accepts (a : ast)
| Blames (t : token)      (* a syntax error that mentions [t] as what was found *)
| Dies (p : panic).

(** [judged src x]: read from left to right, [src] is a program, or stops being
    the beginning of one. *)
Inductive judged (src : str) : verdict -> Prop :=
| ju_program ts ds : ctokens [] src ts -> program Nat.ltb ts ds ->
    judged src (Accepts (fold_left ast_push ds ast_empty))
| ju_end ts w r : leads [] src ts w r -> gap r [] -> begins w ts ->
    (forall ds, ~ program Nat.ltb ts ds) -> judged src (Blames TEof)
| ju_token ts w r g s t v : leads [] src ts w r -> comes w r g s (IToken t) v -> begins w ts ->
    ~ begins (w ++ g ++ s) (ts ++ [(t, col_of (w ++ g ++ s))]) -> ~ bad_prec ts t -> judged src (Blames t)
| ju_prec ts w r g s t v : leads [] src ts w r -> comes w r g s (IToken t) v -> begins w ts ->
    bad_prec ts t -> judged src (Dies PTodoPrec)
| ju_mistake ts w r g s e v : leads [] src ts w r -> comes w r g s (IMistake e) v -> begins w ts ->
    judged src (Blames (TError e))
| ju_name ts w r g s v : leads [] src ts w r -> comes w r g s IOddName v -> begins w ts ->
    judged src (Dies PIdentStart).

End WithUcd.
