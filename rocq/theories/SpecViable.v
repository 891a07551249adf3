(** When a text can still become a program. *)
From Coq Require Import List NArith.
From Verif Require Import Prelim Chars Syntax Lexer SpecLexer Parser SpecParser.
Import ListNotations.

Section WithUcd.
Context {U : ucd}.

(** [leads w r ts w' r']: from the text [w] and what follows it, [r], the tokens
    [ts] lead to [w'] and [r']. *)
Inductive leads (w : str) : str -> list ptok -> str -> str -> Prop :=
| ru_nil r : leads w r [] w r
| ru_cons g s t v ts w' r' : gap g (s ++ v) -> lexeme s t v -> leads (w ++ g ++ s) v ts w' r' ->
    leads w (g ++ s ++ v) ((t, col_of (w ++ g ++ s)) :: ts) w' r'.

(** Some text after it makes it a program. *)
Definition completable (u : str) : Prop := exists z a l, parse (u ++ z) = POk a l.

End WithUcd.

(** The text ends in a character literal written as a unicode escape.  Such a
    literal takes the next character, if there is one, with it. *)
Definition escape_end (s : str) : Prop :=
  exists w u p h, (u = 117%N \/ u = 85%N) /\ (p = [] \/ p = [43%N]) /\ h <> [] /\ all hexdigit h /\
    s = w ++ [39; 92]%N ++ u :: p ++ h ++ [39%N].
