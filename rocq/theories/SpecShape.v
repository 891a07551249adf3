(** What of a text matters to the parser: its tokens and which of them end
    further to the right than which.  Indentation and concatenation of texts. *)
From Coq Require Import List Arith NArith Bool.
From Verif Require Import Prelim Chars Syntax SpecLexer SpecParser.
Import ListNotations.

(** The same tokens, with columns in the same order. *)
Definition same_shape (ts us : list ptok) : Prop :=
  map fst ts = map fst us /\
  forall i j a b c d, nth_error ts i = Some a -> nth_error ts j = Some b ->
    nth_error us i = Some c -> nth_error us j = Some d -> (snd a < snd b <-> snd c < snd d).

(** Every line moved to the right by [n] columns. *)
Definition indented (n : nat) (s : str) : str :=
  repeat 32%N n ++ flat_map (fun c => if N.eqb c 10 then 10%N :: repeat 32%N n else [c]) s.

Section WithUcd.
Context {U : ucd}.

(** [within_lines w s ts]: as [ctokens], and no token spans lines. *)
Inductive within_lines (w : str) : str -> list ptok -> Prop :=
| wl_end g : gap g [] -> within_lines w g []
| wl_cons g s t v ts : gap g (s ++ v) -> lexeme s t v -> all not_lf s -> within_lines (w ++ g ++ s) v ts ->
    within_lines w (g ++ s ++ v) ((t, col_of (w ++ g ++ s)) :: ts).

(** The text ends in a newline and its last token is a semicolon. *)
Definition closed (s : str) : Prop :=
  (exists s0, s = s0 ++ [10%N]) /\ exists ts k, ctokens [] s (ts ++ [(TSemi, k)]).

End WithUcd.

(** The declarations of both programs, in order. *)
Definition both (a b c : ast) : Prop :=
  a_exprs c = a_exprs a ++ a_exprs b /\ a_infxs c = a_infxs a ++ a_infxs b /\
  a_kinds c = a_kinds a ++ a_kinds b.
