(** Observing the lexer: what it yields, and where it stands. *)
From Coq Require Import List Arith NArith Bool String.
From Verif Require Import Prelim Chars Syntax Lexer SpecLexer.
Import ListNotations.

Section WithUcd.
Context {U : ucd}.

(** [scan l ts l']: calls of [next] starting at [l] yield [ts] and lead to [l']. *)
Inductive scan : lexer -> list (token * (loc * loc)) -> lexer -> Prop :=
| sc_nil l : scan l [] l
| sc_cons l x l1 ts l2 : lx_next l = Ok (Some x, l1) -> scan l1 ts l2 -> scan l (x :: ts) l2.

(** States the parser can bring the lexer to: by [peek], [bump] and [next]. *)
Inductive reachable (src : str) : lexer -> Prop :=
| re_new : reachable src (lexer_new src)
| re_next l x l' : reachable src l -> lx_next l = Ok (x, l') -> reachable src l'
| re_peek l x l' : reachable src l -> lx_peek l = Ok (x, l') -> reachable src l'
| re_bump l : reachable src l -> reachable src (snd (lx_bump l)).

(** Those it does bring it to: it never calls [next]. *)
Inductive driven (src : str) : lexer -> Prop :=
| dr_new : driven src (lexer_new src)
| dr_peek l x l' : driven src l -> lx_peek l = Ok (x, l') -> driven src l'
| dr_bump l : driven src l -> driven src (snd (lx_bump l)).

(** The lexer stands before the text [r], with true positions. *)
Definition before (l : lexer) (r : str) : Prop :=
  exists w, lx_src l = w ++ r /\ lx_rest l = r /\ curr_loc l = loc_of w /\ no_lfcr (lx_src l).

End WithUcd.

(** A token with every position in it forgotten. *)
Definition erase (t : token) : token :=
  let z := loc_of [] in
  match t with
  | TError e =>
      TError match e with
             | EUnterminatedChar _ _ => EUnterminatedChar z z
             | EUnterminatedString _ => EUnterminatedString z
             | EUnterminatedComment _ _ => EUnterminatedComment z z
             | EInvalidPromotedInfix _ s => EInvalidPromotedInfix z s
             | EInvalidEscape c _ _ => EInvalidEscape c z z
             | EInvalidUnicode _ e => EInvalidUnicode z e
             | EInvalidInt _ e => EInvalidInt z e
             | EEmptyChar _ _ => EEmptyChar z z
             | EUnknown => EUnknown
             end
  | _ => t
  end.

(** The text [s] is how the name in the token is written. *)
Definition spells (t : token) (s : str) : Prop :=
  match t with
  | TLower x | TUpper x | TAffix x false => s = x
  | TAffix x true => s = 96%N :: x ++ [96%N] \/ s = 39%N :: x
  | _ => True
  end.

(** [covers spell w ts w']: the spans of [ts] lie one after the other between
    the end of [w] and the end of [w'], each over a text related by [spell] to
    its token; string literals (and errors) may start early. *)
Inductive covers (spell : token -> str -> Prop) (w : str) : list (token * (loc * loc)) -> str -> Prop :=
| cv_nil g : covers spell w [] (w ++ g)
| cv_cons g s t ts w' :
    spell t s -> covers spell (w ++ g ++ s) ts w' ->
    covers spell w ((t, (loc_of (w ++ g), loc_of (w ++ g ++ s))) :: ts) w'.
