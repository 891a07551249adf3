(** The lines that stop the program by a panic. *)
From Coq Require Import List Arith NArith Bool.
From Verif Require Import Prelim Chars Syntax Repl SpecLexer SpecParser SpecViable SpecOutcome SpecRepl.
Import ListNotations.

Section WithUcd.
Context {U : ucd}.

(** A text that cannot be evaluated: the first thing that is wrong with it is a
    name in neither case, a precedence above 9, or an empty character literal
    (the message about which does not exist). *)
Definition deadly (t : str) (p : panic) : Prop :=
  judged t (Dies p) \/ (p = PTodoEmptyChar /\ exists a b, judged t (Blames (TError (EEmptyChar a b)))).

(** [loads w c k t]: the [k]-th file named by the command [c] can be read, and
    [t] is the text taken from it. *)
Definition loads (w : world) (c : str) (k : nat) (t : str) : Prop :=
  exists q x, asks_for c k q /\ w_read w k q = inl x /\ loaded_text q x t.

(** Events that stop a session with the pending text [b]. *)
Inductive stopper (b : str) : event -> panic -> Prop :=
| st_say w l x p : reads l (Say x) -> deadly (b ++ x) p -> stopper b (Line w l) p
| st_load w l c k t p : b = [] -> reads l (Command c) -> loads w c k t -> deadly t p ->
    (forall j u q, j < k -> loads w c j u -> ~ deadly u q) -> stopper b (Line w l) p.

End WithUcd.
