(** When two sessions know the same, and when their answers are the same. *)
From Coq Require Import List NArith Bool String Permutation.
From Verif Require Import Prelim Syntax Fixity Repl SpecRepl SpecOutput.
Import ListNotations.
Local Open Scope string_scope.

Definition table (s : session) : list (infix * fixity) := r_fix (s_res s).

(** The same operators with the same fixities, declared in whatever order; the
    same text pending; the same file for the history. *)
Definition alike (s s' : session) : Prop :=
  (forall o f, In (o, f) (table s) <-> In (o, f) (table s')) /\
  s_buf s = s_buf s' /\ s_cont s = s_cont s' /\ s_hist s = s_hist s'.

Definition alike_status (st st' : status) : Prop :=
  match st, st' with
  | Running s, Running s' => alike s s'
  | _, _ => st = st'
  end.

(** The event asks for the listing of all fixities. *)
Definition asks_listing (s : session) (e : event) : Prop :=
  exists w l c, e = Line w l /\ reads l (Command c) /\ s_buf s = [] /\
    In c (map lit [":fixities"; ":info"; ":i"]).

(** Two listings of the same entries, perhaps in another order. *)
Definition listings (s s' : session) (a a' : action) : Prop :=
  exists m m', a = AOut (m ++ [10%N]) /\ a' = AOut (m' ++ [10%N]) /\
    lists (table s) m /\ lists (table s') m' /\ Permutation (table s) (table s').

(** Answers that agree event by event: word for word, but for the order of a
    listing. *)
Inductive answers_alike : list action -> list action -> Prop :=
| aa_nil : answers_alike [] []
| aa_same a x y : answers_alike x y -> answers_alike (a :: x) (a :: y)
| aa_listing s s' a a' x y : alike s s' -> listings s s' a a' -> answers_alike x y ->
    answers_alike (a :: x) (a' :: y).
