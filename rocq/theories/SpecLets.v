(** Declarations as lets around an expression (C106). *)
From Coq Require Import List.
From Verif Require Import Prelim Syntax.
Import ListNotations.

(** [e] inside a let for each of [ds], the first outermost. *)
Definition in_lets (ds : list infix_decl) (e : expr) : expr := fold_right Let e ds.

(** No operator is listed twice. *)
Definition lists_once (d : infix_decl) : Prop := NoDup (map symbol (d_infixes d)).
