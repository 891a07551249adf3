(** What starting the program may do to the file system. *)
From Coq Require Import List NArith Bool String.
From Verif Require Import Prelim Setup.
Import ListNotations.
Local Open Scope string_scope.
Local Open Scope list_scope.

(** [under p n q]: [q] is the path of the entry [n] of the directory [p]. *)
Inductive under : str -> str -> str -> Prop :=
| un_here n : under [] n n
| un_slash p n : under (p ++ [47%N]) n (p ++ 47%N :: n)
| un_plain p c n : c <> 47%N -> under (p ++ [c]) n (p ++ c :: 47%N :: n).

(** The directory of the program, and where its history is: in it, or in the
    current directory. *)
Inductive own_dir : option str -> str -> Prop :=
| od_home h q : under h (lit ".pemdas") q -> own_dir (Some h) q.
Inductive own_file : option str -> str -> Prop :=
| of_home h q r : under h (lit ".pemdas") q -> under q (lit ".history") r -> own_file (Some h) r
| of_here home : own_file home (lit "./.history").

(** Every path below [p] is an entry of [p], or goes through an entry of [p]
    that is a directory. *)
Definition connected (d : disk) (p : str) : Prop :=
  forall q x, look d q <> None -> under p x q ->
    exists n y r, x = n ++ y /\ n <> [] /\ ~ In 47%N n /\ under p n r /\ look d r <> None /\ (y = [] \/ look d r = Some NDir).
