(** What iterating over a list of declarations from both ends should give. *)
From Coq Require Import List.
From Verif Require Import Prelim Syntax.
Import ListNotations.

Inductive step := Front | Back.

(** Elements yielded by a mix of front and back steps over a list, together
    with the number of elements left after each. *)
Fixpoint deque {A} (ds : list A) (ss : list step) : list (option A * nat) :=
  match ss with
  | [] => []
  | Front :: ss' =>
      match ds with
      | [] => (None, 0) :: deque [] ss'
      | d :: ds' => (Some d, length ds') :: deque ds' ss'
      end
  | Back :: ss' =>
      match ds with
      | [] => (None, 0) :: deque [] ss'
      | d :: _ => (Some (last ds d), length (removelast ds)) :: deque (removelast ds) ss'
      end
  end.
