(** The rest of the parser's public entry points: src/syntax/parser.rs:37-52
    and 136-163. *)
From Coq Require Import List Arith NArith String.
From Verif Require Import Prelim Chars Syntax Lexer Parser Messages.
Import ListNotations.

Section WithUcd.
Context {U : ucd}.

(** src/syntax/parser.rs:154-163.  The program behind [&mut Ast] is returned
    whatever the outcome: on an error it keeps what was pushed before.  The
    inner test for [Eof] repeats the one of [is_done].  Each round reads a
    token, so there is fuel for every round. *)
Fixpoint into_f (n : nat) (a : ast) (l : lexer) : ast * parsed unit :=
  match is_done l with
  | POk true l1 => (a, POk tt l1)
  | POk false l1 =>
      match n with
      | 0 => (a, PFuel)
      | S n' =>
          match p_decl l1 with
          | POk d l2 =>
              match ignore TSemi l2 with
              | POk _ l3 => into_f n' (ast_push a d) l3
              | PErr e l3 => (ast_push a d, PErr e l3)
              | PPanic p => (ast_push a d, PPanic p)
              | PFuel => (ast_push a d, PFuel)
              end
          | PErr e l2 => (a, PErr e l2)
          | PPanic p => (a, PPanic p)
          | PFuel => (a, PFuel)
          end
      end
  | PErr e l1 => (a, PErr e l1)
  | PPanic p => (a, PPanic p)
  | PFuel => (a, PFuel)
  end.

Definition p_into (a : ast) (l : lexer) : ast * parsed unit := into_f (budget l) a l.

(** A parser on a text, and a program to add to. *)
Definition parse_into (a : ast) (src : str) : ast * parsed unit := p_into a (lexer_new src).

(** src/syntax/parser.rs:136-146 *)
Definition sep_by1 {A} (sep : token) (f : parser A) : parser (list A) :=
  x <- f ;; xs <- many (bump_on sep) f ;; ret (x :: xs).

(** src/syntax/parser.rs:37-52.  A path is shown as the text it is. *)
Definition show_perror_with_path (e : perror) (path : str) : outcome str :=
  obind (show_perror_without_loc e) (fun s =>
  Ok (s ++ 10%N :: lit " @ " ++ path ++ lit ":" ++ show_nat (l_line (error_loc e)) ++ lit ":" ++ show_nat (l_col (error_loc e)))).

End WithUcd.
