(** The line and column counters of the lexer as 32 bit numbers, its position as a
    64 bit number: src/syntax/token.rs:5-7, src/syntax/lexer.rs:12-21, 90-106; and
    the depth of a block comment as an [i32]: src/syntax/lexer.rs:418.  Lexer.v has
    unbounded ones. *)
From Coq Require Import List Arith NArith Bool String.
From Verif Require Import Prelim Chars Syntax Lexer.
Import ListNotations.

Definition two32 : N := 4294967296.
Definition two64 : N := 18446744073709551616.

(** What is left after the character [c] (lexer.rs:97-99). *)
Definition after (c : chr) (r : str) : str :=
  match r with d :: r' => if N.eqb c 10 && N.eqb d 13 then r' else r | [] => r end.

(** [a += b] where overflow is checked for (as in a debug build); [None] is the panic. *)
Definition add_checked (limit : N) (a b : nat) : option nat :=
  if N.ltb (N.of_nat (a + b)) limit then Some (a + b) else None.

(** [a += b] where it is not: the sum wraps. *)
Definition add_wrapping (limit : N) (a b : nat) : nat := N.to_nat (N.modulo (N.of_nat (a + b)) limit).

(** src/syntax/lexer.rs:90-106, checked *)
Definition bump_checked (l : lexer) : option lexer :=
  match l with
  | mkLexer src rest curr line col pos prev =>
      match rest with
      | [] => Some l
      | c :: r =>
          match add_checked two64 pos (len_utf8 c) with
          | None => None
          | Some pos =>
              if N.eqb c 10
              then match add_checked two32 line 1 with
                   | None => None
                   | Some line => Some (mkLexer src (after c r) curr line 1 pos prev)
                   end
              else match add_checked two32 col 1 with
                   | None => None
                   | Some col => Some (mkLexer src r curr line col pos prev)
                   end
          end
      end
  end.

(** src/syntax/lexer.rs:90-106, wrapping *)
Definition bump_wrapping (l : lexer) : lexer :=
  match l with
  | mkLexer src rest curr line col pos prev =>
      match rest with
      | [] => l
      | c :: r =>
          let pos := add_wrapping two64 pos (len_utf8 c) in
          if N.eqb c 10
          then mkLexer src (after c r) curr (add_wrapping two32 line 1) 1 pos prev
          else mkLexer src r curr line (add_wrapping two32 col 1) pos prev
      end
  end.

(** src/syntax/lexer.rs:26-35: before the first character is taken. *)
Definition untouched (src : str) : lexer := mkLexer src src None 1 1 0 loc_default.

Definition two31 : N := 2147483648.

(** src/syntax/lexer.rs:422-450 with a checked [depth]; [Ok None] is the panic. *)
Fixpoint comment_loop_checked (fuel depth : nat) (end_ : loc) (l : lexer) : outcome (option (bool * loc * lexer)) :=
  match depth with
  | 0 => Ok (Some (false, end_, l))
  | S d =>
      match peek_char l with
      | None => Ok (Some (true, end_, l))
      | Some c =>
          match fuel with
          | 0 => NoFuel
          | S f =>
              if N.eqb c 126
              then let l1 := bump_char l in
                   if on 123%N l1
                   then match add_checked two31 depth 1 with
                        | Some depth' => comment_loop_checked f depth' end_ l1
                        | None => Ok None
                        end
                   else comment_loop_checked f depth end_ l1
              else if N.eqb c 125
              then let l1 := bump_char l in
                   if on 126%N l1 then comment_loop_checked f d end_ (bump_char l1)
                   else comment_loop_checked f depth end_ l1
              else comment_loop_checked f depth (lx_prev l) (bump_char l)
          end
      end
  end.

(** src/syntax/lexer.rs:417-459 *)
Definition block_comment_checked (l : lexer) : outcome (option (option lexerror * lexer)) :=
  obind (comment_loop_checked (List.length (lx_rest l)) 1 (lx_prev l) l) (fun r =>
  match r with
  | None => Ok None
  | Some (true, end_, l1) => Ok (Some (Some (EUnterminatedComment (lx_prev l) end_), l1))
  | Some (false, _, l1) => Ok (Some (None, bump_char l1))
  end).
