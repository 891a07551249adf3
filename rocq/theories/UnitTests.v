(** The unit tests of the repository, run on the model.  They are no proofs of
    any property; they compare the model with what its authors expect of the
    program.  Left out: the tests that print only (session.rs:598-609,
    style.rs:1087-1113). *)
From Coq Require Import List Arith NArith Bool String.
From Verif Require Import Prelim Chars Syntax Fixity Interner Lexer Parser Grapheme Buffers.
Import ListNotations.
Local Open Scope nat_scope.
Local Open Scope list_scope.

Definition evar (s : string) : expr := Var (ILower (lit s)).
Definition iop (s : string) : infix := Standard (lit s).
Definition pvar (s : string) : pat := PVar (lit s).
Definition nl : str := [10%N].

(** What [Parser::new(src).expression()] returns. *)
Definition read_expr (src : str) : option expr :=
  match @parse_expr ucd_none src with POk e _ => Some e | _ => None end.
(** Parsed and resolved by a new resolver, without errors. *)
Definition resolved (src : str) : option (list expr) :=
  match @parse ucd_none src with
  | POk a _ => match resolve_ast (mkResolver [] []) a with Ok (_, a', []) => Some (a_exprs a') | _ => None end
  | _ => None
  end.

(** src/syntax/parser.rs:682-701 *)
Example test_fixity :
  match @parse ucd_none (lit "infixr 5 :, +") with
  | POk a _ => a = mkAst [KInfix] [mkInfixDecl [iop ":"; iop "+"] (mkFix 5 ARight)] []
  | _ => False
  end.
Proof. vm_compute. reflexivity. Qed.

(** src/syntax/parser.rs:703-725 *)
Example test_lambda :
  read_expr (lit "\x y z -> x y z")
    = Some (Lam (pvar "x") (Lam (pvar "y") (Lam (pvar "z") (App (App (evar "x") (evar "y")) (evar "z")))))
  /\ read_expr (lit "\x (x, y) -> (x, y)")
    = Some (Lam (pvar "x") (Lam (PTup [pvar "x"; pvar "y"]) (Tup [evar "x"; evar "y"]))).
Proof. vm_compute. auto. Qed.

(** src/syntax/parser.rs:727-735 *)
Example test_tuple :
  read_expr (lit "()") = Some (Tup []) /\ read_expr (lit "(a, b)") = Some (Tup [evar "a"; evar "b"]).
Proof. vm_compute. auto. Qed.

(** src/syntax/parser.rs:737-764 *)
Example test_app :
  read_expr (lit "f x") = Some (App (evar "f") (evar "x"))
  /\ read_expr (lit "f x (y, z)") = Some (App (App (evar "f") (evar "x")) (Tup [evar "y"; evar "z"]))
  /\ read_expr (lit " f x" ++ nl ++ lit "y") = Some (App (evar "f") (evar "x")).
Proof. vm_compute. auto. Qed.

(** src/syntax/lexer.rs:498-538 *)
Example token_positions :
  let src := nl ++ [39; 92]%N ++ lit "u005c' 'elem" ++ nl in
  match @lx_next ucd_none (lexer_new src) with
  | Ok (Some t1, l) =>
      t1 = (TLit (LChar 92), (mkLoc 2 1 1, mkLoc 2 10 10))
      /\ match @lx_next ucd_none l with
         | Ok (Some t2, _) => t2 = (TAffix (lit "elem") true, (mkLoc 2 10 10, mkLoc 2 15 15))
         | _ => False
         end
  | _ => False
  end.
Proof. vm_compute. auto. Qed.

(** src/syntax/fixity.rs:975-996 *)
Example default_cons_fixity_is_right_assoc :
  resolved (nl ++ lit "infixr 5 :" ++ nl ++ lit "a:b:c:d:[]" ++ nl)
  = Some [Bin (evar "a") (iop ":") (Bin (evar "b") (iop ":") (Bin (evar "c") (iop ":")
           (Bin (evar "d") (iop ":") (Syntax.List []))))].
Proof. vm_compute. reflexivity. Qed.

(** src/syntax/fixity.rs:998-1019 *)
Example arithmetic_fixities :
  resolved (nl ++ lit "infixl 6 +, -" ++ nl ++ lit "infixl 7 *, /" ++ nl ++ lit "infixr 8 ^" ++ nl
            ++ lit "a + b * c - d ^ e" ++ nl)
  = Some [Bin (Bin (evar "a") (iop "+") (Bin (evar "b") (iop "*") (evar "c"))) (iop "-")
           (Bin (evar "d") (iop "^") (evar "e"))].
Proof. vm_compute. reflexivity. Qed.

(** src/syntax/fixity.rs:1021-1052 *)
Example local_fixities_stay_in_scope :
  match resolved (nl ++ lit "infixl 6 +, -" ++ nl ++ lit "let infixr 6 + in a + b + c + d" ++ nl
                  ++ lit "a + b + c + d" ++ nl) with
  | Some [Let _ e1; e2] =>
      e1 = Bin (evar "a") (iop "+") (Bin (evar "b") (iop "+") (Bin (evar "c") (iop "+") (evar "d")))
      /\ e2 = Bin (Bin (Bin (evar "a") (iop "+") (evar "b")) (iop "+") (evar "c")) (iop "+") (evar "d")
  | _ => False
  end.
Proof. vm_compute. auto. Qed.

(** src/text/grapheme.rs:446-459; the ranges leave out their ends. *)
Example test_digits :
  let upto a b n := forallb (fun i => match numlen (N.of_nat i) with Ok m => N.eqb m n | _ => false end) (seq a (b - a)) in
  upto 0 9 1%N = true /\ upto 10 99 2%N = true /\ upto 100 999 3%N = true /\ upto 1000 9999 4%N = true.
Proof. vm_compute. auto. Qed.

(** src/text/lexicon.rs:272-278 and src/text/symbol.rs:136-150; memory is
    granted as asked for. *)
Example test_predefined :
  let x := lexicon_default (fun n => n) in
  List.length predefined = 28 /\ List.length (x_map x) = 28
  /\ map (deref (live x)) (x_vec x) = map Some predefined
  /\ forallb (fun '(n, s) => match lookup x (N.of_nat n) with
                             | Ok (Some t) => str_eqb t s && N.eqb (snd (intern (fun n => n) x s)) (N.of_nat n)
                             | _ => false
                             end) (combine (seq 0 28) predefined) = true.
Proof. vm_compute. auto. Qed.

(** src/text/grapheme.rs:489-511; the assertion on [charstring] reads freed
    memory (C87_charstring_refuted). *)
Example bytes_as_str :
  packed (lit "foo bar baz") = Ends (lit "foo bar baz")
  /\ bytestring (lit "foo bar baz") = Some (Kept (lit "foo bar baz"))
  /\ charstring (lit "foo bar baz") = Ends (Freed (lit "foo bar baz")).
Proof. vm_compute. auto. Qed.
