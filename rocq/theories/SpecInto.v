(** What reading a text adds to a program.  Only the grammar of declarations
    is used. *)
From Coq Require Import List Arith Bool.
From Verif Require Import Prelim Syntax Lexer SpecParser.
Import ListNotations.

(** [keeps ts ds whole]: the tokens [ts] begin with the declarations [ds], and
    then end ([whole = true]) or go on with what begins no declaration. *)
Inductive keeps : list ptok -> list decl -> bool -> Prop :=
| ke_end : keeps [] [] true
| ke_bad ts : ts <> [] -> (forall us d vs, ts = us ++ vs -> ~ decl_of Nat.ltb us d vs) -> keeps ts [] false
| ke_semi us d k vs ds b : decl_of Nat.ltb us d ((TSemi, k) :: vs) -> keeps vs ds b ->
    keeps (us ++ (TSemi, k) :: vs) (d :: ds) b
| ke_plain us d vs ds b : decl_of Nat.ltb us d vs -> next_is is_semi vs = false -> keeps vs ds b ->
    keeps (us ++ vs) (d :: ds) b.

(** [added a ds b]: [b] is [a] with the declarations [ds] after its own. *)
Definition fixities (ds : list decl) : list infix_decl := flat_map (fun d => match d with DInfix i => [i] | DExpr _ => [] end) ds.
Definition inputs (ds : list decl) : list expr := flat_map (fun d => match d with DExpr e => [e] | DInfix _ => [] end) ds.
Definition added (a : ast) (ds : list decl) (b : ast) : Prop :=
  a_infxs b = a_infxs a ++ fixities ds /\ a_exprs b = a_exprs a ++ inputs ds /\
  a_kinds b = a_kinds a ++ map (fun d => match d with DInfix _ => KInfix | DExpr _ => Syntax.KExpr end) ds.

(** [separated item sep ts xs rest]: [ts] is [xs], each read by [item], with
    the token [sep] between two of them; [item] may look at what follows. *)
Inductive separated {A} (item : list ptok -> A -> list ptok -> Prop) (sep : token) : list ptok -> list A -> list ptok -> Prop :=
| sep_last ts x r : item ts x r -> (forall k r', r <> (sep, k) :: r') -> separated item sep ts [x] r
| sep_more ts x k us xs r : item ts x ((sep, k) :: us ++ r) -> separated item sep us xs r ->
    separated item sep (ts ++ (sep, k) :: us) (x :: xs) r.
