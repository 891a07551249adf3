(** Fixity tables and the resolver: src/syntax/fixity.rs:135-578. *)
From Coq Require Import List NArith Bool String.
From Verif Require Import Prelim Syntax.
Import ListNotations.

Definition assoc_eqb (a b : assoc) : bool :=
  match a, b with
  | ALeft, ALeft | ARight, ARight | ANeither, ANeither => true
  | _, _ => false
  end.

(** Derived [PartialEq] of [Fixity], src/syntax/fixity.rs:77. *)
Definition fixity_eqb (a b : fixity) : bool :=
  N.eqb (fx_prec a) (fx_prec b) && assoc_eqb (fx_assoc a) (fx_assoc b).

(** The [IndexMap<Infix, Fixity>] of src/syntax/fixity.rs:206-211 as the list
    of its entries in index order. *)
Definition fixities := list (infix * fixity).

(** src/syntax/fixity.rs:244-246 *)
Fixpoint get_defined (t : fixities) (op : infix) : option fixity :=
  match t with
  | [] => None
  | (k, v) :: t' => if infix_eqb k op then Some v else get_defined t' op
  end.

(** src/syntax/fixity.rs:240-242 *)
Definition has (t : fixities) (op : infix) : bool :=
  match get_defined t op with Some _ => true | None => false end.

(** src/syntax/fixity.rs:248-250 *)
Definition get (t : fixities) (op : infix) : fixity :=
  match get_defined t op with Some f => f | None => fix_default end.

(** Table part of [IndexMap::insert] (src/syntax/fixity.rs:252-254): an
    existing key keeps its place and its spelling, a new one goes last. *)
Fixpoint insert_tbl (t : fixities) (op : infix) (f : fixity) : fixities :=
  match t with
  | [] => [(op, f)]
  | (k, v) :: t' =>
      if infix_eqb k op then (k, f) :: t' else (k, v) :: insert_tbl t' op f
  end.

(** src/syntax/fixity.rs:252-254: new table and the replaced fixity. *)
Definition insert (t : fixities) (op : infix) (f : fixity) : fixities * option fixity :=
  (insert_tbl t op f, get_defined t op).

(** Table part of [IndexMap::shift_remove] (src/syntax/fixity.rs:256-258). *)
Fixpoint remove_tbl (t : fixities) (op : infix) : fixities :=
  match t with
  | [] => []
  | (k, v) :: t' => if infix_eqb k op then t' else (k, v) :: remove_tbl t' op
  end.

(** src/syntax/fixity.rs:256-258 *)
Definition remove (t : fixities) (op : infix) : fixities * option fixity :=
  (remove_tbl t op, get_defined t op).

(** src/syntax/fixity.rs:264-272 *)
Definition insert_many (t : fixities) (f : fixity) (ops : list infix) : fixities :=
  fold_left (fun t op => insert_tbl t op f) ops t.

(** src/syntax/fixity.rs:136-140 *)
Inductive rule := RShift | RReduce | RAmbiguous (prev curr : fixity).

(** src/syntax/fixity.rs:143-163 *)
Definition from_fixities (prev curr : fixity) : rule :=
  if N.ltb (fx_prec prev) (fx_prec curr) then RShift
  else if N.eqb (fx_prec curr) (fx_prec prev) then
    match fx_assoc curr, fx_assoc prev with
    | ALeft, ALeft => RReduce
    | ARight, ARight => RShift
    | _, _ => RAmbiguous prev curr
    end
  else RReduce.

(** src/syntax/fixity.rs:185-188 *)
Record assoc_error := mkErr {
  e_prev : infix; e_prev_fix : fixity;
  e_curr : infix; e_curr_fix : fixity
}.

(** Derived [PartialEq] of [AssocError] (src/syntax/fixity.rs:184): infixes
    compare by symbol. *)
Definition err_eqb (a b : assoc_error) : bool :=
  infix_eqb (e_prev a) (e_prev b) && fixity_eqb (e_prev_fix a) (e_prev_fix b)
  && infix_eqb (e_curr a) (e_curr b) && fixity_eqb (e_curr_fix a) (e_curr_fix b).

(** src/syntax/fixity.rs:165-171; stacks are lists with the top first. *)
Definition reduce (operands : list expr) (infixes : list infix)
    : outcome (list expr * list infix) :=
  match operands with
  | rhs :: lhs :: operands' =>
      match infixes with
      | i :: infixes' => Ok (Bin lhs i rhs :: operands', infixes')
      | [] => Panic PStack
      end
  | _ => Panic PStack
  end.

(** The inner loop, src/syntax/fixity.rs:282-301.  It pops one infix per
    reduction, so it is structural in the infix stack. *)
Fixpoint push_op (t : fixities) (operands : list expr) (infixes : list infix) (op : infix)
    {struct infixes} : outcome (list expr * list infix + assoc_error) :=
  match infixes with
  | [] => Ok (inl (operands, [op]))
  | prev :: infixes' =>
      match from_fixities (get t prev) (get t op) with
      | RShift => Ok (inl (operands, op :: infixes))
      | RReduce =>
          match reduce operands infixes with
          | Ok (operands', _) => push_op t operands' infixes' op
          | Panic p => Panic p
          | NoFuel => NoFuel
          end
      | RAmbiguous pf cf => Ok (inr (mkErr prev pf op cf))
      end
  end.

(** The final loop, src/syntax/fixity.rs:304-309. *)
Fixpoint finish (operands : list expr) (infixes : list infix) (rhs : expr)
    {struct infixes} : outcome expr :=
  match infixes with
  | [] => Ok rhs
  | i :: infixes' =>
      match operands with
      | lhs :: operands' => finish operands' infixes' (Bin lhs i rhs)
      | [] => Panic PStack
      end
  end.

(** The outer loop, src/syntax/fixity.rs:277-313: structural in the right
    spine of the expression. *)
Fixpoint rewrite_loop (t : fixities) (e : expr) (operands : list expr)
    (infixes : list infix) {struct e} : outcome (expr + assoc_error) :=
  match e with
  | Bin lhs op rhs =>
      match push_op t (lhs :: operands) infixes op with
      | Ok (inl (operands', infixes')) => rewrite_loop t rhs operands' infixes'
      | Ok (inr err) => Ok (inr err)
      | Panic p => Panic p
      | NoFuel => NoFuel
      end
  | _ =>
      match finish operands infixes e with
      | Ok e' => Ok (inl e')
      | Panic p => Panic p
      | NoFuel => NoFuel
      end
  end.

(** src/syntax/fixity.rs:274-315 *)
Definition rewrite (t : fixities) (e : expr) : outcome (expr + assoc_error) :=
  rewrite_loop t e [] [].

(** src/syntax/fixity.rs:318-321 *)
Record resolver := mkResolver { r_fix : fixities; r_errs : list assoc_error }.

(** src/syntax/fixity.rs:365-369 *)
Definition store_error (r : resolver) (e : assoc_error) : resolver :=
  if existsb (fun x => err_eqb x e) (r_errs r) then r
  else mkResolver (r_fix r) (r_errs r ++ [e]).

(** The insertions of src/syntax/fixity.rs:549-554: new table and the list of
    replaced fixities, in order. *)
Fixpoint push_local (t : fixities) (f : fixity) (ops : list infix)
    : fixities * list (infix * option fixity) :=
  match ops with
  | [] => (t, [])
  | op :: ops' =>
      let (t1, old) := insert t op f in
      let (t2, olds) := push_local t1 f ops' in
      (t2, (op, old) :: olds)
  end.

(** The restoring loop, src/syntax/fixity.rs:556-565. *)
Fixpoint restore (t : fixities) (olds : list (infix * option fixity)) : fixities :=
  match olds with
  | [] => t
  | (op, Some f) :: olds' => restore (insert_tbl t op f) olds'
  | (op, None) :: olds' => restore (remove_tbl t op) olds'
  end.

(** Number of nodes, used as fuel: [rewrite] keeps it, every other recursive
    call of the visitor decreases it. *)
Fixpoint esize (e : expr) : nat :=
  match e with
  | Lit _ | Var _ => 1
  | App a b => S (esize a + esize b)
  | Bin a _ b => S (esize a + esize b)
  | Lam _ a => S (esize a)
  | Grp a => S (esize a)
  | Neg a => S (esize a)
  | Tup es => S (list_sum (map esize es))
  | List es => S (list_sum (map esize es))
  | Let _ a => S (esize a)
  end.

(** [for_each] over a vector of expressions with the resolver as state. *)
Fixpoint visit_list (visit : resolver -> expr -> outcome (resolver * expr))
    (r : resolver) (es : list expr) : outcome (resolver * list expr) :=
  match es with
  | [] => Ok (r, [])
  | e :: es' =>
      obind (visit r e) (fun '(r1, e1) =>
      obind (visit_list visit r1 es') (fun '(r2, es2) =>
      Ok (r2, e1 :: es2)))
  end.

(** src/syntax/ast.rs:462-479 *)
Definition walk_expr (visit : resolver -> expr -> outcome (resolver * expr))
    (r : resolver) (e : expr) : outcome (resolver * expr) :=
  match e with
  | Lit _ | Var _ => Ok (r, e)
  | App a b =>
      obind (visit r a) (fun '(r1, a') =>
      obind (visit r1 b) (fun '(r2, b') => Ok (r2, App a' b')))
  | Bin a o b =>
      obind (visit r a) (fun '(r1, a') =>
      obind (visit r1 b) (fun '(r2, b') => Ok (r2, Bin a' o b')))
  | Lam p a => obind (visit r a) (fun '(r1, a') => Ok (r1, Lam p a'))
  | Grp a => obind (visit r a) (fun '(r1, a') => Ok (r1, Grp a'))
  | Neg a => obind (visit r a) (fun '(r1, a') => Ok (r1, Neg a'))
  | Tup es => obind (visit_list visit r es) (fun '(r1, es') => Ok (r1, Tup es'))
  | List es => obind (visit_list visit r es) (fun '(r1, es') => Ok (r1, List es'))
  | Let d a => obind (visit r a) (fun '(r1, a') => Ok (r1, Let d a'))
  end.

(** src/syntax/fixity.rs:535-569 *)
Fixpoint visit_fuel (n : nat) (r : resolver) (e : expr) : outcome (resolver * expr) :=
  match n with
  | 0 => NoFuel
  | S n' =>
      match e with
      | Bin _ _ _ =>
          match rewrite (r_fix r) e with
          | Ok (inl e') => walk_expr (visit_fuel n') r e'
          | Ok (inr err) => Ok (store_error r err, e)
          | Panic p => Panic p
          | NoFuel => NoFuel
          end
      | Let d body =>
          let (t1, olds) := push_local (r_fix r) (d_fixity d) (d_infixes d) in
          obind (visit_fuel n' (mkResolver t1 (r_errs r)) body) (fun '(r2, body') =>
          Ok (mkResolver (restore (r_fix r2) olds) (r_errs r2), Let d body'))
      | _ => walk_expr (visit_fuel n') r e
      end
  end.

Definition visit_expr (r : resolver) (e : expr) : outcome (resolver * expr) :=
  visit_fuel (esize e) r e.

(** src/syntax/fixity.rs:381-387 (and again at 572-575) *)
Definition load_fixities (r : resolver) (a : ast) : resolver :=
  mkResolver
    (fold_left (fun t d => insert_many t (d_fixity d) (d_infixes d)) (a_infxs a) (r_fix r))
    (r_errs r).

(** src/syntax/fixity.rs:571-577 with src/syntax/ast.rs:432-439 *)
Definition visit_ast (r : resolver) (a : ast) : outcome (resolver * ast) :=
  obind (visit_list visit_expr (load_fixities r a) (a_exprs a)) (fun '(r1, es) =>
  Ok (r1, mkAst (a_kinds a) (a_infxs a) es)).

(** src/syntax/fixity.rs:389-396: [inl] is [Ok(())] with the updated AST; on
    [Err] the errors are taken out of the resolver.  The AST is mutated in both
    cases. *)
Definition resolve_ast (r : resolver) (a : ast)
    : outcome (resolver * ast * list assoc_error) :=
  obind (visit_ast r a) (fun '(r1, a1) =>
  Ok (mkResolver (r_fix r1) [], a1, r_errs r1)).

(** src/syntax/fixity.rs:337-341 *)
Definition clear (r : resolver) : resolver * nat :=
  (mkResolver [] (r_errs r), List.length (r_fix r)).

Local Open Scope string_scope.

(** src/syntax/fixity.rs:95-113 *)
Definition fix_cons := mkFix 5 ARight.
Definition fix_plus_minus := mkFix 6 ALeft.
Definition fix_mult_div_rem := mkFix 7 ALeft.
Definition fix_pow := mkFix 8 ARight.

Definition std (s : string) : infix := Standard (lit s).

(** The insertions of src/syntax/fixity.rs:410-511, in order. *)
Definition prelude_entries : list (fixity * list infix) :=
  [ (mkFix 0 ARight, [std "$"]);
    (mkFix 1 ALeft, [std ">>="; std ">>"]);
    (mkFix 1 ARight, [std "=<<"]);
    (mkFix 2 ARight, [std "||"]);
    (mkFix 3 ARight, [std "&&"]);
    (mkFix 4 ANeither, [std "=="; std "/="; std "<"; std "<="; std ">"; std ">=";
                        Promoted (lit "elem")]);
    (fix_cons, [std ":"; std "++"]);
    (mkFix 6 ARight, [std "<>"]);
    (fix_plus_minus, [std "+"; std "-"]);
    (fix_mult_div_rem, [std "*"; std "/"; std "%"]);
    (fix_pow, [std "^"; std "^^"; std "**"]) ].

(** src/syntax/fixity.rs:514-524 *)
Definition arithmetic_entries : list (fixity * list infix) :=
  [ (fix_plus_minus, [std "+"; std "-"]);
    (fix_plus_minus, [std "*"; std "/"; std "%"]);
    (fix_pow, [std "^"; std "^^"; std "**"]) ].

Definition load_entries (t : fixities) (es : list (fixity * list infix)) : fixities :=
  fold_left (fun t '(f, ops) => insert_many t f ops) es t.

(** src/syntax/fixity.rs:410-511 *)
Definition load_hs_prelude (r : resolver) : resolver * nat :=
  (mkResolver (load_entries (r_fix r) prelude_entries) (r_errs r), 23).

(** src/syntax/fixity.rs:513-531 *)
Definition load_arithmetic (r : resolver) : resolver * nat :=
  (mkResolver (load_entries (r_fix r) arithmetic_entries) (r_errs r), 8).
