(** What the resolver spends, counted along the run of Fixity.v: how often it
    compares two operators, that is calls [Rule::from_fixities]
    (src/syntax/fixity.rs:286-289; each call is two look-ups and at most one
    reduction), and how many nodes it copies ([expr.clone()] at
    src/syntax/fixity.rs:538). *)
From Coq Require Import List NArith Bool.
From Verif Require Import Prelim Syntax Fixity.
Import ListNotations.

(** In the inner loop, src/syntax/fixity.rs:282-301. *)
Fixpoint push_op_cost (t : fixities) (operands : list expr) (infixes : list infix) (op : infix)
    {struct infixes} : nat :=
  match infixes with
  | [] => 0
  | prev :: infixes' =>
      S match from_fixities (get t prev) (get t op) with
        | RReduce =>
            match reduce operands infixes with
            | Ok (operands', _) => push_op_cost t operands' infixes' op
            | _ => 0
            end
        | _ => 0
        end
  end.

(** In the outer loop, src/syntax/fixity.rs:277-313. *)
Fixpoint rewrite_loop_cost (t : fixities) (e : expr) (operands : list expr)
    (infixes : list infix) {struct e} : nat :=
  match e with
  | Bin lhs op rhs =>
      push_op_cost t (lhs :: operands) infixes op
      + match push_op t (lhs :: operands) infixes op with
        | Ok (inl (operands', infixes')) => rewrite_loop_cost t rhs operands' infixes'
        | _ => 0
        end
  | _ => 0
  end.

(** src/syntax/fixity.rs:274-315 *)
Definition rewrite_cost (t : fixities) (e : expr) : nat := rewrite_loop_cost t e [] [].

(** Along a vector of expressions. *)
Fixpoint list_cost (visit : resolver -> expr -> outcome (resolver * expr)) (cost : resolver -> expr -> nat)
    (r : resolver) (es : list expr) : nat :=
  match es with
  | [] => 0
  | e :: es' =>
      cost r e + match visit r e with Ok (r1, _) => list_cost visit cost r1 es' | _ => 0 end
  end.

(** The subexpressions of [e] that [walk_expr] visits, in order (src/syntax/ast.rs:462-479). *)
Definition parts (e : expr) : list expr :=
  match e with
  | Lit _ | Var _ => []
  | App a b | Bin a _ b => [a; b]
  | Lam _ a | Grp a | Neg a | Let _ a => [a]
  | Tup es | List es => es
  end.

(** src/syntax/fixity.rs:535-569, with [here t e] spent on an infix expression [e]. *)
Fixpoint visit_cost (here : fixities -> expr -> nat) (n : nat) (r : resolver) (e : expr) : nat :=
  match n with
  | 0 => 0
  | S n' =>
      match e with
      | Bin _ _ _ =>
          here (r_fix r) e
          + match rewrite (r_fix r) e with
            | Ok (inl e') => list_cost (visit_fuel n') (visit_cost here n') r (parts e')
            | _ => 0
            end
      | Let d body =>
          visit_cost here n' (mkResolver (fst (push_local (r_fix r) (d_fixity d) (d_infixes d))) (r_errs r)) body
      | _ => list_cost (visit_fuel n') (visit_cost here n') r (parts e)
      end
  end.

(** src/syntax/fixity.rs:389-396 *)
Definition resolve_cost (here : fixities -> expr -> nat) (r : resolver) (a : ast) : nat :=
  list_cost visit_expr (fun r e => visit_cost here (esize e) r e) (load_fixities r a) (a_exprs a).

Definition comparisons : resolver -> ast -> nat := resolve_cost rewrite_cost.
Definition copies : resolver -> ast -> nat := resolve_cost (fun _ e => esize e).
