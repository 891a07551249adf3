(** What it means to group an infix expression correctly.  Nothing in this file
    refers to the resolver; a fixity assignment is any function. *)
From Coq Require Import String List NArith ZArith Bool.
From Verif Require Import Prelim Syntax.
Import ListNotations.

(** An infix expression read left to right. *)
Inductive item :=
| Operand (e : expr)
| Operator (o : infix).

(** The reading of an expression as the parser delivers it: operators nested to
    the right, whatever their fixity. *)
Fixpoint chain (e : expr) : list item :=
  match e with
  | Bin l o r => Operand l :: Operator o :: chain r
  | _ => [Operand e]
  end.

(** The reading of an expression with any nesting of its operators. *)
Fixpoint inorder (e : expr) : list item :=
  match e with
  | Bin l o r => inorder l ++ Operator o :: inorder r
  | _ => [Operand e]
  end.

(** A grouping: a binary tree whose leaves are operands. *)
Inductive gtree :=
| Leaf (e : expr)
| Node (l : gtree) (o : infix) (r : gtree).

Fixpoint yield (g : gtree) : list item :=
  match g with
  | Leaf e => [Operand e]
  | Node l o r => yield l ++ Operator o :: yield r
  end.

Fixpoint as_expr (g : gtree) : expr :=
  match g with
  | Leaf e => e
  | Node l o r => Bin (as_expr l) o (as_expr r)
  end.

Definition root (g : gtree) : option infix :=
  match g with Leaf _ => None | Node _ o _ => Some o end.

Section WithFixities.
Variable F : infix -> fixity.

Definition prec (o : infix) : N := fx_prec (F o).
Definition is_infixl (o : infix) : Prop := fx_assoc (F o) = ALeft.
Definition is_infixr (o : infix) : Prop := fx_assoc (F o) = ARight.

(** Operator [c] may head the left (right) operand of operator [p]. *)
Definition left_ok (c p : infix) : Prop :=
  (prec p < prec c)%N \/ prec c = prec p /\ is_infixl c /\ is_infixl p.
Definition right_ok (p c : infix) : Prop :=
  (prec p < prec c)%N \/ prec c = prec p /\ is_infixr c /\ is_infixr p.

(** A grouping in which every operator may head the operand it heads. *)
Fixpoint legal (g : gtree) : Prop :=
  match g with
  | Leaf _ => True
  | Node l o r =>
      legal l /\ legal r
      /\ (forall c, root l = Some c -> left_ok c o)
      /\ (forall c, root r = Some c -> right_ok o c)
  end.

(** The same, directly on expressions whose operands are not themselves bare
    infix expressions. *)
Fixpoint legal_expr (e : expr) : Prop :=
  match e with
  | Bin l o r =>
      legal_expr l /\ legal_expr r
      /\ (forall a c b, l = Bin a c b -> left_ok c o)
      /\ (forall a c b, r = Bin a c b -> right_ok o c)
  | _ => True
  end.

(** [o1] and [o2], in this order, make the chain [its] ungroupable: they have
    the same precedence, neither both group to the left nor both to the right,
    and everything between them binds tighter. *)
Definition clash (its : list item) (o1 o2 : infix) : Prop :=
  exists a m b,
    its = a ++ Operator o1 :: m ++ Operator o2 :: b
    /\ prec o1 = prec o2
    /\ ~ (is_infixl o1 /\ is_infixl o2)
    /\ ~ (is_infixr o1 /\ is_infixr o2)
    /\ (forall o, In (Operator o) m -> (prec o1 < prec o)%N).

End WithFixities.

(** ** Haskell 2010 Report, section 10.6, without negation

    parse1 in the Report; [None] as the operator is the initial operator of
    precedence -1, which is nonassociative.  [None] as the outer result is the
    model's out-of-fuel value, [Some None] the Report's [Nothing]. *)
Section Haskell.
Variable F : infix -> fixity.

Definition hs_prec (o : option infix) : Z :=
  match o with None => (-1)%Z | Some o => Z.of_N (fx_prec (F o)) end.
Definition hs_assoc (o : option infix) : assoc :=
  match o with None => ANeither | Some o => fx_assoc (F o) end.

Definition hs_same_assoc (a b : assoc) : bool :=
  match a, b with
  | ALeft, ALeft | ARight, ARight | ANeither, ANeither => true
  | _, _ => false
  end.
Definition hs_is_none (a : assoc) : bool :=
  match a with ANeither => true | _ => false end.
Definition hs_is_left (a : assoc) : bool :=
  match a with ALeft => true | _ => false end.

Fixpoint hs_parse1 (fuel : nat) (op1 : option infix) (e1 : expr) (ts : list item)
    : option (option (expr * list item)) :=
  match fuel with
  | 0 => None
  | S fuel' =>
      match ts with
      | [] => Some (Some (e1, []))
      | Operator op2 :: rest =>
          let p1 := hs_prec op1 in
          let p2 := hs_prec (Some op2) in
          let f1 := hs_assoc op1 in
          let f2 := hs_assoc (Some op2) in
          if Z.eqb p1 p2 && (negb (hs_same_assoc f1 f2) || hs_is_none f1)
          then Some None
          else if Z.ltb p2 p1 || (Z.eqb p1 p2 && hs_is_left f1)
          then Some (Some (e1, ts))
          else
            match rest with
            | Operand e2 :: rest' =>
                match hs_parse1 fuel' (Some op2) e2 rest' with
                | Some (Some (r, rest'')) => hs_parse1 fuel' op1 (Bin e1 op2 r) rest''
                | Some None => Some None
                | None => None
                end
            | _ => Some None
            end
      | Operand _ :: _ => Some None
      end
  end.

(** resolve in the Report *)
Definition hs_resolve (ts : list item) : option (option expr) :=
  match ts with
  | Operand e :: rest =>
      match hs_parse1 (S (length ts)) None e rest with
      | Some (Some (r, _)) => Some (Some r)
      | Some None => Some None
      | None => None
      end
  | _ => Some None
  end.
End Haskell.

(** ** Resolution of whole expressions *)

(** No operand of an infix expression is itself a bare infix expression: the
    shape of parsed expressions (property C36). *)
Definition not_bin (e : expr) : Prop := forall a o b, e <> Bin a o b.

Inductive flat : expr -> Prop :=
| flat_lit l : flat (Lit l)
| flat_var i : flat (Var i)
| flat_app a b : flat a -> flat b -> flat (App a b)
| flat_bin a o b : not_bin a -> flat a -> flat b -> flat (Bin a o b)
| flat_lam p a : flat a -> flat (Lam p a)
| flat_grp a : flat a -> flat (Grp a)
| flat_neg a : flat a -> flat (Neg a)
| flat_tup es : Forall flat es -> flat (Tup es)
| flat_list es : Forall flat es -> flat (List es)
| flat_let d a : flat a -> flat (Let d a).

(** No let of the expression lists one operator twice. *)
Inductive nodup_lets : expr -> Prop :=
| nd_lit l : nodup_lets (Lit l)
| nd_var i : nodup_lets (Var i)
| nd_app a b : nodup_lets a -> nodup_lets b -> nodup_lets (App a b)
| nd_bin a o b : nodup_lets a -> nodup_lets b -> nodup_lets (Bin a o b)
| nd_lam p a : nodup_lets a -> nodup_lets (Lam p a)
| nd_grp a : nodup_lets a -> nodup_lets (Grp a)
| nd_neg a : nodup_lets a -> nodup_lets (Neg a)
| nd_tup es : Forall nodup_lets es -> nodup_lets (Tup es)
| nd_list es : Forall nodup_lets es -> nodup_lets (List es)
| nd_let d a : NoDup (map symbol (d_infixes d)) -> nodup_lets a -> nodup_lets (Let d a).

(** Fixities in force inside [let d in ...] when [F] is in force outside. *)
Definition in_decl (d : infix_decl) (o : infix) : bool :=
  existsb (fun x => str_eqb (symbol x) (symbol o)) (d_infixes d).
Definition scoped (F : infix -> fixity) (d : infix_decl) : infix -> fixity :=
  fun o => if in_decl d o then d_fixity d else F o.

Inductive item_rel (R : expr -> expr -> Prop) : item -> item -> Prop :=
| ir_operand a b : R a b -> item_rel R (Operand a) (Operand b)
| ir_operator o : item_rel R (Operator o) (Operator o).

(** [resolves F e e']: [e'] is [e] with every infix chain, at any depth,
    replaced by a legal grouping under the fixities in scope there, and nothing
    else changed. *)
Inductive resolves : (infix -> fixity) -> expr -> expr -> Prop :=
| rs_lit F l : resolves F (Lit l) (Lit l)
| rs_var F i : resolves F (Var i) (Var i)
| rs_app F a b a' b' :
    resolves F a a' -> resolves F b b' -> resolves F (App a b) (App a' b')
| rs_bin F a o b g :
    legal F g ->
    Forall2 (item_rel (resolves F)) (chain (Bin a o b)) (yield g) ->
    resolves F (Bin a o b) (as_expr g)
| rs_lam F p a a' : resolves F a a' -> resolves F (Lam p a) (Lam p a')
| rs_grp F a a' : resolves F a a' -> resolves F (Grp a) (Grp a')
| rs_neg F a a' : resolves F a a' -> resolves F (Neg a) (Neg a')
| rs_tup F es es' : Forall2 (resolves F) es es' -> resolves F (Tup es) (Tup es')
| rs_list F es es' : Forall2 (resolves F) es es' -> resolves F (List es) (List es')
| rs_let F d a a' : resolves (scoped F d) a a' -> resolves F (Let d a) (Let d a').

(** [clash_in F e o1 f1 o2 f2]: somewhere in [e] there is a chain that the
    operators [o1], [o2], with the fixities [f1], [f2] in scope there, make
    ungroupable. *)
Inductive clash_in : (infix -> fixity) -> expr -> infix -> fixity -> infix -> fixity -> Prop :=
| ci_here F e o1 o2 :
    clash F (chain e) o1 o2 -> clash_in F e o1 (F o1) o2 (F o2)
| ci_app_l F a b o1 f1 o2 f2 : clash_in F a o1 f1 o2 f2 -> clash_in F (App a b) o1 f1 o2 f2
| ci_app_r F a b o1 f1 o2 f2 : clash_in F b o1 f1 o2 f2 -> clash_in F (App a b) o1 f1 o2 f2
| ci_operand F e x o1 f1 o2 f2 :
    In (Operand x) (chain e) -> clash_in F x o1 f1 o2 f2 -> clash_in F e o1 f1 o2 f2
| ci_lam F p a o1 f1 o2 f2 : clash_in F a o1 f1 o2 f2 -> clash_in F (Lam p a) o1 f1 o2 f2
| ci_grp F a o1 f1 o2 f2 : clash_in F a o1 f1 o2 f2 -> clash_in F (Grp a) o1 f1 o2 f2
| ci_neg F a o1 f1 o2 f2 : clash_in F a o1 f1 o2 f2 -> clash_in F (Neg a) o1 f1 o2 f2
| ci_tup F x es o1 f1 o2 f2 :
    In x es -> clash_in F x o1 f1 o2 f2 -> clash_in F (Tup es) o1 f1 o2 f2
| ci_list F x es o1 f1 o2 f2 :
    In x es -> clash_in F x o1 f1 o2 f2 -> clash_in F (List es) o1 f1 o2 f2
| ci_let F d a o1 f1 o2 f2 :
    clash_in (scoped F d) a o1 f1 o2 f2 -> clash_in F (Let d a) o1 f1 o2 f2.

(** ** The reading of a whole expression, ignoring how operators are grouped *)

(** Any chain, nested to the right. *)
Fixpoint build (its : list item) : expr :=
  match its with
  | [Operand e] => e
  | Operand e :: Operator o :: rest => Bin e o (build rest)
  | _ => Var INil
  end.

(** Operands and operators left to right, every operand itself rewritten so
    that all chains inside it are nested to the right. *)
Fixpoint words (e : expr) : list item :=
  match e with
  | Bin l o r => words l ++ Operator o :: words r
  | Lit l => [Operand (Lit l)]
  | Var i => [Operand (Var i)]
  | App a b => [Operand (App (build (words a)) (build (words b)))]
  | Lam p a => [Operand (Lam p (build (words a)))]
  | Grp a => [Operand (Grp (build (words a)))]
  | Neg a => [Operand (Neg (build (words a)))]
  | Tup es => [Operand (Tup (map (fun x => build (words x)) es))]
  | List es => [Operand (List (map (fun x => build (words x)) es))]
  | Let d a => [Operand (Let d (build (words a)))]
  end.

(** Operators occurring in an expression outside declarations. *)
Fixpoint ops_in (e : expr) : list infix :=
  match e with
  | Bin l o r => ops_in l ++ o :: ops_in r
  | Lit _ | Var _ => []
  | App a b => ops_in a ++ ops_in b
  | Lam _ a | Grp a | Neg a | Let _ a => ops_in a
  | Tup es | List es => flat_map ops_in es
  end.

Fixpoint let_free (e : expr) : bool :=
  match e with
  | Let _ _ => false
  | Lit _ | Var _ => true
  | App a b => let_free a && let_free b
  | Bin a _ b => let_free a && let_free b
  | Lam _ a | Grp a | Neg a => let_free a
  | Tup es | List es => forallb let_free es
  end.

(** Two fixity assignments that agree on the associativity and on the relative
    precedence of the operators [ops]. *)
Definition agree (F G : infix -> fixity) (ops : list infix) : Prop :=
  (forall o, In o ops -> fx_assoc (F o) = fx_assoc (G o))
  /\ (forall a b, In a ops -> In b ops ->
        (fx_prec (F a) ?= fx_prec (F b))%N = (fx_prec (G a) ?= fx_prec (G b))%N).

(** The fixity the declarations [ds] give [o] when [F] is in force before:
    the last one that lists it counts. *)
Fixpoint declared (F : infix -> fixity) (ds : list infix_decl) (o : infix) : fixity :=
  match ds with
  | [] => F o
  | d :: ds' =>
      if existsb (fun d' => in_decl d' o) ds' then declared F ds' o
      else if in_decl d o then d_fixity d else F o
  end.

(** The operands of an infix expression are not bare infix expressions. *)
Definition simple_operands (e : expr) : Prop :=
  forall x, In (Operand x) (chain e) -> not_bin x.

(** Fixity declarations and expressions of an input, in order. *)
Definition infix_decls (ds : list decl) : list infix_decl :=
  flat_map (fun d => match d with DInfix i => [i] | DExpr _ => [] end) ds.
Definition input_exprs (ds : list decl) : list expr :=
  flat_map (fun d => match d with DInfix _ => [] | DExpr e => [e] end) ds.

(** A history of table operations, and the lookup it should give. *)
Inductive tbl_op := Ins (o : infix) (f : fixity) | Del (o : infix).

Definition about (o : infix) (x : tbl_op) : bool :=
  match x with Ins p _ | Del p => str_eqb (symbol p) (symbol o) end.

(** Look at the latest operation about [o] ([h] newest first). *)
Definition latest (h : list tbl_op) (o : infix) : option fixity :=
  match find (about o) h with
  | Some (Ins _ f) => Some f
  | _ => None
  end.

(** The fixities documented for the presets (README.md:18-23 and the Haskell
    2010 Report, section 4.4.2, for the operators the presets contain). *)
Local Open Scope string_scope.
Definition doc_math : list (string * fixity) :=
  [ ("+", mkFix 6 ALeft); ("-", mkFix 6 ALeft);
    ("*", mkFix 7 ALeft); ("/", mkFix 7 ALeft); ("%", mkFix 7 ALeft);
    ("^", mkFix 8 ARight); ("^^", mkFix 8 ARight); ("**", mkFix 8 ARight) ].
Definition doc_prelude : list (string * fixity) :=
  [ ("$", mkFix 0 ARight); (">>=", mkFix 1 ALeft); (">>", mkFix 1 ALeft);
    ("=<<", mkFix 1 ARight); ("||", mkFix 2 ARight); ("&&", mkFix 3 ARight);
    ("==", mkFix 4 ANeither); ("/=", mkFix 4 ANeither); ("<", mkFix 4 ANeither);
    ("<=", mkFix 4 ANeither); (">", mkFix 4 ANeither); (">=", mkFix 4 ANeither);
    ("elem", mkFix 4 ANeither); (":", mkFix 5 ARight); ("++", mkFix 5 ARight);
    ("<>", mkFix 6 ARight) ] ++ doc_math.
