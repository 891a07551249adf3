(** The number of comparisons the resolver makes (C98). *)
From Coq Require Import String List Arith NArith Bool Lia.
From Verif Require Import Prelim Syntax Fixity Costs SpecFixity ProofTable ProofRewrite ProofResolve ProofResolve2
  ProofFixity.
Import ListNotations.

(** Number of operators. *)
Definition count (e : expr) : nat := List.length (ops_in e).
Definition counts (es : list expr) : nat := List.length (flat_map ops_in es).
Definition count_item (i : item) : nat := match i with Operand e => count e | Operator _ => 1 end.

Lemma counts_cons e es : counts (e :: es) = count e + counts es.
Proof. unfold counts, count. cbn [flat_map]. apply app_length. Qed.
Lemma count_bin a o b : count (Bin a o b) = S (count a + count b).
Proof. unfold count. cbn [ops_in]. rewrite app_length. cbn. lia. Qed.
Lemma count_parts e : (forall a o b, e <> Bin a o b) -> counts (parts e) = count e.
Proof.
  intros H. destruct e as [l|i|a b|a o b|p a|a|a|es|es|d a]; cbn [parts]; try reflexivity;
    try (now elim (H a o b)); rewrite ?counts_cons; unfold counts, count; cbn [flat_map ops_in List.length];
    rewrite ?app_length; lia.
Qed.

(** Operators of the chain itself. *)
Fixpoint links (e : expr) : nat := match e with Bin _ _ b => S (links b) | _ => 0 end.
Lemma links_count e : links e <= count e.
Proof.
  induction e as [l|i|a IHa b IHb|a IHa o b IHb|p a IHa|a IHa|a IHa|es|es|d a IHa]; cbn [links]; try lia.
  rewrite count_bin. lia.
Qed.

Lemma count_inorder e : count e = list_sum (map count_item (inorder e)).
Proof.
  induction e as [l|i|a IHa b IHb|a IHa o b IHb|p a IHa|a IHa|a IHa|es|es|d a IHa]; try (unfold list_sum; cbn [inorder map fold_right count_item]; lia).
  rewrite count_bin. cbn [inorder]. rewrite map_app, list_sum_app. cbn [map]. unfold list_sum at 2. cbn [fold_right count_item].
  fold (list_sum (map count_item (inorder b))). lia.
Qed.
Lemma rewrite_count t e e' : rewrite t e = Ok (inl e') -> count e' = count e.
Proof. intros H. rewrite !count_inorder. now rewrite (rewrite_inorder t e e' H). Qed.

(** One comparison for each operator taken off the stack and one for the new one. *)
Lemma push_op_bound t op : forall ins es es' ins',
  push_op t es ins op = Ok (inl (es', ins')) ->
  push_op_cost t es ins op + List.length ins' <= List.length ins + 2 /\ (ins = [] -> push_op_cost t es ins op = 0) /\ ins' <> []
  /\ (ins <> [] -> push_op_cost t es ins op + List.length ins' <= S (S (List.length ins))).
Proof.
  induction ins as [|p ins IH]; intros es es' ins' E; cbn [push_op push_op_cost] in *.
  - injection E as <- <-. cbn. repeat split; auto; try lia; discriminate.
  - destruct (from_fixities (get t p) (get t op)).
    + injection E as <- <-. cbn. repeat split; auto; try lia; discriminate.
    + destruct (reduce es (p :: ins)) as [[es1 ins1]|q|]; try discriminate.
      destruct (IH _ _ _ E) as (A&B&C&D). cbn [List.length]. repeat split; auto; try lia; discriminate.
    + discriminate.
Qed.
Lemma push_op_cost_bound t op : forall ins es, push_op_cost t es ins op <= List.length ins.
Proof.
  induction ins as [|p ins IH]; intros es; cbn [push_op_cost List.length]; auto.
  destruct (from_fixities (get t p) (get t op)); try lia.
  destruct (reduce es (p :: ins)) as [[es1 ins1]|q|]; try lia. specialize (IH es1). lia.
Qed.
Lemma rewrite_loop_bound t : forall e es ins, ins <> [] ->
  rewrite_loop_cost t e es ins <= List.length ins + 2 * links e - 1.
Proof.
  induction e as [l|i|a IHa b IHb|a IHa o b IHb|p a IHa|a IHa|a IHa|zs|zs|d a IHa]; intros es ins Ne;
    cbn [rewrite_loop_cost links]; try (destruct ins; [congruence|cbn; lia]).
  destruct (push_op t (a :: es) ins o) as [[[es' ins']|x]|p|] eqn:P;
    try (pose proof (push_op_cost_bound t o ins (a :: es)); lia).
  destruct (push_op_bound t o ins (a :: es) es' ins' P) as (A&_&C&_). specialize (IHb es' ins' C).
  assert (1 <= List.length ins') by (destruct ins'; [congruence|cbn; lia]). lia.
Qed.

Lemma rewrite_bound t e : rewrite_cost t e <= 2 * (links e - 1).
Proof.
  unfold rewrite_cost. destruct e as [l|i|a b|a o b|p a|a|a|zs|zs|d a]; cbn [rewrite_loop_cost push_op_cost push_op links]; try lia.
  pose proof (rewrite_loop_bound t b [a] [o] ltac:(discriminate)) as H. cbn [List.length] in H. lia.
Qed.

(** Any cost that satisfies an inequality at infix expressions. *)
Section Bound.
Variable here : fixities -> expr -> nat.
Variable bound : nat -> nat -> nat.
Hypothesis Zero : forall s c, 0 <= bound s c.
Hypothesis Super : forall s1 c1 s2 c2, bound s1 c1 + bound s2 c2 <= bound (s1 + s2) (c1 + c2).
Hypothesis Grow : forall s c, bound s c <= bound (S s) c.
Hypothesis Here : forall t a o b, here t (Bin a o b) <= bound (esize (Bin a o b)) (count (Bin a o b)).
Hypothesis Node : forall t a o b s c, esize (Bin a o b) = S s -> count (Bin a o b) = S c ->
  here t (Bin a o b) + bound s c <= bound (S s) (S c).

Definition sizes (es : list expr) : nat := list_sum (map esize es).

Lemma list_bound (v : resolver -> expr -> outcome (resolver * expr)) c : forall es,
  (forall r e, In e es -> c r e <= bound (esize e) (count e)) ->
  forall r, list_cost v c r es <= bound (sizes es) (counts es).
Proof.
  induction es as [|e es IH]; intros H r; cbn [list_cost]; [apply Zero|]. rewrite counts_cons.
  change (sizes (e :: es)) with (esize e + sizes es).
  pose proof (H r e (or_introl eq_refl)) as H1. pose proof (Super (esize e) (count e) (sizes es) (counts es)) as Su.
  destruct (v r e) as [[r1 e1]|p|]; try lia.
  pose proof (IH (fun r x I => H r x (or_intror I)) r1). lia.
Qed.

Lemma size_parts e : esize e = S (sizes (parts e)).
Proof.
  destruct e as [l|i|a b|a o b|p a|a|a|es|es|d a]; unfold sizes, list_sum; cbn [parts map fold_right esize]; auto; lia.
Qed.

Lemma visit_bound : forall n r e, visit_cost here n r e <= bound (esize e) (count e).
Proof.
  induction n as [|n IH]; intros r e; cbn [visit_cost]; [apply Zero|].
  assert (G : forall e, (forall a o b, e <> Bin a o b) ->
    list_cost (visit_fuel n) (visit_cost here n) r (parts e) <= bound (esize e) (count e)).
  { intros x H. rewrite <- (count_parts x H), size_parts. eapply Nat.le_trans; [|apply Grow]. apply list_bound. auto. }
  destruct e as [l|i|a b|a o b|p a|a|a|zs|zs|d a]; try (apply G; discriminate).
  - pose proof (Here (r_fix r) a o b) as B.
    destruct (rewrite (r_fix r) (Bin a o b)) as [[e'|x]|q|] eqn:R; try lia.
    pose proof (rewrite_count _ _ _ R) as E. pose proof (rewrite_size _ _ _ R) as Z.
    apply rewrite_bin in R as (u&o'&w&->&_). cbn [parts].
    pose proof (list_bound (visit_fuel n) (visit_cost here n) [as_expr u; as_expr w] (fun r x _ => IH r x) r) as Ls.
    pose proof (count_bin a o b) as Cb. rewrite Cb, count_bin in E. injection E as E.
    assert (Ec : counts [as_expr u; as_expr w] = count a + count b).
    { rewrite !counts_cons. change (counts []) with 0. lia. }
    assert (Sb : esize (Bin a o b) = S (sizes [as_expr u; as_expr w])).
    { rewrite <- Z. exact (size_parts (Bin (as_expr u) o' (as_expr w))). }
    rewrite Ec in Ls. pose proof (Node (r_fix r) a o b _ _ Sb Cb) as Nd. rewrite Sb, Cb. lia.
  - change (count (Let d a)) with (count a). change (esize (Let d a)) with (S (esize a)).
    eapply Nat.le_trans; [|apply Grow]. apply IH.
Qed.

Lemma resolve_bound r a : resolve_cost here r a <= bound (sizes (a_exprs a)) (counts (a_exprs a)).
Proof. unfold resolve_cost. apply list_bound. intros r0 e _. apply visit_bound. Qed.
End Bound.

(** C98: comparisons: at most the square of the number of operators, whatever the
    nesting.  Copied nodes: at most the number of nodes for each operator. *)
Theorem C98_bound : forall r a,
  comparisons r a <= counts (a_exprs a) * counts (a_exprs a)
  /\ copies r a <= sizes (a_exprs a) * counts (a_exprs a).
Proof.
  intros r a. split.
  - apply (resolve_bound rewrite_cost (fun _ c => c * c)); intros; try lia; try nia.
    + pose proof (rewrite_bound t (Bin a0 o b)) as B. pose proof (links_count (Bin a0 o b)) as L. rewrite count_bin in *. nia.
    + pose proof (rewrite_bound t (Bin a0 o b)) as B. pose proof (links_count (Bin a0 o b)) as L. nia.
  - apply (resolve_bound (fun _ e => esize e) (fun s c => s * c)); intros; try lia; try nia.
    rewrite count_bin. nia.
Qed.

(** [x o x o ... o x] with [k] operators, as the parser delivers it. *)
Fixpoint row (x : ident) (o : infix) (k : nat) : expr :=
  match k with 0 => Var x | S k => Bin (Var x) o (row x o k) end.

Section Rows.
Variable x : ident.
Variable o : infix.
Variable t : fixities.

Lemma from_same a : fx_assoc (get t o) = a ->
  from_fixities (get t o) (get t o) = match a with ALeft => RReduce | ARight => RShift | ANeither => RAmbiguous (get t o) (get t o) end.
Proof.
  intros A. unfold from_fixities. rewrite N.ltb_irrefl, N.eqb_refl, A. now destruct a.
Qed.

Lemma finish_row : forall j k, finish (repeat (Var x) j) (repeat o j) (row x o k) = Ok (row x o (j + k)).
Proof.
  induction j as [|j IH]; intros k; cbn [repeat finish]; auto.
  change (Bin (Var x) o (row x o k)) with (row x o (S k)). rewrite IH. do 2 f_equal. lia.
Qed.
Lemma loop_leaf j : rewrite_loop t (Var x) (repeat (Var x) j) (repeat o j) = Ok (inl (row x o j)).
Proof. cbn [rewrite_loop]. change (Var x) with (row x o 0) at 2. rewrite finish_row. do 3 f_equal. lia. Qed.

Lemma right_loop : fx_assoc (get t o) = ARight -> forall k j,
  rewrite_loop t (row x o k) (repeat (Var x) j) (repeat o j) = Ok (inl (row x o (j + k)))
  /\ rewrite_loop_cost t (row x o k) (repeat (Var x) j) (repeat o j) = (if Nat.eqb j 0 then k - 1 else k).
Proof.
  intros A. induction k as [|k IH]; intros j.
  - split; [cbn [row]; rewrite loop_leaf; do 3 f_equal; lia|]. cbn. now destruct (Nat.eqb j 0).
  - cbn [row rewrite_loop rewrite_loop_cost]. destruct (IH (S j)) as [I1 I2]. cbn [repeat] in I1, I2. destruct j as [|j].
    + cbn [repeat push_op push_op_cost] in *. split; [exact I1|rewrite I2; cbn; lia].
    + cbn [repeat push_op push_op_cost] in *. rewrite (from_same _ A). split.
      * rewrite I1. do 3 f_equal. lia.
      * rewrite I2. cbn. lia.
Qed.

Lemma leaf_cost h n r : visit_cost h n r (Var x) = 0.
Proof. destruct n; reflexivity. Qed.

Lemma right_step here n r k : fx_assoc (get t o) = ARight -> r_fix r = t -> 0 < n ->
  visit_cost here (S n) r (row x o (S k)) = here t (row x o (S k)) + visit_cost here n r (row x o k).
Proof.
  intros A R L. destruct (right_loop A (S k) 0) as [E _]. cbn [repeat Nat.add] in E.
  cbn [row visit_cost]. change (Bin (Var x) o (row x o k)) with (row x o (S k)). unfold rewrite. rewrite R, E.
  cbn [row parts list_cost]. destruct n as [|n]; [lia|]. rewrite leaf_cost.
  change (visit_fuel (S n) r (Var x)) with (@Ok (resolver * expr) (r, Var x)). cbv iota beta.
  destruct (visit_fuel (S n) r (row x o k)) as [[r1 e1]|p|]; lia.
Qed.

(** Nested to the left on top of [acc]. *)
Fixpoint left_row (acc : expr) (k : nat) : expr :=
  match k with 0 => acc | S k => left_row (Bin acc o (Var x)) k end.
Lemma left_row_last : forall k acc, left_row acc (S k) = Bin (left_row acc k) o (Var x).
Proof. induction k as [|k IH]; intros acc; [reflexivity|]. change (left_row acc (S (S k))) with (left_row (Bin acc o (Var x)) (S k)). rewrite IH. reflexivity. Qed.

Lemma left_loop : fx_assoc (get t o) = ALeft -> forall k acc,
  rewrite_loop t (row x o k) [acc] [o] = Ok (inl (left_row acc (S k)))
  /\ rewrite_loop_cost t (row x o k) [acc] [o] = k.
Proof.
  intros A. induction k as [|k IH]; intros acc; cbn [row rewrite_loop rewrite_loop_cost]; [split; reflexivity|].
  cbn [push_op push_op_cost]. rewrite (from_same _ A). cbn [reduce]. destruct (IH (Bin acc o (Var x))) as [I1 I2].
  rewrite I1, I2. split; reflexivity.
Qed.

Lemma left_parts here n r acc : list_cost (visit_fuel n) (visit_cost here n) r [acc; Var x] = visit_cost here n r acc.
Proof.
  cbn [list_cost]. destruct (visit_fuel n r acc) as [[r1 e1]|p|]; auto. rewrite leaf_cost.
  destruct (visit_fuel n r1 (Var x)) as [[r2 e2]|p|]; lia.
Qed.
Lemma left_step here n r k : r_fix r = t ->
  visit_cost here (S n) r (left_row (Var x) (S k))
  = here t (left_row (Var x) (S k)) + visit_cost here n r (left_row (Var x) k).
Proof.
  intros R. rewrite left_row_last. cbn [visit_cost]. unfold rewrite.
  cbn [rewrite_loop push_op finish parts]. rewrite R, left_parts. reflexivity.
Qed.
Lemma left_first here n r k : fx_assoc (get t o) = ALeft -> r_fix r = t ->
  visit_cost here (S n) r (row x o (S k)) = here t (row x o (S k)) + visit_cost here n r (left_row (Var x) k).
Proof.
  intros A R. destruct (left_loop A k (Var x)) as [E _].
  cbn [row visit_cost]. unfold rewrite. cbn [rewrite_loop push_op].
  rewrite R, E, left_row_last. cbn [parts]. rewrite left_parts. reflexivity.
Qed.

Lemma row_cost_right : fx_assoc (get t o) = ARight -> forall k, rewrite_cost t (row x o k) = k - 1.
Proof. intros A k. exact (proj2 (right_loop A k 0)). Qed.
Lemma row_cost_left : fx_assoc (get t o) = ALeft -> forall k, rewrite_cost t (row x o k) = k - 1.
Proof.
  intros A [|k]; [reflexivity|]. unfold rewrite_cost. cbn [row rewrite_loop_cost push_op push_op_cost].
  rewrite (proj2 (left_loop A k (Var x))). lia.
Qed.
Lemma row_size : forall k, esize (row x o k) = 2 * k + 1.
Proof. induction k as [|k IH]; [reflexivity|]. cbn [row esize]. rewrite IH. lia. Qed.
Lemma left_row_size : forall k, esize (left_row (Var x) k) = 2 * k + 1.
Proof. induction k as [|k IH]; [reflexivity|]. rewrite left_row_last. cbn [esize]. rewrite IH. lia. Qed.

Lemma right_comparisons r : fx_assoc (get t o) = ARight -> r_fix r = t -> forall k n, k < n ->
  2 * visit_cost rewrite_cost n r (row x o k) = k * (k - 1).
Proof.
  intros A R. induction k as [|k IH]; intros n L; [cbn [row]; now rewrite leaf_cost|].
  destruct n as [|n]; [lia|]. rewrite right_step by (auto; lia). rewrite (row_cost_right A).
  pose proof (IH n ltac:(lia)). nia.
Qed.
Lemma right_copies r : fx_assoc (get t o) = ARight -> r_fix r = t -> forall k n, k < n ->
  visit_cost (fun _ e => esize e) n r (row x o k) = k * (k + 2).
Proof.
  intros A R. induction k as [|k IH]; intros n L; [cbn [row]; now rewrite leaf_cost|].
  destruct n as [|n]; [lia|]. rewrite right_step by (auto; lia). rewrite row_size, (IH n ltac:(lia)). lia.
Qed.
Lemma left_comparisons r : r_fix r = t -> forall k n, visit_cost rewrite_cost n r (left_row (Var x) k) = 0.
Proof.
  intros R. induction k as [|k IH]; intros n; [cbn [left_row]; apply leaf_cost|].
  destruct n as [|n]; [reflexivity|]. rewrite left_step, IH by auto. rewrite left_row_last. reflexivity.
Qed.
Lemma left_copies r : r_fix r = t -> forall k n, k < n ->
  visit_cost (fun _ e => esize e) n r (left_row (Var x) k) = k * (k + 2).
Proof.
  intros R. induction k as [|k IH]; intros n L; [cbn [left_row]; now rewrite leaf_cost|].
  destruct n as [|n]; [lia|]. rewrite left_step by auto. rewrite left_row_size, (IH n ltac:(lia)). lia.
Qed.
End Rows.

Lemma one_cost here t errs e :
  resolve_cost here (mkResolver t errs) (mkAst [KExpr] [] [e]) = visit_cost here (esize e) (mkResolver t errs) e.
Proof.
  unfold resolve_cost. cbn [a_exprs list_cost].
  change (load_fixities (mkResolver t errs) (mkAst [KExpr] [] [e])) with (mkResolver t errs).
  destruct (visit_expr (mkResolver t errs) e) as [[r1 e1]|p|]; lia.
Qed.

(** C98: [k] operators that group to the right are compared [k (k - 1) / 2] times:
    the grouping of each rest is found anew.  To the left it is [k - 1] times.  In
    both cases [k (k + 2)] nodes are copied, for an expression of [2 k + 1] nodes. *)
Theorem C98_rows : forall x o t errs k,
  let r := mkResolver t errs in let a := mkAst [KExpr] [] [row x o k] in
  sizes (a_exprs a) = 2 * k + 1 /\ counts (a_exprs a) = k
  /\ (fx_assoc (get t o) = ARight -> 2 * comparisons r a = k * (k - 1))
  /\ (fx_assoc (get t o) = ALeft -> comparisons r a = k - 1)
  /\ (fx_assoc (get t o) <> ANeither -> copies r a = k * (k + 2)).
Proof.
  intros x o t errs k r a. unfold comparisons, copies, r, a. rewrite !one_cost, row_size.
  cbn [a_exprs]. split; [unfold sizes, list_sum; cbn [map fold_right]; rewrite row_size; lia|]. split.
  { rewrite counts_cons. change (counts []) with 0. rewrite Nat.add_0_r. clear.
    induction k as [|k IH]; [reflexivity|]. cbn [row]. rewrite count_bin, IH. reflexivity. }
  split; [|split].
  - intros A. apply (right_comparisons x o t); auto; lia.
  - intros A. destruct k as [|k]; [reflexivity|]. replace (2 * S k + 1) with (S (2 * k + 2)) by lia.
    rewrite (left_first x o t) by auto. rewrite (left_comparisons x o t) by auto.
    rewrite (row_cost_left x o t A). lia.
  - intros A. destruct (fx_assoc (get t o)) eqn:B; [| |congruence].
    + destruct k as [|k]; [reflexivity|]. replace (2 * S k + 1) with (S (2 * k + 2)) by lia.
      rewrite (left_first x o t) by auto. rewrite (left_copies x o t) by (auto; lia). rewrite row_size. lia.
    + apply (right_copies x o t); auto; lia.
Qed.

(** C98: so no linear bound holds for either. *)
Theorem C98_not_linear : forall c, exists r a,
  comparisons r a > c * sizes (a_exprs a) /\ copies r a > c * sizes (a_exprs a).
Proof.
  intros c. set (o := std "$"%string). set (k := 4 * c + 4).
  exists (mkResolver [(o, mkFix 0 ARight)] []), (mkAst [KExpr] [] [row INil o k]).
  destruct (C98_rows INil o [(o, mkFix 0 ARight)] [] k) as (S&_&H&_&K). specialize (H eq_refl).
  specialize (K ltac:(discriminate)). rewrite S, K. unfold k in *. split; nia.
Qed.

(** a $ a $ a $ a: three operators, three comparisons; a + a + a + a: two. *)
Example C98_ex :
  let t := [(std "$", mkFix 0 ARight); (std "+", mkFix 6 ALeft)] in
  comparisons (mkResolver t []) (mkAst [KExpr] [] [row (ILower (lit "a")) (std "$") 3]) = 3
  /\ comparisons (mkResolver t []) (mkAst [KExpr] [] [row (ILower (lit "a")) (std "+") 3]) = 2
  /\ copies (mkResolver t []) (mkAst [KExpr] [] [row (ILower (lit "a")) (std "+") 3]) = 15.
Proof. vm_compute. auto. Qed.

Print Assumptions C98_bound.
Print Assumptions C98_rows.
Print Assumptions C98_not_linear.
