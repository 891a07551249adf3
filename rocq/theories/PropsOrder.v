(** C116: only what the declarations say in the end matters, not how they say it. *)
From Coq Require Import List Arith NArith Bool String Lia Permutation.
From Verif Require Import Prelim Chars Syntax Fixity SpecFixity ProofTable ProofResolve ProofResolve2 ProofFixity Lexer ProofLexer2 Parser PropsFixity.
Import ListNotations.
Local Open Scope string_scope.
Local Open Scope list_scope.

Definition same_res (r r' : resolver) : Prop :=
  NoDup (keys (r_fix r)) /\ NoDup (keys (r_fix r')) /\ (forall o, get (r_fix r) o = get (r_fix r') o) /\ r_errs r = r_errs r'.
Definition same_tbl (t t' : fixities) : Prop := NoDup (keys t) /\ NoDup (keys t') /\ forall o, get t o = get t' o.

Lemma get_put t o f k : get (insert_tbl t o f) k = if infix_eqb o k then f else get t k.
Proof.
  unfold get. destruct (infix_eqb_spec o k) as [E|E].
  - rewrite <- (get_defined_sym (insert_tbl t o f) o k E), get_insert_same. reflexivity.
  - now rewrite get_insert_other.
Qed.
Lemma get_drop t o k : NoDup (keys t) -> get (remove_tbl t o) k = if infix_eqb o k then fix_default else get t k.
Proof.
  intros D. unfold get. destruct (infix_eqb_spec o k) as [E|E].
  - rewrite <- (get_defined_sym (remove_tbl t o) o k E), get_remove_same; auto.
  - now rewrite get_remove_other.
Qed.
Lemma same_put t t' o f : same_tbl t t' -> same_tbl (insert_tbl t o f) (insert_tbl t' o f).
Proof. intros (A&B&C). split; [now apply nodup_insert|]. split; [now apply nodup_insert|]. intros k. rewrite !get_put, C. reflexivity. Qed.

(** The fixities saved when a let is entered, up to undeclared ones. *)
Definition saved (x y : infix * option fixity) : Prop :=
  fst x = fst y /\ match snd x with Some f => f | None => fix_default end = match snd y with Some f => f | None => fix_default end.
Lemma same_local f ops : forall t t', same_tbl t t' ->
  same_tbl (fst (push_local t f ops)) (fst (push_local t' f ops)) /\ Forall2 saved (snd (push_local t f ops)) (snd (push_local t' f ops)).
Proof.
  induction ops as [|o ops IH]; intros t t' Sh; cbn [push_local fst snd insert]; [split; auto|].
  pose proof (same_put _ _ o f Sh) as Sh1. specialize (IH _ _ Sh1).
  destruct (push_local (insert_tbl t o f) f ops), (push_local (insert_tbl t' o f) f ops). cbn [fst snd] in *.
  destruct IH as (A&B). split; auto. constructor; auto. split; auto. apply Sh.
Qed.
Lemma same_restore olds olds' : Forall2 saved olds olds' -> forall t t', same_tbl t t' -> same_tbl (restore t olds) (restore t' olds').
Proof.
  induction 1 as [|(o&x) (o'&y) olds olds' (E1&E2) F IH]; intros t t' Sh; auto. cbn [fst snd] in E1, E2. subst o'.
  assert (G : same_tbl (match x with Some f => insert_tbl t o f | None => remove_tbl t o end)
                       (match y with Some f => insert_tbl t' o f | None => remove_tbl t' o end)).
  { destruct Sh as (A&B&C). split; [destruct x; [now apply nodup_insert|now apply nodup_remove]|].
    split; [destruct y; [now apply nodup_insert|now apply nodup_remove]|].
    intros k. destruct x, y; rewrite ?get_put, ?get_drop by auto; rewrite C; subst; destruct (infix_eqb o k); auto. }
  destruct x, y; cbn [restore]; apply IH, G.
Qed.

Section Same.
Variables t t' : fixities.
Hypothesis Sh : forall o, get t o = get t' o.
Lemma push_op_eq ops : forall es o, push_op t es ops o = push_op t' es ops o.
Proof.
  induction ops as [|p ops IH]; intros es o; cbn [push_op]; auto. rewrite !Sh.
  destruct (from_fixities _ _); auto. destruct (reduce es (p :: ops)) as [(es'&x)| |]; auto.
Qed.
Lemma rewrite_loop_eq e : forall es ops, rewrite_loop t e es ops = rewrite_loop t' e es ops.
Proof.
  induction e; intros es' ops'; cbn [rewrite_loop]; auto. rewrite push_op_eq.
  destruct (push_op t' _ _ _) as [[(a&b)|]| |]; auto.
Qed.
End Same.

Definition same_out {A} (x y : outcome (resolver * A)) : Prop :=
  match x, y with
  | Ok (r, a), Ok (r', a') => same_res r r' /\ a = a'
  | Panic p, Panic q => p = q
  | NoFuel, NoFuel => True
  | _, _ => False
  end.
Lemma same_bind {A B} (x y : outcome (resolver * A)) (k k' : resolver * A -> outcome (resolver * B)) :
  same_out x y -> (forall r r' a, same_res r r' -> same_out (k (r, a)) (k' (r', a))) -> same_out (obind x k) (obind y k').
Proof.
  intros X K. destruct x as [(r&a)|p|], y as [(r'&a')|q|]; cbn in *; try contradiction; auto.
  destruct X as (X&->). apply K, X.
Qed.
Lemma same_visits v es :
  (forall e r r', same_res r r' -> same_out (v r e) (v r' e)) ->
  forall r r', same_res r r' -> same_out (visit_list v r es) (visit_list v r' es).
Proof.
  intros V. induction es as [|e es IH]; intros r r' R; cbn [visit_list].
  - now split.
  - apply same_bind; auto. intros r1 r1' a R1. apply same_bind; auto. intros r2 r2' b R2. cbn. now split.
Qed.
Lemma same_walk v e :
  (forall e r r', same_res r r' -> same_out (v r e) (v r' e)) ->
  forall r r', same_res r r' -> same_out (walk_expr v r e) (walk_expr v r' e).
Proof.
  intros V r r' R. pose proof (fun es => same_visits v es V) as VL.
  destruct e as [l|i|a b|a o b|p a|a|a|es|es|d a]; cbn [walk_expr];
    try (now split);
    try (apply same_bind; [auto|intros r1 r1' x R1; cbn; now split]).
  - apply same_bind; auto. intros r1 r1' x R1. apply same_bind; auto. intros r2 r2' y R2. cbn. now split.
  - apply same_bind; auto. intros r1 r1' x R1. apply same_bind; auto. intros r2 r2' y R2. cbn. now split.
Qed.
Lemma same_fuel n : forall e r r', same_res r r' -> same_out (visit_fuel n r e) (visit_fuel n r' e).
Proof.
  induction n as [|n IH]; intros e r r' R; cbn [visit_fuel]; [exact I|].
  destruct e as [l|i|a b|a o b|p a|a|a|es|es|d a]; try (apply same_walk; auto).
  - destruct R as (R1&R2&R3&R4). unfold rewrite. rewrite (rewrite_loop_eq _ _ R3).
    assert (R : same_res r r') by (repeat split; auto).
    destruct (rewrite_loop (r_fix r') _ [] []) as [[e'|err]|p|]; cbn; auto.
    + apply same_walk; auto.
    + split; auto. unfold store_error. rewrite R4. destruct (existsb _ _); [auto|]. repeat split; cbn; auto.
  - destruct R as (R1&R2&R3&R4). destruct (same_local (d_fixity d) (d_infixes d) (r_fix r) (r_fix r')) as (L&F); [repeat split; auto|].
    destruct (push_local (r_fix r) _ _) as (t1&o1), (push_local (r_fix r') _ _) as (t2&o2). cbn [fst snd] in *.
    apply same_bind.
    + apply IH. destruct L as (L1&L2&L3). repeat split; auto.
    + intros r1 r1' x (S1&S2&S3&S4). cbn. split; auto. destruct (same_restore _ _ F (r_fix r1) (r_fix r1')) as (T1&T2&T3); repeat split; auto.
Qed.
Lemma nodup_loaded ds : forall t, NoDup (keys t) -> NoDup (keys (load_tbl t ds)).
Proof.
  unfold load_tbl. induction ds as [|d ds IH]; intros t D; cbn [fold_left]; auto. apply IH. unfold insert_many.
  revert t D. induction (d_infixes d) as [|o ops IHo]; intros t D; cbn [fold_left]; auto. apply IHo. now apply nodup_insert.
Qed.

(** ** C116 *)

(** C116: if the fixities declared in the end are the same, so are the groupings,
    the errors and the fixities afterwards. *)
Theorem C116_same : forall r r' a a', NoDup (keys (r_fix r)) -> NoDup (keys (r_fix r')) -> r_errs r = r_errs r' -> a_exprs a = a_exprs a' ->
  (forall o, declared (get (r_fix r)) (a_infxs a) o = declared (get (r_fix r')) (a_infxs a') o) ->
  exists r1 r2 b b' errs, resolve_ast r a = Ok (r1, b, errs) /\ resolve_ast r' a' = Ok (r2, b', errs) /\ a_exprs b = a_exprs b' /\
    forall o, get (r_fix r1) o = get (r_fix r2) o.
Proof.
  intros r r' a a' D D' E X H. destruct (resolve_ast_total r a) as (r1&b&errs&R), (resolve_ast_total r' a') as (r2&b'&errs'&R').
  exists r1, r2, b, b', errs. rewrite R, R'. unfold resolve_ast, visit_ast in R, R'. rewrite <- X in R'.
  assert (S0 : same_res (load_fixities r a) (load_fixities r' a')).
  { split; [exact (nodup_loaded (a_infxs a) _ D)|]. split; [exact (nodup_loaded (a_infxs a') _ D')|]. split; auto.
    intros o. change (get (load_tbl (r_fix r) (a_infxs a)) o = get (load_tbl (r_fix r') (a_infxs a')) o). rewrite !load_tbl_get. apply H. }
  pose proof (same_visits visit_expr (a_exprs a) (fun e r r' => same_fuel (esize e) e r r') _ _ S0) as V.
  destruct (visit_list visit_expr (load_fixities r a) _) as [(r3&x)|p|], (visit_list visit_expr (load_fixities r' a') _) as [(r4&y)|q|];
    cbn in V, R, R'; try discriminate; try contradiction. injection R as <- <- <-. injection R' as <- <- <-.
  destruct V as ((V1&V2&V3&V4)&->). rewrite V4. auto.
Qed.
Print Assumptions C116_same.

(** So declarations can be written in any order if no operator is declared twice, *)
Definition apart (d d' : infix_decl) : Prop := forall o, in_decl d o = true -> in_decl d' o = false.
Theorem C116_order : forall ds ds', Permutation ds ds' -> ForallOrdPairs apart ds -> forall F o, declared F ds o = declared F ds' o.
Proof.
  assert (Ap : forall ds, ForallOrdPairs apart ds -> forall F o, declared F ds o =
    match find (fun d => in_decl d o) ds with Some d => d_fixity d | None => F o end).
  { induction 1 as [|d ds A P IH]; intros F o; auto. cbn [declared find]. rewrite IH.
    destruct (in_decl d o) eqn:I.
    - replace (existsb (fun d' => in_decl d' o) ds) with false; auto. symmetry. apply not_true_is_false. intros K.
      apply existsb_exists in K as (d'&In1&K). rewrite Forall_forall in A. specialize (A _ In1 o I). congruence.
    - destruct (find (fun d0 => in_decl d0 o) ds) as [d'|] eqn:Fd.
      + apply find_some in Fd as (In1&K). replace (existsb (fun d' => in_decl d' o) ds) with true; auto.
        symmetry. apply existsb_exists. eauto.
      + now destruct (existsb _ ds). }
  assert (Sym : forall d d', apart d d' -> apart d' d).
  { intros d d' A o I. destruct (in_decl d o) eqn:J; auto. specialize (A o J). congruence. }
  assert (Pm : forall ds ds', Permutation ds ds' -> ForallOrdPairs apart ds -> ForallOrdPairs apart ds').
  { induction 1 as [|d ds ds' P IH|d d' ds|ds ds' ds'' P IH P' IH']; intros A; auto.
    - inversion A as [|? ? A1 A2]; subst. constructor; auto. rewrite Forall_forall in *. intros x Ix. apply A1. eapply Permutation_in; [apply Permutation_sym|]; eauto.
    - inversion A as [|? ? A1 A2]; subst. inversion A1; subst. inversion A2 as [|? ? A3 A4]; subst. repeat constructor; auto. }
  induction 1 as [|d ds ds' P IH|d d' ds|ds ds' ds'' P IH P' IH']; intros A F o; auto.
  - inversion A as [|? ? A1 A2]; subst. cbn [declared]. rewrite (IH A2).
    replace (existsb (fun d' => in_decl d' o) ds') with (existsb (fun d' => in_decl d' o) ds); auto.
    apply eq_true_iff_eq. rewrite !existsb_exists. split; intros (x&Ix&K); exists x; split; auto;
      (eapply Permutation_in; [|exact Ix]); auto using Permutation_sym.
  - rewrite !Ap; auto; [|eapply Pm; [apply perm_swap|exact A]]. cbn [find]. inversion A as [|? ? A1 A2]; subst. inversion A1; subst.
    destruct (in_decl d o) eqn:I, (in_decl d' o) eqn:J; auto. match goal with H : apart d' d |- _ => specialize (H o J); congruence end.
  - rewrite IH by auto. apply IH'. eapply Pm; eauto.
Qed.
Print Assumptions C116_order.

(** one declaration can be written as several, *)
Theorem C116_split : forall xs ys f ds es F o,
  declared F (ds ++ mkInfixDecl (xs ++ ys) f :: es) o = declared F (ds ++ mkInfixDecl xs f :: mkInfixDecl ys f :: es) o.
Proof.
  intros xs ys f ds es F o. rewrite !declared_scoped, !fold_left_app. cbn [fold_left].
  assert (E : forall es F G o, (forall o, F o = G o) -> fold_left scoped es F o = fold_left scoped es G o).
  { clear. induction es as [|d es IH]; intros F G o H; cbn [fold_left]; auto. apply IH. intros k. unfold scoped. now rewrite H. }
  apply E. intros k. unfold scoped, in_decl. cbn [d_infixes d_fixity]. rewrite existsb_app.
  destruct (existsb _ xs), (existsb _ ys); reflexivity.
Qed.
Print Assumptions C116_split.

(** and one whose operators are all declared again later, or that says what is in
    force anyway, can be left out. *)
Theorem C116_overridden : forall d ds es F o,
  (forall k, in_decl d k = true -> existsb (fun d' => in_decl d' k) es = true \/ d_fixity d = declared F ds k) ->
  declared F (ds ++ d :: es) o = declared F (ds ++ es) o.
Proof.
  intros d ds es F o H.
  assert (G : forall es F o, declared F es o = if existsb (fun d' => in_decl d' o) es then declared (fun _ => fix_default) es o else F o).
  { clear. induction es as [|d es IH]; intros F o; auto. cbn [declared existsb]. rewrite (IH F).
    destruct (existsb (fun d' => in_decl d' o) es); [now rewrite orb_true_r|]. destruct (in_decl d o); reflexivity. }
  assert (A : forall es ds F o, declared F (ds ++ es) o = declared (declared F ds) es o).
  { clear. intros es ds F o. rewrite !declared_scoped, fold_left_app.
    assert (E : forall es F G o, (forall o, F o = G o) -> fold_left scoped es F o = fold_left scoped es G o).
    { clear. induction es as [|d es IH]; intros F G o H; cbn [fold_left]; auto. apply IH. intros k. unfold scoped. now rewrite H. }
    apply E. intros k. now rewrite declared_scoped. }
  rewrite !A. cbn [declared]. destruct (existsb (fun d' => in_decl d' o) es) eqn:K; auto.
  rewrite (G es), K. destruct (in_decl d o) eqn:I; auto. destruct (H o I) as [J|J]; [congruence|auto].
Qed.
Print Assumptions C116_overridden.

(** ** Examples *)

Local Existing Instance ucd_none.

Definition order_a := lit "infixl 5 +, *; infixr 3 $; a $ b + c * d $ e".
Definition order_b := lit "infix 4 $; infixl 5 *; a $ b + c * d $ e; infixr 3 $; infixl 9 .; infixl 5 +".

Definition only (s : string) (f : fixity) : infix_decl := mkInfixDecl [Standard (lit s)] f.
Example C116_ex_same : exists a b l l', parse order_a = POk a l /\ parse order_b = POk b l' /\ a_exprs a = a_exprs b /\
  a_infxs a <> a_infxs b /\ forall o, declared (get []) (a_infxs a) o = declared (get []) (a_infxs b) o.
Proof.
  destruct (parse order_a) as [a l| | |] eqn:P; try (vm_compute in P; discriminate P).
  destruct (parse order_b) as [b l'| | |] eqn:Q; try (vm_compute in Q; discriminate Q).
  exists a, b, l, l'. split; auto. split; auto.
  assert (A : a_infxs a = [mkInfixDecl [Standard (lit "+"); Standard (lit "*")] (mkFix 5 ALeft); only "$" (mkFix 3 ARight)])
    by (vm_compute in P; injection P as <- _; reflexivity).
  assert (B : a_infxs b = [only "$" (mkFix 4 ANeither); only "*" (mkFix 5 ALeft); only "$" (mkFix 3 ARight); only "." (mkFix 9 ALeft); only "+" (mkFix 5 ALeft)])
    by (vm_compute in Q; injection Q as <- _; reflexivity).
  split; [vm_compute in P, Q; injection P as <- _; injection Q as <- _; reflexivity|]. rewrite A, B. split; [discriminate|]. intros o.
  set (p := only "+" (mkFix 5 ALeft)). set (m := only "*" (mkFix 5 ALeft)). set (d := only "$" (mkFix 3 ARight)). set (c := only "." (mkFix 9 ALeft)).
  rewrite (C116_split [Standard (lit "+")] [Standard (lit "*")] (mkFix 5 ALeft) [] [d]). cbn [app].
  rewrite (C116_overridden (only "$" (mkFix 4 ANeither)) [] [m; d; c; p]).
  2: { intros k K. left. cbn [existsb]. change (in_decl d k) with (in_decl (only "$" (mkFix 4 ANeither)) k). rewrite K. now rewrite orb_true_r. }
  rewrite (C116_overridden c [m; d] [p]).
  2: { intros k K. right. unfold c, in_decl, only in K. cbn [d_infixes existsb] in K. rewrite orb_false_r in K. apply str_eqb_eq in K.
       assert (M : forall s f, in_decl (only s f) k = str_eqb (lit s) (lit ".")) by (intros s f; unfold in_decl, only; cbn [d_infixes existsb]; rewrite <- K; apply orb_false_r).
       cbn [declared existsb]. unfold m, d. rewrite !M. reflexivity. }
  cbn [app]. apply C116_order.
  - apply Permutation_sym. exact (Permutation_sym (Permutation_cons_append [m; d] p)).
  - assert (M : forall s f g u, lit s <> lit u -> apart (only s f) (only u g)).
    { intros s f g u N k K. unfold in_decl, only in *. cbn [d_infixes existsb symbol] in *. rewrite orb_false_r in *. apply str_eqb_eq in K.
      apply not_true_is_false. intros J. apply str_eqb_eq in J. congruence. }
    repeat constructor; apply M; discriminate.
Qed.
Example C116_ex : exists a b l l' r1 r2 c d, parse order_a = POk a l /\ parse order_b = POk b l' /\
  resolve_ast (mkResolver [] []) a = Ok (r1, c, []) /\ resolve_ast (mkResolver [] []) b = Ok (r2, d, []) /\ a_exprs c = a_exprs d /\ a_exprs c <> a_exprs a.
Proof. vm_compute. do 8 eexists. repeat split; try reflexivity. discriminate. Qed.
