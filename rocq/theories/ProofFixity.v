(** Remaining lemmas behind PropsFixity.v. *)
From Coq Require Import List NArith ZArith Bool Lia String.
From Coq Require Import ZifyBool ZifyN.
From Verif Require Import Prelim Syntax Fixity SpecFixity ProofRewrite ProofTable ProofResolve ProofResolve2.
Import ListNotations.

(** From expressions to groupings and back *)
Fixpoint tree_of (e : expr) : gtree :=
  match e with Bin l o r => Node (tree_of l) o (tree_of r) | _ => Leaf e end.

Lemma as_expr_tree_of e : as_expr (tree_of e) = e.
Proof. induction e; simpl; congruence. Qed.
Lemma yield_tree_of e : yield (tree_of e) = inorder e.
Proof. induction e; simpl; congruence. Qed.
Lemma legal_tree_of F e : legal_expr F e <-> legal F (tree_of e).
Proof.
  induction e; simpl; try tauto. rewrite IHe1, IHe2.
  split; intros (H1&H2&H3&H4); repeat split; auto.
  - intros c Hc. destruct e1; try discriminate. injection Hc as <-. eapply H3; eauto.
  - intros c Hc. destruct e2; try discriminate. injection Hc as <-. eapply H4; eauto.
  - intros a c b ->. apply H3. reflexivity.
  - intros a c b ->. apply H4. reflexivity.
Qed.

Lemma inorder_chain e : simple_operands e -> inorder e = chain e.
Proof.
  induction e; auto. intros H. simpl.
  assert (N : not_bin e1) by (apply H; left; auto).
  rewrite IHe2; [|intros x Hx; apply H; simpl; auto].
  destruct e1; auto. exfalso. eapply N; eauto.
Qed.

Definition inorder_item (i : item) : list item :=
  match i with Operand e => inorder e | Operator o => [Operator o] end.
Lemma inorder_as_expr g : inorder (as_expr g) = flat_map inorder_item (yield g).
Proof.
  induction g; simpl; [now rewrite app_nil_r|]. rewrite flat_map_app. simpl. congruence.
Qed.
Lemma inorder_flat_map e : inorder e = flat_map inorder_item (chain e).
Proof.
  induction e; cbn [chain flat_map inorder_item]; try (now rewrite app_nil_r).
  cbn [inorder]. rewrite IHe2. reflexivity.
Qed.

Lemma rewrite_inorder t e e' : rewrite t e = Ok (inl e') -> inorder e' = inorder e.
Proof.
  intros H. apply rewrite_iff in H as (g&_&Y&<-).
  rewrite inorder_as_expr, Y. symmetry. apply inorder_flat_map.
Qed.

Lemma tree_of_as_expr g : leaves_ok g -> tree_of (as_expr g) = g.
Proof.
  induction g as [e|l IHl o r IHr]; intros H; simpl.
  - assert (N : not_bin e) by (apply H; left; auto). destruct e; auto. exfalso. eapply N; eauto.
  - rewrite IHl, IHr; auto; [eapply leaves_ok_r|eapply leaves_ok_l]; eauto.
Qed.

Lemma rewrite_characterised t e e' : simple_operands e ->
  (rewrite t e = Ok (inl e') <-> inorder e' = inorder e /\ legal_expr (get t) e').
Proof.
  intros S. split.
  - intros H. split; [eapply rewrite_inorder; eauto|].
    apply rewrite_iff in H as (g&L&Y&<-). apply legal_tree_of.
    rewrite tree_of_as_expr; auto. intros x Hx. rewrite Y in Hx. auto.
  - intros [I L]. apply rewrite_iff. exists (tree_of e').
    rewrite as_expr_tree_of, yield_tree_of, I, inorder_chain; auto.
    split; auto. apply legal_tree_of; auto.
Qed.

Lemma legal_expr_unique F e1 e2 :
  legal_expr F e1 -> legal_expr F e2 -> inorder e1 = inorder e2 -> e1 = e2.
Proof.
  intros L1 L2 E. apply legal_tree_of in L1, L2. rewrite <- !yield_tree_of in E.
  rewrite <- (as_expr_tree_of e1), <- (as_expr_tree_of e2).
  f_equal. eapply legal_unique_lemma; eauto.
Qed.

Lemma rewrite_fails_iff t e : simple_operands e ->
  ((exists err, rewrite t e = Ok (inr err))
   <-> ~ exists e', inorder e' = inorder e /\ legal_expr (get t) e').
Proof.
  intros S. pose proof (rewrite_spec t e) as R. split.
  - intros [err E] [e' H]. apply rewrite_characterised in H; auto. congruence.
  - intros H. destruct (rewrite t e) as [[e'|err]|p|] eqn:E; try tauto; eauto.
    exfalso. apply H. exists e'. apply rewrite_characterised; auto.
Qed.

(** resolve_ast *)
Lemma visit_list_fix_same es : forall r1 r2, r_fix r1 = r_fix r2 ->
  same_fix_l (visit_list visit_expr r1 es) (visit_list visit_expr r2 es).
Proof. apply visit_list_same. intros e r1 r2 E. apply visit_same; auto. Qed.

Lemma resolve_ast_total r a : exists r' a' errs, resolve_ast r a = Ok (r', a', errs).
Proof.
  unfold resolve_ast, visit_ast.
  destruct (visit_list_total visit_expr (a_exprs a)) with (r := load_fixities r a)
    as (r1&es&->); [|simpl; eauto].
  intros e _ r0. apply visit_total. lia.
Qed.

Lemma resolve_ast_inv r a r' a' errs :
  resolve_ast r a = Ok (r', a', errs) ->
  exists r1 es, visit_list visit_expr (load_fixities r a) (a_exprs a) = Ok (r1, es)
    /\ r' = mkResolver (r_fix r1) [] /\ a' = mkAst (a_kinds a) (a_infxs a) es /\ errs = r_errs r1.
Proof.
  unfold resolve_ast, visit_ast.
  destruct (visit_list visit_expr (load_fixities r a) (a_exprs a)) as [[r1 es]|p|]; simpl;
    try discriminate.
  intros H; injection H as <- <- <-. exists r1, es. auto.
Qed.

Definition scope_of (r : resolver) (a : ast) : infix -> fixity :=
  declared (get (r_fix r)) (a_infxs a).

Lemma load_scope r a o : get (r_fix (load_fixities r a)) o = scope_of r a o.
Proof. apply load_tbl_get. Qed.

Lemma resolve_ast_spec r a :
  r_errs r = [] -> Forall flat (a_exprs a) -> Forall nodup_lets (a_exprs a) ->
  exists r' a' errs, resolve_ast r a = Ok (r', a', errs)
    /\ a_kinds a' = a_kinds a /\ a_infxs a' = a_infxs a
    /\ r_fix r' = r_fix (load_fixities r a) /\ r_errs r' = []
    /\ (errs = [] -> Forall2 (resolves (scope_of r a)) (a_exprs a) (a_exprs a'))
    /\ (forall x, In x errs -> exists e, In e (a_exprs a)
          /\ clash_in (scope_of r a) e (e_prev x) (e_prev_fix x) (e_curr x) (e_curr_fix x))
    /\ dup_free errs.
Proof.
  intros Hr Fs Ns.
  destruct (resolve_exprs_lemma (a_exprs a) Fs Ns (load_fixities r a))
    as (r1&es&new&E&A1&A2&A3&A4).
  destruct (resolve_ast_total r a) as (r'&a'&errs&R). exists r', a', errs. split; auto.
  apply resolve_ast_inv in R as (r1'&es'&E'&->&->&->).
  rewrite E in E'. injection E' as <- <-. simpl.
  change (r_errs (load_fixities r a)) with (r_errs r) in A2. rewrite Hr in A2.
  repeat split; auto.
  - intros X. rewrite A2 in X. apply add_errs_nil in X. specialize (A3 X).
    eapply Forall2_impl'; [|exact A3]. intros x y K. eapply resolves_ext; [exact K|].
    apply load_scope.
  - intros x Hx. rewrite A2 in Hx. apply add_errs_in in Hx as [[]|Hx].
    rewrite Forall_forall in A4. destruct (A4 x Hx) as (y&Hy&C). exists y. split; auto.
    eapply clash_in_ext; [exact C|]. apply load_scope.
  - assert (G : forall es r r' es', visit_list visit_expr r es = Ok (r', es') ->
      dup_free (r_errs r) -> dup_free (r_errs r')).
    { clear. induction es as [|e es IH]; intros r r' es' H D; apply visit_list_inv in H.
      - destruct H as [-> _]; auto.
      - destruct H as (r1&e1&es1&H1&H2&_). eapply IH; eauto. eapply visit_errs_inv; eauto. }
    eapply G; eauto. simpl. rewrite Hr. constructor.
Qed.

Lemma resolve_ast_fails_iff r a r' a' errs :
  r_errs r = [] -> Forall flat (a_exprs a) -> Forall nodup_lets (a_exprs a) ->
  resolve_ast r a = Ok (r', a', errs) ->
  (errs <> [] <-> exists e o1 f1 o2 f2, In e (a_exprs a) /\ clash_in (scope_of r a) e o1 f1 o2 f2).
Proof.
  intros Hr Fs Ns E.
  destruct (resolve_ast_spec r a Hr Fs Ns) as (r1&a1&errs1&E1&_&_&_&_&A&B&_).
  rewrite E in E1. injection E1 as <- <- <-. split.
  - intros H. destruct errs as [|x errs]; [congruence|].
    destruct (B x (or_introl eq_refl)) as (e&He&C). eauto 10.
  - intros (e&o1&f1&o2&f2&He&C) ->. specialize (A eq_refl).
    assert (exists e', resolves (scope_of r a) e e') as (e'&R).
    { clear - A He. induction A; [destruct He|]. destruct He as [->|He]; eauto. }
    eapply clash_in_not_resolves; eauto.
Qed.

Lemma resolve_ast_complete r a es' :
  r_errs r = [] -> Forall flat (a_exprs a) -> Forall nodup_lets (a_exprs a) ->
  Forall2 (resolves (scope_of r a)) (a_exprs a) es' ->
  resolve_ast r a = Ok (load_fixities r a, mkAst (a_kinds a) (a_infxs a) es', []).
Proof.
  intros Hr Fs Ns R.
  destruct (resolve_ast_spec r a Hr Fs Ns) as (r1&a1&errs1&E1&K1&K2&K3&K4&A&B&_).
  assert (errs1 = []).
  { destruct errs1 as [|x errs]; auto. exfalso.
    destruct (B x (or_introl eq_refl)) as (e&He&C).
    assert (exists e', resolves (scope_of r a) e e') as (e'&R').
    { clear - R He. induction R; [destruct He|]. destruct He as [->|He]; eauto. }
    eapply clash_in_not_resolves; eauto. }
  subst. specialize (A eq_refl). rewrite E1.
  assert (a_exprs a1 = es').
  { clear - A R. revert es' R. induction A as [|x y xs ys Hxy _ IH]; intros zs R; inversion R; subst; auto.
    f_equal; auto. eapply resolves_unique_lemma; eauto. }
  destruct r1 as [t1 er1], a1 as [k1 i1 e1]. simpl in *. subst.
  unfold load_fixities. rewrite Hr. reflexivity.
Qed.

Lemma resolve_ast_idem r a r1 a1 :
  r_errs r = [] -> NoDup (keys (r_fix r)) ->
  Forall flat (a_exprs a) -> Forall nodup_lets (a_exprs a) ->
  resolve_ast r a = Ok (r1, a1, []) -> resolve_ast r1 a1 = Ok (r1, a1, []).
Proof.
  intros Hr Hk Fs Ns E.
  destruct (resolve_ast_spec r a Hr Fs Ns) as (r1'&a1'&errs1&E1&K1&K2&K3&K4&A&_).
  rewrite E in E1. injection E1 as <- <- <-. specialize (A eq_refl).
  unfold resolve_ast, visit_ast.
  assert (L : load_fixities r1 a1 = r1).
  { unfold load_fixities. rewrite K2, K3. fold (load_tbl (r_fix (load_fixities r a)) (a_infxs a)).
    unfold load_fixities; simpl. fold (load_tbl (r_fix r) (a_infxs a)).
    rewrite load_tbl_idem; auto. destruct r1; simpl in *. f_equal; auto. }
  rewrite L, visit_list_id.
  - simpl. destruct r1 as [t1 er1], a1; simpl in *. rewrite K4. reflexivity.
  - intros y Hy. destruct (Forall2_in_r _ _ _ _ A Hy) as (x&Hx&Rx).
    rewrite Forall_forall in Fs, Ns.
    apply (resolves_fixpoint (scope_of r a) x y Rx) with (t := r_fix r1); auto.
    intros o. rewrite K3. symmetry. apply load_scope.
Qed.

(** [let] *)
Lemma visit_let_lemma r d body :
  flat body -> nodup_lets (Let d body) -> r_errs r = [] ->
  exists r' body', visit_expr r (Let d body) = Ok (r', Let d body')
    /\ r_fix r' = r_fix r
    /\ (r_errs r' = [] <-> resolves (scoped (get (r_fix r)) d) body body').
Proof.
  intros Fl Nd Hr.
  destruct (good_visit_expr (Let d body) ltac:(constructor; auto) Nd r)
    as (r'&e'&E&new&A1&A2&A3&A4).
  assert (exists body', e' = Let d body') as (body'&->).
  { unfold visit_expr in E. cbn [esize visit_fuel] in E.
    destruct (push_local (r_fix r) (d_fixity d) (d_infixes d)) as [t1 olds].
    destruct (visit_fuel (esize body) _ body) as [[r2 b]|p|]; try discriminate.
    simpl in E. injection E as <- <-. eauto. }
  exists r', body'. split; auto. split; auto. rewrite A2, Hr. split.
  - intros X. apply add_errs_nil in X. specialize (A3 X). inversion A3; subst; auto.
  - intros R. destruct new as [|x new]; auto. exfalso. inversion A4 as [|? ? C _]; subst.
    eapply clash_in_not_resolves; [exact C|]. constructor. exact R.
Qed.

Lemma visit_after_let r d body x :
  nodup_lets (Let d body) -> forall r' l' x',
  visit_list visit_expr r [Let d body; x] = Ok (r', [l'; x']) ->
  exists r'', visit_expr r x = Ok (r'', x') /\ r_fix r'' = r_fix r'.
Proof.
  intros Nd r' l' x' H. apply visit_list_inv in H as (r1&e1&es1&H1&H2&H3).
  apply visit_list_inv in H2 as (r2&e2&es2&H4&H5&H6). injection H3 as X1 X2.
  simpl in H5. injection H5 as X3 X4. subst.
  match goal with H : [_] = [_] |- _ => injection H as X5; subst | _ => idtac end.
  pose proof (visit_table _ _ _ _ _ Nd H1) as T.
  pose proof (visit_same (esize x) x r1 r T) as S. fold (visit_expr r1 x) in S. fold (visit_expr r x) in S.
  rewrite H4 in S. simpl in S. destruct (visit_expr r x) as [[r3 x3]|p|]; try tauto.
  destruct S as [S1 <-]. eauto.
Qed.

(** Table histories *)
Definition run_op (t : fixities) (x : tbl_op) : fixities :=
  match x with Ins o f => fst (insert t o f) | Del o => fst (remove t o) end.
Definition run_ops (h : list tbl_op) : fixities := fold_right (fun x t => run_op t x) [] h.

Lemma run_ops_nodup h : NoDup (keys (run_ops h)).
Proof.
  induction h as [|[o f|o] h IH]; simpl; [constructor| |].
  - apply nodup_insert; auto.
  - apply nodup_remove; auto.
Qed.

Lemma run_ops_latest h o : get_defined (run_ops h) o = latest h o.
Proof.
  unfold latest. induction h as [|[p f|p] h IH]; simpl; auto.
  - destruct (str_eqb_spec (symbol p) (symbol o)) as [E|E].
    + rewrite (get_defined_sym _ o p); auto. apply get_insert_same.
    + rewrite get_insert_other; auto.
  - destruct (str_eqb_spec (symbol p) (symbol o)) as [E|E].
    + rewrite (get_defined_sym _ o p); auto. apply get_remove_same. apply run_ops_nodup.
    + rewrite get_remove_other; auto.
Qed.

(** Presets *)
Fixpoint assoc_str (l : list (string * fixity)) (s : str) : option fixity :=
  match l with
  | [] => None
  | (k, f) :: l' => if str_eqb (lit k) s then Some f else assoc_str l' s
  end.

Lemma ast_of_infxs : forall ds a, a_infxs (fold_left ast_push ds a) = a_infxs a ++ infix_decls ds.
Proof.
  induction ds as [|[i|e] ds IH]; intros a; simpl; [now rewrite app_nil_r| |]; rewrite IH; simpl; auto.
  now rewrite <- app_assoc.
Qed.
Lemma ast_of_exprs : forall ds a, a_exprs (fold_left ast_push ds a) = a_exprs a ++ input_exprs ds.
Proof.
  induction ds as [|[i|e] ds IH]; intros a; simpl; [now rewrite app_nil_r| |]; rewrite IH; simpl; auto.
  now rewrite <- app_assoc.
Qed.
