(** C08 for all programs: resolving again what is left of a program, rejected or
    not, changes nothing and gives the same errors. *)
From Coq Require Import List Arith NArith Bool String Lia.
From Verif Require Import Prelim Chars Syntax Fixity SpecFixity SpecRejected ProofTable ProofRewrite ProofResolve ProofResolve2 ProofFixity Lexer ProofLexer2 Parser PropsRejected.
Import ListNotations.
Local Open Scope string_scope.
Local Open Scope list_scope.

Definition after_errs (r : resolver) (new : list assoc_error) : resolver := mkResolver (r_fix r) (add_errs (r_errs r) new).
Definition stable (F : infix -> fixity) (e : expr) (new : list assoc_error) : Prop :=
  forall n r, (forall o, F o = get (r_fix r) o) -> esize e <= n -> visit_fuel n r e = Ok (after_errs r new, e).
Inductive replay (F : infix -> fixity) : list SpecFixity.item -> list assoc_error -> Prop :=
| rp_nil : replay F [] []
| rp_operand y ys n1 n2 : not_bin y -> stable F y n1 -> replay F ys n2 -> replay F (Operand y :: ys) (n1 ++ n2)
| rp_operator o ys n : replay F ys n -> replay F (Operator o :: ys) n.
Lemma replay_app F xs : forall ys n, replay F (xs ++ ys) n -> exists n1 n2, n = n1 ++ n2 /\ replay F xs n1 /\ replay F ys n2.
Proof.
  induction xs as [|x xs IH]; intros ys n H; cbn [app] in H.
  - exists [], n. repeat split; auto. constructor.
  - inversion H as [|y ys' n1 n2 A B C|o ys' n' C]; subst; destruct (IH _ _ C) as (k1&k2&->&K1&K2).
    + exists (n1 ++ k1), k2. rewrite app_assoc. repeat split; auto. now constructor.
    + exists k1, k2. repeat split; auto. now constructor.
Qed.
Lemma replay_leaves F ys n : replay F ys n -> forall x, In (Operand x) ys -> not_bin x.
Proof. induction 1; intros x I; [destruct I| |]; destruct I as [I|I]; try (injection I as <-); try discriminate; auto. Qed.
Lemma after_app r n1 n2 : after_errs (after_errs r n1) n2 = after_errs r (n1 ++ n2).
Proof. unfold after_errs. cbn. now rewrite add_errs_app. Qed.

Lemma tree_stable F : forall g new, legal F g -> replay F (yield g) new -> stable F (as_expr g) new.
Proof.
  induction g as [e|l IHl o x IHx]; intros new L Rp n r EQ Hn.
  - cbn [yield] in Rp. inversion Rp as [|y ys n1 n2 A B C|]; subst. inversion C; subst. rewrite app_nil_r. now apply B.
  - pose proof (replay_leaves _ _ _ Rp) as LO. cbn [yield] in Rp. destruct (replay_app _ _ _ _ Rp) as (n1&n2&->&R1&R2).
    inversion R2 as [| |o' ys n' R3]; subst. cbn [as_expr esize] in Hn. destruct n as [|n]; [lia|].
    assert (L' : legal (get (r_fix r)) (Node l o x)) by (eapply legal_ext; eauto).
    pose proof (rewrite_legal_id (r_fix r) (Node l o x) L' LO) as R. cbn [as_expr visit_fuel] in *. rewrite R. cbn [walk_expr].
    destruct L as (Ll&Lx&_). rewrite (IHl n1 Ll R1 n r EQ ltac:(lia)). cbn [obind].
    rewrite (IHx n2 Lx R3 n (after_errs r n1) EQ ltac:(lia)). cbn [obind]. now rewrite after_app.
Qed.
Lemma settles_not_bin F x y n : settles F x y n -> not_bin x -> not_bin y.
Proof. intros H N. destruct H; intros ? ? ? X; try discriminate; eapply N; eauto. Qed.

Lemma settled_stable :
  (forall F e e' new, settles F e e' new -> flat e -> nodup_lets e -> stable F e' new) /\
  (forall F xs ys new, settle_items F xs ys new -> (forall x, In (Operand x) xs -> not_bin x /\ flat x /\ nodup_lets x) -> replay F ys new) /\
  (forall F es es' new, settle_list F es es' new -> Forall flat es -> Forall nodup_lets es ->
    forall n r, (forall o, F o = get (r_fix r) o) -> list_sum (map esize es') <= n -> visit_list (visit_fuel n) r es' = Ok (after_errs r new, es')).
Proof.
  apply settles_all.
  - intros F l Fl Nd n r EQ Hn. destruct n; [cbn in Hn; lia|]. now destruct r.
  - intros F i Fl Nd n r EQ Hn. destruct n; [cbn in Hn; lia|]. now destruct r.
  - intros F a b a' b' n1 n2 A IHa B IHb Fl Nd n r EQ Hn. inversion Fl; inversion Nd; subst. cbn [esize] in Hn. destruct n as [|n]; [lia|].
    cbn [visit_fuel walk_expr]. rewrite IHa by (auto; lia). cbn [obind]. rewrite IHb by (auto; lia). cbn [obind]. now rewrite after_app.
  - intros F a o b g new L S IH Fl Nd. apply tree_stable; auto. apply IH. intros x Hx.
    destruct (flat_chain _ Fl _ Hx). repeat split; auto. exact (nodup_chain _ Nd _ Hx).
  - intros F a o b x C Fl Nd n r EQ Hn. destruct n as [|n]; [cbn in Hn; lia|]. cbn [visit_fuel].
    rewrite (proj2 (C118_exactly (r_fix r) (Bin a o b) x)) by (eapply first_clash_ext; eauto). now rewrite store_error_add.
  - intros F p a a' new A IH Fl Nd n r EQ Hn. inversion Fl; inversion Nd; subst. cbn [esize] in Hn. destruct n as [|n]; [lia|].
    cbn [visit_fuel walk_expr]. now rewrite IH by (auto; lia).
  - intros F a a' new A IH Fl Nd n r EQ Hn. inversion Fl; inversion Nd; subst. cbn [esize] in Hn. destruct n as [|n]; [lia|].
    cbn [visit_fuel walk_expr]. now rewrite IH by (auto; lia).
  - intros F a a' new A IH Fl Nd n r EQ Hn. inversion Fl; inversion Nd; subst. cbn [esize] in Hn. destruct n as [|n]; [lia|].
    cbn [visit_fuel walk_expr]. now rewrite IH by (auto; lia).
  - intros F es es' new A IH Fl Nd n r EQ Hn. inversion Fl; inversion Nd; subst. cbn [esize] in Hn. destruct n as [|n]; [lia|].
    cbn [visit_fuel walk_expr]. now rewrite IH by (auto; lia).
  - intros F es es' new A IH Fl Nd n r EQ Hn. inversion Fl; inversion Nd; subst. cbn [esize] in Hn. destruct n as [|n]; [lia|].
    cbn [visit_fuel walk_expr]. now rewrite IH by (auto; lia).
  - intros F d a a' new A IH Fl Nd n r EQ Hn. inversion Fl; inversion Nd; subst. cbn [esize] in Hn. destruct n as [|n]; [lia|].
    cbn [visit_fuel]. destruct (push_local (r_fix r) (d_fixity d) (d_infixes d)) as [t1 olds] eqn:E.
    rewrite IH; auto; try lia.
    + cbn [obind after_errs r_fix r_errs]. pose proof (restore_push_local (d_fixity d) (d_infixes d) (r_fix r)) as R.
      rewrite E in R. cbn [fst snd] in R. rewrite R; auto.
    + intros o. cbn [r_fix]. unfold scoped. rewrite EQ. fold (scoped (get (r_fix r)) d o).
      rewrite <- get_insert_many_scoped, <- push_local_table, E. reflexivity.
  - constructor.
  - intros F x y xs ys n1 n2 A IHx B IHxs H. destruct (H x (or_introl eq_refl)) as (H1&H2&H3).
    constructor; auto; [eapply settles_not_bin; eauto|]. apply IHxs. intros z Hz. apply H. now right.
  - intros F o xs ys new B IHxs H. constructor. apply IHxs. intros z Hz. apply H. now right.
  - intros F Fl Nd n r EQ Hn. now destruct r.
  - intros F x y xs ys n1 n2 A IHx B IHxs Fl Nd n r EQ Hn. inversion Fl; inversion Nd; subst. cbn [map] in Hn.
    change (list_sum (esize y :: map esize ys)) with (esize y + list_sum (map esize ys)) in Hn.
    cbn [visit_list]. rewrite IHx by (auto; lia). cbn [obind]. rewrite IHxs by (auto; lia). cbn [obind]. now rewrite after_app.
Qed.

(** ** C08 *)

(** C08: also if the program is rejected. *)
Theorem C08_again : forall r a r1 a1 errs, r_errs r = [] -> NoDup (keys (r_fix r)) ->
  Forall flat (a_exprs a) -> Forall nodup_lets (a_exprs a) ->
  resolve_ast r a = Ok (r1, a1, errs) -> resolve_ast r1 a1 = Ok (r1, a1, errs).
Proof.
  intros r a r1 a1 errs Hr Hk Fs Ns E.
  destruct (resolve_ast_spec r a Hr Fs Ns) as (r1'&a1'&errs1&E1&K1&K2&K3&K4&_).
  rewrite E in E1. injection E1 as <- <- <-. destruct (C118_program _ _ _ _ _ Hr Fs Ns E) as (new&S&D).
  assert (L : load_fixities r1 a1 = r1).
  { unfold load_fixities. rewrite K2, K3. fold (load_tbl (r_fix (load_fixities r a)) (a_infxs a)).
    unfold load_fixities; simpl. fold (load_tbl (r_fix r) (a_infxs a)).
    rewrite load_tbl_idem; auto. destruct r1; simpl in *. f_equal; auto. }
  assert (V : forall F es es' n, settle_list F es es' n -> Forall flat es -> Forall nodup_lets es ->
    forall r0, (forall o, F o = get (r_fix r0) o) -> visit_list visit_expr r0 es' = Ok (after_errs r0 n, es')).
  { clear. induction 1 as [F|F x y xs ys n1 n2 A B IH]; intros Fl Nd r0 EQ; [now destruct r0|].
    inversion Fl; inversion Nd; subst. cbn [visit_list]. unfold visit_expr at 1.
    rewrite (proj1 settled_stable _ _ _ _ A) by auto. cbn [obind]. rewrite IH by auto. cbn [obind]. now rewrite after_app. }
  unfold resolve_ast, visit_ast. rewrite L, (V _ _ _ _ S Fs Ns).
  - cbn [obind]. unfold after_errs. cbn [r_fix r_errs]. rewrite K4, add_errs_distinct, <- D. cbn [app].
    destruct r1 as [t1 er1], a1; cbn in *. now rewrite K4.
  - intros o. rewrite K3. symmetry. exact (load_tbl_get (a_infxs a) (r_fix r) o).
Qed.
Print Assumptions C08_again.

Local Existing Instance ucd_none.
Example C08_ex_again : exists a l r b e1 e2 e3, parse rejected_ex = POk a l /\ Forall flat (a_exprs a) /\ Forall nodup_lets (a_exprs a) /\
  resolve_ast (mkResolver [] []) a = Ok (r, b, [e1; e2; e3]) /\ b <> a /\ resolve_ast r b = Ok (r, b, [e1; e2; e3]).
Proof.
  do 7 eexists. split; [vm_compute; reflexivity|].
  split; [cbn [a_exprs]; repeat (constructor || (intros ? ? ?; discriminate))|].
  split; [cbn [a_exprs]; repeat (constructor || (intros ? ? ?; discriminate))|].
  split; [vm_compute; reflexivity|]. split; [vm_compute; discriminate|vm_compute; reflexivity].
Qed.
