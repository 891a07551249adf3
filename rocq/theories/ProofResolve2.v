(** More about the resolving visitor. *)
From Coq Require Import List NArith ZArith Bool Lia.
From Coq Require Import ZifyBool ZifyN.
From Verif Require Import Prelim Syntax Fixity SpecFixity ProofRewrite ProofTable ProofResolve.
Import ListNotations.

(** Uniqueness of resolution *)
Lemma resolves_unique_lemma F e e1 : resolves F e e1 -> forall e2, resolves F e e2 -> e1 = e2.
Proof.
  intros H. induction H using resolves_ind'; intros e2 R; inversion R; subst; auto.
  - f_equal; auto.
  - match goal with
    | K1 : Forall2 _ (chain (Bin a o b)) (yield g), K2 : Forall2 _ (chain (Bin a o b)) (yield ?g2),
      L2 : legal F ?g2 |- _ =>
        rename K1 into X1; rename K2 into X2;
        rewrite (legal_unique_lemma F g g2); auto
    end.
    revert X1 X2. generalize (yield g) as ys.
    match goal with |- context [yield ?g2] => generalize (yield g2) as zs end.
    generalize (chain (Bin a o b)) as xs.
    induction xs as [|x xs IH]; intros zs ys K1 K2;
      inversion K1 as [|? y1 ? ys1 Y1 Y2]; subst; inversion K2 as [|? z1 ? zs1 Z1 Z2]; subst; auto.
    f_equal; auto.
    destruct Y1 as [p q [_ Y1]|]; inversion Z1; subst; auto. f_equal. auto.
  - f_equal; auto.
  - f_equal; auto.
  - f_equal; auto.
  - f_equal. match goal with K : Forall2 (resolves F) es ?zs |- _ = ?zs => revert K; generalize zs end.
    clear R. induction H as [|x y xs ys [_ K] _ IH]; intros zs Z;
      inversion Z; subst; auto. f_equal; auto.
  - f_equal. match goal with K : Forall2 (resolves F) es ?zs |- _ = ?zs => revert K; generalize zs end.
    clear R. induction H as [|x y xs ys [_ K] _ IH]; intros zs Z;
      inversion Z; subst; auto. f_equal; auto.
  - f_equal; auto.
Qed.

(** Reading preserved, for every expression and table *)
Definition wi (i : item) : list item :=
  match i with Operand x => words x | Operator o => [Operator o] end.

Lemma words_as_expr g : words (as_expr g) = flat_map wi (yield g).
Proof.
  induction g; simpl.
  - now rewrite app_nil_r.
  - rewrite flat_map_app. simpl. congruence.
Qed.

Lemma words_chain e : words e = flat_map wi (chain e).
Proof.
  induction e; cbn [chain flat_map wi]; try (now rewrite app_nil_r).
  cbn [words]. rewrite IHe2. reflexivity.
Qed.

Lemma words_rewrite t e e' : rewrite t e = Ok (inl e') -> words e' = words e.
Proof.
  intros H. apply rewrite_iff in H as (g&_&Y&<-).
  rewrite words_as_expr, Y. symmetry. apply words_chain.
Qed.

Lemma visit_list_inv v r es r' es' :
  visit_list v r es = Ok (r', es') ->
  match es with
  | [] => r' = r /\ es' = []
  | e :: es0 => exists r1 e1 es1, v r e = Ok (r1, e1)
      /\ visit_list v r1 es0 = Ok (r', es1) /\ es' = e1 :: es1
  end.
Proof.
  destruct es as [|e es]; simpl; intros H.
  - injection H as <- <-. auto.
  - destruct (v r e) as [[r1 e1]|p|]; try discriminate. simpl in H.
    destruct (visit_list v r1 es) as [[r2 es2]|p|] eqn:E; try discriminate. simpl in H.
    injection H as <- <-. exists r1, e1, es2. auto.
Qed.

(** A principle for proving facts about a visit: [I] relates states before and
    after, [Q] expressions before and after. *)
Section VisitInv.
Variable I : resolver -> resolver -> Prop.
Variable D : expr -> Prop.
Variable Q : expr -> expr -> Prop.
Hypothesis Irefl : forall r, I r r.
Hypothesis Itrans : forall a b c, I a b -> I b c -> I a c.
Hypothesis Ierr : forall r e, I r (store_error r e).
Hypothesis Ilet : forall d e, D (Let d e) -> forall r r2 t1 olds,
  push_local (r_fix r) (d_fixity d) (d_infixes d) = (t1, olds) ->
  I (mkResolver t1 (r_errs r)) r2 ->
  I r (mkResolver (restore (r_fix r2) olds) (r_errs r2)).
Hypothesis Drw : forall t e e', D e -> rewrite t e = Ok (inl e') -> D e'.
Hypothesis Dsub : forall e, D e ->
  match e with
  | Lit _ | Var _ => True
  | App a b | Bin a _ b => D a /\ D b
  | Lam _ a | Grp a | Neg a | Let _ a => D a
  | Tup es | List es => Forall D es
  end.
Hypothesis Qrefl : forall e, Q e e.
Hypothesis Qtrans : forall a b c, Q a b -> Q b c -> Q a c.
Hypothesis Qrw : forall t e e', rewrite t e = Ok (inl e') -> Q e e'.
Hypothesis Qapp : forall a b a' b', Q a a' -> Q b b' -> Q (App a b) (App a' b').
Hypothesis Qbin : forall a o b a' b', Q a a' -> Q b b' -> Q (Bin a o b) (Bin a' o b').
Hypothesis Qlam : forall p a a', Q a a' -> Q (Lam p a) (Lam p a').
Hypothesis Qgrp : forall a a', Q a a' -> Q (Grp a) (Grp a').
Hypothesis Qneg : forall a a', Q a a' -> Q (Neg a) (Neg a').
Hypothesis Qtup : forall a a', Forall2 Q a a' -> Q (Tup a) (Tup a').
Hypothesis Qlist : forall a a', Forall2 Q a a' -> Q (List a) (List a').
Hypothesis Qlet : forall d a a', Q a a' -> Q (Let d a) (Let d a').

Lemma visit_list_inv2 v es :
  (forall e r r' e', In e es -> v r e = Ok (r', e') -> I r r' /\ Q e e') ->
  forall r r' es', visit_list v r es = Ok (r', es') -> I r r' /\ Forall2 Q es es'.
Proof.
  induction es as [|e es IH]; intros H r r' es' E; apply visit_list_inv in E.
  - destruct E as [-> ->]. auto.
  - destruct E as (r1&e1&es1&E1&E2&->).
    apply H in E1 as [A1 A2]; [|left; auto].
    apply IH in E2 as [B1 B2]; [|intros; apply H; auto; right; auto].
    split; eauto.
Qed.

Lemma visit_inv : forall n e r r' e',
  D e -> visit_fuel n r e = Ok (r', e') -> I r r' /\ Q e e'.
Proof.
  induction n as [|n IH]; intros e r r' e' De E; [discriminate|].
  pose proof (Dsub e De) as Ds.
  assert (Lists : forall es, Forall D es -> forall r r' es',
     visit_list (visit_fuel n) r es = Ok (r', es') -> I r r' /\ Forall2 Q es es').
  { intros es Des. apply visit_list_inv2. intros x r1 r2 x' Hx. apply IH.
    rewrite Forall_forall in Des. auto. }
  destruct e; cbn [visit_fuel walk_expr] in E.
  - injection E as <- <-. auto.
  - injection E as <- <-. auto.
  - destruct (visit_fuel n r e1) as [[r1 a']|p|] eqn:E1; try discriminate. cbn [obind] in E.
    destruct (visit_fuel n r1 e2) as [[r2 b']|p|] eqn:E2; try discriminate. cbn [obind] in E.
    injection E as <- <-. apply IH in E1; [|tauto]. apply IH in E2; [|tauto].
    destruct E1, E2. split; eauto.
  - destruct (rewrite (r_fix r) (Bin e1 o e2)) as [[x|err]|p|] eqn:R; try discriminate.
    + pose proof (Drw _ _ _ De R) as Dx. pose proof (Qrw _ _ _ R) as Qx.
      apply rewrite_bin in R as (l&o'&y&->&_&_). cbn [walk_expr] in E.
      apply Dsub in Dx.
      destruct (visit_fuel n r (as_expr l)) as [[r1 a']|p|] eqn:E1; try discriminate. cbn [obind] in E.
      destruct (visit_fuel n r1 (as_expr y)) as [[r2 b']|p|] eqn:E2; try discriminate. cbn [obind] in E.
      injection E as <- <-. apply IH in E1; [|tauto]. apply IH in E2; [|tauto].
      destruct E1, E2. split; eauto.
    + injection E as <- <-. auto.
  - destruct (visit_fuel n r e) as [[r1 a']|p'|] eqn:E1; try discriminate. cbn [obind] in E.
    injection E as <- <-. apply IH in E1; [|tauto]. destruct E1; auto.
  - destruct (visit_fuel n r e) as [[r1 a']|p'|] eqn:E1; try discriminate. cbn [obind] in E.
    injection E as <- <-. apply IH in E1; [|tauto]. destruct E1; auto.
  - destruct (visit_fuel n r e) as [[r1 a']|p'|] eqn:E1; try discriminate. cbn [obind] in E.
    injection E as <- <-. apply IH in E1; [|tauto]. destruct E1; auto.
  - destruct (visit_list (visit_fuel n) r es) as [[r1 a']|p'|] eqn:E1; try discriminate.
    cbn [obind] in E. injection E as <- <-. apply Lists in E1; [|tauto]. destruct E1; auto.
  - destruct (visit_list (visit_fuel n) r es) as [[r1 a']|p'|] eqn:E1; try discriminate.
    cbn [obind] in E. injection E as <- <-. apply Lists in E1; [|tauto]. destruct E1; auto.
  - destruct (push_local (r_fix r) (d_fixity d) (d_infixes d)) as [t1 olds] eqn:P.
    destruct (visit_fuel n (mkResolver t1 (r_errs r)) e) as [[r1 a']|p'|] eqn:E1; try discriminate.
    cbn [obind] in E. injection E as <- <-. apply IH in E1; [|tauto]. destruct E1. split; eauto.
Qed.
End VisitInv.

Lemma visit_words n e r r' e' : visit_fuel n r e = Ok (r', e') -> words e' = words e.
Proof.
  intros H.
  refine (proj2 (visit_inv (fun _ _ => True) (fun _ => True) (fun a b => words b = words a)
    _ _ _ _ _ _ _ _ _ _ _ _ _ _ _ _ _ n e r r' e' I H)); auto.
  - intros [] _; auto; apply Forall_forall; auto.
  - intros; congruence.
  - intros; eapply words_rewrite; eauto.
  - intros a b a' b' H1 H2. simpl. rewrite H1, H2. auto.
  - intros a o b a' b' H1 H2. simpl. rewrite H1, H2. auto.
  - intros p a a' H1. simpl. rewrite H1. auto.
  - intros a a' H1. simpl. rewrite H1. auto.
  - intros a a' H1. simpl. rewrite H1. auto.
  - intros a a' H1. simpl. do 3 f_equal. induction H1; simpl; congruence.
  - intros a a' H1. simpl. do 3 f_equal. induction H1; simpl; congruence.
  - intros d a a' H1. simpl. rewrite H1. auto.
Qed.

Lemma nodup_as_expr g :
  nodup_lets (as_expr g) <-> (forall x, In (Operand x) (yield g) -> nodup_lets x).
Proof.
  induction g as [e|l IHl o r IHr]; simpl.
  - split; [intros H x [X|[]]; injection X as <-; auto|]. intros H. apply H. auto.
  - split.
    + inversion 1; subst. intros x Hx. apply in_app_or in Hx as [Hx|[Hx|Hx]]; [|discriminate|].
      * apply IHl; auto.
      * apply IHr; auto.
    + intros H. constructor; [apply IHl|apply IHr]; intros x Hx; apply H; apply in_or_app; simpl; auto.
Qed.

Lemma visit_table n e r r' e' :
  nodup_lets e -> visit_fuel n r e = Ok (r', e') -> r_fix r' = r_fix r.
Proof.
  intros N H.
  refine (proj1 (visit_inv (fun a b => r_fix b = r_fix a) nodup_lets (fun a b => True)
    _ _ _ _ _ _ _ _ _ _ _ _ _ _ _ _ _ n e r r' e' N H)); auto.
  - intros; congruence.
  - intros. rewrite store_error_add. auto.
  - intros d x D rr r2 t1 olds P E. simpl in *. rewrite E.
    pose proof (restore_push_local (d_fixity d) (d_infixes d) (r_fix rr)) as R.
    rewrite P in R. apply R. inversion D; auto.
  - intros t x x' D R. apply rewrite_iff in R as (g&_&Y&<-). apply nodup_as_expr.
    rewrite Y. apply nodup_chain; auto.
  - intros x D. inversion D; subst; auto.
Qed.

Definition dup_free (es : list assoc_error) : Prop :=
  ForallOrdPairs (fun a b => err_eqb a b = false) es.

Lemma dup_free_add es e : dup_free es -> dup_free (add_err es e).
Proof.
  unfold dup_free, add_err. intros H. destruct (existsb _ es) eqn:E; auto.
  induction H as [|a l Ha H IH]; simpl.
  - constructor; constructor.
  - simpl in E. apply orb_false_iff in E as [E1 E2]. constructor.
    + apply Forall_app. split; auto.
    + auto.
Qed.

Lemma add_err_incl es e x : In x es -> In x (add_err es e).
Proof. unfold add_err. destruct (existsb _ es); auto. intros; apply in_or_app; auto. Qed.
Lemma add_err_in es e x : In x (add_err es e) -> In x es \/ x = e.
Proof.
  unfold add_err. destruct (existsb _ es); auto. intros H.
  apply in_app_or in H as [H|[H|[]]]; auto.
Qed.
Lemma add_err_nonempty es e : add_err es e <> [].
Proof.
  unfold add_err. destruct es; simpl; [discriminate|]. destruct (_ || _); discriminate.
Qed.

Lemma add_errs_in new : forall es x, In x (add_errs es new) -> In x es \/ In x new.
Proof.
  unfold add_errs. induction new as [|n new IH]; intros es x H; simpl in *; auto.
  apply IH in H as [H|H]; auto. apply add_err_in in H as [H|H]; auto.
Qed.

Lemma add_errs_nil new : add_errs [] new = [] -> new = [].
Proof.
  assert (G : forall new es, es <> [] -> add_errs es new <> []).
  { unfold add_errs. induction new0 as [|n new0 IH]; intros es H; simpl; auto.
    apply IH. apply add_err_nonempty. }
  destruct new as [|n new]; auto. intros H. exfalso. revert H.
  change (add_errs (add_err [] n) new <> []). apply G. apply add_err_nonempty.
Qed.

Lemma visit_errs_inv n e r r' e' :
  visit_fuel n r e = Ok (r', e') -> dup_free (r_errs r) -> dup_free (r_errs r').
Proof.
  intros H.
  refine (proj1 (visit_inv (fun a b => dup_free (r_errs a) -> dup_free (r_errs b))
    (fun _ => True) (fun a b => True)
    _ _ _ _ _ _ _ _ _ _ _ _ _ _ _ _ _ n e r r' e' I H)); auto.
  - intros rr er. rewrite store_error_add. simpl. apply dup_free_add.
  - intros [] _; auto; apply Forall_forall; auto.
Qed.

(** The result expression and the table do not depend on pending errors. *)
Definition same_fix (a b : outcome (resolver * expr)) : Prop :=
  match a, b with
  | Ok (r1, e1), Ok (r2, e2) => r_fix r1 = r_fix r2 /\ e1 = e2
  | Panic p, Panic q => p = q
  | NoFuel, NoFuel => True
  | _, _ => False
  end.
Definition same_fix_l (a b : outcome (resolver * list expr)) : Prop :=
  match a, b with
  | Ok (r1, e1), Ok (r2, e2) => r_fix r1 = r_fix r2 /\ e1 = e2
  | Panic p, Panic q => p = q
  | NoFuel, NoFuel => True
  | _, _ => False
  end.

Lemma visit_list_same v es :
  (forall e r1 r2, r_fix r1 = r_fix r2 -> same_fix (v r1 e) (v r2 e)) ->
  forall r1 r2, r_fix r1 = r_fix r2 -> same_fix_l (visit_list v r1 es) (visit_list v r2 es).
Proof.
  intros H. induction es as [|e es IH]; intros r1 r2 E; simpl; auto.
  pose proof (H e r1 r2 E) as S. unfold same_fix in S.
  destruct (v r1 e) as [[a x]|p|], (v r2 e) as [[b y]|q|]; simpl; try tauto.
  destruct S as [S ->]. specialize (IH a b S). unfold same_fix_l in IH.
  destruct (visit_list v a es) as [[a' xs]|p|], (visit_list v b es) as [[b' ys]|q|]; simpl; try tauto.
  destruct IH as [IH ->]. auto.
Qed.

Lemma visit_same : forall n e r1 r2,
  r_fix r1 = r_fix r2 -> same_fix (visit_fuel n r1 e) (visit_fuel n r2 e).
Proof.
  induction n as [|n IH]; intros e r1 r2 E; [exact I|].
  assert (B : forall (k : expr -> expr) x, same_fix
     (obind (visit_fuel n r1 x) (fun '(r, a) => Ok (r, k a)))
     (obind (visit_fuel n r2 x) (fun '(r, a) => Ok (r, k a)))).
  { intros k x. specialize (IH x r1 r2 E). unfold same_fix in *.
    destruct (visit_fuel n r1 x) as [[a y]|p|], (visit_fuel n r2 x) as [[b z]|q|]; simpl; try tauto.
    destruct IH as [? ->]; auto. }
  assert (B2 : forall (k : expr -> expr -> expr) x y, same_fix
     (obind (visit_fuel n r1 x) (fun '(r, a) => obind (visit_fuel n r y) (fun '(r', b) => Ok (r', k a b))))
     (obind (visit_fuel n r2 x) (fun '(r, a) => obind (visit_fuel n r y) (fun '(r', b) => Ok (r', k a b))))).
  { intros k x y. pose proof (IH x r1 r2 E) as S. unfold same_fix in S.
    destruct (visit_fuel n r1 x) as [[a x1]|p|], (visit_fuel n r2 x) as [[b x2]|q|]; simpl; try tauto.
    destruct S as [S ->]. specialize (IH y a b S). unfold same_fix in IH.
    destruct (visit_fuel n a y) as [[a' y1]|p|], (visit_fuel n b y) as [[b' y2]|q|]; simpl; try tauto.
    destruct IH as [? ->]; auto. }
  destruct e; cbn [visit_fuel walk_expr].
  - split; auto.
  - split; auto.
  - apply (B2 App).
  - rewrite E. destruct (rewrite (r_fix r2) (Bin e1 o e2)) as [[x|err]|p|] eqn:R; simpl; auto.
    + apply rewrite_bin in R as (l&o'&y&->&_&_). cbn [walk_expr]. apply (B2 (fun a b => Bin a o' b)).
    + rewrite !store_error_add. auto.
  - apply (B (Lam p)).
  - apply (B Grp).
  - apply (B Neg).
  - pose proof (visit_list_same (visit_fuel n) es IH r1 r2 E) as S. unfold same_fix_l in S.
    destruct (visit_list (visit_fuel n) r1 es) as [[a x]|p|],
             (visit_list (visit_fuel n) r2 es) as [[b y]|q|]; simpl; try tauto.
    destruct S as [? ->]; auto.
  - pose proof (visit_list_same (visit_fuel n) es IH r1 r2 E) as S. unfold same_fix_l in S.
    destruct (visit_list (visit_fuel n) r1 es) as [[a x]|p|],
             (visit_list (visit_fuel n) r2 es) as [[b y]|q|]; simpl; try tauto.
    destruct S as [? ->]; auto.
  - rewrite E. destruct (push_local (r_fix r2) (d_fixity d) (d_infixes d)) as [t1 olds].
    pose proof (IH e (mkResolver t1 (r_errs r1)) (mkResolver t1 (r_errs r2)) eq_refl) as S.
    unfold same_fix in S.
    destruct (visit_fuel n (mkResolver t1 (r_errs r1)) e) as [[a x]|p|],
             (visit_fuel n (mkResolver t1 (r_errs r2)) e) as [[b y]|q|]; simpl; try tauto.
    destruct S as [S ->]. rewrite S. auto.
Qed.

(** Visiting a resolved expression changes nothing. *)
Lemma resolves_not_bin F x y : resolves F x y -> not_bin x -> not_bin y.
Proof. intros H N. destruct H; intros ? ? ? X; try discriminate. eapply N; eauto. Qed.

Lemma legal_visit_id t r : r_fix r = t -> forall g n,
  legal (get t) g -> leaves_ok g -> esize (as_expr g) <= n ->
  (forall x m, In (Operand x) (yield g) -> esize x <= m -> visit_fuel m r x = Ok (r, x)) ->
  visit_fuel n r (as_expr g) = Ok (r, as_expr g).
Proof.
  intros Hr. induction g as [e|l IHl o x IHx]; intros n L O Hn G.
  - apply G; simpl; auto.
  - cbn [as_expr esize] in Hn. destruct n as [|n]; [lia|].
    pose proof (rewrite_legal_id t (Node l o x) L O) as R.
    cbn [as_expr visit_fuel] in *. rewrite Hr, R. cbn [walk_expr].
    destruct L as (Ll&Lx&_).
    rewrite IHl; auto; try lia; [|eapply leaves_ok_l; eauto|].
    2:{ intros y m Hy. apply G. simpl. apply in_or_app; auto. }
    cbn [obind]. rewrite IHx; auto; try lia; [eapply leaves_ok_r; eauto|].
    intros y m Hy. apply G. simpl. apply in_or_app; right; right; auto.
Qed.

Lemma visit_list_id v r es : (forall e, In e es -> v r e = Ok (r, e)) -> visit_list v r es = Ok (r, es).
Proof.
  induction es as [|e es IH]; intros H; simpl; auto.
  rewrite H; [|left; auto]. cbn [obind]. rewrite IH; auto. intros; apply H; right; auto.
Qed.

Lemma Forall2_in_r {A B} (R : A -> B -> Prop) xs ys y :
  Forall2 R xs ys -> In y ys -> exists x, In x xs /\ R x y.
Proof.
  induction 1; intros H1; [destruct H1|]. destruct H1 as [->|H1].
  - exists x. split; auto. left; auto.
  - destruct (IHForall2 H1) as (z&?&?). exists z. split; auto. right; auto.
Qed.

Lemma resolves_fixpoint F e e' : resolves F e e' -> flat e -> nodup_lets e ->
  forall t n r, (forall o, F o = get t o) -> r_fix r = t -> esize e' <= n ->
  visit_fuel n r e' = Ok (r, e').
Proof.
  intros H. induction H using resolves_ind'; intros Fl Nd t n r EQ Hr Hn;
    (destruct n as [|n]; [match goal with H : esize ?x <= 0 |- _ => pose proof (esize_pos x); lia end|]).
  - reflexivity.
  - reflexivity.
  - inversion Fl; inversion Nd; subst. cbn [esize] in Hn. cbn [visit_fuel walk_expr].
    rewrite (IHresolves1) with (t := r_fix r); auto; try lia. cbn [obind].
    rewrite (IHresolves2) with (t := r_fix r); auto; lia.
  - apply legal_visit_id with (t := t); auto.
    + eapply legal_ext; eauto.
    + intros y Hy. destruct (Forall2_in_r _ _ _ _ H0 Hy) as (i&Hi&K). inversion K; subst.
      eapply resolves_not_bin; [apply H3|]. exact (proj1 (flat_chain _ Fl _ Hi)).
    + intros y m Hy Hm. destruct (Forall2_in_r _ _ _ _ H0 Hy) as (i&Hi&K). inversion K; subst.
      destruct H3 as [_ K']. apply K' with (t := r_fix r); auto.
      * exact (proj2 (flat_chain _ Fl _ Hi)).
      * exact (nodup_chain _ Nd _ Hi).
  - inversion Fl; inversion Nd; subst. cbn [esize] in Hn. cbn [visit_fuel walk_expr].
    rewrite IHresolves with (t := r_fix r); auto; lia.
  - inversion Fl; inversion Nd; subst. cbn [esize] in Hn. cbn [visit_fuel walk_expr].
    rewrite IHresolves with (t := r_fix r); auto; lia.
  - inversion Fl; inversion Nd; subst. cbn [esize] in Hn. cbn [visit_fuel walk_expr].
    rewrite IHresolves with (t := r_fix r); auto; lia.
  - inversion Fl as [| | | | | | |? Fs| |]; inversion Nd as [| | | | | | |? Ns| |]; subst.
    cbn [esize] in Hn. cbn [visit_fuel walk_expr].
    rewrite visit_list_id; auto. intros y Hy. rewrite Forall_forall in Fs, Ns.
    destruct (Forall2_in_r _ _ _ _ H Hy) as (x&Hx&_&K).
    apply K with (t := r_fix r); auto. apply list_sum_in in Hy. lia.
  - inversion Fl as [| | | | | | | |? Fs|]; inversion Nd as [| | | | | | | |? Ns|]; subst.
    cbn [esize] in Hn. cbn [visit_fuel walk_expr].
    rewrite visit_list_id; auto. intros y Hy. rewrite Forall_forall in Fs, Ns.
    destruct (Forall2_in_r _ _ _ _ H Hy) as (x&Hx&_&K).
    apply K with (t := r_fix r); auto. apply list_sum_in in Hy. lia.
  - inversion Fl; inversion Nd; subst. cbn [esize] in Hn. cbn [visit_fuel].
    destruct (push_local (r_fix r) (d_fixity d) (d_infixes d)) as [t1 olds] eqn:E.
    rewrite IHresolves with (t := t1); auto; try lia.
    + simpl. pose proof (restore_push_local (d_fixity d) (d_infixes d) (r_fix r)) as R.
      rewrite E in R. simpl in R. rewrite R; auto. destruct r; auto.
    + intros o. unfold scoped. rewrite EQ. fold (scoped (get (r_fix r)) d o).
      rewrite <- get_insert_many_scoped, <- push_local_table, E. reflexivity.
Qed.

(** Declarations *)
Lemma declared_scoped : forall ds F o,
  declared F ds o = fold_left scoped ds F o.
Proof.
  assert (E : forall ds F G o, (forall o, F o = G o) -> fold_left scoped ds F o = fold_left scoped ds G o).
  { induction ds as [|d ds IH]; intros F G o H; simpl; auto. apply IH. apply scoped_ext; auto. }
  assert (NotIn : forall ds F o, existsb (fun d' => in_decl d' o) ds = false ->
     fold_left scoped ds F o = F o).
  { induction ds as [|d ds IH]; intros F o H; simpl; auto. simpl in H.
    apply orb_false_iff in H as [H1 H2]. rewrite IH; auto. unfold scoped. rewrite H1. auto. }
  assert (IsIn : forall ds F G o, existsb (fun d' => in_decl d' o) ds = true ->
     fold_left scoped ds F o = fold_left scoped ds G o).
  { induction ds as [|d ds IH]; intros F G o H; simpl; [discriminate|]. simpl in H.
    destruct (existsb (fun d' => in_decl d' o) ds) eqn:X; auto.
    rewrite !NotIn; auto. unfold scoped. rewrite orb_false_r in H. rewrite H. auto. }
  induction ds as [|d ds IH]; intros F o; simpl; auto.
  destruct (existsb _ ds) eqn:X.
  - rewrite IH. apply IsIn; auto.
  - rewrite NotIn; auto.
Qed.

Definition load_tbl (t : fixities) (ds : list infix_decl) : fixities :=
  fold_left (fun t d => insert_many t (d_fixity d) (d_infixes d)) ds t.

Lemma load_tbl_get : forall ds t o, get (load_tbl t ds) o = declared (get t) ds o.
Proof.
  intros ds t o. rewrite declared_scoped. revert t. unfold load_tbl.
  assert (E : forall ds F G o, (forall o, F o = G o) -> fold_left scoped ds F o = fold_left scoped ds G o).
  { induction ds0 as [|d ds0 IH]; intros F G o0 H; simpl; auto. apply IH. apply scoped_ext; auto. }
  induction ds as [|d ds IH]; intros t; simpl; auto.
  rewrite IH. apply E. intros o'. apply get_insert_many_scoped.
Qed.

Lemma load_tbl_nodup : forall ds t, NoDup (keys t) -> NoDup (keys (load_tbl t ds)).
Proof.
  unfold load_tbl. induction ds as [|d ds IH]; intros t H; simpl; auto.
  apply IH. apply insert_many_nodup. auto.
Qed.

(** Loading the same declarations twice is loading them once. *)
Lemma fst_insert t op f : has t op = true -> map fst (insert_tbl t op f) = map fst t.
Proof.
  unfold has. induction t as [|[k v] t IH]; simpl; [discriminate|].
  destruct (infix_eqb k op); simpl; auto. intros H. f_equal. auto.
Qed.

Lemma has_insert_many f : forall ops t op, has t op = true -> has (insert_many t f ops) op = true.
Proof.
  unfold insert_many. induction ops as [|o ops IH]; intros t op H; simpl; auto.
  apply IH. apply has_insert_mono. auto.
Qed.

Lemma has_load_tbl : forall ds t op, has t op = true -> has (load_tbl t ds) op = true.
Proof.
  unfold load_tbl. induction ds as [|d ds IH]; intros t op H; simpl; auto.
  apply IH. apply has_insert_many. auto.
Qed.

Lemma has_insert_many_in f : forall ops t op, In op ops -> has (insert_many t f ops) op = true.
Proof.
  unfold insert_many. induction ops as [|o ops IH]; intros t op H; simpl; [destruct H|].
  destruct H as [->|H]; [|apply IH; auto].
  apply (has_insert_many f). unfold has. rewrite get_insert_same. auto.
Qed.

Lemma has_load_tbl_in : forall ds t d op,
  In d ds -> In op (d_infixes d) -> has (load_tbl t ds) op = true.
Proof.
  induction ds as [|d0 ds IH]; intros t d op H1 H2; [destruct H1|].
  destruct H1 as [->|H1]; simpl.
  - apply has_load_tbl. apply has_insert_many_in. auto.
  - eapply IH; eauto.
Qed.

Lemma fst_insert_many f : forall ops t,
  (forall op, In op ops -> has t op = true) -> map fst (insert_many t f ops) = map fst t.
Proof.
  unfold insert_many. induction ops as [|o ops IH]; intros t H; simpl; auto.
  rewrite IH.
  - apply fst_insert. apply H. left; auto.
  - intros op Ho. apply has_insert_mono. apply H. right; auto.
Qed.

Lemma fst_load_tbl : forall ds t,
  (forall d op, In d ds -> In op (d_infixes d) -> has t op = true) ->
  map fst (load_tbl t ds) = map fst t.
Proof.
  unfold load_tbl. induction ds as [|d ds IH]; intros t H; simpl; auto.
  rewrite IH.
  - apply fst_insert_many. intros; apply (H d); auto. left; auto.
  - intros d' op H1 H2. apply has_insert_many. apply (H d'); auto. right; auto.
Qed.

Lemma table_ext : forall t1 t2,
  NoDup (keys t1) -> map fst t1 = map fst t2 -> (forall o, get t1 o = get t2 o) -> t1 = t2.
Proof.
  induction t1 as [|[k v] t1 IH]; intros [|[k2 v2] t2] N E G; simpl in *; try discriminate; auto.
  injection E as <- E. inversion N as [|? ? N1 N2]; subst.
  assert (v = v2).
  { specialize (G k). unfold get in G. simpl in G. rewrite infix_eqb_refl in G. auto. }
  subst. f_equal. apply IH; auto. intros o. specialize (G o). unfold get in *. simpl in G.
  destruct (infix_eqb_spec k o) as [X|X]; auto.
  assert (K : keys t1 = keys t2).
  { clear - E. revert t2 E. induction t1 as [|[a b] t1 IH]; intros [|[c d] t2] E; simpl in *;
      try discriminate; auto. injection E as -> E. f_equal. auto. }
  assert (A1 : get_defined t1 o = None) by (apply get_none_keys; congruence).
  assert (A2 : get_defined t2 o = None) by (apply get_none_keys; congruence).
  rewrite A1, A2. auto.
Qed.

Lemma declared_idem ds F o : declared (declared F ds) ds o = declared F ds o.
Proof.
  rewrite !declared_scoped.
  assert (NotIn : forall ds F o, existsb (fun d' => in_decl d' o) ds = false ->
     fold_left scoped ds F o = F o).
  { clear. induction ds as [|d ds IH]; intros F o H; simpl; auto. simpl in H.
    apply orb_false_iff in H as [H1 H2]. rewrite IH; auto. unfold scoped. rewrite H1. auto. }
  assert (IsIn : forall ds F G o, existsb (fun d' => in_decl d' o) ds = true ->
     fold_left scoped ds F o = fold_left scoped ds G o).
  { clear - NotIn. induction ds as [|d ds IH]; intros F G o H; simpl; [discriminate|]. simpl in H.
    destruct (existsb (fun d' => in_decl d' o) ds) eqn:X; auto.
    rewrite !NotIn; auto. unfold scoped. rewrite orb_false_r in H. rewrite H. auto. }
  destruct (existsb (fun d' => in_decl d' o) ds) eqn:X.
  - apply IsIn; auto.
  - rewrite !NotIn; auto. rewrite declared_scoped, NotIn; auto.
Qed.

Lemma load_tbl_idem ds t : NoDup (keys t) -> load_tbl (load_tbl t ds) ds = load_tbl t ds.
Proof.
  intros N. apply table_ext.
  - apply load_tbl_nodup, load_tbl_nodup; auto.
  - apply fst_load_tbl. intros; eapply has_load_tbl_in; eauto.
  - intros o. rewrite !load_tbl_get.
    rewrite <- (declared_idem ds (get t) o).
    rewrite !declared_scoped.
    assert (E : forall ds F G o, (forall o, F o = G o) -> fold_left scoped ds F o = fold_left scoped ds G o).
    { clear. induction ds as [|d ds IH]; intros F G o H; simpl; auto. apply IH. apply scoped_ext; auto. }
    apply E. intros o'. apply load_tbl_get.
Qed.

(** Whole inputs *)
Lemma good_visit_expr e : flat e -> nodup_lets e -> forall r, exists r' e',
  visit_expr r e = Ok (r', e') /\ visit_post (r_fix r) e r r' e'.
Proof. intros F N. apply (visit_good e (esize e) F N). lia. Qed.

Lemma resolve_exprs_lemma es : Forall flat es -> Forall nodup_lets es -> forall r,
  exists r' es' new, visit_list visit_expr r es = Ok (r', es')
    /\ r_fix r' = r_fix r /\ r_errs r' = add_errs (r_errs r) new
    /\ (new = [] -> Forall2 (resolves (get (r_fix r))) es es')
    /\ Forall (fun x => exists y, In y es
          /\ clash_in (get (r_fix r)) y (e_prev x) (e_prev_fix x) (e_curr x) (e_curr_fix x)) new.
Proof.
  induction es as [|e es IH]; intros Fs Ns r; simpl.
  - exists r, [], []. repeat split; auto.
  - inversion Fs; inversion Ns; subst.
    destruct (good_visit_expr e ltac:(auto) ltac:(auto) r) as (r1&e1&->&n1&A1&A2&A3&A4).
    cbn [obind]. destruct (IH ltac:(auto) ltac:(auto) r1) as (r2&es2&n2&->&B1&B2&B3&B4).
    cbn [obind]. rewrite A1 in *.
    exists r2, (e1 :: es2), (n1 ++ n2). repeat split; auto.
    + rewrite add_errs_app. congruence.
    + intros X. apply app_eq_nil in X as [X1 X2]. constructor; auto.
    + apply Forall_app. split.
      * eapply Forall_impl; [|exact A4]. simpl. intros x C. exists e. auto.
      * eapply Forall_impl; [|exact B4]. simpl. intros x (y&Hy&C). exists y. auto.
Qed.

(** Agreement *)
Lemma agree_left F G ops a b : agree F G ops -> In a ops -> In b ops ->
  left_ok F a b -> left_ok G a b.
Proof.
  intros [A C] Ha Hb. unfold left_ok, is_infixl, prec.
  rewrite <- (A a Ha), <- (A b Hb). pose proof (C a b Ha Hb) as X.
  destruct (N.compare_spec (fx_prec (F a)) (fx_prec (F b))),
           (N.compare_spec (fx_prec (G a)) (fx_prec (G b))); try discriminate; intuition lia.
Qed.
Lemma agree_right F G ops a b : agree F G ops -> In a ops -> In b ops ->
  right_ok F a b -> right_ok G a b.
Proof.
  intros [A C] Ha Hb. unfold right_ok, is_infixr, prec.
  rewrite <- (A a Ha), <- (A b Hb). pose proof (C a b Ha Hb) as X.
  destruct (N.compare_spec (fx_prec (F a)) (fx_prec (F b))),
           (N.compare_spec (fx_prec (G a)) (fx_prec (G b))); try discriminate; intuition lia.
Qed.
Lemma agree_legal F G ops g : agree F G ops ->
  (forall o, In (Operator o) (yield g) -> In o ops) -> legal F g -> legal G g.
Proof.
  intros A. induction g as [e|l IHl o r IHr]; simpl; auto. intros H (H1&H2&H3&H4).
  assert (Ho : In o ops) by (apply H; apply in_or_app; right; left; auto).
  repeat split.
  - apply IHl; auto. intros; apply H; apply in_or_app; auto.
  - apply IHr; auto. intros; apply H; apply in_or_app; right; right; auto.
  - intros c Hc. eapply agree_left; eauto. destruct l; [discriminate|].
    simpl in Hc. injection Hc as ->. apply H. simpl. apply in_or_app. left.
    apply in_or_app. right; left; auto.
  - intros c Hc. eapply agree_right; eauto. destruct r; [discriminate|].
    simpl in Hc. injection Hc as ->. apply H. simpl. apply in_or_app. right; right.
    apply in_or_app. right; left; auto.
Qed.
Lemma agree_sym F G ops : agree F G ops -> agree G F ops.
Proof. intros [A C]. split; intros; symmetry; auto. Qed.
Lemma agree_incl F G ops ops' : agree F G ops -> incl ops' ops -> agree F G ops'.
Proof. intros [A C] H. split; intros; auto. Qed.

Lemma ops_chain e o : In (Operator o) (chain e) -> In o (ops_in e).
Proof.
  induction e; simpl; try (intros [H|[]]; discriminate).
  intros [H|[H|H]]; [discriminate| |]; apply in_or_app; right; simpl.
  - injection H as ->. auto.
  - auto.
Qed.
Lemma ops_operand e x : In (Operand x) (chain e) -> incl (ops_in x) (ops_in e).
Proof.
  induction e; simpl; try (intros [H|[]]; injection H as <-; apply incl_refl).
  intros [H|[H|H]]; [injection H as <-; apply incl_appl, incl_refl|discriminate|].
  apply incl_appr. apply incl_tl. auto.
Qed.
Lemma let_free_chain e x : let_free e = true -> In (Operand x) (chain e) -> let_free x = true.
Proof.
  induction e; simpl; try (intros K [H|[]]; injection H as <-; auto).
  intros K [H|[H|H]]; [injection H as <-|discriminate|]; apply andb_true_iff in K; tauto.
Qed.

Lemma resolves_agree F e e' : resolves F e e' -> forall G,
  let_free e = true -> agree F G (ops_in e) -> resolves G e e'.
Proof.
  intros H. induction H using resolves_ind'; intros G LF A;
    try (constructor; auto; fail).
  - simpl in LF, A. apply andb_true_iff in LF as [? ?].
    constructor; [apply IHresolves1|apply IHresolves2]; auto;
      eapply agree_incl; eauto; [apply incl_appl|apply incl_appr]; apply incl_refl.
  - constructor.
    + eapply agree_legal; eauto. intros o0 Ho. apply ops_chain. rewrite item_rel_ops; eauto.
    + assert (K : forall x, In (Operand x) (chain (Bin a o b)) ->
         let_free x = true /\ agree F G (ops_in x)).
      { intros x Hx. split; [eapply let_free_chain; eauto|].
        eapply agree_incl; eauto. apply ops_operand; auto. }
      revert K. clear - H0. induction H0 as [|x y xs ys Hxy _ IH]; intros K; constructor.
      * inversion Hxy; subst; constructor. destruct H as [_ H].
        destruct (K a0 (or_introl eq_refl)). apply H; auto.
      * apply IH. intros; apply K; right; auto.
  - constructor. simpl in *. revert LF A.
    induction H as [|x y xs ys [_ K] _ IH]; intros LF A; constructor; simpl in *;
      apply andb_true_iff in LF as [? ?].
    + apply K; auto. eapply agree_incl; eauto. apply incl_appl, incl_refl.
    + apply IH; auto. eapply agree_incl; eauto. apply incl_appr, incl_refl.
  - constructor. simpl in *. revert LF A.
    induction H as [|x y xs ys [_ K] _ IH]; intros LF A; constructor; simpl in *;
      apply andb_true_iff in LF as [? ?].
    + apply K; auto. eapply agree_incl; eauto. apply incl_appl, incl_refl.
    + apply IH; auto. eapply agree_incl; eauto. apply incl_appr, incl_refl.
  - discriminate.
Qed.

Lemma rewrite_agree t1 t2 e :
  agree (get t1) (get t2) (map (fun i => match i with Operator o => o | Operand _ => Standard [] end)
     (filter (fun i => match i with Operator _ => true | _ => false end) (chain e))) ->
  match rewrite t1 e, rewrite t2 e with
  | Ok (inl a), Ok (inl b) => a = b
  | Ok (inr a), Ok (inr b) => e_prev a = e_prev b /\ e_curr a = e_curr b
  | _, _ => False
  end.
Proof.
  intros A.
  assert (Hops : forall o, In (Operator o) (chain e) ->
    In o (map (fun i => match i with Operator o => o | Operand _ => Standard [] end)
     (filter (fun i => match i with Operator _ => true | _ => false end) (chain e)))).
  { intros o Ho. change o with ((fun i => match i with Operator o => o | Operand _ => Standard [] end) (Operator o)).
    apply in_map. apply filter_In. auto. }
  revert A Hops. generalize (map (fun i => match i with Operator o => o | Operand _ => Standard [] end)
     (filter (fun i => match i with Operator _ => true | _ => false end) (chain e))) as ops.
  intros ops A Hops.
  assert (FF : forall p o, In p ops -> In o ops ->
    match from_fixities (get t1 p) (get t1 o), from_fixities (get t2 p) (get t2 o) with
    | RShift, RShift | RReduce, RReduce | RAmbiguous _ _, RAmbiguous _ _ => True
    | _, _ => False
    end).
  { intros p o Hp Ho. destruct A as [Aa Ac]. unfold from_fixities.
    rewrite <- (Aa p Hp), <- (Aa o Ho). pose proof (Ac p o Hp Ho) as C.
    destruct (N.compare_spec (fx_prec (get t1 p)) (fx_prec (get t1 o))),
      (N.compare_spec (fx_prec (get t2 p)) (fx_prec (get t2 o))); try discriminate C;
    repeat match goal with
    | |- context [N.ltb ?a ?b] => destruct (N.ltb_spec a b); try lia
    | |- context [N.eqb ?a ?b] => destruct (N.eqb_spec a b); try lia
    end; auto.
    destruct (fx_assoc (get t1 o)), (fx_assoc (get t1 p)); auto. }
  assert (Push : forall infixes operands o, In o ops -> incl infixes ops ->
    match push_op t1 operands infixes o, push_op t2 operands infixes o with
    | Ok (inl a), Ok (inl b) => a = b /\ incl (snd a) ops
    | Ok (inr a), Ok (inr b) => e_prev a = e_prev b /\ e_curr a = e_curr b
    | Panic _, Panic _ => True
    | _, _ => False
    end).
  { induction infixes as [|p infixes IH]; intros operands o Ho Hi; simpl.
    - split; auto. intros x [<-|[]]; auto.
    - pose proof (FF p o (Hi p (or_introl eq_refl)) Ho) as R.
      destruct (from_fixities (get t1 p) (get t1 o)), (from_fixities (get t2 p) (get t2 o)); try tauto.
      + split; auto. intros x [<-|Hx]; auto.
      + destruct operands as [|b [|a ops']]; simpl; auto. apply IH; auto.
        intros x Hx; apply Hi; right; auto. }
  assert (NP : forall t, match rewrite t e with Ok _ => True | _ => False end).
  { intros t. pose proof (rewrite_spec t e). destruct (rewrite t e); auto. }
  assert (Loop : forall e0 operands infixes,
    (forall o, In (Operator o) (chain e0) -> In o ops) -> incl infixes ops ->
    match rewrite_loop t1 e0 operands infixes, rewrite_loop t2 e0 operands infixes with
    | Ok (inl a), Ok (inl b) => a = b
    | Ok (inr a), Ok (inr b) => e_prev a = e_prev b /\ e_curr a = e_curr b
    | Panic _, Panic _ | NoFuel, NoFuel => True
    | _, _ => False
    end).
  { induction e0; intros operands infixes Ho Hi; cbn [rewrite_loop];
      try (destruct (finish operands infixes _); auto; fail).
    pose proof (Push infixes (e0_1 :: operands) o (Ho o (or_intror (or_introl eq_refl))) Hi) as P.
    destruct (push_op t1 (e0_1 :: operands) infixes o) as [[[a1 b1]|x1]|p1|],
             (push_op t2 (e0_1 :: operands) infixes o) as [[[a2 b2]|x2]|p2|]; try tauto.
    destruct P as [P1 P2]. injection P1 as <- <-. simpl in P2.
    apply IHe0_2; auto. intros q Hq. apply Ho. simpl. auto. }
  specialize (Loop e [] [] Hops ltac:(intros x [])).
  pose proof (NP t1) as N1. pose proof (NP t2) as N2. unfold rewrite in *.
  destruct (rewrite_loop t1 e [] []) as [[?|?]|?|], (rewrite_loop t2 e [] []) as [[?|?]|?|]; tauto.
Qed.
