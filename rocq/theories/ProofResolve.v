(** The resolving visitor. *)
From Coq Require Import List NArith ZArith Bool Lia.
From Coq Require Import ZifyBool ZifyN.
From Verif Require Import Prelim Syntax Fixity SpecFixity ProofRewrite ProofTable.
Import ListNotations.

(** Sizes *)
Definition isize1 (i : item) : nat :=
  match i with Operand e => esize e | Operator _ => 1 end.
Definition isize (its : list item) : nat := list_sum (map isize1 its).

Lemma isize_app a b : isize (a ++ b) = isize a + isize b.
Proof. unfold isize. rewrite map_app, list_sum_app. reflexivity. Qed.
Lemma isize_cons a b : isize (a :: b) = isize1 a + isize b.
Proof. reflexivity. Qed.

Lemma esize_as_expr g : esize (as_expr g) = isize (yield g).
Proof.
  induction g as [e|l IHl o r IHr]; simpl.
  - unfold isize; simpl; lia.
  - rewrite isize_app, isize_cons. simpl. lia.
Qed.

Lemma esize_chain e : isize (chain e) = esize e.
Proof.
  induction e; try (unfold isize; simpl; lia).
  change (chain (Bin e1 o e2)) with (Operand e1 :: Operator o :: chain e2).
  rewrite !isize_cons. simpl. lia.
Qed.

Lemma esize_pos e : 0 < esize e.
Proof. destruct e; simpl; lia. Qed.

Lemma isize_in x its : In (Operand x) its -> esize x <= isize its.
Proof.
  induction its as [|i its IH]; simpl; [tauto|]. intros [->|H]; rewrite isize_cons; simpl; [lia|].
  specialize (IH H). lia.
Qed.

Lemma list_sum_in x es : In x es -> esize x <= list_sum (map esize es).
Proof.
  induction es as [|i its IH]; simpl; [tauto|]. intros [->|H]; [lia|].
  specialize (IH H). lia.
Qed.

Lemma rewrite_size t e e' : rewrite t e = Ok (inl e') -> esize e' = esize e.
Proof.
  intros H. apply rewrite_iff in H as (g & _ & Y & <-).
  rewrite esize_as_expr, Y. apply esize_chain.
Qed.

Lemma rewrite_bin t a o b e' :
  rewrite t (Bin a o b) = Ok (inl e') ->
  exists l o' r, e' = Bin (as_expr l) o' (as_expr r) /\ legal (get t) (Node l o' r)
    /\ yield (Node l o' r) = chain (Bin a o b).
Proof.
  intros H. apply rewrite_iff in H as (g & L & Y & <-).
  destruct g as [x|l o' r].
  - simpl in Y. discriminate.
  - exists l, o', r. auto.
Qed.

(** Totality, for every expression. *)
Lemma visit_list_total v es :
  (forall e, In e es -> forall r, exists r' e', v r e = Ok (r', e')) ->
  forall r, exists r' es', visit_list v r es = Ok (r', es').
Proof.
  induction es as [|e es IH]; intros H r; simpl; [eauto|].
  destruct (H e (or_introl eq_refl) r) as (r1 & e1 & ->). simpl.
  destruct (IH (fun x Hx => H x (or_intror Hx)) r1) as (r2 & es2 & ->). simpl. eauto.
Qed.

Lemma visit_total : forall n e r, esize e <= n -> exists r' e', visit_fuel n r e = Ok (r', e').
Proof.
  induction n as [|n IH]; intros e r Hn.
  { pose proof (esize_pos e). lia. }
  destruct e; simpl in Hn; cbn [visit_fuel walk_expr]; eauto.
  - destruct (IH e1 r ltac:(lia)) as (r1&a&->). cbn [obind].
    destruct (IH e2 r1 ltac:(lia)) as (r2&b&->). simpl. eauto.
  - pose proof (rewrite_spec (r_fix r) (Bin e1 o e2)) as S.
    destruct (rewrite (r_fix r) (Bin e1 o e2)) as [[e'|err]|p|] eqn:E; try tauto; eauto.
    pose proof (rewrite_size _ _ _ E) as Sz. simpl in Sz.
    apply rewrite_bin in E as (l&o'&x&->&_&_). simpl in Sz. cbn [walk_expr].
    destruct (IH (as_expr l) r ltac:(lia)) as (r1&a&->). cbn [obind].
    destruct (IH (as_expr x) r1 ltac:(lia)) as (r2&b&->). simpl. eauto.
  - destruct (IH e r ltac:(lia)) as (r1&a&->). simpl; eauto.
  - destruct (IH e r ltac:(lia)) as (r1&a&->). simpl; eauto.
  - destruct (IH e r ltac:(lia)) as (r1&a&->). simpl; eauto.
  - destruct (visit_list_total (visit_fuel n) es) with (r := r) as (r1&a&->).
    + intros e He r0. apply IH. apply list_sum_in in He. lia.
    + simpl; eauto.
  - destruct (visit_list_total (visit_fuel n) es) with (r := r) as (r1&a&->).
    + intros e He r0. apply IH. apply list_sum_in in He. lia.
    + simpl; eauto.
  - destruct (push_local (r_fix r) (d_fixity d) (d_infixes d)) as [t1 olds].
    destruct (IH e (mkResolver t1 (r_errs r)) ltac:(lia)) as (r1&a&->). simpl. eauto.
Qed.

(** Errors *)
Definition add_err (es : list assoc_error) (e : assoc_error) : list assoc_error :=
  if existsb (fun x => err_eqb x e) es then es else es ++ [e].

Lemma store_error_add r e : store_error r e = mkResolver (r_fix r) (add_err (r_errs r) e).
Proof. destruct r as [f es]. unfold store_error, add_err; simpl. destruct (existsb _ es); auto. Qed.

Definition add_errs (es new : list assoc_error) := fold_left add_err new es.

Lemma add_errs_app es a b : add_errs es (a ++ b) = add_errs (add_errs es a) b.
Proof. apply fold_left_app. Qed.

(** Regrouping an already legal grouping changes nothing. *)
Fixpoint spine (g : gtree) : gtree :=
  match g with Leaf e => Leaf e | Node l o r => Node (Leaf (as_expr l)) o (spine r) end.

Lemma as_expr_spine g : as_expr (spine g) = as_expr g.
Proof. induction g; simpl; auto. rewrite IHg2. auto. Qed.
Lemma root_spine g : root (spine g) = root g.
Proof. destruct g; auto. Qed.
Lemma legal_spine F g : legal F g -> legal F (spine g).
Proof.
  induction g; simpl; auto. intros (H1&H2&H3&H4). repeat split; auto.
  - discriminate.
  - rewrite root_spine. auto.
Qed.
Definition leaves_ok (g : gtree) := forall x, In (Operand x) (yield g) -> not_bin x.
Lemma chain_not_bin e : not_bin e -> chain e = [Operand e].
Proof. intros H. destruct e; auto. exfalso. eapply H; eauto. Qed.
Lemma leaves_ok_l l o r : leaves_ok (Node l o r) -> leaves_ok l.
Proof. intros H x Hx. apply H. simpl. apply in_or_app; auto. Qed.
Lemma leaves_ok_r l o r : leaves_ok (Node l o r) -> leaves_ok r.
Proof. intros H x Hx. apply H. simpl. apply in_or_app; right; right; auto. Qed.
Lemma yield_spine g : leaves_ok g -> yield (spine g) = chain (as_expr g).
Proof.
  induction g as [e|l IHl o r IHr]; intros H; simpl.
  - rewrite chain_not_bin; auto. apply H. left; auto.
  - rewrite IHr; auto. eapply leaves_ok_r; eauto.
Qed.

Lemma rewrite_legal_id t g :
  legal (get t) g -> leaves_ok g -> rewrite t (as_expr g) = Ok (inl (as_expr g)).
Proof.
  intros L O. rewrite <- (as_expr_spine g) at 2. apply rewrite_complete.
  - apply legal_spine; auto.
  - apply yield_spine; auto.
Qed.

Lemma flat_chain e : flat e -> forall x, In (Operand x) (chain e) -> not_bin x /\ flat x.
Proof.
  induction e; intros H x Hx; simpl in Hx;
    try (destruct Hx as [Hx|[]]; injection Hx as <-; split; [intros ? ? ? X; discriminate|auto]).
  inversion H; subst. destruct Hx as [Hx|[Hx|Hx]]; [injection Hx as <-; auto|discriminate|auto].
Qed.

Lemma nodup_chain e : nodup_lets e -> forall x, In (Operand x) (chain e) -> nodup_lets x.
Proof.
  induction e; intros H x Hx; simpl in Hx;
    try (destruct Hx as [Hx|[]]; injection Hx as <-; auto).
  inversion H; subst. destruct Hx as [Hx|[Hx|Hx]]; [injection Hx as <-; auto|discriminate|auto].
Qed.

(** What one visit does: [new] are the errors found. *)
Definition visit_post (t : fixities) (e : expr) (r r' : resolver) (e' : expr) : Prop :=
  exists new,
    r_fix r' = r_fix r
    /\ r_errs r' = add_errs (r_errs r) new
    /\ (new = [] -> resolves (get t) e e')
    /\ Forall (fun x => clash_in (get t) e (e_prev x) (e_prev_fix x) (e_curr x) (e_curr_fix x)) new.

Definition good (n : nat) (e : expr) : Prop :=
  forall r, exists r' e', visit_fuel n r e = Ok (r', e') /\ visit_post (r_fix r) e r r' e'.

Definition tree_post (t : fixities) (g : gtree) (r r' : resolver) (g' : gtree) : Prop :=
  exists new,
    r_fix r' = r_fix r
    /\ r_errs r' = add_errs (r_errs r) new
    /\ root g' = root g /\ legal (get t) g'
    /\ (new = [] -> Forall2 (item_rel (resolves (get t))) (yield g) (yield g'))
    /\ Forall (fun x => exists y, In (Operand y) (yield g)
          /\ clash_in (get t) y (e_prev x) (e_prev_fix x) (e_curr x) (e_curr_fix x)) new.

Lemma visit_tree t : forall g n,
  legal (get t) g -> leaves_ok g -> esize (as_expr g) <= n ->
  (forall x m, In (Operand x) (yield g) -> m <= n -> esize x <= m -> good m x) ->
  forall r, r_fix r = t ->
  exists r' g', visit_fuel n r (as_expr g) = Ok (r', as_expr g') /\ tree_post t g r r' g'.
Proof.
  induction g as [e|l IHl o x IHx]; intros n L O Hn G r Hr.
  - destruct (G e n) with (r := r) as (r'&e'&E&P); simpl in *; auto.
    exists r', (Leaf e'). split; auto. destruct P as (new&P1&P2&P3&P4).
    exists new. rewrite Hr in *. repeat split; auto.
    + intros X. simpl. constructor; [constructor; auto|constructor].
    + apply Forall_forall. intros y Hy. rewrite Forall_forall in P4.
      exists e. split; [left; auto|]. apply P4; auto.
  - cbn [as_expr esize] in Hn. destruct n as [|n]; [lia|].
    pose proof (rewrite_legal_id t (Node l o x) L O) as R.
    cbn [as_expr visit_fuel] in *. rewrite Hr, R. cbn [walk_expr].
    destruct L as (Ll&Lx&HL&HR).
    destruct (IHl n Ll (leaves_ok_l _ _ _ O) ltac:(lia)) with (r := r) as (r1&gl&->&Pl); auto.
    { intros y m Hy Hm. apply G; [simpl; apply in_or_app; auto|lia]. }
    destruct Pl as (n1&A1&A2&A3&A4&A5&A6). cbn [obind].
    destruct (IHx n Lx (leaves_ok_r _ _ _ O) ltac:(lia)) with (r := r1) as (r2&gx&->&Px).
    { intros y m Hy Hm. apply G; [simpl; apply in_or_app; right; right; auto|lia]. }
    { congruence. }
    destruct Px as (n2&B1&B2&B3&B4&B5&B6). cbn [obind].
    exists r2, (Node gl o gx). split; [reflexivity|].
    exists (n1 ++ n2). repeat split.
    + congruence.
    + rewrite add_errs_app. congruence.
    + auto.
    + auto.
    + rewrite A3. auto.
    + rewrite B3. auto.
    + intros X. apply app_eq_nil in X as [X1 X2]. simpl.
      apply Forall2_app; auto. constructor; auto. constructor.
    + apply Forall_app. split.
      * eapply Forall_impl; [|exact A6]. intros z (y&Hy&C). exists y.
        split; auto. simpl. apply in_or_app; auto.
      * eapply Forall_impl; [|exact B6]. intros z (y&Hy&C). exists y.
        split; auto. simpl. apply in_or_app; right; right; auto.
Qed.

Lemma visit_list_good t n es :
  (forall e, In e es -> good n e) ->
  forall r, r_fix r = t -> exists r' es',
    visit_list (visit_fuel n) r es = Ok (r', es')
    /\ exists new, r_fix r' = t /\ r_errs r' = add_errs (r_errs r) new
       /\ (new = [] -> Forall2 (resolves (get t)) es es')
       /\ Forall (fun x => exists y, In y es
          /\ clash_in (get t) y (e_prev x) (e_prev_fix x) (e_curr x) (e_curr_fix x)) new.
Proof.
  induction es as [|e es IH]; intros H r Hr; simpl.
  - exists r, []. split; auto. exists []. repeat split; auto.
  - destruct (H e (or_introl eq_refl) r) as (r1&e1&->&P). cbn [obind].
    destruct P as (n1&A1&A2&A3&A4).
    destruct (IH (fun x Hx => H x (or_intror Hx)) r1) as (r2&es2&->&n2&B1&B2&B3&B4); [congruence|].
    cbn [obind]. exists r2, (e1 :: es2). split; auto. exists (n1 ++ n2). rewrite Hr in *.
    repeat split; auto.
    + rewrite add_errs_app. congruence.
    + intros X. apply app_eq_nil in X as [X1 X2]. constructor; auto.
    + apply Forall_app. split.
      * eapply Forall_impl; [|exact A4]. simpl. intros x C. exists e. auto.
      * eapply Forall_impl; [|exact B4]. simpl. intros x (y&Hy&C). exists y. auto.
Qed.

(** Fixity assignments matter only pointwise. *)
Lemma left_ok_ext F G a b : (forall o, F o = G o) -> left_ok F a b -> left_ok G a b.
Proof. intros H. unfold left_ok, is_infixl, prec. rewrite !H. auto. Qed.
Lemma right_ok_ext F G a b : (forall o, F o = G o) -> right_ok F a b -> right_ok G a b.
Proof. intros H. unfold right_ok, is_infixr, prec. rewrite !H. auto. Qed.
Lemma legal_ext F G g : (forall o, F o = G o) -> legal F g -> legal G g.
Proof.
  intros H. induction g; simpl; auto. intros (H1&H2&H3&H4). repeat split; auto.
  - intros c Hc. eapply left_ok_ext; eauto.
  - intros c Hc. eapply right_ok_ext; eauto.
Qed.
Lemma clash_ext F G its a b : (forall o, F o = G o) -> clash F its a b -> clash G its a b.
Proof.
  intros H (x&m&y&E). exists x, m, y. unfold is_infixl, is_infixr, prec in *.
  rewrite <- !H. intuition. rewrite <- H. auto.
Qed.

Lemma Forall2_item_impl (R S : expr -> expr -> Prop) xs ys :
  (forall a b, R a b -> S a b) ->
  Forall2 (item_rel R) xs ys -> Forall2 (item_rel S) xs ys.
Proof.
  intros H. induction 1 as [|x y xs ys Hxy]; constructor; auto.
  destruct Hxy; constructor; auto.
Qed.

(** Induction principle for [resolves] with its nested occurrences. *)
Section ResolvesInd.
Variable P : (infix -> fixity) -> expr -> expr -> Prop.
Hypothesis Hlit : forall F l, P F (Lit l) (Lit l).
Hypothesis Hvar : forall F i, P F (Var i) (Var i).
Hypothesis Happ : forall F a b a' b', resolves F a a' -> P F a a' ->
  resolves F b b' -> P F b b' -> P F (App a b) (App a' b').
Hypothesis Hbin : forall F a o b g, legal F g ->
  Forall2 (item_rel (fun x y => resolves F x y /\ P F x y)) (chain (Bin a o b)) (yield g) ->
  P F (Bin a o b) (as_expr g).
Hypothesis Hlam : forall F p a a', resolves F a a' -> P F a a' -> P F (Lam p a) (Lam p a').
Hypothesis Hgrp : forall F a a', resolves F a a' -> P F a a' -> P F (Grp a) (Grp a').
Hypothesis Hneg : forall F a a', resolves F a a' -> P F a a' -> P F (Neg a) (Neg a').
Hypothesis Htup : forall F es es',
  Forall2 (fun x y => resolves F x y /\ P F x y) es es' -> P F (Tup es) (Tup es').
Hypothesis Hlist : forall F es es',
  Forall2 (fun x y => resolves F x y /\ P F x y) es es' -> P F (List es) (List es').
Hypothesis Hlet : forall F d a a', resolves (scoped F d) a a' -> P (scoped F d) a a' ->
  P F (Let d a) (Let d a').

Fixpoint resolves_ind' F e e' (H : resolves F e e') {struct H} : P F e e'.
Proof.
  destruct H as [F l|F i|F a b a' b' H1 H2|F a o b g L H|F p a a' H|F a a' H|F a a' H
                |F es es' H|F es es' H|F d a a' H].
  - apply Hlit.
  - apply Hvar.
  - apply Happ; auto.
  - apply Hbin; auto.
    refine ((fix go xs ys (K : Forall2 (item_rel (resolves F)) xs ys) {struct K}
             : Forall2 (item_rel (fun x y => resolves F x y /\ P F x y)) xs ys :=
             match K with
             | Forall2_nil _ => Forall2_nil _
             | Forall2_cons _ _ k ks => Forall2_cons _ _ _ (go _ _ ks)
             end) _ _ H).
    destruct k as [x y k|o0]; constructor. split; [exact k|]. apply resolves_ind'. exact k.
  - apply Hlam; auto.
  - apply Hgrp; auto.
  - apply Hneg; auto.
  - apply Htup.
    refine ((fix go xs ys (K : Forall2 (resolves F) xs ys) {struct K}
             : Forall2 (fun x y => resolves F x y /\ P F x y) xs ys :=
             match K with
             | Forall2_nil _ => Forall2_nil _
             | Forall2_cons _ _ k ks =>
                 Forall2_cons _ _ (conj k (resolves_ind' _ _ _ k)) (go _ _ ks)
             end) _ _ H).
  - apply Hlist.
    refine ((fix go xs ys (K : Forall2 (resolves F) xs ys) {struct K}
             : Forall2 (fun x y => resolves F x y /\ P F x y) xs ys :=
             match K with
             | Forall2_nil _ => Forall2_nil _
             | Forall2_cons _ _ k ks =>
                 Forall2_cons _ _ (conj k (resolves_ind' _ _ _ k)) (go _ _ ks)
             end) _ _ H).
  - apply Hlet; auto.
Qed.
End ResolvesInd.

Lemma scoped_ext F G d : (forall o, F o = G o) -> forall o, scoped F d o = scoped G d o.
Proof. intros H o. unfold scoped. rewrite H. auto. Qed.

Lemma Forall2_impl' {A B} (R S : A -> B -> Prop) xs ys :
  (forall a b, R a b -> S a b) -> Forall2 R xs ys -> Forall2 S xs ys.
Proof. intros H. induction 1; constructor; auto. Qed.

Lemma resolves_ext F e e' : resolves F e e' ->
  forall G, (forall o, F o = G o) -> resolves G e e'.
Proof.
  intros H. induction H using resolves_ind'; intros G EQ; try (constructor; auto; fail).
  - constructor; [eapply legal_ext; eauto|]. eapply Forall2_item_impl; [|eassumption].
    intros x y [_ K]. auto.
  - constructor. eapply Forall2_impl'; [|eassumption]. intros x y [_ K]. auto.
  - constructor. eapply Forall2_impl'; [|eassumption]. intros x y [_ K]. auto.
  - constructor. apply IHresolves. apply scoped_ext; auto.
Qed.

Lemma clash_in_ext F e o1 f1 o2 f2 : clash_in F e o1 f1 o2 f2 ->
  forall G, (forall o, F o = G o) -> clash_in G e o1 f1 o2 f2.
Proof.
  intros H. induction H; intros G EQ; try (econstructor; eauto; fail).
  - rewrite !EQ. constructor. eapply clash_ext; eauto.
  - apply ci_let. apply IHclash_in. apply scoped_ext; auto.
Qed.

Lemma visit_good : forall e n, flat e -> nodup_lets e -> esize e <= n -> good n e.
Proof.
  intros e. remember (esize e) as k eqn:Hk. revert e Hk.
  induction k as [k IH] using lt_wf_ind. intros e Hk n Fl Nd Hn r.
  assert (G : forall x m, esize x < k -> flat x -> nodup_lets x -> esize x <= m -> good m x).
  { intros x m Hx Fx Nx Hm. apply (IH (esize x)); auto. }
  destruct n as [|n]; [pose proof (esize_pos e); lia|].
  destruct e as [l|i|a b|a o b|p a|a|a|es|es|d a]; simpl in Hk; cbn [visit_fuel walk_expr];
    inversion Fl; subst; inversion Nd; subst.
  - exists r, (Lit l). split; auto. exists []. repeat split; auto. constructor.
  - exists r, (Var i). split; auto. exists []. repeat split; auto. constructor.
  - destruct (G a n ltac:(lia) ltac:(auto) ltac:(auto) ltac:(lia) r) as (r1&a'&->&n1&A1&A2&A3&A4).
    cbn [obind].
    destruct (G b n ltac:(lia) ltac:(auto) ltac:(auto) ltac:(lia) r1) as (r2&b'&->&n2&B1&B2&B3&B4).
    cbn [obind]. exists r2, (App a' b'). split; auto.
    rewrite A1 in *.
    exists (n1 ++ n2). repeat split; auto.
    + rewrite add_errs_app. congruence.
    + intros X. apply app_eq_nil in X as [X1 X2]. constructor; auto.
    + apply Forall_app. split.
      * eapply Forall_impl; [|exact A4]. intros x C. apply ci_app_l; auto.
      * eapply Forall_impl; [|exact B4]. intros x C. apply ci_app_r; auto.
  - pose proof (rewrite_spec (r_fix r) (Bin a o b)) as S.
    destruct (rewrite (r_fix r) (Bin a o b)) as [[e'|err]|p|] eqn:E; try tauto.
    + pose proof (rewrite_size _ _ _ E) as Sz. clear S.
      apply rewrite_bin in E as (l&o'&x&->&L&Y).
      cbn [esize] in Sz. cbn [walk_expr].
      assert (LO : leaves_ok (Node l o' x)).
      { intros z Hz. rewrite Y in Hz. exact (proj1 (flat_chain _ Fl _ Hz)). }
      assert (GG : forall z m, In (Operand z) (yield (Node l o' x)) -> m <= n ->
                 esize z <= m -> good m z).
      { intros z m Hz Hm Hzm. rewrite Y in Hz.
        apply G; auto.
        - simpl in Hz. destruct Hz as [Hz|[Hz|Hz]]; [injection Hz as <-; lia|discriminate|].
          apply isize_in in Hz. rewrite esize_chain in Hz. lia.
        - exact (proj2 (flat_chain _ Fl _ Hz)).
        - exact (nodup_chain _ Nd _ Hz). }
      pose proof L as (Ll&Lx&HL&HR).
      destruct (visit_tree (r_fix r) l n Ll (leaves_ok_l _ _ _ LO) ltac:(lia)) with (r := r)
        as (r1&gl&->&n1&A1&A2&A3&A4&A5&A6); auto.
      { intros z m Hz Hm. apply GG; [simpl; apply in_or_app; auto|lia]. }
      cbn [obind].
      destruct (visit_tree (r_fix r) x n Lx (leaves_ok_r _ _ _ LO) ltac:(lia)) with (r := r1)
        as (r2&gx&->&n2&B1&B2&B3&B4&B5&B6); auto.
      { intros z m Hz Hm. apply GG; [simpl; apply in_or_app; right; right; auto|lia]. }
      cbn [obind]. exists r2, (as_expr (Node gl o' gx)). split; [reflexivity|].
      exists (n1 ++ n2). repeat split.
      * congruence.
      * rewrite add_errs_app. congruence.
      * intros X. apply app_eq_nil in X as [X1 X2]. constructor.
        -- simpl. rewrite A3, B3. auto.
        -- rewrite <- Y. simpl. apply Forall2_app; auto. constructor; auto. constructor.
      * apply Forall_app. split.
        -- eapply Forall_impl; [|exact A6]. intros z (y&Hy&C).
           eapply ci_operand; [|exact C]. rewrite <- Y. simpl. apply in_or_app; auto.
        -- eapply Forall_impl; [|exact B6]. intros z (y&Hy&C).
           eapply ci_operand; [|exact C]. rewrite <- Y. simpl. apply in_or_app; right; right; auto.
    + exists (store_error r err), (Bin a o b). split; auto.
      rewrite store_error_add. exists [err]. simpl. repeat split; auto; try discriminate.
      constructor; [|constructor]. destruct S as (S1&S2&S3). rewrite S2, S3. constructor. exact S1.
  - destruct (G a n ltac:(lia) ltac:(auto) ltac:(auto) ltac:(lia) r) as (r1&a'&->&n1&A1&A2&A3&A4).
    cbn [obind]. exists r1, (Lam p a'). split; auto. exists n1. repeat split; auto.
    + constructor; auto.
    + eapply Forall_impl; [|exact A4]. intros x C. constructor; auto.
  - destruct (G a n ltac:(lia) ltac:(auto) ltac:(auto) ltac:(lia) r) as (r1&a'&->&n1&A1&A2&A3&A4).
    cbn [obind]. exists r1, (Grp a'). split; auto. exists n1. repeat split; auto.
    + constructor; auto.
    + eapply Forall_impl; [|exact A4]. intros x C. constructor; auto.
  - destruct (G a n ltac:(lia) ltac:(auto) ltac:(auto) ltac:(lia) r) as (r1&a'&->&n1&A1&A2&A3&A4).
    cbn [obind]. exists r1, (Neg a'). split; auto. exists n1. repeat split; auto.
    + constructor; auto.
    + eapply Forall_impl; [|exact A4]. intros x C. constructor; auto.
  - destruct (visit_list_good (r_fix r) n es) with (r := r) as (r1&es'&->&n1&A1&A2&A3&A4); auto.
    { intros x Hx. rewrite Forall_forall in *.
      pose proof (list_sum_in x es Hx). apply G; auto; lia. }
    cbn [obind]. exists r1, (Tup es'). split; auto. exists n1. repeat split; auto.
    + constructor; auto.
    + eapply Forall_impl; [|exact A4]. intros x (y&Hy&C). eapply ci_tup; eauto.
  - destruct (visit_list_good (r_fix r) n es) with (r := r) as (r1&es'&->&n1&A1&A2&A3&A4); auto.
    { intros x Hx. rewrite Forall_forall in *.
      pose proof (list_sum_in x es Hx). apply G; auto; lia. }
    cbn [obind]. exists r1, (List es'). split; auto. exists n1. repeat split; auto.
    + constructor; auto.
    + eapply Forall_impl; [|exact A4]. intros x (y&Hy&C). eapply ci_list; eauto.
  - destruct (push_local (r_fix r) (d_fixity d) (d_infixes d)) as [t1 olds] eqn:E.
    destruct (G a n ltac:(lia) ltac:(auto) ltac:(auto) ltac:(lia) (mkResolver t1 (r_errs r)))
      as (r1&a'&->&n1&A1&A2&A3&A4).
    cbn [obind]. simpl in *. eexists _, (Let d a'). split; [reflexivity|].
    assert (Sc : forall o, get t1 o = scoped (get (r_fix r)) d o).
    { intros o. rewrite <- get_insert_many_scoped, <- push_local_table, E. reflexivity. }
    exists n1. simpl. repeat split; auto.
    + rewrite A1. pose proof (restore_push_local (d_fixity d) (d_infixes d) (r_fix r)) as R.
      rewrite E in R. auto.
    + intros X. constructor. eapply resolves_ext; eauto.
    + eapply Forall_impl; [|exact A4]. intros x C. apply ci_let. exact (clash_in_ext _ _ _ _ _ _ C _ Sc).
Qed.

(** A chain that clashes has no resolution. *)
Lemma item_rel_ops R xs ys : Forall2 (item_rel R) xs ys ->
  forall o, In (Operator o) xs <-> In (Operator o) ys.
Proof.
  induction 1 as [|x y xs ys Hxy H IH]; intros o; simpl; [tauto|].
  rewrite IH. destruct Hxy; intuition; try discriminate.
Qed.

Lemma clash_item_rel F R xs ys o1 o2 :
  Forall2 (item_rel R) xs ys -> clash F xs o1 o2 -> clash F ys o1 o2.
Proof.
  intros H (a&m&b&->&H2).
  apply Forall2_app_inv_l in H as (a'&z&Ha&Hz&->).
  inversion Hz as [|? y ? zs Hx Hzs]; subst. inversion Hx; subst.
  apply Forall2_app_inv_l in Hzs as (m'&w&Hm&Hw&->).
  inversion Hw as [|? y ? ws Hx2 Hws]; subst. inversion Hx2; subst.
  exists a', m', ws. split; auto. destruct H2 as (X1&X2&X3&X4).
  repeat split; auto. intros o Ho. apply X4. rewrite item_rel_ops; eauto.
Qed.

Lemma clash_in_not_resolves F e o1 f1 o2 f2 :
  clash_in F e o1 f1 o2 f2 -> forall e', resolves F e e' -> False.
Proof.
  induction 1; intros e' R; try (inversion R; subst; eauto; fail).
  - assert (B : exists a o b, e = Bin a o b).
    { destruct H as (x&m&y&E&_).
      destruct e; eauto; exfalso; simpl in E;
      (destruct x as [|? x]; [discriminate|injection E as _ E; destruct x; discriminate]). }
    destruct B as (a&o&b&->). inversion R; subst.
    eapply wclash_not_legal; eauto. apply clash_wclash. eapply clash_item_rel; eauto.
  - assert (exists x', resolves F x x') as (x'&Rx).
    { destruct e; try (destruct H as [H|[]]; injection H as <-; eauto; fail).
      inversion R as [| | |? ? ? ? g L Fa| | | | | |]; subst. revert H Fa.
      generalize (yield g) as ys. generalize (chain (Bin e1 o e2)) as xs.
      intros xs ys Hin Fa. induction Fa as [|p q ps qs Hpq _ IHF]; [destruct Hin|].
      destruct Hin as [->|Hin]; [|auto]. inversion Hpq; subst; eauto. }
    eauto.
  - inversion R as [| | | | | | |? ? es' K| |]; subst.
    clear R. revert H. induction K; intros Hin; [destruct Hin|].
    destruct Hin as [->|Hin]; eauto.
  - inversion R as [| | | | | | | |? ? es' K|]; subst.
    clear R. revert H. induction K; intros Hin; [destruct Hin|].
    destruct Hin as [->|Hin]; eauto.
Qed.
