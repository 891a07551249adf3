(** C118: what a rejected program is told, and what is left of it. *)
From Coq Require Import List Arith NArith Bool String Lia.
From Verif Require Import Prelim Chars Syntax Fixity SpecFixity SpecRejected ProofTable ProofRewrite ProofResolve ProofResolve2 ProofFixity Lexer ProofLexer2 Parser.
Import ListNotations.
Local Open Scope string_scope.
Local Open Scope list_scope.

Scheme settles_mut := Induction for settles Sort Prop
with settle_items_mut := Induction for settle_items Sort Prop
with settle_list_mut := Induction for settle_list Sort Prop.
Combined Scheme settles_all from settles_mut, settle_items_mut, settle_list_mut.

(** ** The first clash *)
Lemma rewrite_loop_first t e : forall s err, ok_stack (get t) s ->
  rewrite_loop t e (exprs_of s) (ops_of s) = Ok (inr err) -> first_clash (get t) (syield s ++ chain e) err.
Proof.
  induction e as [l|i|f IHf x IHx|l IHl o r IHr|p b IHb|b IHb|b IHb|es|es|d b IHb]; intros s err Hs E; cbn [rewrite_loop] in E;
    try (destruct (finish _ _ _); discriminate E).
  pose proof (push_op_spec t s (Leaf l) o I Hs) as P. cbn [root as_expr yield] in P. specialize (P ltac:(discriminate) ltac:(discriminate)).
  destruct (push_op t (l :: exprs_of s) (ops_of s) o) as [[[es is]|x]|p|]; try tauto.
  - destruct P as (s'&->&->&Hs'&_&Y). pose proof (IHr s' err Hs' E) as H. rewrite Y, <- app_assoc in H. exact H.
  - injection E as ->. destruct P as ((a&m&b&H1&H2&H3&H4&H5)&H6&H7&H8).
    destruct (finish_spec t s (Leaf l) I Hs ltac:(discriminate)) as (g&_&L&Y). cbn [yield] in Y.
    assert (No : forall o1 o2, ~ clash (get t) (syield s ++ [Operand l]) o1 o2).
    { intros o1 o2 C. rewrite <- Y in C. exact (wclash_not_legal _ _ _ _ L (clash_wclash _ _ _ _ C)). }
    assert (Q : syield s ++ [Operand l] = a ++ Operator (e_prev err) :: m /\ b = []).
    { change ([Operand l] ++ [Operator o]) with ([Operand l] ++ [Operator o]) in H1. rewrite app_assoc in H1.
      destruct (exists_last (l := Operator (e_curr err) :: b) ltac:(discriminate)) as (b'&z&Eb).
      destruct b as [|y b].
      - split; auto. change (a ++ Operator (e_prev err) :: m ++ [Operator (e_curr err)]) with (a ++ (Operator (e_prev err) :: m) ++ [Operator (e_curr err)]) in H1.
        rewrite app_assoc in H1. now apply app_inj_tail in H1 as (H1&_).
      - exfalso. destruct (exists_last (l := y :: b) ltac:(discriminate)) as (b1&z1&Eb1). rewrite Eb1 in H1.
        replace (a ++ Operator (e_prev err) :: m ++ Operator (e_curr err) :: b1 ++ [z1])
          with ((a ++ Operator (e_prev err) :: m ++ Operator (e_curr err) :: b1) ++ [z1]) in H1
          by (rewrite <- app_assoc; cbn [app]; rewrite <- app_assoc; reflexivity).
        apply app_inj_tail in H1 as (H1&_). apply (No (e_prev err) (e_curr err)). exists a, m, b1. auto. }
    destruct Q as (Q&->). exists a, m, (chain r). rewrite <- Q. repeat split; auto.
    cbn [chain]. change (Operand l :: Operator o :: chain r) with ([Operand l] ++ Operator o :: chain r). rewrite app_assoc, Q, <- app_assoc. now rewrite H8.
Qed.

(** C118: the error says which operator is the first that cannot be grouped *)
Theorem C118_first : forall t e err, rewrite t e = Ok (inr err) -> first_clash (get t) (chain e) err.
Proof. intros t e err H. exact (rewrite_loop_first t e [] err I H). Qed.
Print Assumptions C118_first.

(** and there is only one such. *)
Theorem C118_one : forall F its x y, first_clash F its x -> first_clash F its y -> x = y.
Proof.
  assert (Cut : forall F p c q d a m b a' m' b', (forall o1 o2, ~ clash F (a ++ Operator p :: m) o1 o2) ->
    prec F q = prec F d -> ~ (is_infixl F q /\ is_infixl F d) -> ~ (is_infixr F q /\ is_infixr F d) ->
    (forall o, In (Operator o) m' -> (prec F q < prec F o)%N) ->
    (a ++ Operator p :: m) ++ Operator c :: b = (a' ++ Operator q :: m') ++ Operator d :: b' ->
    (a ++ Operator p :: m = a' ++ Operator q :: m' /\ c = d) \/ exists k, a' ++ Operator q :: m' = (a ++ Operator p :: m) ++ Operator c :: k).
  { intros F p c q d a m b a' m' b' No D1 D2 D3 D4 E.
    destruct (app_cons_split _ _ _ _ _ _ E) as [(A&B&C)|[(k&A&B)|(k&A&B)]].
    - left. split; auto. now injection B.
    - right. exists k. exact A.
    - exfalso. apply (No q d). exists a', m', k. rewrite A, <- app_assoc. cbn [app]. repeat split; auto. }
  intros F its [p pf c cf] [q qf d df] (a&m&b&E&A1&A2&A3&A4&A5&A6&A7) (a'&m'&b'&E'&B1&B2&B3&B4&B5&B6&B7).
  cbn [e_prev e_curr e_prev_fix e_curr_fix] in *. rewrite E in E'.
  replace (a ++ Operator p :: m ++ Operator c :: b) with ((a ++ Operator p :: m) ++ Operator c :: b) in E' by (now rewrite <- app_assoc).
  replace (a' ++ Operator q :: m' ++ Operator d :: b') with ((a' ++ Operator q :: m') ++ Operator d :: b') in E' by (now rewrite <- app_assoc).
  destruct (Cut F p c q d a m b a' m' b' A7 B1 B2 B3 B4 E') as [(S1&S2)|(k&S1)].
  - subst d. destruct (app_cons_split _ _ _ _ _ _ S1) as [(T1&T2&T3)|[(k&T1&T2)|(k&T1&T2)]].
    + injection T2 as ->. congruence.
    + exfalso. specialize (A4 q). rewrite T2 in A4. specialize (A4 ltac:(apply in_or_app; right; now left)). lia.
    + exfalso. specialize (B4 p). rewrite T2 in B4. specialize (B4 ltac:(apply in_or_app; right; now left)). lia.
  - exfalso. apply (B7 p c). exists a, m, k. rewrite S1, <- app_assoc. cbn [app]. repeat split; auto.
Qed.
Print Assumptions C118_one.

(** So the error is exactly that, *)
Theorem C118_exactly : forall t e err, rewrite t e = Ok (inr err) <-> first_clash (get t) (chain e) err.
Proof.
  intros t e err. split; [apply C118_first|]. intros C. pose proof (rewrite_spec t e) as S.
  destruct (rewrite t e) as [[e'|x]|p|] eqn:E; try tauto.
  - exfalso. destruct S as (g&_&L&Y). destruct C as (a&m&b&C1&C2&C3&C4&C5&_).
    apply (wclash_not_legal (get t) g (e_prev err) (e_curr err) L), clash_wclash. rewrite Y. exists a, m, b. auto.
  - do 2 f_equal. eapply C118_one; [exact (C118_first _ _ _ E)|exact C].
Qed.
Print Assumptions C118_exactly.

(** and it does not depend on what comes after. *)
Theorem C118_longer : forall t e e' rest err, chain e' = chain e ++ rest -> rewrite t e = Ok (inr err) -> rewrite t e' = Ok (inr err).
Proof.
  intros t e e' rest err Ch E. apply C118_exactly in E as (a&m&b&E&H). apply C118_exactly. exists a, m, (b ++ rest). split; auto.
  rewrite Ch, E, <- app_assoc. cbn [app]. now rewrite <- app_assoc.
Qed.
Print Assumptions C118_longer.

(** What comes before the reported operator can be grouped: the chain may be cut there. *)
Theorem C118_before : forall t e err, rewrite t e = Ok (inr err) ->
  exists front rest, chain e = front ++ Operator (e_curr err) :: rest /\ In (Operator (e_prev err)) front /\
    forall p, chain p = front -> exists g, rewrite t p = Ok (inl (as_expr g)) /\ legal (get t) g /\ yield g = front.
Proof.
  intros t e err E. apply C118_exactly in E as (a&m&b&E&A1&A2&A3&A4&A5&A6&A7). exists (a ++ Operator (e_prev err) :: m), b. split; [|split].
  - rewrite E, <- app_assoc. reflexivity.
  - apply in_or_app. right. now left.
  - intros p Cp. pose proof (rewrite_spec t p) as S. destruct (rewrite t p) as [[e'|x]|?|] eqn:R; try tauto.
    + destruct S as (g&Q&L&Y). exists g. rewrite Cp in Y. subst e'. auto.
    + apply C118_first in R as (a'&m'&b'&E'&B1&B2&B3&B4&_). exfalso. apply (A7 (e_prev x) (e_curr x)). rewrite <- Cp. exists a', m', b'. auto.
Qed.
Print Assumptions C118_before.

Lemma first_clash_ext F G its x : (forall o, F o = G o) -> first_clash F its x -> first_clash G its x.
Proof.
  intros H (a&m&b&E&A1&A2&A3&A4&A5&A6&A7). exists a, m, b. unfold is_infixl, is_infixr, prec in *. rewrite <- !H. repeat split; auto.
  - intros o Ho. rewrite <- H. auto.
  - intros o1 o2 C. apply (A7 o1 o2). apply (clash_ext G F); auto.
Qed.
Lemma settles_ext : (forall F e e' n, settles F e e' n -> forall G, (forall o, F o = G o) -> settles G e e' n) /\
  (forall F e e' n, settle_items F e e' n -> forall G, (forall o, F o = G o) -> settle_items G e e' n) /\
  (forall F e e' n, settle_list F e e' n -> forall G, (forall o, F o = G o) -> settle_list G e e' n).
Proof.
  apply settles_all; intros; try (econstructor; eauto; fail).
  - constructor; auto. eapply legal_ext; eauto.
  - apply st_left. eapply first_clash_ext; eauto.
  - constructor. apply H. now apply scoped_ext.
Qed.
Lemma items_app F xs ys n : settle_items F xs ys n -> forall xs' ys' n', settle_items F xs' ys' n' -> settle_items F (xs ++ xs') (ys ++ ys') (n ++ n').
Proof. induction 1; intros; cbn [app]; auto; [rewrite <- app_assoc|]; constructor; auto. Qed.

(** ** Visiting *)
Definition told (n : nat) (e : expr) : Prop := forall r, exists r' e' new, visit_fuel n r e = Ok (r', e') /\
  r_fix r' = r_fix r /\ r_errs r' = add_errs (r_errs r) new /\ settles (get (r_fix r)) e e' new.
Lemma told_tree t : forall g n, legal (get t) g -> leaves_ok g -> esize (as_expr g) <= n ->
  (forall x m, In (Operand x) (yield g) -> m <= n -> esize x <= m -> told m x) ->
  forall r, r_fix r = t -> exists r' g' new, visit_fuel n r (as_expr g) = Ok (r', as_expr g') /\
    r_fix r' = t /\ r_errs r' = add_errs (r_errs r) new /\ root g' = root g /\ legal (get t) g' /\ settle_items (get t) (yield g) (yield g') new.
Proof.
  induction g as [e|l IHl o x IHx]; intros n L O Hn G r Hr.
  - destruct (G e n (or_introl eq_refl) (le_n _) Hn r) as (r'&e'&new&E&P1&P2&P3). exists r', (Leaf e'), new. rewrite Hr in *.
    repeat split; auto. cbn [yield]. rewrite <- (app_nil_r new). constructor; auto. constructor.
  - cbn [as_expr esize] in Hn. destruct n as [|n]; [lia|].
    pose proof (rewrite_legal_id t (Node l o x) L O) as R.
    cbn [as_expr visit_fuel] in *. rewrite Hr, R. cbn [walk_expr].
    destruct L as (Ll&Lx&HL&HR).
    destruct (IHl n Ll (leaves_ok_l _ _ _ O) ltac:(lia)) with (r := r) as (r1&gl&n1&->&A1&A2&A3&A4&A5); auto.
    { intros y m Hy Hm. apply G; [simpl; apply in_or_app; auto|lia]. }
    cbn [obind].
    destruct (IHx n Lx (leaves_ok_r _ _ _ O) ltac:(lia)) with (r := r1) as (r2&gx&n2&->&B1&B2&B3&B4&B5); auto.
    { intros y m Hy Hm. apply G; [simpl; apply in_or_app; right; right; auto|lia]. }
    cbn [obind]. exists r2, (Node gl o gx), (n1 ++ n2). repeat split; auto.
    + rewrite add_errs_app. congruence.
    + rewrite A3. auto.
    + rewrite B3. auto.
    + cbn [yield]. apply items_app; auto. now constructor.
Qed.
Lemma told_list t n es : (forall e, In e es -> told n e) -> forall r, r_fix r = t -> exists r' es' new,
  visit_list (visit_fuel n) r es = Ok (r', es') /\ r_fix r' = t /\ r_errs r' = add_errs (r_errs r) new /\ settle_list (get t) es es' new.
Proof.
  induction es as [|e es IH]; intros H r Hr; cbn [visit_list].
  - exists r, [], []. repeat split; auto. constructor.
  - destruct (H e (or_introl eq_refl) r) as (r1&e1&n1&->&A1&A2&A3). cbn [obind].
    destruct (IH (fun x Hx => H x (or_intror Hx)) r1) as (r2&es2&n2&->&B1&B2&B3); [congruence|].
    cbn [obind]. exists r2, (e1 :: es2), (n1 ++ n2). rewrite Hr in *. repeat split; auto.
    + rewrite add_errs_app. congruence.
    + constructor; auto.
Qed.
Lemma told_all : forall e n, flat e -> nodup_lets e -> esize e <= n -> told n e.
Proof.
  intros e. remember (esize e) as k eqn:Hk. revert e Hk.
  induction k as [k IH] using lt_wf_ind. intros e Hk n Fl Nd Hn r.
  assert (G : forall x m, esize x < k -> flat x -> nodup_lets x -> esize x <= m -> told m x).
  { intros x m Hx Fx Nx Hm. apply (IH (esize x)); auto. }
  destruct n as [|n]; [pose proof (esize_pos e); lia|].
  destruct e as [l|i|a b|a o b|p a|a|a|es|es|d a]; simpl in Hk; cbn [visit_fuel walk_expr];
    inversion Fl; subst; inversion Nd; subst.
  - exists r, (Lit l), []. repeat split; auto. constructor.
  - exists r, (Var i), []. repeat split; auto. constructor.
  - destruct (G a n ltac:(lia) ltac:(auto) ltac:(auto) ltac:(lia) r) as (r1&a'&n1&->&A1&A2&A3). cbn [obind].
    destruct (G b n ltac:(lia) ltac:(auto) ltac:(auto) ltac:(lia) r1) as (r2&b'&n2&->&B1&B2&B3). cbn [obind].
    rewrite A1 in *. exists r2, (App a' b'), (n1 ++ n2). repeat split; auto.
    + rewrite add_errs_app. congruence.
    + constructor; auto.
  - pose proof (rewrite_spec (r_fix r) (Bin a o b)) as S.
    destruct (rewrite (r_fix r) (Bin a o b)) as [[e'|err]|p|] eqn:E; try tauto.
    + pose proof (rewrite_size _ _ _ E) as Sz. clear S.
      apply rewrite_bin in E as (l&o'&x&->&L&Y).
      cbn [esize] in Sz. cbn [walk_expr].
      assert (LO : leaves_ok (Node l o' x)).
      { intros z Hz. rewrite Y in Hz. exact (proj1 (flat_chain _ Fl _ Hz)). }
      assert (GG : forall z m, In (Operand z) (yield (Node l o' x)) -> m <= n -> esize z <= m -> told m z).
      { intros z m Hz Hm Hzm. rewrite Y in Hz. apply G; auto.
        - simpl in Hz. destruct Hz as [Hz|[Hz|Hz]]; [injection Hz as <-; lia|discriminate|].
          apply isize_in in Hz. rewrite esize_chain in Hz. lia.
        - exact (proj2 (flat_chain _ Fl _ Hz)).
        - exact (nodup_chain _ Nd _ Hz). }
      pose proof L as (Ll&Lx&HL&HR).
      destruct (told_tree (r_fix r) l n Ll (leaves_ok_l _ _ _ LO) ltac:(lia)) with (r := r) as (r1&gl&n1&->&A1&A2&A3&A4&A5); auto.
      { intros z m Hz Hm. apply GG; [simpl; apply in_or_app; auto|lia]. }
      cbn [obind].
      destruct (told_tree (r_fix r) x n Lx (leaves_ok_r _ _ _ LO) ltac:(lia)) with (r := r1) as (r2&gx&n2&->&B1&B2&B3&B4&B5); auto.
      { intros z m Hz Hm. apply GG; [simpl; apply in_or_app; right; right; auto|lia]. }
      cbn [obind]. exists r2, (as_expr (Node gl o' gx)), (n1 ++ n2). repeat split; auto.
      * rewrite add_errs_app. congruence.
      * apply st_grouped.
        -- cbn [legal]. rewrite A3, B3. auto.
        -- rewrite <- Y. cbn [yield]. apply items_app; auto. now constructor.
    + exists (store_error r err), (Bin a o b), [err]. rewrite store_error_add. repeat split; auto.
      apply st_left. now apply C118_first.
  - destruct (G a n ltac:(lia) ltac:(auto) ltac:(auto) ltac:(lia) r) as (r1&a'&n1&->&A1&A2&A3).
    cbn [obind]. exists r1, (Lam p a'), n1. repeat split; auto. now constructor.
  - destruct (G a n ltac:(lia) ltac:(auto) ltac:(auto) ltac:(lia) r) as (r1&a'&n1&->&A1&A2&A3).
    cbn [obind]. exists r1, (Grp a'), n1. repeat split; auto. now constructor.
  - destruct (G a n ltac:(lia) ltac:(auto) ltac:(auto) ltac:(lia) r) as (r1&a'&n1&->&A1&A2&A3).
    cbn [obind]. exists r1, (Neg a'), n1. repeat split; auto. now constructor.
  - destruct (told_list (r_fix r) n es) with (r := r) as (r1&es'&n1&->&A1&A2&A3); auto.
    { intros x Hx. rewrite Forall_forall in *. pose proof (list_sum_in x es Hx). apply G; auto; lia. }
    cbn [obind]. exists r1, (Tup es'), n1. repeat split; auto. now constructor.
  - destruct (told_list (r_fix r) n es) with (r := r) as (r1&es'&n1&->&A1&A2&A3); auto.
    { intros x Hx. rewrite Forall_forall in *. pose proof (list_sum_in x es Hx). apply G; auto; lia. }
    cbn [obind]. exists r1, (List es'), n1. repeat split; auto. now constructor.
  - destruct (push_local (r_fix r) (d_fixity d) (d_infixes d)) as [t1 olds] eqn:E.
    destruct (G a n ltac:(lia) ltac:(auto) ltac:(auto) ltac:(lia) (mkResolver t1 (r_errs r))) as (r1&a'&n1&->&A1&A2&A3).
    cbn [obind]. cbn [r_fix r_errs] in *. eexists _, (Let d a'), n1. split; [reflexivity|].
    assert (Sc : forall o, get t1 o = scoped (get (r_fix r)) d o).
    { intros o. rewrite <- get_insert_many_scoped, <- push_local_table, E. reflexivity. }
    cbn [r_fix r_errs]. repeat split; auto.
    + rewrite A1. pose proof (restore_push_local (d_fixity d) (d_infixes d) (r_fix r)) as R. rewrite E in R. auto.
    + constructor. exact (proj1 settles_ext _ _ _ _ A3 _ Sc).
Qed.
Lemma add_errs_distinct new : forall es, add_errs es new = es ++ distinct es new.
Proof.
  induction new as [|e new IH]; intros es; cbn [add_errs fold_left distinct]; [now rewrite app_nil_r|].
  change (add_errs (add_err es e) new = es ++ (if existsb (fun x => err_eqb x e) es then distinct es new else e :: distinct (es ++ [e]) new)).
  unfold add_err. destruct (existsb _ es); rewrite IH; auto. now rewrite <- app_assoc.
Qed.

(** So a program is left as [settles] says, and told the reports, each once. *)
Theorem C118_program : forall r a r' b errs, r_errs r = [] -> Forall flat (a_exprs a) -> Forall nodup_lets (a_exprs a) ->
  resolve_ast r a = Ok (r', b, errs) ->
  exists new, settle_list (declared (get (r_fix r)) (a_infxs a)) (a_exprs a) (a_exprs b) new /\ errs = distinct [] new.
Proof.
  intros r a r' b errs E Fl Nd R. unfold resolve_ast, visit_ast in R.
  assert (L : forall es, Forall flat es -> Forall nodup_lets es -> forall r0, exists r1 es' new,
    visit_list visit_expr r0 es = Ok (r1, es') /\ r_fix r1 = r_fix r0 /\ r_errs r1 = add_errs (r_errs r0) new /\ settle_list (get (r_fix r0)) es es' new).
  { clear. induction es as [|e es IH]; intros Fl Nd r0; cbn [visit_list].
    - exists r0, [], []. repeat split; auto. constructor.
    - inversion Fl; subst. inversion Nd; subst. destruct (told_all e (esize e) ltac:(auto) ltac:(auto) (le_n _) r0) as (r1&e1&n1&E1&A1&A2&A3).
      unfold visit_expr at 1. rewrite E1. cbn [obind]. destruct (IH ltac:(auto) ltac:(auto) r1) as (r2&es2&n2&->&B1&B2&B3).
      cbn [obind]. exists r2, (e1 :: es2), (n1 ++ n2). rewrite A1 in *. repeat split; auto.
      + rewrite add_errs_app. congruence.
      + constructor; auto. }
  destruct (L (a_exprs a) Fl Nd (load_fixities r a)) as (r1&es'&new&V&_&V2&V3). rewrite V in R. cbn [obind] in R.
  injection R as <- <- <-. exists new. split.
  - cbn [a_exprs]. refine (proj2 (proj2 settles_ext) _ _ _ _ V3 _ _). intros o. exact (load_tbl_get (a_infxs a) (r_fix r) o).
  - rewrite V2, add_errs_distinct. cbn [load_fixities r_errs]. now rewrite E.
Qed.
Print Assumptions C118_program.

Lemma items_shape F xs ys n : settle_items F xs ys n -> Forall2 (item_rel (fun _ _ => True)) xs ys.
Proof. induction 1; repeat constructor; auto. Qed.
Lemma first_is_clash F its x : first_clash F its x -> clash F its (e_prev x) (e_curr x).
Proof. intros (a&m&b&E&A1&A2&A3&A4&_). exists a, m, b. auto. Qed.
Lemma grouped_no_clash F xs g n x : legal F g -> settle_items F xs (yield g) n -> first_clash F xs x -> False.
Proof.
  intros L S C. apply first_is_clash in C. apply (wclash_not_legal F g (e_prev x) (e_curr x) L), clash_wclash.
  eapply clash_item_rel; [exact (items_shape _ _ _ _ S)|exact C].
Qed.
Lemma settles_one : (forall F e e1 n1, settles F e e1 n1 -> forall e2 n2, settles F e e2 n2 -> e1 = e2 /\ n1 = n2) /\
  (forall F xs ys1 n1, settle_items F xs ys1 n1 -> forall ys2 n2, settle_items F xs ys2 n2 -> ys1 = ys2 /\ n1 = n2) /\
  (forall F xs ys1 n1, settle_list F xs ys1 n1 -> forall ys2 n2, settle_list F xs ys2 n2 -> ys1 = ys2 /\ n1 = n2).
Proof.
  apply settles_all; intros; match goal with K : settles _ _ ?e2 ?n2 |- _ = ?e2 /\ _ => inversion K; subst | K : settle_items _ _ ?e2 _ |- _ = ?e2 /\ _ => inversion K; subst | K : settle_list _ _ ?e2 _ |- _ = ?e2 /\ _ => inversion K; subst end; auto;
    repeat match goal with IH : forall y k, _ -> _ = y /\ _ = k, K : _ |- _ => destruct (IH _ _ K) as (?&?); clear IH end; subst; auto.
  - split; auto. f_equal. apply (legal_unique_lemma F); auto.
  - exfalso. eapply grouped_no_clash; eauto.
  - exfalso. eapply grouped_no_clash; eauto.
  - split; auto. f_equal. eapply C118_one; eauto.
Qed.

(** Both are determined by the program and the fixities. *)
Theorem C118_determined : forall F es es1 n1 es2 n2, settle_list F es es1 n1 -> settle_list F es es2 n2 -> es1 = es2 /\ n1 = n2.
Proof. intros F es es1 n1 es2 n2 A B. exact (proj2 (proj2 settles_one) F es es1 n1 A es2 n2 B). Qed.
Print Assumptions C118_determined.

(** ** Examples *)

Local Existing Instance ucd_none.

(** The second chain is left alone though the one in its parentheses is ambiguous
    too and the one before the first clash is not; what is said twice is told once. *)
Definition rejected_ex := lit "infixl 5 +; infixr 5 $; infix 4 *; a + b * c; (a * (b $ c + d)) * b * c; [a + b $ c $ d, b $ c + d, a + b * c, x + y $ z]".
Example C118_ex : exists a l r b x y z, parse rejected_ex = POk a l /\ Forall flat (a_exprs a) /\ Forall nodup_lets (a_exprs a) /\
  resolve_ast (mkResolver [] []) a = Ok (r, b, [x; y; z]) /\
  (symbol (e_prev x), symbol (e_curr x)) = (lit "*", lit "*") /\ (symbol (e_prev y), symbol (e_curr y)) = (lit "+", lit "$") /\
  (symbol (e_prev z), symbol (e_curr z)) = (lit "$", lit "+") /\ nth_error (a_exprs b) 1 = nth_error (a_exprs a) 1 /\
  nth_error (a_exprs b) 2 <> nth_error (a_exprs a) 2.
Proof.
  do 7 eexists. split; [vm_compute; reflexivity|].
  split; [cbn [a_exprs]; repeat (constructor || (intros ? ? ?; discriminate))|].
  split; [cbn [a_exprs]; repeat (constructor || (intros ? ? ?; discriminate))|].
  split; [vm_compute; reflexivity|]. repeat split; vm_compute; discriminate.
Qed.
Example C118_ex_longer : exists e e' rest err, chain e' = chain e ++ rest /\ rest <> [] /\ rewrite [] e' <> Ok (inl e') /\
  rewrite [(std "+", mkFix 6 ANeither)] e = Ok (inr err) /\ rewrite [(std "+", mkFix 6 ANeither)] e' = Ok (inr err).
Proof.
  set (v := fun s => Var (ILower (lit s))).
  exists (Bin (v "a") (std "+") (Bin (v "b") (std "+") (v "c"))), (Bin (v "a") (std "+") (Bin (v "b") (std "+") (Bin (v "c") (std "*") (v "d")))), [Operator (std "*"); Operand (v "d")].
  eexists. split; [reflexivity|]. split; [discriminate|]. split; [vm_compute; discriminate|]. split; vm_compute; reflexivity.
Qed.
(** A chain with a clash, the one that ends before it, and what the latter becomes. *)
Example C118_ex_before : exists e p q err rest,
  let t := [(std "+", mkFix 6 ALeft); (std "$", mkFix 6 ARight)] in
  rewrite t e = Ok (inr err) /\ e_curr err = std "$" /\ chain e = chain p ++ Operator (std "$") :: rest /\
  rewrite t p = Ok (inl q) /\ q <> p.
Proof.
  set (v := fun s => Var (ILower (lit s))).
  exists (Bin (v "a") (std "+") (Bin (v "b") (std "+") (Bin (v "c") (std "$") (v "d")))), (Bin (v "a") (std "+") (Bin (v "b") (std "+") (v "c"))).
  do 2 eexists. exists [Operand (v "d")]. cbn zeta.
  split; [vm_compute; reflexivity|]. split; [vm_compute; reflexivity|]. split; [reflexivity|]. split; [vm_compute; reflexivity|]. vm_compute. discriminate.
Qed.
