(** Everything in the grammar is accepted by the parser: expressions and
    programs. *)
From Coq Require Import List Arith NArith Bool String Lia.
From Verif Require Import Prelim Chars Syntax Lexer SpecLexer SpecLexRun Parser SpecParser.
From Verif Require Import ProofLexer ProofLexer7 ProofParser ProofParser3 ProofParser5.
Import ListNotations.

Section WithUcd.
Context {U : ucd}.
Context (HU : letters U).

Ltac len := unfold ptok in *; lia.

Definition app_f (n : nat) : parser expr := application (atom (expr_f n)).

Definition takes (p : parser expr) (ts : list ptok) (es : list expr) (r : list ptok) (l : lexer) : Prop :=
  exists x l', es = [x] /\ p l = POk x l' /\ sees l' r.

Definition eaccepts (q : ekind) (ts : list ptok) (es : list expr) (r : list ptok) : Prop :=
  match q with
  | KExpr c => forall n l, List.length ts <= S n -> lx_col l = c -> sees l (ts ++ r) ->
      exists x e0 l1 us, es = [x] /\ app_f n l = POk e0 l1 /\ sees l1 (us ++ r) /\ List.length us <= List.length ts /\
        forall m, List.length us <= m -> exists l', chain_f m (app_f n) e0 l1 = POk x l' /\ sees l' r
  | KApp c => forall n l, List.length ts <= S n -> lx_col l = c -> sees l (ts ++ r) -> takes (app_f n) ts es r l
  | KArgs c f => forall n m a l, List.length ts <= S n -> List.length ts <= m -> l_col a = c -> sees l (ts ++ r) ->
      exists args l', es = [fold_left App args f] /\ many_f m (at_arg a) (atom (expr_f n)) l = POk args l' /\ sees l' r
  | KAtom => forall n l, List.length ts <= S n -> sees l (ts ++ r) -> takes (atom (expr_f n)) ts es r l
  | KItems => forall n m l, List.length ts <= n -> List.length ts <= m -> sees l (ts ++ r) ->
      exists l', many_f m more_items (item (expr_f n)) l = POk es l' /\ sees l' r
  | KTail => forall n m l, List.length ts <= n -> List.length ts <= m -> sees l (ts ++ r) ->
      exists l', many_f m (bump_on TComma) (expr_f n) l = POk es l' /\ sees l' r
  end.

Lemma expr_run c ts e r : eaccepts (KExpr c) ts [e] r -> ts <> [] -> forall n l, List.length ts <= n -> lx_col l = c ->
  sees l (ts ++ r) -> exists l', expr_f n l = POk e l' /\ sees l' r.
Proof.
  cbn [eaccepts]. intros H N n l L K S0. assert (0 < List.length ts) by (destruct ts; [congruence|cbn; lia]).
  destruct n as [|n]; [len|]. destruct (H n l L K S0) as (x&e0&l1&us&Ex&E&S1&Lu&G). injection Ex as <-.
  cbn [expr_f]. unfold binary. fold (app_f n). rewrite (bind_run _ _ _ _ _ E). apply G.
  apply sees_budget in S1; auto. rewrite app_length in S1. len.
Qed.

Definition starts (q : ekind) (ts : list ptok) : Prop :=
  match q with
  | KExpr _ | KApp _ | KAtom => exists t k ts', ts = (t, k) :: ts' /\ begins_expr t false = true
  | KTail => ts = [] \/ exists k ts', ts = (TComma, k) :: ts'
  | KItems => ts = [] \/ exists t k ts', ts = (t, k) :: ts' /\ begins_expr t false = true
  | KArgs _ _ => True
  end.

Lemma exprs_start lay q ts es r : exprs lay q ts es r -> starts q ts.
Proof.
  induction 1; cbn [starts] in *; auto; try (eexists _, _, _; split; [reflexivity|reflexivity]); try (right; eauto; fail).
  - destruct IHexprs1 as (t1&k1&ts1&->&B). cbn [app]. eauto 6.
  - destruct IHexprs1 as (t1&k1&ts1&->&B). cbn [app]. eauto 6.
  - right. destruct IHexprs1 as (t1&k1&ts1&E&B). injection E as <- <- <-. eexists _, _, _. split; [reflexivity|auto].
  - right. destruct IHexprs1 as (t1&k1&ts1&E&B). injection E as <- <- <-. eexists _, _, _. split; [reflexivity|auto].
Qed.

Lemma exprs_nonempty lay c ts es r : exprs lay (KExpr c) ts es r -> ts <> [].
Proof. intros H. destruct (exprs_start _ _ _ _ _ H) as (t&k&ts'&->&_). discriminate. Qed.

Lemma begins_arg t : arg_expr_tok t = arg_start t.
Proof. destruct t; auto. Qed.

(** The test before an argument. *)
Lemma at_arg_run a l ts : sees l ts -> exists l1,
  at_arg a l = POk (match ts with [] => false | (t, k) :: _ => arg_start t && Nat.ltb (l_col a) k end) l1 /\ sees l1 ts.
Proof.
  intros S0. destruct (peek_run HU l ts S0) as (l1&E&S1&H). exists l1. split; auto.
  unfold at_arg. rewrite (bind_run _ _ _ _ _ E). unfold here, bind, ret. rewrite begins_arg.
  destruct ts as [|(t,k) ts]; auto. destruct H as (_&K&_). cbn [look]. cbn [l_col curr_loc]. rewrite K. auto.
Qed.

Lemma commas_run cs k' r : Forall (fun x => fst x = TComma) cs -> forall m l, List.length cs <= m ->
  sees l (cs ++ (TParenR, k') :: r) ->
  exists l', many_f m (bump_on TComma) (ret tt) l = POk (map (fun _ => tt) cs) l' /\ sees l' ((TParenR, k') :: r).
Proof.
  induction 1 as [|(t,k) cs E F IH]; intros m l L S0; cbn [app] in S0.
  - destruct (bump_on_stop HU l TComma ((TParenR, k') :: r) eq_refl S0) as (l1&E1&S1). exists l1. split; auto. apply many_stop. auto.
  - cbn in E. subst t. destruct m as [|m]; cbn [List.length] in L; [lia|].
    destruct (bump_on_run HU l TComma k _ eq_refl S0) as (l1&E1&S1&_).
    destruct (IH m l1 ltac:(lia) S1) as (l2&E2&S2). exists l2. split; auto. eapply many_go; eauto.
Qed.

Ltac lookat E := match goal with |- context [(a <- here ;; t <- peek ;; @?f a t) ?l] =>
  match goal with Q : sees l _ |- _ =>
  let l1 := fresh "l" in let P := fresh "P" in let S1 := fresh "S1" in let C := fresh "C" in
  let K := fresh "K" in let S2 := fresh "S1" in
  destruct (look_run HU l _ f Q) as (l1&E&P&S1&C&K&S2); rewrite E; cbn [app look] end end.

Lemma juxt_inv ts p ps r : pats Juxt ts (p :: ps) r -> exists ts1 us1, ts = ts1 ++ us1 /\ pats Plain ts1 [p] (us1 ++ r) /\ pats Juxt us1 ps r.
Proof. intros H. inversion H; subst; eauto; match goal with X : _ \/ _ |- _ => destruct X; discriminate end. Qed.

Lemma exprs_run q ts es r : exprs Nat.ltb q ts es r -> eaccepts q ts es r.
Proof.
  induction 1 as [c ts e r H IH N|c ts x o i k t k' us e r H IH O H1 IH1|c ts f us e r H IH H1 IH1|c f r N
    |c f t k ts x us e r A Lk H IH H1 IH1|x k r|s k r|s k r|k ts p ps k' us e r HP H IH|k k' r|k s b k1 k' r
    |k cs k' r Nc F|k t k1 ts e k' r H IH|k t k1 ts e us es k' r H IH H1 IH1 Nu|k ts es k' r H IH
    |k ts d k' us e r D H IH|r N|k ts e us es r H IH H1 IH1|k r|t k ts e k' us es r H IH H1 IH1
    |t k ts e us es r H IH N H1 IH1];
    try (cbn [eaccepts]; intros n l L S0; unfold takes, atom; cbn [app] in S0; lookat E0; rewrite (bump_then_run _ _ _ C);
         eexists _, _; repeat split; auto; fail).
  - cbn [eaccepts] in *. intros n l L K S0. destruct (IH n l L K S0) as (x&l1&Ex&E&S1). injection Ex as <-.
    destruct (infix_stop HU _ _ N S1) as (er&l2&E2&S2).
    exists e, e, l1, []. split; auto. split; auto. split; auto. split; [cbn; lia|]. intros m _. exists l2. split; auto.
    destruct m; cbn [chain_f]; rewrite E2; auto.
  - cbn [eaccepts] in IH. intros n l L K S0. rewrite app_length in L. cbn [List.length] in L.
    rewrite <- app_assoc in S0. cbn [app] in S0.
    destruct (IH n l ltac:(len) K S0) as (x0&l1&Ex&E&S1). injection Ex as <-.
    destruct (infix_run HU _ _ _ _ _ O S1) as (l2&E2&S2&_).
    destruct (peek_run HU l2 _ S2) as (l3&E3&S3&_&K3&_). cbn [look] in E3.
    destruct (exprs_start _ _ _ _ _ H1) as (t0&k0&ts0&Et&B). injection Et as <- <- <-.
    cbn [eaccepts] in IH1. destruct (IH1 n l3 ltac:(cbn [List.length]; len) K3 S3) as (e1&e0&l4&vs&Ee&E4&S4&Lv&G). injection Ee as <-.
    exists (Bin x i e), x, l1, ((o, k) :: (t, k') :: us). split; auto. split; auto. split; auto.
    split; [rewrite app_length; cbn [List.length]; len|]. intros m Lm. cbn [List.length] in Lm, Lv.
    destruct m as [|m]; [len|]. destruct (G m ltac:(len)) as (l5&E5&S5). exists l5. split; auto.
    cbn [chain_f]. rewrite E2. unfold here, bind at 1. rewrite (bind_run _ _ _ _ _ E3). cbn [app look]. rewrite B.
    rewrite (bind_run _ _ _ _ _ E4), (bind_run _ _ _ _ _ E5). auto.
  - cbn [eaccepts] in *. intros n l L K S0. rewrite app_length in L. rewrite <- app_assoc in S0.
    destruct (IH n l ltac:(len) S0) as (x&l1&Ex&E&S1). injection Ex as <-.
    pose proof (sees_budget HU _ _ S1) as Lb. rewrite app_length in Lb.
    destruct (IH1 n (budget l1) (curr_loc l) l1 ltac:(len) ltac:(len) K S1) as (args&l2&Ee&E2&S2). injection Ee as ->.
    exists (fold_left App args f), l2. split; auto. split; auto.
    unfold app_f, application. unfold here, bind at 1. rewrite (bind_run _ _ _ _ _ E).
    rewrite (bind_run _ _ _ _ _ (many_run _ _ _ _ _ E2)). auto.
  - cbn [eaccepts] in *. intros n m a l L Lm K S0. cbn [app] in S0. destruct (at_arg_run a _ _ S0) as (l1&E&S1).
    exists [], l1. split; auto. split; auto. apply many_stop. rewrite E. f_equal. destruct r as [|(t,k) r]; auto.
    unfold no_arg in N. rewrite K. auto.
  - cbn [eaccepts] in *. intros n m a l L Lm K S0. rewrite app_length in L, Lm. rewrite <- app_assoc in S0.
    destruct (at_arg_run a _ _ S0) as (l1&E&S1). cbn [app] in E. rewrite A, K, Lk in E. cbn [andb] in E.
    destruct m as [|m]; cbn [List.length] in *; [len|].
    destruct (IH n l1 ltac:(len) S1) as (x0&l2&Ex&E2&S2). injection Ex as <-.
    destruct (IH1 n m a l2 ltac:(len) ltac:(len) K S2) as (args&l3&Ee&E3&S3). injection Ee as ->.
    exists (x :: args), l3. split; auto. split; auto. eapply many_go; eauto.
  - intros n l L S0. cbn [app List.length] in *. rewrite app_length in L. cbn [List.length] in L. rewrite <- app_assoc in S0. cbn [app] in S0.
    unfold takes, atom. lookat E0. unfold lambda.
    destruct (eat_run HU l0 TLambda k _ eq_refl S1) as (l2&E2&S2'&_). rewrite (bind_run _ _ _ _ _ E2).
    destruct (juxt_inv _ _ _ _ HP) as (ts1&us1&->&HP1&HP2). rewrite app_length in L.
    rewrite <- app_assoc in S2'.
    destruct (pattern_run HU _ _ _ HP1 l2 S2') as (l3&E3&S3). rewrite (bind_run _ _ _ _ _ E3).
    pose proof (sees_budget HU _ _ S3) as Lb. rewrite app_length in Lb.
    destruct (juxt_run HU _ _ _ HP2 (budget l3) l3 ltac:(len) S3) as (l4&E4&S4).
    rewrite (bind_run _ _ _ _ _ (many_run _ _ _ _ _ E4)).
    destruct (eat_run HU l4 TArrow k' _ eq_refl S4) as (l5&E5&S5&K5). rewrite (bind_run _ _ _ _ _ E5).
    destruct (expr_run _ _ _ _ IH (exprs_nonempty _ _ _ _ _ H) n l5 ltac:(len) K5 S5) as (l6&E6&S6).
    rewrite (bind_run _ _ _ _ _ E6). exists (fold_right Lam e (p :: ps)), l6. auto.
  - intros n l L S0. unfold takes, atom. cbn [app] in S0. lookat E0. unfold paren_expr.
    destruct (eat_run HU l0 TParenL k _ eq_refl S1) as (l2&E2&S2'&_). rewrite (bind_run _ _ _ _ _ E2).
    clear E0 P. lookat E0. rewrite (bump_then_run _ _ _ C0). eexists _, _. split; [reflexivity|]. split; [reflexivity|]. auto.
  - intros n l L S0. unfold takes, atom. cbn [app] in S0. lookat E0. unfold paren_expr.
    destruct (eat_run HU l0 TParenL k _ eq_refl S1) as (l2&E2&S2'&_). rewrite (bind_run _ _ _ _ _ E2).
    clear E0 P. lookat E0. rewrite (bump_then_run _ _ _ C0).
    destruct (eat_run HU _ TParenR k' _ eq_refl S4) as (l3&E3&S3'&_). rewrite (bind_run _ _ _ _ _ E3).
    eexists _, _. split; [reflexivity|]. split; [reflexivity|]. auto.
  - intros n l L S0. unfold takes, atom. cbn [app] in S0. rewrite <- app_assoc in S0. cbn [app] in S0. lookat E0. unfold paren_expr.
    destruct (eat_run HU l0 TParenL k _ eq_refl S1) as (l2&E2&S2'&_). rewrite (bind_run _ _ _ _ _ E2).
    clear E0 P. destruct cs as [|(t,k1) cs]; [congruence|]. assert (t = TComma) by (inversion F; auto). subst t.
    match goal with |- context [(a <- here ;; t <- peek ;; @?f a t) ?l] => destruct (look_run HU l _ f S2') as (l3&E3&_&S3&_) end.
    rewrite E3. cbn [app look] in *.
    pose proof (sees_budget HU _ _ S3) as Lb. cbn [List.length] in Lb. rewrite app_length in Lb.
    destruct (commas_run _ _ _ F (budget l3) l3 ltac:(cbn [List.length]; len) S3) as (l4&E4&S4).
    rewrite (bind_run _ _ _ _ _ (many_run _ _ _ _ _ E4)).
    destruct (eat_run HU _ TParenR k' _ eq_refl S4) as (l5&E5&S5&_). rewrite (bind_run _ _ _ _ _ E5). rewrite map_length.
    eexists _, _. split; [reflexivity|]. split; [reflexivity|]. auto.
  - intros n l L S0. unfold takes, atom. cbn [app List.length] in *. rewrite app_length in L. cbn [List.length] in L. rewrite <- app_assoc in S0. cbn [app] in S0. lookat E0. unfold paren_expr.
    destruct (eat_run HU l0 TParenL k _ eq_refl S1) as (l2&E2&S2'&_). rewrite (bind_run _ _ _ _ _ E2).
    clear E0 P. lookat E0. destruct (exprs_start _ _ _ _ _ H) as (t0&k0&ts0&Et&B). injection Et as <- <- <-.
    destruct (expr_run _ _ _ _ IH (exprs_nonempty _ _ _ _ _ H) n l1 ltac:(cbn [List.length]; len) K0 S3) as (l6&E6&S6).
    destruct (peek_on_run HU l6 _ TComma S6) as (l7&E7&S7&_). cbn [look same] in E7.
    destruct (eat_run HU l7 TParenR k' _ eq_refl S7) as (l8&E8&S8&_).
    exists (Grp e), l8. split; auto. split; auto.
    destruct t; try discriminate B; cbn [begins_expr]; rewrite (bind_run _ _ _ _ _ E6), (bind_run _ _ _ _ _ E7), (bind_run _ _ _ _ _ E8); auto.
  - intros n l L S0. unfold takes, atom. cbn [app List.length] in *. rewrite !app_length in L. cbn [List.length] in L. rewrite <- !app_assoc in S0. cbn [app] in S0. lookat E0. unfold paren_expr.
    destruct (eat_run HU l0 TParenL k _ eq_refl S1) as (l2&E2&S2'&_). rewrite (bind_run _ _ _ _ _ E2).
    clear E0 P. lookat E0. destruct (exprs_start _ _ _ _ _ H) as (t0&k0&ts0&Et&B). injection Et as <- <- <-.
    destruct (expr_run _ _ _ _ IH (exprs_nonempty _ _ _ _ _ H) n l1 ltac:(cbn [List.length]; len) K0 S3) as (l6&E6&S6).
    destruct (peek_on_run HU l6 _ TComma S6) as (l7&E7&S7&_).
    assert (Q : same (look (us ++ (TParenR, k') :: r)) TComma = true).
    { destruct (exprs_start _ _ _ _ _ H1) as [Z|(k2&us'&Z)]; [destruct (Nu Z)|rewrite Z; auto]. }
    rewrite Q in E7.
    pose proof (sees_budget HU _ _ S7) as Lb. rewrite app_length in Lb. cbn [eaccepts] in IH1.
    destruct (IH1 n (budget l7) l7 ltac:(len) ltac:(len) S7) as (l8&E8&S8).
    destruct (eat_run HU l8 TParenR k' _ eq_refl S8) as (l9&E9&S9&_).
    exists (Tup (e :: es)), l9. split; auto. split; auto.
    destruct t; try discriminate B; cbn [begins_expr]; rewrite (bind_run _ _ _ _ _ E6), (bind_run _ _ _ _ _ E7),
      (bind_run _ _ _ _ _ (many_run _ _ _ _ _ E8)), (bind_run _ _ _ _ _ E9); auto.
  - intros n l L S0. unfold takes, atom. cbn [app List.length] in *. rewrite !app_length in L. cbn [List.length] in L. rewrite <- !app_assoc in S0. cbn [app] in S0. lookat E0. unfold brack_expr.
    destruct (eat_run HU l0 TBrackL k _ eq_refl S1) as (l2&E2&S2'&_). rewrite (bind_run _ _ _ _ _ E2).
    pose proof (sees_budget HU _ _ S2') as Lb. rewrite app_length in Lb. cbn [eaccepts] in IH.
    destruct (IH n (budget l2) l2 ltac:(len) ltac:(len) S2') as (l8&E8&S8).
    rewrite (bind_run _ _ _ _ _ (many_run _ _ _ _ _ E8)).
    destruct (eat_run HU l8 TBrackR k' _ eq_refl S8) as (l9&E9&S9&_). rewrite (bind_run _ _ _ _ _ E9).
    exists (List es), l9. auto.
  - intros n l L S0. unfold takes, atom. cbn [app List.length] in *. rewrite !app_length in L. cbn [List.length] in L. rewrite <- !app_assoc in S0. cbn [app] in S0. lookat E0.
    rewrite (bump_then_run _ _ _ C). destruct (infix_decl_run HU _ _ _ D _ S2) as (l2&E2&S2'). rewrite (bind_run _ _ _ _ _ E2).
    destruct (eat_run HU l2 TIn k' _ eq_refl S2') as (l5&E5&S5&K5). rewrite (bind_run _ _ _ _ _ E5).
    destruct (expr_run _ _ _ _ IH (exprs_nonempty _ _ _ _ _ H) n l5 ltac:(len) K5 S5) as (l6&E6&S6).
    rewrite (bind_run _ _ _ _ _ E6). exists (Let d e), l6. auto.
  - cbn [eaccepts]. intros n m l L Lm S0. cbn [app] in S0. destruct (bump_on_stop HU _ _ _ (no_comma _ N) S0) as (l2&E2&S2).
    exists l2. split; auto. apply many_stop; auto.
  - cbn [eaccepts] in *. intros n m l L Lm S0. cbn [List.length app] in *. rewrite app_length in L, Lm. rewrite <- app_assoc in S0.
    destruct m as [|m]; [len|]. destruct (bump_on_run HU l TComma k _ eq_refl S0) as (l1&E1&S1&K1).
    destruct (expr_run _ _ _ _ IH (exprs_nonempty _ _ _ _ _ H) n l1 ltac:(len) K1 S1) as (l6&E6&S6).
    destruct (IH1 n m l6 ltac:(len) ltac:(len) S6) as (l7&E7&S7). exists l7. split; auto. eapply many_go; eauto.
  - cbn [eaccepts]. intros n m l L Lm S0. cbn [app] in S0. destruct (peek_run HU l _ S0) as (l1&E&S1&_). cbn [look] in E.
    destruct (peek_run HU l1 _ S1) as (l2&E2&S2&_). cbn [look] in E2.
    exists l2. split; auto. apply many_stop. unfold more_items, is_done. unfold bind at 1. rewrite (bind_run _ _ _ _ _ E). cbn [same ret].
    unfold peek_on. unfold bind at 1. rewrite (bind_run _ _ _ _ _ E2). auto.
  - cbn [eaccepts] in IH1. intros n m l L Lm S0. rewrite app_length in L, Lm. cbn [List.length] in L, Lm. rewrite <- app_assoc in S0. cbn [app] in S0.
    destruct m as [|m]; [len|].
    destruct (exprs_start _ _ _ _ _ H) as (t0&k0&ts0&Et&B). injection Et as <- <- <-.
    destruct (peek_run HU l _ S0) as (l1&E&S1&_). destruct (peek_run HU l1 _ S1) as (l2&E2&S2&_&K2&_). cbn [look] in E, E2.
    destruct (expr_run _ _ _ _ IH (exprs_nonempty _ _ _ _ _ H) n l2 ltac:(cbn [List.length]; len) K2 S2) as (l6&E6&S6).
    destruct (peek_on_run HU l6 _ TComma S6) as (l7&E7&S7&C7&_&S8). cbn [look same] in E7.
    destruct (IH1 n m (snd (lx_bump l7)) ltac:(len) ltac:(len) S8) as (l9&E9&S9). exists l9. split; auto. eapply many_go; eauto.
    + unfold more_items, is_done. unfold bind at 1. rewrite (bind_run _ _ _ _ _ E).
      replace (same t TEof) with false by (destruct t; auto; discriminate B). cbn [ret].
      unfold peek_on. unfold bind at 1. rewrite (bind_run _ _ _ _ _ E2). unfold ret.
      replace (same t TBrackR) with false by (destruct t; auto; discriminate B). reflexivity.
    + unfold item. rewrite (bind_run _ _ _ _ _ E6), (bind_run _ _ _ _ _ E7), (bump_then_run _ _ _ C7). auto.
  - cbn [eaccepts] in IH1. intros n m l L Lm S0. rewrite app_length in L, Lm. cbn [List.length] in L, Lm. rewrite <- app_assoc in S0. cbn [app] in S0.
    destruct m as [|m]; [len|].
    destruct (exprs_start _ _ _ _ _ H) as (t0&k0&ts0&Et&B). injection Et as <- <- <-.
    destruct (peek_run HU l _ S0) as (l1&E&S1&_). destruct (peek_run HU l1 _ S1) as (l2&E2&S2&_&K2&_). cbn [look] in E, E2.
    destruct (expr_run _ _ _ _ IH (exprs_nonempty _ _ _ _ _ H) n l2 ltac:(cbn [List.length]; len) K2 S2) as (l6&E6&S6).
    destruct (peek_on_run HU l6 _ TComma S6) as (l7&E7&S7&_). rewrite (no_comma _ N) in E7.
    destruct (IH1 n m l7 ltac:(len) ltac:(len) S7) as (l9&E9&S9). exists l9. split; auto. eapply many_go; eauto.
    + unfold more_items, is_done. unfold bind at 1. rewrite (bind_run _ _ _ _ _ E).
      replace (same t TEof) with false by (destruct t; auto; discriminate B). cbn [ret].
      unfold peek_on. unfold bind at 1. rewrite (bind_run _ _ _ _ _ E2). unfold ret.
      replace (same t TBrackR) with false by (destruct t; auto; discriminate B). reflexivity.
    + unfold item. rewrite (bind_run _ _ _ _ _ E6), (bind_run _ _ _ _ _ E7). auto.
Qed.

Lemma expression_run c ts e r : exprs Nat.ltb (KExpr c) ts [e] r -> forall l, lx_col l = c -> sees l (ts ++ r) ->
  exists l', expression l = POk e l' /\ sees l' r.
Proof.
  intros H l K S0. unfold expression. pose proof (sees_budget HU _ _ S0) as Lb. rewrite app_length in Lb.
  eapply expr_run; eauto. { apply exprs_run. eauto. } { eapply exprs_nonempty; eauto. } len.
Qed.

Lemma declares_start ts d r : declares ts d r -> exists t k ts', ts = (t, k) :: ts' /\ (t = TInfixL \/ t = TInfixR \/ t = TInfix).
Proof. intros [t a k n k' us is r' A|t a k us is r' A]; destruct A; eexists _, _, _; eauto. Qed.

Lemma decl_run ts d r : decl_of Nat.ltb ts d r -> forall l, sees l (ts ++ r) ->
  exists l', p_decl l = POk d l' /\ sees l' r.
Proof.
  intros H l S0. unfold p_decl. destruct H as [ts d r H|t k ts e r H].
  - destruct (declares_start _ _ _ H) as (t&k&ts'&->&T). cbn [app] in S0. lookat E0.
    destruct (infix_decl_run HU _ _ _ H l0 S1) as (l1&E1&S3).
    exists l1. split; auto. destruct T as [->|[->| ->]]; rewrite (bind_run _ _ _ _ _ E1); auto.
  - destruct (exprs_start _ _ _ _ _ H) as (t0&k0&ts0&Et&B). injection Et as <- <- <-. cbn [app] in S0. lookat E0.
    destruct (expression_run _ _ _ _ H l0 K S1) as (l1&E1&S3). exists l1. split; auto.
    destruct t; try discriminate B; cbn [begins_expr]; rewrite (bind_run _ _ _ _ _ E1); auto.
Qed.

Lemma decl_nonempty lay ts d r : decl_of lay ts d r -> exists t k ts', ts = (t, k) :: ts' /\ same t TEof = false.
Proof.
  intros [us d' r' H|t k us e r' H].
  - destruct (declares_start _ _ _ H) as (t&k&ts'&->&T). eexists _, _, _. split; eauto. destruct T as [->|[->| ->]]; auto.
  - destruct (exprs_start _ _ _ _ _ H) as (t0&k0&ts0&Et&B). injection Et as <- <- <-. eexists _, _, _. split; eauto.
    destruct t; auto; discriminate B.
Qed.

Lemma decls_run ts ds : program Nat.ltb ts ds -> forall l, sees l ts -> exists l', p_decls l = POk ds l' /\ sees l' [].
Proof.
  intros H l S0. unfold p_decls.
  assert (G : forall m l, List.length ts <= m -> sees l ts ->
    exists l', many_f m (d <- is_done ;; ret (negb d)) (d <- p_decl ;; ignore TSemi ;;; ret d) l = POk ds l' /\ sees l' []).
  { clear l S0. induction H as [|ts d k us ds D H IH|ts d us ds D N H IH]; intros m l L S0.
    - destruct (peek_run HU l _ S0) as (l1&E&S1&_). exists l1. split; auto. apply many_stop. unfold is_done. unfold bind at 1.
      rewrite (bind_run _ _ _ _ _ E). auto.
    - destruct (decl_nonempty _ _ _ _ D) as (t1&k1&ts'&->&T). rewrite app_length in L. cbn [List.length] in L.
      destruct m as [|m]; [len|]. destruct (peek_run HU l _ S0) as (l1&E&S1&_). cbn [app look] in E.
      destruct (decl_run _ _ _ D l1 S1) as (l2&E2&S2). destruct (bump_on_run HU l2 TSemi k _ eq_refl S2) as (l3&E3&S3&_).
      destruct (IH m l3 ltac:(len) S3) as (l4&E4&S4). exists l4. split; auto. eapply many_go; eauto.
      + unfold is_done. unfold bind at 1. rewrite (bind_run _ _ _ _ _ E), T. reflexivity.
      + rewrite (bind_run _ _ _ _ _ E2). unfold ignore. unfold bind at 1. rewrite (bind_run _ _ _ _ _ E3). auto.
    - destruct (decl_nonempty _ _ _ _ D) as (t1&k1&ts'&->&T). rewrite app_length in L. cbn [List.length] in L.
      destruct m as [|m]; [len|]. destruct (peek_run HU l _ S0) as (l1&E&S1&_). cbn [app look] in E.
      destruct (decl_run _ _ _ D l1 S1) as (l2&E2&S2).
      assert (N' : same (look us) TSemi = false).
      { rewrite <- look_next in N by auto. destruct (look us); auto; discriminate. }
      destruct (bump_on_stop HU l2 _ _ N' S2) as (l3&E3&S3).
      destruct (IH m l3 ltac:(len) S3) as (l4&E4&S4). exists l4. split; auto. eapply many_go; eauto.
      + unfold is_done. unfold bind at 1. rewrite (bind_run _ _ _ _ _ E), T. reflexivity.
      + rewrite (bind_run _ _ _ _ _ E2). unfold ignore. unfold bind at 1. rewrite (bind_run _ _ _ _ _ E3). auto. }
  destruct (G (budget l) l) as (l'&E&S1); auto. { apply sees_budget in S0; auto. lia. }
  exists l'. split; auto.
Qed.

End WithUcd.
