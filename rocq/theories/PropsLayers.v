(** C112: lambdas and lets around texts of expressions. *)
From Coq Require Import List Arith NArith Bool String Lia.
From Verif Require Import Prelim Chars Syntax Lexer SpecLexer ProofLexer Parser SpecParser SpecViable SpecShape SpecCompose SpecLayers
  ProofParser ProofParser3 ProofParser6 ProofParser7 ProofParser8 ProofParser9 ProofParser11 ProofParser12 ProofPrinter3 ProofPrinter8 ProofShape ProofShape2 PropsShape
  ProofCompose PropsCompose ProofExchange PropsRepl PropsLexer.
Import ListNotations.
Local Open Scope string_scope.
Local Open Scope list_scope.

Lemma plain_at ts p r : pats Plain ts [p] r -> forall r', next_is is_at r' = false -> pats Plain ts [p] r'.
Proof.
  remember Plain as q eqn:Q. remember [p] as ps eqn:Ep. intros H. revert p Q Ep.
  induction H; intros p0 Q Ep r' N; try discriminate Q; try discriminate Ep; try (injection Ep as <-).
  - apply p_wild; auto.
  - apply p_var; auto.
  - apply p_as; auto. eapply IHpats; eauto.
  - subst. apply p_con.
  - apply p_group; auto. eapply pats_hd; eauto.
  - apply p_tuple; auto; eapply pats_hd; eauto. destruct us; auto.
  - apply p_empty; auto.
  - apply p_list; auto; eapply pats_hd; eauto. destruct us; auto.
Qed.
Lemma juxt_at ts ps r : pats Juxt ts ps r -> ts = [] \/ next_is is_at ts = false.
Proof.
  intros H. inversion H as [| | | | | | | | | | | | | | | | | |ts1 p us1 ps1 r1 P J| |]; subst; auto. right.
  inversion P; subst; cbn; auto.
Qed.
Lemma juxt_join ts ps r : pats Juxt ts ps r -> forall us qs r', pats Juxt us qs r' -> next_is is_at r' = false -> pats Juxt (ts ++ us) (ps ++ qs) r'.
Proof.
  remember Juxt as q eqn:Q. intros H. revert Q. induction H; intros Q vs ws r' V N; try discriminate Q; try (subst; match goal with X : _ \/ _ |- _ => destruct X; discriminate end); auto.
  rewrite <- app_assoc. apply j_cons; auto. eapply plain_at; eauto. clear - V N H0 Q. rewrite <- app_assoc.
  destruct us as [|u us].
  - cbn. destruct (juxt_at _ _ _ V) as [->|A]; auto. destruct vs; auto.
  - destruct (juxt_at _ _ _ H0) as [E|A]; [discriminate|]. exact A.
Qed.

Lemma first_arrow (a b : list ptok) k k' c d : noarrow a -> noarrow b -> a ++ (TArrow, k) :: c = b ++ (TArrow, k') :: d -> a = b /\ k = k' /\ c = d.
Proof.
  revert b. induction a as [|x a IH]; intros b A B E; destruct b as [|y b]; cbn in E.
  - injection E as -> ->. auto.
  - injection E as <- _. inversion B as [|? ? H _]; subst. now destruct H.
  - injection E as -> _. inversion A as [|? ? H _]; subst. now destruct H.
  - injection E as <- E. inversion A; inversion B; subst. destruct (IH b) as (->&->&->); auto.
Qed.
Lemma lambdas_inj v ps qs : (forall p b, v <> Lam p b) -> lambdas ps v = lambdas qs v -> ps = qs.
Proof.
  intros V. revert qs. induction ps as [|p ps IH]; intros [|q qs] E; cbn in E; auto.
  - now destruct (V q (lambdas qs v)).
  - now destruct (V p (lambdas ps v)).
  - injection E as -> E. f_equal. auto.
Qed.

Section WithUcd.
Context {U : ucd}.
Hypothesis HU : letters U.

Lemma symbol_front s t z us : In (s, t) symbols -> ctokens [] z us -> ctokens [] (s ++ nl ++ z) ((t, col_of s) :: us).
Proof.
  intros I Z. apply (ct_cons [] [] s t (10%N :: z)); [constructor|apply le_symbol; auto; reflexivity|]. cbn [app].
  apply ctokens_lf. rewrite <- (app_nil_r (s ++ [10%N])). apply ctokens_after; auto. now exists s.
Qed.
Lemma word_front s t z us : In (s, t) reserved -> ctokens [] z us -> ctokens [] (s ++ nl ++ z) ((t, col_of s) :: us).
Proof.
  intros I Z. apply (ct_cons [] [] s t (10%N :: z)); [constructor|apply le_reserved; auto; reflexivity|].
  cbn [app]. apply ctokens_lf. rewrite <- (app_nil_r (s ++ [10%N])). apply ctokens_after; auto. now exists s.
Qed.

(** A text that is the expression wherever an expression may begin. *)
Definition any_ (s : str) (e : expr) : Prop :=
  no_lfcr (10%N :: s) /\ ends_lf s /\ exists t k ts, ctokens [] s ((t, k) :: ts) /\ forall c, exprs Nat.ltb (KExpr c) ((t, k) :: ts) [e] [].
Lemma any_text s e : any_ s e -> text_ s e.
Proof. intros (N&E&t&k&ts&T&D). split; auto. split; auto. exists t, k, ts. auto. Qed.

Lemma alone c ts e : exprs Nat.ltb KAtom ts [e] [] -> exprs Nat.ltb (KExpr c) ts [e] [].
Proof. intros D. apply e_one; [|reflexivity]. rewrite <- (app_nil_r ts). eapply e_app; [exact D|constructor; exact I]. Qed.

Lemma any_group s e : text_ s e -> any_ (group_text s) (Grp e).
Proof.
  intros (N&E&t&k&ts&T&D). split; [now apply group_clean|]. split; [apply group_ends|].
  exists TParenL, 2, (((t, k) :: ts) ++ [(TParenR, 2)]). split; [now apply group_tokens|].
  intros c. apply alone. apply t_group. eapply expr_mild; eauto. split; reflexivity.
Qed.

(** ** Lambdas *)

Definition params_ (s : str) (ps : list pat) : Prop :=
  no_lfcr (10%N :: s) /\ ends_lf s /\ exists ts, ctokens [] s ts /\ ps <> [] /\ forall r, pats Juxt ts ps ((TArrow, 3) :: r).

Lemma line_clean s z : all not_lf s -> ~ In 13%N s -> no_lfcr (10%N :: z) -> no_lfcr (10%N :: s ++ nl ++ z).
Proof. intros. apply nolfcr_line; auto. Qed.

Lemma lambda_clean s d : no_lfcr (10%N :: s) -> ends_lf s -> no_lfcr (10%N :: d) -> no_lfcr (10%N :: lambda_text s d).
Proof.
  intros N E D. unfold lambda_text. apply line_clean; [repeat constructor|cbn; intuition discriminate|].
  apply nolfcr_join; auto. apply line_clean; auto; [repeat constructor|cbn; intuition discriminate].
Qed.
Lemma lambda_tokens s ts d us : ctokens [] s ts -> ends_lf s -> ctokens [] d us -> ctokens [] (lambda_text s d) ((TLambda, 2) :: ts ++ (TArrow, 3) :: us).
Proof.
  intros T E D. apply (symbol_front (lit "\") TLambda); [cbn; tauto|]. apply join0; auto. apply (symbol_front (lit "->") TArrow); [cbn; tauto|auto].
Qed.
Lemma any_lambda s ps d e : params_ s ps -> any_ d e -> any_ (lambda_text s d) (lambdas ps e).
Proof.
  intros (N&E&ts&T&Ne&P) (N'&E'&t&k&us&T'&D). split; [now apply lambda_clean|]. split.
  { unfold lambda_text. repeat apply ends_more. auto. }
  exists TLambda, 2, (ts ++ (TArrow, 3) :: (t, k) :: us). split; [now apply lambda_tokens|]. intros c. apply alone.
  destruct ps as [|p ps]; [congruence|]. apply t_lam; auto.
Qed.
Lemma any_x : any_ (lit "x" ++ nl) (Var (ILower (lit "x"))).
Proof.
  split; [apply one_end; discriminate|]. split; [now exists (lit "x")|]. exists (TLower (lit "x")), 2, []. split.
  - apply (ct_cons [] [] (lit "x") (TLower (lit "x")) nl []); [constructor| |apply ct_end; apply gap_white; [reflexivity|constructor]].
    apply (le_name 120%N [] []); try reflexivity; try (repeat constructor; fail). cbn. intuition discriminate.
  - intros c. apply alone. constructor.
Qed.

(** A program that is one expression and does not end in a semicolon. *)
Lemma whole ts e t k : program Nat.ltb ((t, k) :: ts) [DExpr e] -> (forall us k', (t, k) :: ts <> us ++ [(TSemi, k')]) -> exprs Nat.ltb (KExpr k) ((t, k) :: ts) [e] [].
Proof.
  intros Pr Ns. assert (D : decl_of Nat.ltb ((t, k) :: ts) (DExpr e) []).
  { destruct (program_inv _ _ Pr) as [(Ea&_)|[(ts2&d2&k2&us2&ds2&Ea&Ed&D2&P2)|(ts2&d2&us2&ds2&Ea&Ed&D2&N2&P2)]].
    - discriminate.
    - injection Ed as <- <-. assert (us2 = []) as -> by (inversion P2; auto). now destruct (Ns _ _ Ea).
    - injection Ed as <- <-. assert (us2 = []) as -> by (inversion P2; auto). rewrite app_nil_r in Ea. now rewrite Ea. }
  inversion D; subst. auto.
Qed.

Lemma name_only c k e : exprs Nat.ltb (KExpr c) [(TLower (lit "x"), k)] [e] [] -> e = Var (ILower (lit "x")).
Proof.
  intros D1. inversion D1 as [c0 ts0 e0 r D2 Nx|c0 ts0 x o i k0 t k1 us e0 r D2 Op D3 E1 E2 E3 E4| | | | | | | | | | | | | | | | | | | ]; subst.
  - inversion D2 as [| |c1 ts1 f us e1 r D3 D4 Ek Et| | | | | | | | | | | | | | | | | | ]; subst.
    pose proof (args_follow _ _ _ _ D4 _ _ _ eq_refl eq_refl [] eq_refl) as [(->&->)|(_&Nu&g&x&Eg)].
    + rewrite app_nil_r in Et. subst ts1. inversion D3; subst; auto.
    + destruct ts1 as [|y ts1]; [inversion D3|]. destruct ts1; [|destruct us; [congruence|discriminate Et]]. destruct us; [congruence|discriminate Et].
  - apply (f_equal (@List.length _)) in E2. rewrite app_length in E2. cbn in E2. lia.
Qed.

Lemma params_iff s ps : params_ s ps <-> parameters_text s ps.
Proof.
  split.
  - intros H. pose proof (any_text _ _ (any_lambda _ _ _ _ H any_x)) as X. apply (text_iff HU) in X as (_&_&X&_).
    destruct H as (N&E&ts&T&Ne&P). split; auto. split; auto. split; auto. exists ts. split; auto.
    pose proof (pats_noarrow _ _ _ _ (P [])) as A. clear - A. unfold noarrow in A. intros I. apply in_map_iff in I as (x&Ex&I).
    rewrite Forall_forall in A. now apply (A x).
  - intros (N&E&(ts&T&A)&l&P). split; auto. split; auto. exists ts. split; auto.
    assert (Nx : no_lfcr (10%N :: lit "x" ++ nl)) by (apply one_end; discriminate).
    assert (Tx : ctokens [] (lit "x" ++ nl) [(TLower (lit "x"), 2)]).
    { apply (ct_cons [] [] (lit "x") (TLower (lit "x")) nl []); [constructor| |apply ct_end; apply gap_white; [reflexivity|constructor]].
      apply (le_name 120%N [] []); try reflexivity; try (repeat constructor; fail). cbn. intuition discriminate. }
    assert (Nl : no_lfcr (lambda_text s (lit "x" ++ nl))) by (apply nolf_cons, lambda_clean; auto).
    destruct (proj1 (parse_iff HU _ _ Nl) (ex_intro _ l P)) as (us&ds&T'&Pr&Ed). symmetry in Ed. apply only_program in Ed as ->.
    assert (us = (TLambda, 2) :: ts ++ (TArrow, 3) :: [(TLower (lit "x"), 2)]) as ->.
    { apply (tokens_once HU _ _ _ Nl T'). now apply lambda_tokens. }
    assert (At : noarrow ts).
    { unfold noarrow. apply Forall_forall. intros x I Ex. apply A. rewrite <- Ex. now apply in_map. }
    apply whole in Pr.
    2:{ intros vs k' Ev. change ((TLambda, 2) :: ts ++ [(TArrow, 3); (TLower (lit "x"), 2)]) with (((TLambda, 2) :: ts) ++ [(TArrow, 3)] ++ [(TLower (lit "x"), 2)]) in Ev.
        rewrite app_assoc in Ev. apply app_inj_tail in Ev as (_&Ev). discriminate. }
    assert (Hd : forall x o b, lambdas ps (Var (ILower (lit "x"))) <> Bin x o b) by (intros; destruct ps; discriminate).
    assert (Ha : forall x b, lambdas ps (Var (ILower (lit "x"))) <> App x b) by (intros; destruct ps; discriminate).
    inversion Pr as [c0 ts0 e0 r D2 Nxt Ec Ets Ee Er|c0 ts0 x o i k0 t k1 us e0 r D2 Op D3 E1 E2 E3 E4| | | | | | | | | | | | | | | | | | | ]; [|exfalso; eapply Hd; eauto]. clear Pr.
    clear Ets Ec Ee Er c0 e0 r ts0.
    inversion D2 as [| |c1 ts1 f us e1 r D3 D4 Ek Et| | | | | | | | | | | | | | | | | | ]. subst c1 e1 r. clear D2.
    pose proof (args_follow _ _ _ _ D4 _ _ _ eq_refl eq_refl [] eq_refl) as [(->&Ef)|(_&_&g&x&Eg)]; [|exfalso; eapply Ha; eauto].
    rewrite app_nil_r in Et. subst ts1. rewrite <- Ef in D3. clear D4.
    inversion D3 as [| | | | | | | |k ts1 p ps1 k' us e r Pt Db| | | | | | | | | | | | ].
    match goal with X : _ ++ (TArrow, _) :: _ = _ ++ (TArrow, _) :: _ |- _ => apply first_arrow in X as (->&->&->); auto; [|eapply pats_noarrow; eauto] end.
    apply name_only in Db as ->. assert (Ep : p :: ps1 = ps) by (apply (lambdas_inj (Var (ILower (lit "x")))); [discriminate|assumption]). subst ps.
    split; [discriminate|]. intros r0. eapply pats_hd; eauto.
Qed.

(** Parameters one after the other. *)
Theorem C112_parameters : forall s ps z qs, parameters_text s ps -> parameters_text z qs -> parameters_text (s ++ z) (ps ++ qs).
Proof.
  intros s ps z qs A B. apply params_iff in A as (N&E&ts&T&Ne&P). apply params_iff in B as (N'&E'&us&T'&_&P'). apply params_iff.
  split; [apply nolfcr_join; auto|]. split; [apply ends_more; auto|]. exists (ts ++ us). split; [apply join0; auto|]. split.
  - destruct ps; [congruence|discriminate].
  - intros r. apply (juxt_join _ _ _ (P [])); auto.
Qed.
Print Assumptions C112_parameters.

(** ** Lets *)

Lemma only_declaration ds d : fold_left ast_push ds ast_empty = mkAst [Syntax.KInfix] [d] [] -> ds = [DInfix d].
Proof.
  intros E.
  assert (K : forall ds a, a_kinds (fold_left ast_push ds a) = a_kinds a ++ map kind ds /\
    a_infxs (fold_left ast_push ds a) = a_infxs a ++ flat_map (fun d => match d with DInfix e => [e] | _ => [] end) ds).
  { clear. induction ds as [|d ds IH]; intros a; cbn [fold_left map flat_map]; [rewrite !app_nil_r; auto|].
    destruct (IH (ast_push a d)) as (->& ->). destruct d; cbn; rewrite <- ?app_assoc; auto. }
  destruct (K ds ast_empty) as (K1&K2). rewrite E in K1, K2. cbn in K1, K2.
  destruct ds as [|d0 [|d' ds]]; try discriminate. destruct d0 as [d0|d0]; [|discriminate]. cbn in K2. now injection K2 as ->.
Qed.

Lemma operators_mild ts is r : operators ts is r -> forall r', next_is is_comma r' = false -> operators ts is r'.
Proof. induction 1; intros r' N; constructor; auto. Qed.
Lemma declares_mild ts d r : declares ts d r -> forall r', next_is is_comma r' = false -> declares ts d r'.
Proof. destruct 1; intros r' N; constructor; auto; eapply operators_mild; eauto. Qed.

Lemma declaration_tokens z d : declaration_text z d -> exists ts, ctokens [] z ts /\ forall r, next_is is_comma r = false -> declares ts d r.
Proof.
  assert (Semi : forall s, ends_lf s -> no_lfcr (10%N :: s) -> no_lfcr (s ++ lit ";")).
  { intros s0 E N. apply nolf_cons. apply nolfcr_join; auto. apply nolfcr_front; try discriminate.
    intros x y K. destruct x; discriminate. }
  assert (Ts : ctokens [] (lit ";") [(TSemi, 2)]).
  { apply (ct_cons [] [] (lit ";") TSemi []); [constructor|apply le_punct; cbn; tauto|]. apply ct_end. constructor. }
  intros (N&E&P1&P2). apply parse_iff in P1 as (ts&ds&T&Pr&Ed); auto using nolf_cons. apply parse_iff in P2 as (us&es&T'&Pr'&Ed'); auto.
  symmetry in Ed, Ed'. apply only_declaration in Ed as ->. apply only_declaration in Ed' as ->.
  assert (us = ts ++ [(TSemi, 2)]) as ->.
  { apply (tokens_once HU (z ++ lit ";")); auto. apply join0; auto. }
  exists ts. split; auto. intros r Nc.
  destruct (program_inv _ _ Pr') as [(Ea&_)|[(ts2&d2&k2&us2&ds2&Ea&Ed&D2&P2)|(ts2&d2&us2&ds2&Ea&Ed&D2&N2&P2)]].
  - apply app_eq_nil in Ea as (_&Ea). discriminate.
  - injection Ed as <- <-. assert (us2 = []) as -> by (inversion P2; auto).
    apply app_inj_tail in Ea as (<-&_). inversion D2; subst. eapply declares_mild; eauto.
  - injection Ed as <- <-. assert (us2 = []) as -> by (inversion P2; auto). rewrite app_nil_r in Ea. subst ts2.
    apply decl_nosemi in D2. apply Forall_app in D2 as (_&D2). inversion D2 as [|? ? X _]. now destruct X.
Qed.

Lemma any_let z dd d e : declaration_text z dd -> any_ d e -> any_ (let_text z d) (Let dd e).
Proof.
  intros Z (N'&E'&t&k&us&T'&D). destruct (declaration_tokens _ _ Z) as (ts&T&Dd). destruct Z as (N&E&_). split; [|split].
  - unfold let_text. apply line_clean; [repeat constructor|cbn; intuition discriminate|].
    apply nolfcr_join; auto. apply line_clean; auto; [repeat constructor|cbn; intuition discriminate].
  - unfold let_text. repeat apply ends_more. auto.
  - exists TLet, 4, (ts ++ (TIn, 3) :: (t, k) :: us). split.
    + apply (word_front (lit "let") TLet); [cbn; tauto|]. apply join0; auto. apply (word_front (lit "in") TIn); [cbn; tauto|auto].
    + intros c. apply alone. apply t_let; auto.
Qed.

(** Lambdas and lets around an expression in parentheses, in any number and
    order, are read as what is written. *)
Lemma layers_any s e : layered s e -> any_ s e.
Proof.
  induction 1 as [s e X|s ps d e P L IH|z dd d e Z L IH].
  - apply any_group. now apply text_iff.
  - apply any_lambda; auto. now apply params_iff.
  - apply any_let; auto.
Qed.
Theorem C112_layers : forall s e, layered s e -> expression_text s e.
Proof. intros s e L. apply text_iff; auto. apply any_text. now apply layers_any. Qed.
Print Assumptions C112_layers.

(** A lambda with several parameters and lambdas within lambdas are read as the
    same expression. *)
Theorem C112_curried : forall s ps z qs d e, parameters_text s ps -> parameters_text z qs -> layered d e ->
  expression_text (lambda_text (s ++ z) d) (lambdas ps (lambdas qs e)) /\
  expression_text (lambda_text s (lambda_text z d)) (lambdas ps (lambdas qs e)).
Proof.
  intros s ps z qs d e P Q L. split; apply C112_layers.
  - replace (lambdas ps (lambdas qs e)) with (lambdas (ps ++ qs) e) by (unfold lambdas; apply fold_right_app).
    apply ly_lambda; auto using C112_parameters.
  - apply ly_lambda; auto. apply ly_lambda; auto.
Qed.
Print Assumptions C112_curried.
End WithUcd.

(** ** Examples *)

Local Existing Instance ucd_none.

Ltac look_ := match goal with
  | |- sees _ [] => eexists; vm_compute; reflexivity
  | |- sees _ (_ :: _) => eexists; split; [vm_compute; reflexivity|split; [vm_compute; reflexivity|split; [reflexivity|]]]
  end.

Example C112_ex_parameters : parameters_text (lit "x (_, y)" ++ nl) [PVar (lit "x"); PTup [PWild; PVar (lit "y")]].
Proof.
  split; [apply clean_ok; vm_compute; reflexivity|]. split; [exists (lit "x (_, y)"); reflexivity|]. split.
  - exists [(TLower (lit "x"), 2); (TParenL, 4); (TUnderscore, 5); (TComma, 6); (TLower (lit "y"), 8); (TParenR, 9)]. split.
    + apply (sees_source letters_none); [apply clean_ok; vm_compute; reflexivity|repeat look_].
    + cbn. intuition discriminate.
  - vm_compute. eauto.
Qed.
Example C112_ex_declaration : declaration_text (lit "infixl 3 +" ++ nl) (mkInfixDecl [Standard (lit "+")] (mkFix 3 ALeft)).
Proof. split; [apply clean_ok; vm_compute; reflexivity|]. split; [exists (lit "infixl 3 +"); reflexivity|]. split; vm_compute; eauto. Qed.
Example C112_ex : exists e, expression_text (lambda_text (lit "x (_, y)" ++ nl) (let_text (lit "infixl 3 +" ++ nl) (group_text (lit "x + y" ++ nl)))) e.
Proof.
  eexists. apply (C112_layers letters_none). apply ly_lambda; [apply C112_ex_parameters|]. apply ly_let; [apply C112_ex_declaration|].
  apply ly_group. text.
Qed.

(** Why the body stands in parentheses: a name on the next line is an argument
    if it ends further to the right than the function, but within the lambda it
    has to end further to the right than the arrow. *)
Definition fa_ : str := lit "f" ++ nl ++ lit " a" ++ nl.
Example C112_ex_column : expression_text fa_ (App (v_ "f") (v_ "a")) /\
  ~ expression_text (lambda_text (lit "x" ++ nl) fa_) (Lam (PVar (lit "x")) (App (v_ "f") (v_ "a"))).
Proof. split; [text|]. intros (_&_&(l&K)&_). vm_compute in K. discriminate K. Qed.
