(** One line; the form of parsed trees; panics and errors located in the text. *)
From Coq Require Import List Arith NArith Bool String Lia.
From Verif Require Import Prelim Chars Syntax SpecFixity Lexer SpecLexer SpecLexRun Parser SpecParser.
From Verif Require Import ProofLexer ProofLexer2 ProofLexer6 ProofLexer7 ProofLexer8.
From Verif Require Import ProofParser ProofParser2 ProofParser3 ProofParser4 ProofParser5 ProofParser6 ProofParser7.
Import ListNotations.

(** * One line *)

Lemma ascending_weaken ts : forall c c', ascending c ts -> c' <= c -> ascending c' ts.
Proof. destruct ts as [|(t,k) ts]; cbn; auto. intros c c' (H&A) L. split; auto. lia. Qed.
Lemma ascending_skip us : forall c vs, ascending c (us ++ vs) -> ascending c vs.
Proof.
  induction us as [|(t,k) us IH]; intros c vs H; auto. destruct H as (H&A). apply IH in A.
  eapply ascending_weaken; eauto. lia.
Qed.

Definition ascends (c : nat) (ts : list ptok) : Prop :=
  match ts with [] => True | (_, k) :: ts' => c <= k /\ ascending k ts' end.
Lemma ascending_ascends c ts : ascending c ts -> ascends c ts.
Proof. destruct ts as [|(t,k) ts]; cbn; auto. intros (H&A). split; auto. lia. Qed.
Lemma ascends_skip c us vs : ascends c (us ++ vs) -> us <> [] -> ascending c vs.
Proof.
  destruct us as [|(t,k) us]; [congruence|]. intros (H&A) _. apply ascending_skip in A. eapply ascending_weaken; eauto.
Qed.
Lemma ascends_here t k ts c : ascends c ((t, k) :: ts) -> ascends k ((t, k) :: ts).
Proof. intros (_&A). split; auto. Qed.
Lemma ascends_any c ts : ascends c ts -> ascends 0 ts.
Proof. destruct ts as [|(t,k) ts]; auto. intros (_&A). split; auto. lia. Qed.

Definition placed (q : ekind) (ts : list ptok) : Prop :=
  match q with
  | KExpr c | KApp c => ascends c ts
  | KArgs c _ => ascending c ts
  | _ => ascends 0 ts
  end.

(** Where columns grow, only the comparison of smaller with greater columns
    matters. *)
Lemma lay_irrelevant lay lay' : (forall c k, c < k -> lay c k = lay' c k) ->
  forall q ts es r, exprs lay q ts es r -> placed q (ts ++ r) -> exprs lay' q ts es r.
Proof.
  intros L. induction 1 as [c ts e r H IH N|c ts x o i k t k' us e r H IH O H1 IH1|c ts f us e r H IH H1 IH1|c f r N
    |c f t k ts x us e r A Lk H IH H1 IH1|x k r|s k r|s k r|k ts p ps k' us e r HP H IH|k k' r|k s b k1 k' r
    |k cs k' r Nc F|k t k1 ts e k' r H IH|k t k1 ts e us es k' r H IH H1 IH1 Nu|k ts es k' r H IH
    |k ts d k' us e r D H IH|r N|k ts e us es r H IH H1 IH1|k r|t k ts e k' us es r H IH H1 IH1
    |t k ts e us es r H IH N H1 IH1]; cbn [placed]; intros P; cbn [app] in P;
    repeat (rewrite <- app_assoc in P; cbn [app] in P).
  - apply e_one; auto.
  - apply e_bin; auto. apply IH1. pose proof (ascends_skip _ _ _ P) as Q.
    destruct (exprs_start _ _ _ _ _ H) as (t0&k0&ts0&->&_). specialize (Q ltac:(discriminate)).
    destruct Q as (_&Q). apply ascending_ascends in Q. cbn [placed app]. eapply ascends_here; eauto.
  - apply e_app with (f := f).
    + apply IH. cbn [placed]. eapply ascends_any; eauto.
    + apply IH1. cbn [placed]. eapply ascends_skip; eauto.
      destruct (exprs_start _ _ _ _ _ H) as (t0&k0&ts0&->&_). discriminate.
  - apply a_nil. destruct r as [|(t,k) r]; auto. cbn [no_arg] in *. cbn [app ascending] in P. rewrite <- L; auto. apply P.
  - apply a_cons with (x := x); auto.
    + rewrite <- L; auto. cbn [app ascending] in P. apply P.
    + apply IH. cbn [placed app]. apply ascending_ascends in P. eapply ascends_any; eauto.
    + apply IH1. cbn [placed]. apply (ascending_skip (((t, k) :: ts)) c). cbn [app]. exact P.
  - apply t_lit.
  - apply t_upper.
  - apply t_lower.
  - apply t_lam; auto. apply IH. cbn [placed]. destruct P as (_&P). apply ascending_skip in P. destruct P as (_&P).
    apply ascending_ascends. auto.
  - apply t_unit.
  - apply t_op.
  - apply t_commas; auto.
  - apply t_group. apply IH. cbn [placed app]. destruct P as (_&P). apply ascending_ascends in P. eapply ascends_here; eauto.
  - apply t_tuple; auto.
    + apply IH. cbn [placed app]. destruct P as (_&P). apply ascending_ascends in P. eapply ascends_here; eauto.
    + apply IH1. cbn [placed]. destruct P as (_&P). change ((t, k1) :: ts ++ us ++ (TParenR, k') :: r) with (((t, k1) :: ts) ++ us ++ (TParenR, k') :: r) in P.
      apply ascending_skip in P. apply ascending_ascends in P. eapply ascends_any; eauto.
  - apply t_list. apply IH. cbn [placed]. destruct P as (_&P). apply ascending_ascends in P. eapply ascends_any; eauto.
  - apply t_let; auto. apply IH. cbn [placed]. destruct P as (_&P). apply ascending_skip in P. destruct P as (_&P).
    apply ascending_ascends. auto.
  - apply tl_nil; auto.
  - destruct P as (_&P). apply tl_cons.
    + apply IH. cbn [placed]. apply ascending_ascends. auto.
    + apply IH1. cbn [placed]. apply ascending_skip in P. apply ascending_ascends in P. eapply ascends_any; eauto.
  - apply i_nil.
  - apply i_comma.
    + apply IH. cbn [placed app]. eapply ascends_here; eauto.
    + apply IH1. cbn [placed]. change ((t, k) :: ts ++ (TComma, k') :: us ++ r) with (((t, k) :: ts) ++ (TComma, k') :: us ++ r) in P.
      apply ascends_skip in P; [|discriminate]. destruct P as (_&P). apply ascending_ascends in P. eapply ascends_any; eauto.
  - apply i_plain; auto.
    + apply IH. cbn [placed app]. eapply ascends_here; eauto.
    + apply IH1. cbn [placed]. change ((t, k) :: ts ++ us ++ r) with (((t, k) :: ts) ++ us ++ r) in P.
      apply ascends_skip in P; [|discriminate]. apply ascending_ascends in P. eapply ascends_any; eauto.
Qed.

Lemma program_lay lay lay' : (forall c k, c < k -> lay c k = lay' c k) ->
  forall ts ds, program lay ts ds -> forall c, ascending c ts -> program lay' ts ds.
Proof.
  intros L. assert (G : forall ts d r, decl_of lay ts d r -> forall c, ascending c (ts ++ r) -> decl_of lay' ts d r).
  { intros ts d r [us d' r' D|t k us e r' D] c P.
    - apply do_infix; auto.
    - apply do_expr. eapply lay_irrelevant; eauto. cbn [placed app] in *. apply ascending_ascends in P. eapply ascends_here; eauto. }
  induction 1 as [|ts d k us ds D P IH|ts d us ds D N P IH]; intros c A.
  - constructor.
  - apply pr_semi; eauto. apply ascending_skip in A. destruct A as (_&A). eauto.
  - apply pr_plain; eauto. apply ascending_skip in A. eauto.
Qed.

(** * Surface form *)

Lemma operators_some ts is r : operators ts is r -> is <> [].
Proof. destruct 1; discriminate. Qed.
Lemma declares_sensible ts d r : declares ts d r -> sensible d.
Proof.
  destruct 1 as [t a k n k' ts is r A L O|t a k ts is r A N O]; split; cbn; try eapply operators_some; eauto. lia.
Qed.

Definition forms (q : ekind) (ts : list ptok) (es : list expr) : Prop :=
  match q with
  | KExpr _ | KItems | KTail => Forall (surface AsExpr) es
  | KApp _ => Forall (surface AsApp) es
  | KArgs _ f => surface AsApp f -> Forall (surface AsApp) es
  | KAtom => Forall (surface AsAtom) es /\ (next_is arg_start ts = true -> Forall (surface AsArg) es)
  end.

Lemma arg_atoms es : Forall (surface AsArg) es -> Forall (surface AsAtom) es.
Proof. apply Forall_impl. apply su_atom. Qed.
Lemma lam_surface ps e : surface AsExpr e -> surface AsExpr (fold_right Lam e ps).
Proof. intros H. induction ps as [|p ps IH]; auto. cbn. apply su_expr, su_apps, su_lam, IH. Qed.

Lemma exprs_forms lay q ts es r : exprs lay q ts es r -> forms q ts es.
Proof.
  induction 1 as [c ts e r H IH N|c ts x o i k t k' us e r H IH O H1 IH1|c ts f us e r H IH H1 IH1|c f r N
    |c f t k ts x us e r A Lk H IH H1 IH1|x k r|s k r|s k r|k ts p ps k' us e r HP H IH|k k' r|k s b k1 k' r
    |k cs k' r Nc F|k t k1 ts e k' r H IH|k t k1 ts e us es k' r H IH H1 IH1 Nu|k ts es k' r H IH
    |k ts d k' us e r D H IH|r N|k ts e us es r H IH H1 IH1|k r|t k ts e k' us es r H IH H1 IH1
    |t k ts e us es r H IH N H1 IH1]; cbn [forms] in *;
    try (split; [apply arg_atoms|intros _]; repeat constructor; auto; fail).
  - revert IH. apply Forall_impl. apply su_expr.
  - apply Forall_inv in IH, IH1. constructor; [|constructor]. apply su_bin; auto.
  - destruct IH as (IH&_). apply Forall_inv in IH. apply IH1. apply su_apps. auto.
  - intros S. auto.
  - intros S. destruct IH as (_&IH). specialize (IH A). apply Forall_inv in IH. apply IH1. apply su_app; auto.
  - apply Forall_inv in IH. split; [|discriminate]. constructor; [|constructor]. cbn. apply su_lam, lam_surface, IH.
  - apply Forall_inv in IH. split; [apply arg_atoms|intros _]; constructor; auto; apply su_grp; auto.
  - apply Forall_inv in IH. 
    assert (X : Forall (surface AsArg) [Tup (e :: es)]).
    { constructor; auto. apply su_tup; [|constructor; auto]. cbn [List.length].
      inversion H1; subst; [exfalso; apply Nu; reflexivity|]. cbn [List.length]. lia. }
    split; auto using arg_atoms.
  - apply Forall_inv in IH. split; [|discriminate]. constructor; [|constructor]. apply su_let; auto. eapply declares_sensible; eauto.
  - constructor.
  - apply Forall_inv in IH. constructor; auto.
  - constructor.
  - apply Forall_inv in IH. constructor; auto.
  - apply Forall_inv in IH. constructor; auto.
Qed.

Lemma surface_flat : forall e l, surface l e -> flat e /\ (l <> AsExpr -> not_bin e).
Proof.
  fix IH 3. intros e l [x|i|e1 H|es N H|es H|p e1 H|d e1 D H|e1 H|f x H1 H2|e1 H|a o b H1 H2|e1 H].
  - split; [constructor|intros _; discriminate].
  - split; [constructor|intros _; discriminate].
  - split; [constructor; apply (IH _ _ H)|intros _; discriminate].
  - split; [|intros _; discriminate]. constructor. induction H as [|x xs Hx Hxs IHxs]; constructor; [apply (IH _ _ Hx)|].
    clear IHxs N x Hx. induction Hxs as [|y ys Hy Hys IHys]; constructor; [apply (IH _ _ Hy)|exact IHys].
  - split; [|intros _; discriminate]. constructor. induction H as [|x xs Hx Hxs IHxs]; constructor; [apply (IH _ _ Hx)|exact IHxs].
  - split; [constructor; apply (IH _ _ H)|intros _; discriminate].
  - split; [constructor; apply (IH _ _ H)|intros _; discriminate].
  - destruct (IH _ _ H) as (F&B). split; auto. intros _. apply B. discriminate.
  - split; [constructor; [apply (IH _ _ H1)|apply (IH _ _ H2)]|intros _; discriminate].
  - destruct (IH _ _ H) as (F&B). split; auto. intros _. apply B. discriminate.
  - split; [|congruence]. destruct (IH _ _ H1) as (F&B). constructor; [apply B; discriminate|auto|apply (IH _ _ H2)].
  - destruct (IH _ _ H) as (F&B). split; [auto|congruence].
Qed.

Section WithUcd.
Context {U : ucd}.
Context (HU : letters U).

Lemma ctokens_ascending w s ts : ctokens w s ts -> all not_lf (w ++ s) -> ascending (col_of w) ts.
Proof.
  assert (C : forall x, all not_lf x -> col_of x = S (List.length x)).
  { intros x A. unfold col_of. cbn. f_equal. rewrite <- (rev_length x).
    assert (B : all not_lf (rev x)) by (apply Forall_rev; auto). revert B. generalize (rev x). clear. intros y.
    induction y as [|c y IH]; intros A; cbn; auto. inversion A; subst. rewrite H1. cbn. auto. }
  induction 1 as [w g G|w g s t v ts G L T IH]; intros A; cbn [ascending]; auto.
  replace (w ++ g ++ s ++ v) with ((w ++ g ++ s) ++ v) in A by (rewrite <- !app_assoc; auto).
  split; [|apply IH; auto]. apply Forall_app in A as (A&_). rewrite (C _ A). apply Forall_app in A as (A&_).
  rewrite (C _ A), !app_length. destruct (lexeme_start HU s t v L) as (c&s'&->&_). cbn. lia.
Qed.

(** * Positions *)

(** The state in terms of the text. *)
Definition stands (src : str) (l : lexer) : Prop :=
  exists w, l = lexer_at w (lx_rest l) (lx_curr l) (lx_prev l) /\ src = w ++ lx_rest l /\
    match lx_curr l with
    | None => True
    | Some t => exists w0 g s, w = w0 ++ g ++ s /\ gap g (s ++ lx_rest l) /\
        (lexeme s t (lx_rest l) \/ exists e, t = TError e /\ mistake (w0 ++ g) s e (lx_rest l))
    end.

Lemma peek_stands w r p o l1 : no_lfcr (w ++ r) -> lx_peek (lexer_at w r None p) = Ok (o, l1) ->
  (o = None /\ gap r [] /\ exists q, l1 = lexer_at (w ++ r) [] None q) \/
  exists t g s v q, o = Some t /\ r = g ++ s ++ v /\ gap g (s ++ v) /\ l1 = lexer_at (w ++ g ++ s) v (Some t) q /\
    (lexeme s t v \/ exists e, t = TError e /\ mistake (w ++ g) s e v).
Proof.
  intros N E. destruct (peek_lex (lexer_at w r None p) _ _ eq_refl E) as (t&l'&L&[(->&->&->)|(Nt&->&->)]).
  - left. assert (Nx : lx_next (lexer_at w r None p) = Ok (None, l')) by (unfold lx_next; rewrite L; auto).
    apply step in Nx as [(_&G&q&->)|(g&s&v&t&q&_&_&X&_)]; auto; [|discriminate]. eauto.
  - right. assert (Nx := next_ok _ _ _ L Nt).
    apply step in Nx as [(X&_)|(g&s&v&t'&q&Er&G&X&->&_&H)]; auto; [discriminate|]. assert (t' = t) by congruence. subst t'.
    exists t, g, s, v, q. repeat split; auto. destruct H as [(Le&_)|H]; auto.
Qed.

Lemma driven_stands src l : driven src l -> no_lfcr src -> stands src l.
Proof.
  intros D N. induction D as [|l x l' D IH E|l D IH].
  - destruct (new_none src N) as (ws&v&p&->&_&_&->). exists ws. repeat split; auto.
  - destruct IH as (w&El&Es&H). destruct (lx_curr l) as [t|] eqn:C.
    + unfold lx_peek in E. rewrite C in E. injection E as <- <-. exists w. rewrite C. auto.
    + rewrite El in E. apply peek_stands in E; [|rewrite <- Es; auto].
      destruct E as [(->&G&q&->)|(t&g&s&v&q&->&Er&G&->&X)].
      * exists (w ++ lx_rest l). cbn. rewrite app_nil_r. auto.
      * exists (w ++ g ++ s). cbn. rewrite Es, Er, <- !app_assoc. split; auto. split; auto.
        exists w, g, s. auto.
  - destruct IH as (w&El&Es&H). unfold lx_bump. destruct (lx_curr l) as [t|] eqn:C.
    + exists w. cbn [snd]. rewrite El. cbn. auto.
    + exists w. cbn [snd]. rewrite C. auto.
Qed.

(** An error is reported between the token before and the one found, or
    directly after the latter. *)
Definition found (e : perror) : token := match e with Expected _ _ t | Unexpected t _ => t end.

Lemma stuck_where src e : no_lfcr src -> stuck src e ->
  (found e = TEof /\ exists w g, src = w ++ g /\ gap g [] /\ error_loc e = loc_of w) \/
  exists w g s v, src = w ++ g ++ s ++ v /\ gap g (s ++ v) /\
    (lexeme s (found e) v \/ exists x, found e = TError x /\ mistake (w ++ g) s x v) /\
    (error_loc e = loc_of w \/ error_loc e = loc_of (w ++ g ++ s)).
Proof.
  intros N ((l0&o&l1&D&E&L&F)&_). fold (found e) in F. destruct (driven_stands _ _ D N) as (w&El&Es&H).
  assert (Lw : error_loc e = loc_of w) by (rewrite L, El; auto). destruct (lx_curr l0) as [t|] eqn:C.
  - unfold lx_peek in E. rewrite C in E. injection E as <- <-. destruct H as (w0&g&s&->&G&X). right.
    exists w0, g, s, (lx_rest l0). rewrite F. rewrite Es at 1. rewrite <- !app_assoc. auto.
  - rewrite El in E. apply peek_stands in E; [|rewrite <- Es; auto].
    destruct E as [(->&G&q&->)|(t&g&s&v&q&->&Er&G&->&X)].
    + left. split; auto. exists w, (lx_rest l0). auto.
    + right. exists w, g, s, v. rewrite F. rewrite Es at 1. rewrite Er. auto.
Qed.

Lemma bad_where src p : no_lfcr src -> bad src p ->
  (p = PIdentStart /\ exists w r, src = w ++ r /\ odd_name r) \/
  (p = PTodoPrec /\ exists w k g d v, src = w ++ k ++ g ++ d ++ v /\
     In k [lit "infixl"; lit "infixr"; lit "infix"] /\ gap g (d ++ v) /\
     d <> [] /\ all digit d /\ stops digit v /\ (9 < value 10 d)%N).
Proof.
  intros N [(l&D&C&E)|(->&l0&t&n&l1&D&C&K&E&Ln)].
  - left. destruct (driven_stands _ _ D N) as (w&El&Es&_). rewrite C in El. rewrite El in E.
    pose proof (lex_text HU w (lx_rest l) None (lx_prev l)) as L. rewrite Es in N. specialize (L (no_lfcr_app_r _ _ N)). rewrite E in L.
    destruct L as (g&z&Er&G&[(->&Eo)|[(s&t'&v&q&->&Eo&_)|[(s&e&v&q&->&Eo&_)|(Eo&O)]]]); try discriminate.
    injection Eo as ->. split; auto. exists (w ++ g), z. rewrite Es, Er, <- app_assoc. auto.
  - right. split; auto. destruct (driven_stands _ _ D N) as (w&El&Es&H). rewrite C in H.
    destruct H as (w0&g0&s0&->&G0&[X|(e&->&_)]); [|discriminate K].
    assert (B : snd (lx_bump l0) = lexer_at (w0 ++ g0 ++ s0) (lx_rest l0) None (lx_prev l0)).
    { rewrite El at 1. rewrite C. reflexivity. }
    rewrite B in E. apply peek_stands in E; [|rewrite <- Es; auto].
    destruct E as [(X0&_)|(t'&g&s&v&q&X0&Er&G&_&[Y|(e&->&_)])]; try discriminate. injection X0 as <-.
    exists (w0 ++ g0), s0, g, s, v. rewrite Es, Er, <- !app_assoc. split; auto. split.
    + clear - X K. destruct X; try discriminate K;
        repeat match goal with I : In (_, _) _ |- _ => cbn in I; repeat (destruct I as [I|I]; [injection I as <- <-; try discriminate K; cbn; auto|]); destruct I end.
    + split; auto. remember (TLit (LInt n)) as t' eqn:Et. clear - Y Et Ln. destruct Y; try discriminate Et;
        repeat match goal with I : In (_, _) _ |- _ => cbn in I; repeat (destruct I as [I|I]; [injection I as <- <-; discriminate Et|]); destruct I end.
      injection Et as <-. auto.
Qed.

End WithUcd.
