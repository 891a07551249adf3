(** Invariants of the resolver over a session, and the effect of evaluating a
    text. *)
From Coq Require Import List Arith NArith Bool String Lia.
From Verif Require Import Prelim Chars Syntax Fixity Style Lexer Parser Printer Grapheme Messages Repl
  SpecGrapheme SpecLexer SpecParser SpecFixity SpecRepl ProofTable ProofRewrite ProofResolve ProofResolve2
  ProofFixity ProofParser7 PropsParser PropsPrinter ProofRepl ProofRepl2.
Import ListNotations.
Local Open Scope string_scope.
Local Open Scope list_scope.

(** * A resolver between two inputs *)

Definition settled (r : resolver) : Prop := r_errs r = [] /\ NoDup (keys (r_fix r)).

Lemma push_local_nodup f ops : forall t, NoDup (keys t) -> NoDup (keys (fst (push_local t f ops))).
Proof. intros t N. rewrite push_local_table. now apply insert_many_nodup. Qed.

Lemma restore_nodup olds : forall t, NoDup (keys t) -> NoDup (keys (restore t olds)).
Proof.
  induction olds as [|(op&[f|]) olds IH]; intros t N; cbn; auto; apply IH; auto using nodup_insert, nodup_remove.
Qed.

Lemma visit_nodup r e r' e' : visit_expr r e = Ok (r', e') -> NoDup (keys (r_fix r)) -> NoDup (keys (r_fix r')).
Proof.
  intros H.
  refine (proj1 (visit_inv (fun a b => NoDup (keys (r_fix a)) -> NoDup (keys (r_fix b))) (fun _ => True) (fun _ _ => True)
    _ _ _ _ _ _ _ _ _ _ _ _ _ _ _ _ _ (esize e) e r r' e' I H)); auto.
  - intros rr x. unfold store_error. destruct (existsb _ _); auto.
  - intros d x _ rr r2 t1 olds P K N. cbn in *. apply restore_nodup, K.
    pose proof (push_local_nodup (d_fixity d) (d_infixes d) _ N) as X. now rewrite P in X.
  - intros [] _; auto; apply Forall_forall; auto.
Qed.

Lemma visit_list_nodup es : forall r r' es', visit_list visit_expr r es = Ok (r', es') ->
  NoDup (keys (r_fix r)) -> NoDup (keys (r_fix r')).
Proof.
  induction es as [|e es IH]; intros r r' es' H N; apply visit_list_inv in H.
  - destruct H as [-> _]; auto.
  - destruct H as (r1&e1&es1&H1&H2&_). eapply IH; eauto. eapply visit_nodup; eauto.
Qed.

Lemma resolve_settled r a r' a' errs : resolve_ast r a = Ok (r', a', errs) ->
  NoDup (keys (r_fix r)) -> settled r'.
Proof.
  intros H N. apply resolve_ast_inv in H as (r1&es&V&->&_&_). split; auto. cbn.
  eapply visit_list_nodup; eauto. now apply load_tbl_nodup.
Qed.

Lemma load_entries_nodup es : forall t, NoDup (keys t) -> NoDup (keys (load_entries t es)).
Proof.
  unfold load_entries. induction es as [|(f,ops) es IH]; intros t N; cbn; auto. apply IH. now apply insert_many_nodup.
Qed.

Lemma declared_ext F G ds : (forall o, F o = G o) -> forall o, declared F ds o = declared G ds o.
Proof.
  intros H o. rewrite !declared_scoped. revert F G H. induction ds as [|d ds IH]; intros F G H; cbn; auto.
  apply IH. now apply scoped_ext.
Qed.

Lemma ast_of_kinds : forall ds a, a_kinds (fold_left ast_push ds a) =
  a_kinds a ++ map (fun d => match d with DInfix _ => Syntax.KInfix | DExpr _ => Syntax.KExpr end) ds.
Proof.
  induction ds as [|d ds IH]; intros a; cbn; [now rewrite app_nil_r|]. rewrite IH. destruct d, a; cbn; now rewrite <- app_assoc.
Qed.

Section WithUcd.
Context {U : ucd}.

Lemma feed_settled r t r' res : feed_input r t = Ok (r', res) -> settled r -> settled r'.
Proof.
  unfold feed_input. intros E (Er&N). destruct (parse t) as [a l|e l|p|]; try discriminate.
  - destruct (resolve_ast_total (load_fixities r a) a) as (r1&a1&errs&R). rewrite R in E. cbn in E.
    assert (S1 : settled r1) by (eapply resolve_settled; eauto; cbn; now apply load_tbl_nodup).
    destruct errs; injection E as <- _; auto.
  - injection E as <- _. split; auto.
Qed.

Lemma read_file_settled w k s p acts s' : read_file w k s p = (acts, Running s') ->
  settled (s_res s) -> settled (s_res s').
Proof.
  unfold read_file. destruct (w_read w k p).
  - cbn. destruct (feed_input (s_res s) _) as [[r [a|e]]|q|] eqn:F; cbn; try discriminate.
    + intros E; injection E as _ <-; cbn. eauto using feed_settled.
    + destruct (show_error_with_path e p); cbn; try discriminate. intros E; injection E as _ <-; cbn. eauto using feed_settled.
  - intros E; injection E as _ <-; auto.
Qed.

Lemma read_files_settled w ps : forall k s acts s', read_files w k s ps = (acts, Running s') ->
  settled (s_res s) -> settled (s_res s').
Proof.
  induction ps as [|p ps IH]; intros k s acts s'; cbn [read_files].
  - intros E; injection E as _ <-; auto.
  - destruct (unquote p) as [q|q|]; cbn; try discriminate.
    destruct (read_file w k s q) as (a1&st1) eqn:R. destruct st1 as [s1| | |]; try discriminate.
    destruct (read_files w (S k) s1 ps) as (a2&st2) eqn:R2. intros E; injection E as _ ->.
    eauto using read_file_settled.
Qed.

Lemma settled_empty s : settled (s_res s) -> settled (mkResolver [] (r_errs (s_res s))).
Proof. intros (E&_). split; auto. constructor. Qed.

Lemma settled_load r es : settled r -> settled (mkResolver (load_entries (r_fix r) es) (r_errs r)).
Proof. intros (E&N). split; auto. now apply load_entries_nodup. Qed.

Lemma read_command_settled w s c acts s' : read_command w s c = (acts, Running s') ->
  settled (s_res s) -> settled (s_res s').
Proof.
  unfold read_command. cbv zeta. intros E St. revert E.
  assert (D : forall x, (x, Running s) = (acts, Running s') -> settled (s_res s')).
  { intros x E. injection E as _ <-. auto. }
  assert (D2 : forall x, (x, Running (set_res s (mkResolver [] (r_errs (s_res s))))) = (acts, Running s') -> settled (s_res s')).
  { intros x E. injection E as _ <-. cbn. now apply settled_empty. }
  assert (L : forall es x, (x, Running (set_res s (mkResolver (load_entries (r_fix (s_res s)) es) (r_errs (s_res s)))))
    = (acts, Running s') -> settled (s_res s')).
  { intros es x E. injection E as _ <-. cbn [s_res set_res]. now apply settled_load. }
  assert (D3 : forall x b, (x, Running (set_buf s b)) = (acts, Running s') -> settled (s_res s')).
  { intros x b E. injection E as _ <-. auto. }
  repeat match goal with
  | |- context [if ?b then _ else _] => destruct b
  | |- context [answer [] (after ?n ?s) _] => destruct (after n s) as [y| |]; [rewrite !answer_nil|cbn; discriminate|cbn; discriminate]
  end; try exact (D _); try exact (D2 _); try exact (D3 _ _).
  - unfold cmd_cd. destruct (trim y); exact (D _).
  - unfold cmd_quit. repeat match goal with |- context [if ?b then _ else _] => destruct b end; try exact (D _); discriminate.
  - unfold cmd_clear. repeat match goal with |- context [if ?b then _ else _] => destruct b end; try exact (D _); exact (D2 _).
  - unfold cmd_history. repeat match goal with
    | |- context [if ?b then _ else _] => destruct b
    | |- context [answer [] (after ?n ?s) _] => destruct (after n s) as [z| |]; [rewrite !answer_nil|cbn; discriminate|cbn; discriminate]
    end; try exact (D _). destruct (trim z); [exact (D _)|]. intros E; injection E as _ <-; auto.
  - unfold cmd_load. destruct (is_nil (trim y)); [exact (D _)|].
    destruct (str_eqb (trim y) (lit "--prelude")); [unfold load_hs_prelude; exact (L _ _)|].
    destruct (str_eqb (trim y) (lit "--math")); [unfold load_arithmetic; exact (L _ _)|].
    intros E. eapply read_files_settled; eauto.
  - unfold cmd_shell. destruct (split_whitespace y); exact (D _).
Qed.

Lemma act_settled r h i acts s' : act r h i = (acts, Running s') -> settled r -> settled (s_res s').
Proof.
  destruct i as [t|w c| |msg]; cbn [act].
  - intros E. apply read_buffer_running in E as (_&_&_&res&E). cbn in E. eauto using feed_settled.
  - intros E. exact (read_command_settled _ _ _ _ _ E).
  - intros E; injection E as _ <-; auto.
  - intros E; injection E as _ <-; auto.
Qed.

Lemma perform_settled is : forall r h acts s', perform r h is = (acts, Running s') -> settled r -> settled (s_res s').
Proof.
  induction is as [|i is IH]; intros r h acts s'; cbn [perform].
  - intros E; injection E as _ <-; auto.
  - destruct (act r h i) as (a1&st1) eqn:A. destruct st1 as [s1| | |]; try discriminate.
    destruct (perform (s_res s1) (s_hist s1) is) as (a2&st2) eqn:P. intros E. injection E as _ ->. 
    eauto using act_settled.
Qed.

Lemma step_settled s e acts s' : step s e = (acts, Running s') -> settled (s_res s) -> settled (s_res s').
Proof.
  destruct e as [w l| | |msg]; cbn [step]; try discriminate.
  - destruct (reads_total l) as (re&R). rewrite (line_reads w s l re R).
    destruct re as [|c|t|t]; cbn [react].
    + intros E; injection E as _ <-; auto.
    + destruct (is_nil (s_buf s)); [|intros E; injection E as _ <-; auto].
      intros E. eapply read_command_settled; eauto.
    + intros E; injection E as _ <-; auto.
    + intros E. apply read_buffer_running in E as (_&_&_&res&E). cbn in E. eauto using feed_settled.
  - intros E; injection E as _ <-; auto.
Qed.

Lemma run_settled es : forall s acts s', run s es = (acts, Running s') -> settled (s_res s) -> settled (s_res s').
Proof.
  induction es as [|e es IH]; intros s acts s'; cbn [run].
  - intros E; injection E as _ <-; auto.
  - destruct (step s e) as (a1&st1) eqn:A. destruct st1 as [s1| | |]; try discriminate.
    destruct (run s1 es) as (a2&st2) eqn:P. intros E. injection E as _ ->. eauto using step_settled.
Qed.

Lemma run_new h es acts s : run (session_new h) es = (acts, Running s) -> settled (s_res s).
Proof. intros E. eapply run_settled; eauto. split; [reflexivity|constructor]. Qed.

(** * What a text does *)

Lemma first_item ds es' : List.length es' = List.length (input_exprs ds) ->
  fst (iter_next (iter_new (mkAst (a_kinds (fold_left ast_push ds ast_empty)) (infix_decls ds) es'))) =
  match ds with
  | [] => None
  | DInfix d :: _ => Some (DInfix d)
  | DExpr _ :: _ => match es' with e :: _ => Some (DExpr e) | [] => None end
  end.
Proof.
  intros L. rewrite ast_of_kinds. unfold iter_next, iter_tick, iter_new, pop_front. cbn [ast_empty a_kinds app it_kinds it_infxs it_exprs a_infxs a_exprs].
  destruct ds as [|[d|e] ds]; cbn; auto. destruct es'; auto.
Qed.

Lemma Forall2_len {A B} (R : A -> B -> Prop) xs ys : Forall2 R xs ys -> List.length ys = List.length xs.
Proof. induction 1; cbn; auto. Qed.

(** Everything the session does with a text that parses. *)
Lemma feed_parsed (HU : letters U) r t ds : settled r -> no_lfcr t -> parses t ds -> Forall nodup_lets (input_exprs ds) ->
  let F := declared (get (r_fix r)) (infix_decls ds) in
  exists r' res, feed_input r t = Ok (r', res) /\ settled r' /\ (forall o, get (r_fix r') o = F o) /\
    r_fix r' = load_tbl (r_fix r) (infix_decls ds) /\
    match res with
    | inl a => exists es', Forall2 (resolves F) (input_exprs ds) es' /\
        a = mkAst (a_kinds (fold_left ast_push ds ast_empty)) (infix_decls ds) es'
    | inr (ErrParser _) => False
    | inr (ErrResolver xs) => xs <> [] /\ dup_free xs /\ forall x, In x xs -> exists e, In e (input_exprs ds)
          /\ clash_in F e (e_prev x) (e_prev_fix x) (e_curr x) (e_curr_fix x)
    end /\
    (forall es', Forall2 (resolves F) (input_exprs ds) es' -> exists a, res = inl a).
Proof.
  intros (Er&N) C (ts&T&P) Nd F. set (a := fold_left ast_push ds ast_empty).
  destruct (proj2 (parse_iff HU t a C)) as (l&Pa); [eauto|].
  assert (Ex : a_exprs a = input_exprs ds) by (unfold a; rewrite ast_of_exprs; reflexivity).
  assert (Ix : a_infxs a = infix_decls ds) by (unfold a; rewrite ast_of_infxs; reflexivity).
  unfold feed_input. rewrite Pa.
  destruct (resolve_ast_spec (load_fixities r a) a) as (r'&a'&errs&E&K1&K2&K3&K4&K5&K6&K7).
  { exact Er. } { eapply C36_flat; eauto. } { now rewrite Ex. }
  assert (Sc : forall o, scope_of (load_fixities r a) a o = F o).
  { intros o. unfold scope_of, F. rewrite Ix. unfold load_fixities. cbn [r_fix]. rewrite Ix.
    fold (load_tbl (r_fix r) (infix_decls ds)).
    rewrite <- (declared_idem (infix_decls ds) (get (r_fix r)) o). apply declared_ext. intros o'. apply load_tbl_get. }
  assert (Tb : r_fix r' = load_tbl (r_fix r) (infix_decls ds)).
  { rewrite K3. unfold load_fixities. cbn [r_fix]. rewrite Ix. apply load_tbl_idem. auto. }
  rewrite E. cbn [obind]. exists r'. 
  assert (Q1 : settled r').
  { split; auto. rewrite Tb. now apply load_tbl_nodup. }
  assert (Q2 : forall o, get (r_fix r') o = F o).
  { intros o. rewrite Tb. apply load_tbl_get. }
  assert (Cp : forall es', Forall2 (resolves F) (input_exprs ds) es' -> errs = []).
  { intros es' R. assert (Fl : Forall flat (a_exprs a)) by (eapply C36_flat; eauto).
    assert (X : resolve_ast (load_fixities r a) a = Ok (load_fixities (load_fixities r a) a, mkAst (a_kinds a) (a_infxs a) es', [])).
    { apply resolve_ast_complete; auto; rewrite Ex; auto. eapply Forall2_impl'; [|exact R]. intros e e' Re. eapply resolves_ext; eauto. }
    rewrite X in E. congruence. }
  destruct errs as [|x errs].
  - exists (inl a'). repeat (split; auto); [|eauto]. exists (a_exprs a').
    split.
    + specialize (K5 eq_refl). rewrite Ex in K5. eapply Forall2_impl'; [|exact K5]. intros e e' R. eapply resolves_ext; eauto.
    + destruct a' as [k i es]. cbn in *. fold a. congruence.
  - exists (inr (ErrResolver (x :: errs))). repeat (split; auto); [discriminate| |intros es' R; discriminate (Cp _ R)].
    intros y I. destruct (K6 y I) as (e&I'&Cl). rewrite Ex in I'. exists e. split; auto. eapply clash_in_ext; eauto.
Qed.

(** A text that does not parse. *)
Lemma feed_unparsed (HU : letters U) r t : no_lfcr t -> (forall ds, ~ parses t ds) ->
  (exists e l, parse t = PErr e l /\ feed_input r t = Ok (r, inr (ErrParser e))) \/
  (exists p, parse t = PPanic p /\ feed_input r t = Panic p).
Proof.
  intros C H. unfold feed_input. destruct (parse t) as [a l|e l|p|] eqn:E; eauto.
  - destruct (proj1 (parse_iff HU t a C)) as (ts&ds&T&P&_); [eauto|]. elim (H ds). exists ts. auto.
  - pose proof (proj1 (C34_parsing_terminates HU t)). congruence.
Qed.

Lemma parses_unique (HU : letters U) t ds es : no_lfcr t -> parses t ds -> parses t es -> ds = es.
Proof.
  intros C (ts&T&P) (us&T'&P'). exact (proj2 (C35_unambiguous HU t ts us ds es C T T' P P')).
Qed.

Lemma parses_dec (HU : letters U) t : no_lfcr t -> (exists ds, parses t ds) \/ forall ds, ~ parses t ds.
Proof.
  intros C. destruct (parse t) as [a l|e l|p|] eqn:E.
  - left. destruct (proj1 (parse_iff HU t a C)) as (ts&ds&T&P&_); [eauto|]. exists ds, ts. auto.
  - right. intros ds (ts&T&P). destruct (proj2 (parse_iff HU t (fold_left ast_push ds ast_empty) C)) as (l'&E'); [eauto|]. congruence.
  - right. intros ds (ts&T&P). destruct (proj2 (parse_iff HU t (fold_left ast_push ds ast_empty) C)) as (l'&E'); [eauto|]. congruence.
  - right. intros ds (ts&T&P). destruct (proj2 (parse_iff HU t (fold_left ast_push ds ast_empty) C)) as (l'&E'); [eauto|]. congruence.
Qed.

End WithUcd.
