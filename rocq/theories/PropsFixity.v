(** Claims C01-C14 and C16: fixity resolution. *)
From Coq Require Import List NArith ZArith Bool Lia String.
From Verif Require Import Prelim Syntax Fixity SpecFixity ProofRewrite ProofHaskell
  ProofTable ProofResolve ProofResolve2 ProofFixity.
Import ListNotations.

(** Vocabulary of the examples *)
Definition xv (s : string) : expr := Var (ILower (lit s)).
Definition tbl_ex : fixities :=
  load_entries [] [(mkFix 6 ALeft, [std "+"; std "-"]); (mkFix 7 ALeft, [std "*"]);
                   (mkFix 8 ARight, [std "^"]); (mkFix 4 ANeither, [std "=="])].
(** a + b * c - d ^ e ^ f *)
Definition chain_ex : expr :=
  Bin (xv "a") (std "+") (Bin (xv "b") (std "*") (Bin (xv "c") (std "-")
    (Bin (xv "d") (std "^") (Bin (xv "e") (std "^") (xv "f"))))).
(** (a + (b * c)) - (d ^ (e ^ f)) *)
Definition chain_ex_grouped : expr :=
  Bin (Bin (xv "a") (std "+") (Bin (xv "b") (std "*") (xv "c"))) (std "-")
    (Bin (xv "d") (std "^") (Bin (xv "e") (std "^") (xv "f"))).
(** a == b + c == d *)
Definition clash_ex : expr :=
  Bin (xv "a") (std "==") (Bin (xv "b") (std "+") (Bin (xv "c") (std "==") (xv "d"))).

Ltac simple_ops := intros x Hx; simpl in Hx;
  repeat (destruct Hx as [Hx|Hx]; [try discriminate; injection Hx as <-; intros ? ? ? X; discriminate|]);
  destruct Hx.

Example chain_ex_simple : simple_operands chain_ex.
Proof. simple_ops. Qed.
Example chain_ex_resolved : rewrite tbl_ex chain_ex = Ok (inl chain_ex_grouped).
Proof. vm_compute. reflexivity. Qed.
Example clash_ex_simple : simple_operands clash_ex.
Proof. simple_ops. Qed.
Example clash_ex_rejected : rewrite tbl_ex clash_ex
  = Ok (inr (mkErr (std "==") (mkFix 4 ANeither) (std "==") (mkFix 4 ANeither))).
Proof. vm_compute. reflexivity. Qed.

(** ** C01 *)
Theorem C01_regroup_keeps_reading : forall t e e',
  rewrite t e = Ok (inl e') -> inorder e' = inorder e.
Proof. exact rewrite_inorder. Qed.
Print Assumptions C01_regroup_keeps_reading.

(** The same for whole expressions at any depth, and whether or not errors are
    found on the way. *)
Theorem C01_visit_keeps_reading : forall r e r' e',
  visit_expr r e = Ok (r', e') -> words e' = words e.
Proof. intros r e r' e'. exact (visit_words (esize e) e r r' e'). Qed.
Print Assumptions C01_visit_keeps_reading.

Example C01_ex : inorder chain_ex_grouped = inorder chain_ex
  /\ List.length (inorder chain_ex) = 11.
Proof. vm_compute. auto. Qed.

(** ** C02 *)
Theorem C02_result_legal : forall t e e', simple_operands e ->
  rewrite t e = Ok (inl e') -> legal_expr (get t) e'.
Proof. intros t e e' S H. apply (rewrite_characterised t e e' S). exact H. Qed.
Print Assumptions C02_result_legal.

(** ** C03 *)
Theorem C03_success_iff_legal_grouping : forall t e e', simple_operands e ->
  (rewrite t e = Ok (inl e') <-> inorder e' = inorder e /\ legal_expr (get t) e').
Proof. exact rewrite_characterised. Qed.
Print Assumptions C03_success_iff_legal_grouping.

Theorem C03_legal_grouping_unique : forall F e1 e2,
  legal_expr F e1 -> legal_expr F e2 -> inorder e1 = inorder e2 -> e1 = e2.
Proof. exact legal_expr_unique. Qed.
Print Assumptions C03_legal_grouping_unique.

Theorem C03_failure_iff_no_legal_grouping : forall t e, simple_operands e ->
  ((exists err, rewrite t e = Ok (inr err))
   <-> ~ exists e', inorder e' = inorder e /\ legal_expr (get t) e').
Proof. exact rewrite_fails_iff. Qed.
Print Assumptions C03_failure_iff_no_legal_grouping.

(** ** C04 *)
Theorem C04_error_is_genuine : forall t e err,
  rewrite t e = Ok (inr err) ->
  clash (get t) (chain e) (e_prev err) (e_curr err)
  /\ e_prev_fix err = get t (e_prev err) /\ e_curr_fix err = get t (e_curr err).
Proof.
  intros t e err H. pose proof (rewrite_spec t e) as S. rewrite H in S. exact S.
Qed.
Print Assumptions C04_error_is_genuine.

(** A clash leaves no legal grouping, so the error is never spurious. *)
Theorem C04_clash_excludes_grouping : forall t e o1 o2,
  clash (get t) (chain e) o1 o2 -> exists err, rewrite t e = Ok (inr err).
Proof.
  intros t e o1 o2 C. pose proof (rewrite_spec t e) as S.
  destruct (rewrite t e) as [[e'|err]|p|]; try tauto; eauto.
  destruct S as (g&_&L&Y). exfalso. rewrite <- Y in C.
  exact (wclash_not_legal _ _ _ _ L (clash_wclash _ _ _ _ C)).
Qed.
Print Assumptions C04_clash_excludes_grouping.

Example C04_ex : clash (get tbl_ex) (chain clash_ex) (std "==") (std "==").
Proof. exact (proj1 (C04_error_is_genuine _ _ _ clash_ex_rejected)). Qed.

(** ** C05 *)
Theorem C05_rewrite_never_panics : forall t e, exists res, rewrite t e = Ok res.
Proof.
  intros t e. pose proof (rewrite_spec t e) as S.
  destruct (rewrite t e) as [res|p|]; try tauto; eauto.
Qed.
Print Assumptions C05_rewrite_never_panics.

Theorem C05_resolve_never_panics : forall r a, exists r' a' errs,
  resolve_ast r a = Ok (r', a', errs).
Proof. exact resolve_ast_total. Qed.
Print Assumptions C05_resolve_never_panics.

(** ** C06 *)
Theorem C06_agrees_with_haskell_report : forall t e,
  (exists e', rewrite t e = Ok (inl e') /\ hs_resolve (get t) (chain e) = Some (Some e'))
  \/ (exists err, rewrite t e = Ok (inr err) /\ hs_resolve (get t) (chain e) = Some None).
Proof. exact rewrite_haskell. Qed.
Print Assumptions C06_agrees_with_haskell_report.

Example C06_ex : hs_resolve (get tbl_ex) (chain chain_ex) = Some (Some chain_ex_grouped)
  /\ hs_resolve (get tbl_ex) (chain clash_ex) = Some None.
Proof. vm_compute. auto. Qed.

(** ** C07 *)
Theorem C07_resolution_is_regrouping : forall r a,
  r_errs r = [] -> Forall flat (a_exprs a) -> Forall nodup_lets (a_exprs a) ->
  exists r' a' errs, resolve_ast r a = Ok (r', a', errs)
    /\ a_kinds a' = a_kinds a /\ a_infxs a' = a_infxs a
    /\ (errs = [] ->
        Forall2 (resolves (declared (get (r_fix r)) (a_infxs a))) (a_exprs a) (a_exprs a')).
Proof.
  intros r a H1 H2 H3.
  destruct (resolve_ast_spec r a H1 H2 H3) as (r'&a'&errs&E&A&B&_&_&C&_).
  exists r', a', errs. auto.
Qed.
Print Assumptions C07_resolution_is_regrouping.

Theorem C07_resolution_complete : forall r a es',
  r_errs r = [] -> Forall flat (a_exprs a) -> Forall nodup_lets (a_exprs a) ->
  Forall2 (resolves (declared (get (r_fix r)) (a_infxs a))) (a_exprs a) es' ->
  exists r', resolve_ast r a = Ok (r', mkAst (a_kinds a) (a_infxs a) es', []).
Proof.
  intros r a es' H1 H2 H3 H4. eexists. exact (resolve_ast_complete r a es' H1 H2 H3 H4).
Qed.
Print Assumptions C07_resolution_complete.

Theorem C07_resolution_deterministic : forall F e e1 e2,
  resolves F e e1 -> resolves F e e2 -> e1 = e2.
Proof. intros F e e1 e2 H1 H2. exact (resolves_unique_lemma F e e1 H1 e2 H2). Qed.
Print Assumptions C07_resolution_deterministic.

(** (\x -> a + b * c, f (let infixr 6 + in a + b + c)) *)
Definition nested_ex : expr :=
  Tup [Lam (PVar (lit "x")) (Bin (xv "a") (std "+") (Bin (xv "b") (std "*") (xv "c")));
       App (xv "f") (Grp (Let (mkInfixDecl [std "+"] (mkFix 6 ARight))
         (Bin (xv "a") (std "+") (Bin (xv "b") (std "+") (xv "c")))));
       Bin (xv "a") (std "+") (Bin (xv "b") (std "+") (xv "c"))].
Definition ast_ex : ast := fold_left ast_push
  [DExpr nested_ex; DInfix (mkInfixDecl [std "+"] (mkFix 6 ALeft));
   DInfix (mkInfixDecl [std "*"] (mkFix 7 ALeft)); DExpr chain_ex] ast_empty.

Example nested_ex_flat : flat nested_ex.
Proof.
  repeat (constructor; try (intros ? ? ? X; discriminate X)).
Qed.
Example nested_ex_nodup : nodup_lets nested_ex.
Proof. repeat (constructor; try (simpl; tauto)). Qed.
Example chain_ex_flat : flat chain_ex.
Proof. repeat (constructor; try (intros ? ? ? X; discriminate X)). Qed.
Example chain_ex_nodup : nodup_lets chain_ex.
Proof. repeat constructor. Qed.

Example C07_ex :
  Forall flat (a_exprs ast_ex) /\ Forall nodup_lets (a_exprs ast_ex)
  /\ exists r', resolve_ast (mkResolver tbl_ex []) ast_ex = Ok (r',
       mkAst (a_kinds ast_ex) (a_infxs ast_ex)
       [Tup [Lam (PVar (lit "x")) (Bin (xv "a") (std "+") (Bin (xv "b") (std "*") (xv "c")));
       App (xv "f") (Grp (Let (mkInfixDecl [std "+"] (mkFix 6 ARight))
         (Bin (xv "a") (std "+") (Bin (xv "b") (std "+") (xv "c")))));
       Bin (Bin (xv "a") (std "+") (xv "b")) (std "+") (xv "c")];
       chain_ex_grouped], []).
Proof.
  split; [|split].
  - constructor; [exact nested_ex_flat|]. constructor; [exact chain_ex_flat|constructor].
  - constructor; [exact nested_ex_nodup|]. constructor; [exact chain_ex_nodup|constructor].
  - eexists. vm_compute. reflexivity.
Qed.

(** ** C08 *)
Theorem C08_resolution_idempotent : forall r a r1 a1,
  r_errs r = [] -> NoDup (keys (r_fix r)) ->
  Forall flat (a_exprs a) -> Forall nodup_lets (a_exprs a) ->
  resolve_ast r a = Ok (r1, a1, []) -> resolve_ast r1 a1 = Ok (r1, a1, []).
Proof. exact resolve_ast_idem. Qed.
Print Assumptions C08_resolution_idempotent.

Example C08_ex : NoDup (keys tbl_ex) /\ exists r1 a1,
  resolve_ast (mkResolver tbl_ex []) ast_ex = Ok (r1, a1, [])
  /\ a1 <> ast_ex /\ resolve_ast r1 a1 = Ok (r1, a1, []).
Proof.
  split.
  - vm_compute. repeat constructor; simpl; intuition discriminate.
  - eexists _, _. split; [vm_compute; reflexivity|]. split; [|vm_compute; reflexivity].
    intros X. vm_compute in X. discriminate X.
Qed.

(** ** C09 *)
Theorem C09_let_scope : forall r d body,
  flat body -> nodup_lets (Let d body) -> r_errs r = [] ->
  exists r' body', visit_expr r (Let d body) = Ok (r', Let d body')
    /\ r_fix r' = r_fix r
    /\ (r_errs r' = [] <-> resolves (scoped (get (r_fix r)) d) body body').
Proof. exact visit_let_lemma. Qed.
Print Assumptions C09_let_scope.

(** The table in force while the body is visited. *)
Theorem C09_table_in_body : forall t d o,
  get (fst (push_local t (d_fixity d) (d_infixes d))) o
  = if existsb (fun x => str_eqb (symbol x) (symbol o)) (d_infixes d)
    then d_fixity d else get t o.
Proof. intros t d o. rewrite push_local_table. exact (get_insert_many_scoped t d o). Qed.
Print Assumptions C09_table_in_body.

Theorem C09_rest_unaffected : forall r d body x r' l' x',
  nodup_lets (Let d body) ->
  visit_list visit_expr r [Let d body; x] = Ok (r', [l'; x']) ->
  exists r'', visit_expr r x = Ok (r'', x') /\ r_fix r'' = r_fix r'.
Proof. intros r d body x r' l' x' N. exact (visit_after_let r d body x N r' l' x'). Qed.
Print Assumptions C09_rest_unaffected.

Example C09_ex :
  let d := mkInfixDecl [std "+"] (mkFix 6 ARight) in
  let abc := Bin (xv "a") (std "+") (Bin (xv "b") (std "+") (xv "c")) in
  nodup_lets (Let d abc) /\ flat abc
  /\ exists r', visit_list visit_expr (mkResolver tbl_ex []) [Let d abc; abc]
     = Ok (r', [Let d abc; Bin (Bin (xv "a") (std "+") (xv "b")) (std "+") (xv "c")])
       /\ r_fix r' = tbl_ex.
Proof.
  split; [repeat (constructor; try (simpl; tauto))|].
  split; [repeat (constructor; try (intros ? ? ? X; discriminate X))|].
  eexists. vm_compute. auto.
Qed.

(** ** C10 *)
Theorem C10_table_restored : forall r e r' e', nodup_lets e ->
  visit_expr r e = Ok (r', e') -> r_fix r' = r_fix r.
Proof. intros r e r' e' N. exact (visit_table (esize e) e r r' e' N). Qed.
Print Assumptions C10_table_restored.

(** let infixl 3 +, + in a: the local fixity survives the let. *)
Theorem C10_duplicate_leaks_refuted : exists r e r' e',
  visit_expr r e = Ok (r', e') /\ r_errs r' = [] /\ get (r_fix r) (std "+") = mkFix 9 ALeft
  /\ get (r_fix r') (std "+") = mkFix 3 ALeft.
Proof.
  exists (mkResolver [] []), (Let (mkInfixDecl [std "+"; std "+"] (mkFix 3 ALeft)) (xv "a")).
  eexists _, _. vm_compute. auto.
Qed.
Print Assumptions C10_duplicate_leaks_refuted.

(** ** C11 *)
Theorem C11_declarations_hoisted_last_wins : forall r ds,
  Forall nodup_lets (input_exprs ds) -> exists r' a' errs,
  resolve_ast r (fold_left ast_push ds ast_empty) = Ok (r', a', errs)
  /\ forall o, get (r_fix r') o = declared (get (r_fix r)) (infix_decls ds) o.
Proof.
  intros r ds N. destruct (resolve_ast_total r (fold_left ast_push ds ast_empty)) as (r'&a'&errs&E).
  exists r', a', errs. split; auto. intros o.
  apply resolve_ast_inv in E as (r1&es&V&->&_&_). simpl.
  rewrite ast_of_exprs in V. simpl in V.
  assert (G : forall es, Forall nodup_lets es -> forall r r1 es1,
    visit_list visit_expr r es = Ok (r1, es1) -> r_fix r1 = r_fix r).
  { clear. induction es as [|e es IH]; intros N r r1 es1 V; apply visit_list_inv in V.
    - destruct V as [-> _]; auto.
    - destruct V as (r2&e1&es2&V1&V2&_). inversion N; subst.
      apply IH in V2; auto. apply C10_table_restored in V1; auto. congruence. }
  rewrite (G _ N _ _ _ V), load_scope. unfold scope_of. rewrite ast_of_infxs. reflexivity.
Qed.
Print Assumptions C11_declarations_hoisted_last_wins.

(** Only the order of the declarations among themselves matters, not where the
    expressions stand between them. *)
Theorem C11_position_irrelevant : forall r ds1 ds2,
  infix_decls ds1 = infix_decls ds2 -> input_exprs ds1 = input_exprs ds2 ->
  exists r' a1 a2 errs,
    resolve_ast r (fold_left ast_push ds1 ast_empty) = Ok (r', a1, errs)
    /\ resolve_ast r (fold_left ast_push ds2 ast_empty) = Ok (r', a2, errs)
    /\ a_exprs a1 = a_exprs a2.
Proof.
  intros r ds1 ds2 H1 H2.
  destruct (resolve_ast_total r (fold_left ast_push ds1 ast_empty)) as (r1&a1&e1&E1).
  destruct (resolve_ast_total r (fold_left ast_push ds2 ast_empty)) as (r2&a2&e2&E2).
  pose proof E1 as E1'. pose proof E2 as E2'.
  apply resolve_ast_inv in E1 as (s1&x1&V1&->&->&->).
  apply resolve_ast_inv in E2 as (s2&x2&V2&->&->&->).
  assert (X : visit_list visit_expr (load_fixities r (fold_left ast_push ds1 ast_empty))
                (a_exprs (fold_left ast_push ds1 ast_empty))
            = visit_list visit_expr (load_fixities r (fold_left ast_push ds2 ast_empty))
                (a_exprs (fold_left ast_push ds2 ast_empty))).
  { unfold load_fixities. rewrite !ast_of_exprs, !ast_of_infxs, H1, H2. reflexivity. }
  rewrite V1, V2 in X. injection X as <- <-. eauto 10.
Qed.
Print Assumptions C11_position_irrelevant.

Example C11_ex :
  let ds := [DExpr chain_ex; DInfix (mkInfixDecl [std "+"; std "?"] (mkFix 3 ALeft));
             DInfix (mkInfixDecl [std "+"] (mkFix 2 ARight))] in
  Forall nodup_lets (input_exprs ds)
  /\ declared (get tbl_ex) (infix_decls ds) (std "+") = mkFix 2 ARight
  /\ declared (get tbl_ex) (infix_decls ds) (std "?") = mkFix 3 ALeft
  /\ declared (get tbl_ex) (infix_decls ds) (std "*") = mkFix 7 ALeft.
Proof. split; [repeat constructor|vm_compute; auto]. Qed.

(** ** C12 *)
Theorem C12_lookup_is_latest : forall h o,
  get_defined (run_ops h) o = latest h o
  /\ get (run_ops h) o = match latest h o with Some f => f | None => mkFix 9 ALeft end
  /\ has (run_ops h) o = match latest h o with Some _ => true | None => false end.
Proof. intros h o. unfold get, has. rewrite run_ops_latest. auto. Qed.
Print Assumptions C12_lookup_is_latest.

Theorem C12_spelling_irrelevant : forall t s,
  get t (Promoted s) = get t (Standard s).
Proof.
  intros t s. unfold get. rewrite (get_defined_sym t (Promoted s) (Standard s)); auto.
Qed.
Print Assumptions C12_spelling_irrelevant.

Theorem C12_keys_distinct : forall h, NoDup (keys (run_ops h)).
Proof. exact run_ops_nodup. Qed.
Print Assumptions C12_keys_distinct.

Theorem C12_insert_order_and_old : forall t o f,
  keys (fst (insert t o f)) = (if has t o then keys t else keys t ++ [symbol o])
  /\ snd (insert t o f) = get_defined t o.
Proof. intros t o f. split; [apply keys_insert|reflexivity]. Qed.
Print Assumptions C12_insert_order_and_old.

Theorem C12_remove_order_and_old : forall h o,
  fst (remove (run_ops h) o) = filter (fun p => negb (infix_eqb (fst p) o)) (run_ops h)
  /\ snd (remove (run_ops h) o) = latest h o.
Proof.
  intros h o. split; [apply remove_is_filter, run_ops_nodup|apply run_ops_latest].
Qed.
Print Assumptions C12_remove_order_and_old.

(** Clearing leaves no fixity and counts the operators that had one. *)
Theorem C12_clear : forall h errs names, NoDup names ->
  (forall o, In (symbol o) names <-> latest h o <> None) ->
  snd (clear (mkResolver (run_ops h) errs)) = List.length names
  /\ r_errs (fst (clear (mkResolver (run_ops h) errs))) = errs
  /\ forall o, get_defined (r_fix (fst (clear (mkResolver (run_ops h) errs)))) o = None.
Proof.
  intros h errs names ND H. cbn. repeat split.
  assert (E : List.length (keys (run_ops h)) = List.length (run_ops h)) by (unfold keys; apply map_length).
  rewrite <- E. apply Nat.le_antisymm; apply NoDup_incl_length; auto using run_ops_nodup; intros s I.
  - assert (X : In (symbol (Standard s)) names); [|exact X]. apply H. rewrite <- run_ops_latest.
    intros G. apply (proj1 (get_none_keys _ (Standard s)) G). exact I.
  - change s with (symbol (Standard s)) in *. apply H in I. rewrite <- run_ops_latest in I.
    destruct (in_dec (list_eq_dec N.eq_dec) (symbol (Standard s)) (keys (run_ops h))) as [|N]; auto.
    destruct I. apply get_none_keys. exact N.
Qed.
Print Assumptions C12_clear.

Example C12_ex :
  let h := [Ins (Promoted (lit "elem")) (mkFix 2 ARight); Del (std "+");
            Ins (std "elem") (mkFix 4 ANeither); Ins (std "+") (mkFix 6 ALeft)] in
  latest h (std "elem") = Some (mkFix 2 ARight) /\ latest h (std "+") = None
  /\ run_ops h = [(std "elem", mkFix 2 ARight)].
Proof. vm_compute. auto. Qed.

(** ** C13 *)
Definition chain_ops (e : expr) : list infix :=
  map (fun i => match i with Operator o => o | Operand _ => Standard [] end)
    (filter (fun i => match i with Operator _ => true | _ => false end) (chain e)).

Theorem C13_only_relative_precedence : forall t1 t2 e,
  agree (get t1) (get t2) (chain_ops e) ->
  match rewrite t1 e, rewrite t2 e with
  | Ok (inl a), Ok (inl b) => a = b
  | Ok (inr a), Ok (inr b) => e_prev a = e_prev b /\ e_curr a = e_curr b
  | _, _ => False
  end.
Proof. exact rewrite_agree. Qed.
Print Assumptions C13_only_relative_precedence.

(** At any depth, for expressions without let (a let fixes absolute values). *)
Theorem C13_only_relative_precedence_deep : forall F G e e',
  let_free e = true -> agree F G (ops_in e) -> (resolves F e e' <-> resolves G e e').
Proof.
  intros F G e e' L A. split; intros H.
  - exact (resolves_agree F e e' H G L A).
  - exact (resolves_agree G e e' H F L (agree_sym _ _ _ A)).
Qed.
Print Assumptions C13_only_relative_precedence_deep.

Example C13_ex :
  let t2 := load_entries [] [(mkFix 0 ALeft, [std "+"; std "-"]); (mkFix 1 ALeft, [std "*"; std "?"]);
                             (mkFix 5 ARight, [std "^"])] in
  agree (get tbl_ex) (get t2) (chain_ops chain_ex)
  /\ rewrite t2 chain_ex = Ok (inl chain_ex_grouped) /\ t2 <> tbl_ex.
Proof.
  split; [|split; [vm_compute; reflexivity|vm_compute; discriminate]].
  split; [intros o Ho|intros a b Ha Hb]; simpl in *;
    intuition (subst; vm_compute; reflexivity).
Qed.

(** ** C14 *)
Theorem C14_fails_iff_ambiguous : forall r a r' a' errs,
  r_errs r = [] -> Forall flat (a_exprs a) -> Forall nodup_lets (a_exprs a) ->
  resolve_ast r a = Ok (r', a', errs) ->
  (errs <> [] <-> exists e o1 f1 o2 f2, In e (a_exprs a)
     /\ clash_in (declared (get (r_fix r)) (a_infxs a)) e o1 f1 o2 f2).
Proof. exact resolve_ast_fails_iff. Qed.
Print Assumptions C14_fails_iff_ambiguous.

Theorem C14_errors_genuine_once_and_taken : forall r a r' a' errs,
  r_errs r = [] -> Forall flat (a_exprs a) -> Forall nodup_lets (a_exprs a) ->
  resolve_ast r a = Ok (r', a', errs) ->
  r_errs r' = []
  /\ ForallOrdPairs (fun x y => err_eqb x y = false) errs
  /\ forall x, In x errs -> exists e, In e (a_exprs a)
       /\ clash_in (declared (get (r_fix r)) (a_infxs a)) e
            (e_prev x) (e_prev_fix x) (e_curr x) (e_curr_fix x).
Proof.
  intros r a r' a' errs H1 H2 H3 E.
  destruct (resolve_ast_spec r a H1 H2 H3) as (r1&a1&errs1&E1&_&_&_&B1&_&B2&B3).
  rewrite E in E1. injection E1 as <- <- <-. auto.
Qed.
Print Assumptions C14_errors_genuine_once_and_taken.

Example C14_ex :
  let a := fold_left ast_push [DExpr clash_ex; DExpr (Grp clash_ex); DExpr chain_ex] ast_empty in
  exists r' a' x, resolve_ast (mkResolver tbl_ex []) a = Ok (r', a', [x]) /\ r_fix r' = tbl_ex.
Proof. eexists _, _, _. vm_compute. auto. Qed.

(** ** C16 *)
Theorem C16_prelude_loaded : forall r o,
  get (r_fix (fst (load_hs_prelude r))) o
  = match assoc_str doc_prelude (symbol o) with Some f => f | None => get (r_fix r) o end.
Proof.
  intros r o. unfold load_hs_prelude, load_entries, prelude_entries. cbn [fst r_fix fold_left].
  unfold get. rewrite !get_insert_many. unfold doc_prelude, doc_math.
  cbn [existsb assoc_str app symbol std].
  repeat match goal with
  | |- context [str_eqb ?a ?b] => destruct (str_eqb_spec a b) as [E|?]; [rewrite <- ?E; vm_compute; reflexivity|]
  end. reflexivity.
Qed.
Print Assumptions C16_prelude_loaded.

(** Missing: the entries for the multiplicative operators. *)
Theorem C16_math_loaded_partial : forall r o,
  ~ In (symbol o) [lit "*"; lit "/"; lit "%"] ->
  get (r_fix (fst (load_arithmetic r))) o
  = match assoc_str doc_math (symbol o) with Some f => f | None => get (r_fix r) o end.
Proof.
  intros r o N. unfold load_arithmetic, load_entries, arithmetic_entries. cbn [fst r_fix fold_left].
  unfold get. rewrite !get_insert_many. unfold doc_math.
  cbn [existsb assoc_str app symbol std].
  repeat match goal with
  | |- context [str_eqb ?a ?b] =>
      destruct (str_eqb_spec a b) as [E|?];
      [first [rewrite <- ?E; vm_compute; reflexivity | exfalso; apply N; rewrite <- E; simpl; tauto]|]
  end. reflexivity.
Qed.
Print Assumptions C16_math_loaded_partial.

Theorem C16_math_multiplication_refuted : exists r o f,
  assoc_str doc_math (symbol o) = Some f /\ get (r_fix (fst (load_arithmetic r))) o <> f.
Proof.
  exists (mkResolver [] []), (std "*"), (mkFix 7 ALeft).
  split; [reflexivity|]. vm_compute. discriminate.
Qed.
Print Assumptions C16_math_multiplication_refuted.

Theorem C16_math_count : forall r, snd (load_arithmetic r) = List.length doc_math.
Proof. reflexivity. Qed.
Print Assumptions C16_math_count.

Theorem C16_prelude_count_refuted : forall r,
  snd (load_hs_prelude r) <> List.length doc_prelude
  /\ List.length (r_fix (fst (load_hs_prelude (mkResolver [] [])))) = List.length doc_prelude.
Proof. intros r. split; [vm_compute; discriminate|vm_compute; reflexivity]. Qed.
Print Assumptions C16_prelude_count_refuted.
