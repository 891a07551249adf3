(** The parser: C34 to C40, C57, C58 and C63. *)
From Coq Require Import List Arith NArith Bool Lia String.
From Verif Require Import Prelim Chars Syntax SpecFixity ProofFixity Lexer SpecLexer SpecLexRun ProofLexer8 Parser SpecParser SpecViable.
From Verif Require Import ProofParser ProofParser2 ProofParser3 ProofParser4 ProofParser6 ProofParser7 ProofParser8 ProofParser9 ProofParser15 PropsLexer.
Import ListNotations.

Section WithUcd.
Context {U : ucd}.

(** ** C34 *)

Theorem C34_parsing_terminates : letters U -> forall src, parse src <> PFuel /\ parse_expr src <> PFuel.
Proof.
  intros HU src. split.
  - pose proof (good_parse HU src _ (dr_new src)) as G. unfold parse. intros E. rewrite E in G. exact G.
  - pose proof (good_expression HU src (S (left_ (lexer_new src))) _ (dr_new src) ltac:(lia)) as G.
    unfold parse_expr. intros E. rewrite E in G. exact G.
Qed.

(** The two reasons: a name that starts with an uppercase letter or an
    underscore, and a fixity keyword followed by a number above 9. *)
Theorem C34_panics : letters U -> forall src p, no_lfcr src ->
  parse src = PPanic p \/ parse_expr src = PPanic p ->
  (p = PIdentStart /\ exists w r, src = w ++ r /\ odd_name r) \/
  (p = PTodoPrec /\ exists w k g d v, src = w ++ k ++ g ++ d ++ v /\
     In k [lit "infixl"; lit "infixr"; lit "infix"] /\ gap g (d ++ v) /\
     d <> [] /\ all digit d /\ stops digit v /\ (9 < value 10 d)%N).
Proof.
  intros HU src p N H. apply bad_where; auto. destruct H as [H|H].
  - pose proof (good_parse HU src _ (dr_new src)) as G. unfold parse in H. rewrite H in G. exact G.
  - pose proof (good_expression HU src (S (left_ (lexer_new src))) _ (dr_new src) ltac:(lia)) as G.
    unfold parse_expr in H. rewrite H in G. exact G.
Qed.

(** ** C35 *)

(** [parse] accepts exactly the texts of the grammar and returns the
    declarations they spell, in order. *)
Theorem C35_parse_is_grammar : letters U -> forall src a, no_lfcr src ->
  (exists l, parse src = POk a l) <->
  exists ts ds, ctokens [] src ts /\ program Nat.ltb ts ds /\ a = fold_left ast_push ds ast_empty.
Proof. intros HU src a N. apply parse_iff; auto. Qed.

(** [parse_expr] reads an expression at the start of the text. *)
Theorem C35_parse_expr_is_grammar : letters U -> forall src ts e, no_lfcr src -> ctokens [] src ts ->
  (exists l, parse_expr src = POk e l) <->
  exists us r ws v, src = ws ++ v /\ all is_white ws /\ stops is_white v /\
    ts = us ++ r /\ exprs Nat.ltb (KExpr (col_of ws)) us [e] r.
Proof. intros HU src ts e N T. apply parse_expr_iff; auto. Qed.

(** The grammar is unambiguous on the tokens of texts. *)
Theorem C35_unambiguous : letters U -> forall src ts us ds es, no_lfcr src ->
  ctokens [] src ts -> ctokens [] src us -> program Nat.ltb ts ds -> program Nat.ltb us es -> ts = us /\ ds = es.
Proof.
  intros HU src ts us ds es N T T' P P'. apply (sees_source HU) in T; auto. apply (sees_source HU) in T'; auto.
  assert (E : ts = us) by (eapply sees_unique; eauto). split; auto.
  destruct (decls_run HU _ _ P _ T) as (l&R&_), (decls_run HU _ _ P' _ T') as (l'&R'&_). congruence.
Qed.

(** ** C36 *)

(** For every source, also those with newline and carriage return. *)
Theorem C36_surface_form : letters U -> forall src a l, parse src = POk a l ->
  Forall (surface AsExpr) (a_exprs a) /\ Forall sensible (a_infxs a).
Proof.
  intros HU src a l H. unfold parse, p_parse in H. apply bind_ok in H as (ds&l1&E&H). injection H as <- <-.
  pose proof (good_decls HU src (lexer_new src) (dr_new src)) as G. rewrite E in G. destruct G as (D&_).
  pose proof (parse_done HU _ _ _ _ D E) as S. destruct (decls_back HU _ _ _ E S) as (ts&_&P).
  rewrite ast_of_exprs, ast_of_infxs. cbn [ast_empty a_exprs a_infxs app].
  clear - P. induction P as [|ts d k us ds D P IH|ts d us ds D N P IH]; cbn; auto.
  - destruct D as [ts d r D|t k' ts e r D]; cbn; destruct IH; split; auto.
    + constructor; auto. eapply declares_sensible; eauto.
    + constructor; auto. apply exprs_forms in D. inversion D; auto.
  - destruct D as [ts d r D|t k' ts e r D]; cbn; destruct IH; split; auto.
    + constructor; auto. eapply declares_sensible; eauto.
    + constructor; auto. apply exprs_forms in D. inversion D; auto.
Qed.

(** What the resolver's theorems (PropsFixity.v) ask of their input. *)
Theorem C36_flat : letters U -> forall src a l, parse src = POk a l -> Forall flat (a_exprs a).
Proof.
  intros HU src a l H. apply (C36_surface_form HU) in H as (H&_). eapply Forall_impl; [|exact H].
  intros e S. eapply surface_flat; eauto.
Qed.

(** ** C37 *)

(** The text [infixl 6 +, -, `mod`], with any operators. *)
Theorem C37_declarations : letters U -> forall a n os ss, Forall2 spelled os ss -> os <> [] ->
  match n with Some n => (n <= 9)%N | None => hd [] ss <> lit "-" /\ hd [] ss <> lit "@" end ->
  exists l, parse (keyword a ++ prec_text n ++ 32%N :: commas ss) =
    POk (ast_push ast_empty (DInfix (mkInfixDecl os (mkFix match n with Some n => n | None => 9%N end a)))) l.
Proof.
  intros HU a n os ss F Ne Hn. destruct (declaration_tokens a n os ss F Ne Hn) as (ts&T&D).
  apply parse_iff; auto.
  - apply one_line_clean. eapply declaration_line; eauto. destruct n; auto.
  - exists ts, [DInfix (mkInfixDecl os (mkFix match n with Some n => n | None => 9%N end a))]. split; auto. split; auto.
    rewrite <- (app_nil_r ts). apply pr_plain; [|reflexivity|constructor]. apply do_infix. auto.
Qed.

(** Without a number the first operator cannot be a minus or an at sign: the
    parser wants another kind of token there. *)
Theorem C37_default_dash_fails : letters U -> forall a s, s = lit "-" \/ s = lit "@" ->
  exists e l, parse (keyword a ++ 32%N :: s) = PErr e l.
Proof.
  intros _ a s H. destruct H as [->| ->], a; vm_compute; eauto.
Qed.

(** ** C38 *)

(** An error is located between the token before the one found and the end of
    the one found, or, when the input ended early, after its last token. *)
Theorem C38_error_positions : letters U -> forall src e l, no_lfcr src ->
  parse src = PErr e l \/ parse_expr src = PErr e l ->
  (found e = TEof /\ exists w g, src = w ++ g /\ gap g [] /\ error_loc e = loc_of w) \/
  exists w g s v, src = w ++ g ++ s ++ v /\ gap g (s ++ v) /\
    (lexeme s (found e) v \/ exists x, found e = TError x /\ mistake (w ++ g) s x v) /\
    (error_loc e = loc_of w \/ error_loc e = loc_of (w ++ g ++ s)).
Proof.
  intros HU src e l N H. apply stuck_where; auto. destruct H as [H|H].
  - pose proof (good_parse HU src _ (dr_new src)) as G. unfold parse in H. rewrite H in G. apply G.
  - pose proof (good_expression HU src (S (left_ (lexer_new src))) _ (dr_new src) ltac:(lia)) as G.
    unfold parse_expr in H. rewrite H in G. apply G.
Qed.

(** When a particular token was expected, it is one of these, and another one
    was found. *)
Theorem C38_expected_token : letters U -> forall src x a t l,
  parse src = PErr (Expected x a t) l \/ parse_expr src = PErr (Expected x a t) l ->
  In x [TParenL; TParenR; TBrackL; TBrackR; TLambda; TArrow; TIn] /\ t <> x.
Proof.
  intros HU src x a t l H.
  assert (G : stuck src (Expected x a t)).
  { destruct H as [H|H].
    - pose proof (good_parse HU src _ (dr_new src)) as G. unfold parse in H. rewrite H in G. apply G.
    - pose proof (good_expression HU src (S (left_ (lexer_new src))) _ (dr_new src) ltac:(lia)) as G.
      unfold parse_expr in H. rewrite H in G. apply G. }
  destruct G as (_&W&N). split; auto. destruct x; try discriminate; cbn; tauto.
Qed.

(** ** C63 *)

(** The token blamed is the first that cannot be there.  The text before it can
    be completed to a program, and no text after it makes the error go away.
    When the end of the text is blamed, only more text is missing. *)
Theorem C63_first_error : letters U -> forall src e l, no_lfcr src -> parse src = PErr e l ->
  (found e = TEof /\ (~ escape_end src -> completable src)) \/
  (exists x, found e = TError x) \/
  exists w g s v, src = w ++ g ++ s ++ v /\ gap g (s ++ v) /\ lexeme s (found e) v /\
    ((exists b c, g = b ++ c /\ error_loc e = loc_of (w ++ b)) \/ error_loc e = loc_of (w ++ g ++ s)) /\
    completable w /\
    forall v', no_lfcr (w ++ g ++ s ++ v') -> lexeme s (found e) v' ->
      exists l', parse (w ++ g ++ s ++ v') = PErr e l'.
Proof. intros HU src e l N E. apply (error_text HU src e l); auto. Qed.

(** ** C40 *)

(** On one line, layout plays no role. *)
Theorem C40_one_line : letters U -> forall src a, all not_lf src ->
  (exists l, parse src = POk a l) <->
  exists ts ds, ctokens [] src ts /\ program (fun _ _ => true) ts ds /\ a = fold_left ast_push ds ast_empty.
Proof.
  intros HU src a A. rewrite parse_iff by (auto; apply one_line_clean; auto).
  split; intros (ts&ds&T&P&->); exists ts, ds; repeat split; auto.
  - refine (program_lay _ _ _ _ _ P _ (ctokens_ascending HU [] src ts T A)).
    intros c k L. apply Nat.ltb_lt in L. auto.
  - refine (program_lay _ _ _ _ _ P _ (ctokens_ascending HU [] src ts T A)).
    intros c k L. apply Nat.ltb_lt in L. auto.
Qed.

(** ** C39 *)

Theorem C39_application_left : letters U -> forall src ts us f xs, all not_lf src -> ctokens [] src (ts ++ us) ->
  exprs (fun _ _ => true) KAtom ts [f] us -> atoms us xs [] ->
  exists l, parse src = POk (ast_push ast_empty (DExpr (fold_left App xs f))) l.
Proof.
  intros HU src ts us f xs A T F X. apply C40_one_line; auto.
  exists (ts ++ us), [DExpr (fold_left App xs f)]. split; auto. split; auto.
  rewrite <- (app_nil_r (ts ++ us)). apply pr_plain; [|reflexivity|constructor].
  destruct ts as [|(t,k) ts]; [inversion F|].
  cbn [app]. apply do_expr. change ((t, k) :: ts ++ us) with (((t, k) :: ts) ++ us).
  apply e_one; auto. eapply e_app; [rewrite app_nil_r; exact F|]. apply atoms_args. auto.
Qed.

(** Over several lines: an atom continues the application iff its first token
    ends to the right of the end of the application's first token. *)
Theorem C39_layout : letters U -> forall src t1 k1 ts t2 k2 us f x, no_lfcr src ->
  ctokens [] src (((t1, k1) :: ts) ++ (t2, k2) :: us) -> arg_start t2 = true ->
  exprs Nat.ltb KAtom ((t1, k1) :: ts) [f] ((t2, k2) :: us) -> exprs Nat.ltb KAtom ((t2, k2) :: us) [x] [] ->
  exists l, parse src = POk (fold_left ast_push (if k1 <? k2 then [DExpr (App f x)] else [DExpr f; DExpr x]) ast_empty) l.
Proof.
  intros HU src t1 k1 ts t2 k2 us f x N T A F X. apply parse_iff; auto.
  exists (((t1, k1) :: ts) ++ (t2, k2) :: us). eexists. split; [exact T|]. split; [|reflexivity].
  destruct (k1 <? k2) eqn:L.
  - rewrite <- (app_nil_r (_ ++ _)). apply pr_plain; [|reflexivity|constructor]. cbn [app]. apply do_expr.
    change ((t1, k1) :: ts ++ (t2, k2) :: us) with (((t1, k1) :: ts) ++ ((t2, k2) :: us)).
    apply e_one; auto. eapply e_app; [rewrite app_nil_r; exact F|].
    rewrite <- (app_nil_r ((t2, k2) :: us)). eapply a_cons; eauto. apply a_nil. exact I.
  - apply pr_plain.
    + apply do_expr. apply e_one; [|destruct t2; auto; discriminate].
      rewrite <- (app_nil_r ((t1, k1) :: ts)). eapply e_app; [exact F|]. apply a_nil. unfold no_arg. rewrite L. apply andb_false_r.
    + destruct t2; auto; discriminate.
    + rewrite <- (app_nil_r ((t2, k2) :: us)). apply pr_plain; [|reflexivity|constructor]. apply do_expr. apply e_one; auto.
      rewrite <- (app_nil_r ((t2, k2) :: us)). eapply e_app; [exact X|]. apply a_nil. exact I.
Qed.

(** ** C57 *)

(** Directly inside parentheses the sign of a pattern is kept. *)
Theorem C57_sign_kept_partial : letters U -> forall src k k1 k2 ts p k3 k4 us e, no_lfcr src ->
  ctokens [] src ((TLambda, k) :: (TParenL, k1) :: (TDash, k2) :: ts ++ (TParenR, k3) :: (TArrow, k4) :: us) ->
  pats Plain ts [p] ((TParenR, k3) :: (TArrow, k4) :: us) -> exprs Nat.ltb (KExpr k4) us [e] [] ->
  exists l, parse src = POk (ast_push ast_empty (DExpr (Lam (PNeg p) e))) l.
Proof.
  intros HU src k k1 k2 ts p k3 k4 us e N T P X. apply parse_iff; auto.
  eexists. exists [DExpr (Lam (PNeg p) e)]. split; [exact T|]. split; [|reflexivity].
  rewrite <- (app_nil_r (_ :: _)). apply pr_plain; [|reflexivity|constructor]. apply do_expr. apply e_one; auto.
  rewrite <- (app_nil_r (_ :: _)). eapply e_app; [|apply a_nil; exact I].
  replace ((TParenL, k1) :: (TDash, k2) :: ts ++ (TParenR, k3) :: (TArrow, k4) :: us)
    with ((((TParenL, k1) :: ((TDash, k2) :: ts) ++ [(TParenR, k3)]) ++ []) ++ (TArrow, k4) :: us)
    by (rewrite app_nil_r; cbn [app]; rewrite <- app_assoc; reflexivity).
  apply (t_lam _ k _ (PNeg p) []); [|cbn [app]; auto].
  eapply j_cons; [|apply j_nil; reflexivity]. apply p_group; auto. apply h_neg. cbn [app]. rewrite ?app_nil_r. auto.
Qed.

(** ** C58 *)

(** The empty list pattern takes two closing brackets. *)
Theorem C58_empty_list_partial : letters U -> forall src k k1 k2 k3 k4 us e, no_lfcr src ->
  ctokens [] src ((TLambda, k) :: (TBrackL, k1) :: (TBrackR, k2) :: (TBrackR, k3) :: (TArrow, k4) :: us) ->
  exprs Nat.ltb (KExpr k4) us [e] [] ->
  exists l, parse src = POk (ast_push ast_empty (DExpr (Lam (PArr []) e))) l.
Proof.
  intros HU src k k1 k2 k3 k4 us e N T X. apply parse_iff; auto.
  eexists. exists [DExpr (Lam (PArr []) e)]. split; [exact T|]. split; [|reflexivity].
  rewrite <- (app_nil_r (_ :: _)). apply pr_plain; [|reflexivity|constructor]. apply do_expr. apply e_one; auto.
  rewrite <- (app_nil_r (_ :: _)). eapply e_app; [|apply a_nil; exact I].
  change ((TBrackL, k1) :: (TBrackR, k2) :: (TBrackR, k3) :: (TArrow, k4) :: us)
    with (([(TBrackL, k1); (TBrackR, k2); (TBrackR, k3)] ++ []) ++ (TArrow, k4) :: us).
  apply (t_lam _ k _ (PArr []) []); [|cbn [app]; auto].
  eapply j_cons; [|apply j_nil; reflexivity]. apply p_empty; auto.
Qed.

End WithUcd.

(** ** Examples *)

Definition tree (r : parsed ast) : option (list infix_decl * list expr) :=
  match r with POk a _ => Some (a_infxs a, a_exprs a) | _ => None end.
Definition p (s : str) : option (list infix_decl * list expr) := tree (@parse ucd_none s).

Definition v (s : string) : expr := Var (ILower (lit s)).
Definition bin (a : expr) (o : string) (b : expr) : expr := Bin a (Standard (lit o)) b.

Example C34_ident : @parse ucd_none (lit "a + B") = PPanic PIdentStart.
Proof. vm_compute. reflexivity. Qed.
Example C34_prec : @parse ucd_none (lit "infixl 10 +") = PPanic PTodoPrec.
Proof. vm_compute. reflexivity. Qed.
Example C34_let_prec : @parse_expr ucd_none (lit "let infix ~{ }~ 12 + in a") = PPanic PTodoPrec.
Proof. vm_compute. reflexivity. Qed.
Example C35_ex : p (lit "infixr 5 ++; f (a ++ b) [c, d] * \(x, _) -> x 'mod y") =
  Some ([mkInfixDecl [Standard (lit "++")] (mkFix 5 ARight)],
        [bin (App (App (v "f") (Grp (bin (v "a") "++" (v "b")))) (List [v "c"; v "d"])) "*"
           (Lam (PTup [PVar (lit "x"); PWild]) (Bin (v "x") (Promoted (lit "mod")) (v "y")))]).
Proof. vm_compute. reflexivity. Qed.
Example C37_ex : Forall2 (@spelled ucd_none) [Standard (lit "-"); Promoted (lit "mod")] [lit "-"; lit "`mod`"].
Proof.
  constructor; [|constructor; [|constructor]].
  - apply sp_plain; try discriminate. repeat constructor.
  - apply (@sp_backquoted ucd_none 109%N (lit "od") []); repeat constructor.
Qed.
Example C37_ex_text : keyword ARight ++ prec_text (Some 4%N) ++ 32%N :: commas [lit "-"; lit "`mod`"] =
  lit "infixr 4 -, `mod`".
Proof. reflexivity. Qed.
Example C37_ex_parse : p (lit "infixr 4 -, `mod`") =
  Some ([mkInfixDecl [Standard (lit "-"); Promoted (lit "mod")] (mkFix 4 ARight)], []).
Proof. vm_compute. reflexivity. Qed.
Example C38_ex : match @parse ucd_none (lit "(a + ]") with
                 | PErr e _ => e = Unexpected TBrackR (mkLoc 1 5 4) | _ => False end.
Proof. vm_compute. reflexivity. Qed.
Example C38_eof_ex : match @parse ucd_none (lit "(a ") with
                 | PErr e _ => e = Expected TParenR (mkLoc 1 4 3) TEof | _ => False end.
Proof. vm_compute. reflexivity. Qed.
(** In [(a + ] b)] the bracket is blamed; [(a +] can be completed. *)
Example C63_ex : match @parse ucd_none (lit "(a + ] b)"), @parse ucd_none (lit "(a + ]"), @parse ucd_none (lit "(a + 1)") with
                 | PErr e _, PErr e' _, POk _ _ => e = e' /\ e = Unexpected TBrackR (mkLoc 1 5 4) | _, _, _ => False end.
Proof. vm_compute. split; reflexivity. Qed.
Example C63_eof_ex : match @parse ucd_none (lit "\x"), @parse ucd_none (lit "\x -> 1") with
                 | PErr e _, POk _ _ => found e = TEof | _, _ => False end.
Proof. vm_compute. reflexivity. Qed.
Example C39_ex : p (lit "f a (b) 3") = Some ([], [App (App (App (v "f") (v "a")) (Grp (v "b"))) (Lit (LInt 3))]).
Proof. vm_compute. reflexivity. Qed.
Example C39_two_lines : p (lit "f" ++ 10%N :: lit "a") = Some ([], [v "f"; v "a"]).
Proof. vm_compute. reflexivity. Qed.
Example C39_indented : p (lit "f" ++ 10%N :: lit "  a") = Some ([], [App (v "f") (v "a")]).
Proof. vm_compute. reflexivity. Qed.
(** It is the end of the token that counts. *)
Example C39_long_name : p (lit "f" ++ 10%N :: lit "abc") = Some ([], [App (v "f") (v "abc")]).
Proof. vm_compute. reflexivity. Qed.

(** In a list or tuple the sign disappears. *)
Theorem C57_sign_lost_refuted :
  p (lit "\[-x] -> x") = p (lit "\[x] -> x") /\ p (lit "\(y, -x) -> x") = p (lit "\(y, x) -> x") /\
  p (lit "\(-x) -> x") <> p (lit "\(x) -> x").
Proof. vm_compute. repeat split; try reflexivity. discriminate. Qed.
Example C57_ex : p (lit "\(-x) -> x") = Some ([], [Lam (PNeg (PVar (lit "x"))) (v "x")]).
Proof. vm_compute. reflexivity. Qed.

Theorem C58_empty_list_refuted :
  p (lit "\[] -> x") = None /\ p (lit "\[]] -> x") = Some ([], [Lam (PArr []) (v "x")]).
Proof. vm_compute. split; reflexivity. Qed.

Print Assumptions C34_parsing_terminates.
Print Assumptions C34_panics.
Print Assumptions C35_parse_is_grammar.
Print Assumptions C35_parse_expr_is_grammar.
Print Assumptions C35_unambiguous.
Print Assumptions C36_surface_form.
Print Assumptions C36_flat.
Print Assumptions C37_declarations.
Print Assumptions C37_default_dash_fails.
Print Assumptions C38_error_positions.
Print Assumptions C38_expected_token.
Print Assumptions C63_first_error.
Print Assumptions C40_one_line.
Print Assumptions C39_application_left.
Print Assumptions C39_layout.
Print Assumptions C57_sign_kept_partial.
Print Assumptions C58_empty_list_partial.
Print Assumptions C57_sign_lost_refuted.
Print Assumptions C58_empty_list_refuted.
