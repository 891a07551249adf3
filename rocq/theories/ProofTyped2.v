(** Parsed expressions are made of tokens; plain ones are readable, and stay so
    when resolved. *)
From Coq Require Import List Arith NArith Bool Lia String.
From Verif Require Import Prelim Chars Syntax Fixity SpecFixity Style SpecStyle Lexer SpecLexer Parser SpecParser Printer SpecPrinter SpecTyped.
From Verif Require Import ProofTable ProofFixity ProofRewrite ProofResolve ProofResolve2 ProofParser7 ProofParser8 ProofPrinter ProofPrinter3 ProofPrinter6 ProofPrinter9 ProofTyped.
Import ListNotations.

Section WithUcd.
Context {U : ucd}.

Notation made := (@token_made U).
Definition all_made (ts : list ptok) : Prop := Forall (fun x => made (fst x)) ts.

(** * Patterns *)

Inductive pat_made : bool -> pat -> Prop :=
| pm_wild q : pat_made q PWild
| pm_var q s : made (TLower s) -> pat_made q (PVar s)
| pm_op q s b : made (TAffix s b) -> pat_made q (PVar s)
| pm_lit x : made (TLit x) -> pat_made true (PLit x)
| pm_as q s p : made (TLower s) -> pat_made false p -> pat_made q (PAs s p)
| pm_neg q p : pat_made false p -> pat_made q (PNeg p)
| pm_tup q p p' ps : pat_made false p -> Forall (pat_made true) (p' :: ps) -> pat_made q (PTup (p :: p' :: ps))
| pm_arr q ps : Forall (pat_made true) ps -> pat_made q (PArr ps).

Lemma pat_weaken q p : pat_made false p -> pat_made q p.
Proof. intros H. inversion H; subst; try (econstructor; eauto; fail). Qed.

Fixpoint flag (k : pkind) : bool :=
  match k with Inner => true | Commas k => flag k | _ => false end.

Lemma commas_some q us ps r : pats (Commas q) us ps r -> us <> [] -> ps <> [].
Proof. intros H N. inversion H; subst; congruence. Qed.

Lemma no_con k ts ps r : pats k ts ps r -> k = Con -> all_made ts -> False.
Proof.
  intros H. destruct H; intros E A; try discriminate; try (subst; match goal with H : _ \/ _ |- _ => destruct H; discriminate end);
    inversion A as [|? ? M _]; subst; cbn in M; exact (upper_made _ M).
Qed.

Lemma pats_made k ts ps r : pats k ts ps r -> all_made ts -> Forall (pat_made (flag k)) ps.
Proof.
  unfold all_made.
  induction 1; intros A;
    repeat match goal with
    | H : Forall _ (_ ++ _) |- _ => apply Forall_app in H as (? & ?)
    | H : Forall _ (_ :: _) |- _ => inversion H; clear H; subst
    end; cbn [fst] in *;
    repeat match goal with
    | H : Forall _ ?ts -> Forall (pat_made _) _, H' : Forall _ ?ts |- _ => specialize (H H')
    | H : made (TUpper _) |- _ => destruct (upper_made _ H)
    | H : pats Con ?ts _ _ |- _ => exfalso; eapply (no_con _ _ _ _ H eq_refl); eassumption
    end; cbn [flag] in *;
    repeat match goal with H : Forall (pat_made _) [_] |- _ => apply Forall_inv in H end;
    try solve [constructor; auto].
  - constructor; auto. apply pm_wild.
  - constructor; auto. now apply pm_var.
  - constructor; auto. now apply pm_as.
  - constructor; auto. now apply pm_lit.
  - constructor; auto. now apply pat_weaken.
  - constructor; auto. now apply pat_weaken.
  - constructor; auto. destruct ps as [|p' ps]; [exfalso; eapply commas_some; eauto|]. apply pm_tup; auto.
  - constructor; auto. apply pm_arr. constructor.
  - constructor; auto. apply pm_arr. constructor; auto.
  - constructor; auto. eapply pm_op; eauto.
  - constructor; auto. now apply pm_neg.
Qed.

(** * Expressions *)

Definition decl_made (d : infix_decl) : Prop := Forall op_made (d_infixes d) /\ (fx_prec (d_fixity d) <= 9)%N.

Inductive expr_made : expr -> Prop :=
| em_lit x : made (TLit x) -> expr_made (Lit x)
| em_name s : made (TLower s) -> expr_made (Var (ILower s))
| em_commas n : n <> 0 -> expr_made (Var (ICommas n))
| em_section s b : made (TAffix s b) -> expr_made (Var (IInfix s))
| em_app f x : expr_made f -> expr_made x -> expr_made (App f x)
| em_bin a o b : op_made o -> expr_made a -> expr_made b -> expr_made (Bin a o b)
| em_lam p e : pat_made false p -> expr_made e -> expr_made (Lam p e)
| em_grp e : expr_made e -> expr_made (Grp e)
| em_tup es : Forall expr_made es -> expr_made (Tup es)
| em_list es : Forall expr_made es -> expr_made (List es)
| em_let d e : decl_made d -> expr_made e -> expr_made (Let d e).

Lemma operators_made ts is r : operators ts is r -> all_made ts -> Forall op_made is.
Proof.
  induction 1 as [t k i r O N|t k i k' ts is r O H IH]; intros A; inversion A as [|? ? M A']; subst.
  - constructor; [|constructor]. exists t. auto.
  - inversion A'; subst. constructor; auto. exists t. auto.
Qed.
Lemma declares_made ts d r : declares ts d r -> all_made ts -> decl_made d.
Proof.
  intros D. intros A. split; [|apply (declares_sensible _ _ _ D)]. revert D A. intros [t a k n k' us is z _ _ O|t a k us is z _ _ O] A; cbn [d_infixes]; eapply operators_made; eauto.
  - inversion A as [|? ? _ A']; inversion A'; auto.
  - inversion A; auto.
Qed.

Lemma lams_made e : expr_made e -> forall ps, Forall (pat_made false) ps -> expr_made (fold_right Lam e ps).
Proof. intros H ps. induction 1; auto. now apply em_lam. Qed.

Lemma exprs_made lay q ts es r : exprs lay q ts es r -> all_made ts ->
  match q with KArgs _ f => expr_made f -> Forall expr_made es | _ => Forall expr_made es end.
Proof.
  unfold all_made.
  induction 1 as [c ts e r H IH N|c ts x o i k t k' us e r H IH O H1 IH1|c ts f us e r H IH H1 IH1|c f r N
    |c f t k ts x us e r A Lk H IH H1 IH1|x k r|s k r|s k r|k ts p ps k' us e r HP H IH|k k' r|k s b k1 k' r
    |k cs k' r Nc F|k t k1 ts e k' r H IH|k t k1 ts e us es k' r H IH H1 IH1 Nu|k ts es k' r H IH
    |k ts d k' us e r D H IH|r N|k ts e us es r H IH H1 IH1|k r|t k ts e k' us es r H IH H1 IH1
    |t k ts e us es r H IH N H1 IH1]; intros B;
    try (apply Forall_app in B as (B1&B2)).
  - auto.
  - apply Forall_cons_iff in B2 as (Ho&B3). cbn [fst] in Ho. specialize (IH B1). specialize (IH1 B3). apply Forall_inv in IH, IH1.
    constructor; [|constructor]. apply em_bin; auto. exists o. auto.
  - specialize (IH B1). apply Forall_inv in IH. auto.
  - auto.
  - specialize (IH B1). apply Forall_inv in IH. intros Hf. apply IH1; auto. now apply em_app.
  - apply Forall_inv in B. constructor; [|constructor]. now apply em_lit.
  - apply Forall_inv in B. destruct (upper_made _ B).
  - apply Forall_inv in B. constructor; [|constructor]. now apply em_name.
  - apply Forall_cons_iff in B as (B1&B2). apply Forall_app in B2 as (B2&B3). apply Forall_cons_iff in B3 as (_&H3).
    specialize (IH H3). apply Forall_inv in IH. constructor; [|constructor]. apply lams_made; auto. apply (pats_made _ _ _ _ HP B2).
  - constructor; [|constructor]. apply em_tup. constructor.
  - apply Forall_cons_iff in B as (B1&B2). apply Forall_inv in B2. constructor; [|constructor]. eapply em_section; eauto.
  - constructor; [|constructor]. apply em_commas. destruct cs; [congruence|discriminate].
  - apply Forall_cons_iff in B as (B1&B2). apply Forall_app in B2 as (B2&_). specialize (IH B2). apply Forall_inv in IH.
    constructor; [|constructor]. now apply em_grp.
  - apply Forall_cons_iff in B as (B1&B2). apply Forall_app in B2 as (B2&B3). apply Forall_app in B3 as (B3&_).
    specialize (IH B2). specialize (IH1 B3). apply Forall_inv in IH.
    constructor; [|constructor]. apply em_tup. constructor; auto.
  - apply Forall_cons_iff in B as (B1&B2). apply Forall_app in B2 as (B2&_). specialize (IH B2).
    constructor; [|constructor]. now apply em_list.
  - apply Forall_cons_iff in B as (B1&B2). apply Forall_app in B2 as (B2&B3). apply Forall_cons_iff in B3 as (_&H3).
    specialize (IH H3). apply Forall_inv in IH. constructor; [|constructor]. apply em_let; auto. eapply declares_made; eauto.
  - constructor.
  - apply Forall_cons_iff in B as (B1&B2). apply Forall_app in B2 as (B2&B3). specialize (IH B2). specialize (IH1 B3).
    apply Forall_inv in IH. constructor; auto.
  - constructor.
  - apply Forall_cons_iff in B2 as (_&B3). specialize (IH B1). apply Forall_inv in IH. constructor; auto.
  - specialize (IH B1). apply Forall_inv in IH. constructor; auto.
Qed.

Lemma program_made lay ts ds : program lay ts ds -> all_made ts ->
  Forall (fun d => match d with DExpr e => expr_made e | DInfix d => decl_made d end) ds.
Proof.
  induction 1 as [|ts d k us ds D _ IH|ts d us ds D _ _ IH]; intros A; [constructor| |];
    apply Forall_app in A as (A1&A2); try (inversion A2; subst); constructor; auto;
    (destruct D as [ts d r D|t k' ts e r D]; [eapply declares_made; eauto|]); apply exprs_made in D; auto; inversion D; auto.
Qed.

Lemma ctokens_made w s ts : ctokens w s ts -> all_made ts.
Proof. induction 1 as [|w g s t v ts G L T IH]; constructor; auto. exists s, v. exact L. Qed.

Lemma parse_made src a l : letters U -> no_lfcr src -> parse src = POk a l ->
  Forall expr_made (a_exprs a) /\ Forall decl_made (a_infxs a).
Proof.
  intros HU C E. destruct (proj1 (parse_iff HU src a C)) as (ts&ds&T&G&->); [eauto|].
  apply ctokens_made in T. apply program_made in G; auto.
  rewrite ast_of_exprs, ast_of_infxs. cbn [ast_empty a_exprs a_infxs app]. clear - G.
  induction G as [|d ds D G (IH1&IH2)]; [split; constructor|]. destruct d; cbn; split; auto.
Qed.

(** * Plain is readable *)

Hypothesis HU : letters U.
Hypothesis HS : scripts U.

Lemma plain_pat_readable : forall q p, pat_made q p -> plain_pat p = true -> readable_pat q p.
Proof.
  fix IH 3. intros q p H.
  assert (L : forall ps, Forall (pat_made true) ps -> forallb plain_pat ps = true -> Forall (readable_pat true) ps).
  { fix IHl 2. intros ps F. destruct F as [|x xs Hx Hxs]; intros P; [constructor|]. cbn [forallb] in P.
    apply andb_true_iff in P as (P1&P2). constructor; [exact (IH _ _ Hx P1)|exact (IHl _ Hxs P2)]. }
  destruct H as [q|q s M|q s b M|x M|q s p M H|q p H|q p p' ps H F|q ps F]; cbn [plain_pat]; intros P.
  - constructor.
  - apply rp_var. now apply name_made.
  - apply rp_var. eapply variable_made; eauto.
  - apply rp_lit. now apply literal_made.
  - apply rp_as; [now apply name_made|exact (IH _ _ H P)].
  - apply rp_neg. exact (IH _ _ H P).
  - cbn [forallb] in P. apply andb_true_iff in P as (P1&P2). apply rp_tup; [exact (IH _ _ H P1)|exact (L _ F P2)].
  - destruct ps as [|x ps]; [discriminate|]. apply rp_arr; [discriminate|exact (L _ F P)].
Qed.

Lemma arg_form e : surface AsArg e -> is_arg e = true.
Proof. intros H. inversion H; reflexivity. Qed.
Lemma surface_any : forall l e, surface l e -> surface AsExpr e.
Proof.
  intros [] e H; auto; apply su_expr; auto; apply su_apps; auto; now apply su_atom.
Qed.
Lemma spine_form e : surface AsApp e -> match e with Lam _ _ | Let _ _ => false | _ => true end = true -> is_spine e = true.
Proof.
  intros H P. inversion H as [| | | | | | | |? ? ? ?|? A| |]; subst; auto. inversion A as [| | | | |? ? ?|? ? ? ?|? B| | | |]; subst; try discriminate.
  inversion B; reflexivity.
Qed.

Lemma plain_readable : forall e, expr_made e -> forall l, surface l e -> plain_expr e = true -> readable e.
Proof.
  fix IH 2. intros e H l Sf.
  assert (L : forall es, Forall expr_made es -> Forall (surface AsExpr) es -> forallb plain_expr es = true -> Forall readable es).
  { fix IHl 2. intros es F. destruct F as [|x xs Hx Hxs]; intros Q P; [constructor|]. cbn [forallb] in P.
    apply andb_true_iff in P as (P1&P2). constructor; [exact (IH _ Hx _ (Forall_inv Q) P1)|exact (IHl _ Hxs (Forall_inv_tail Q) P2)]. }
  assert (Inv : forall x, surface AsExpr x -> match x with
    | App f y => surface AsApp f /\ surface AsArg y
    | Bin a _ b => surface AsExpr a /\ surface AsExpr b
    | Lam _ y | Let _ y | Grp y => surface AsExpr y
    | Tup es => List.length es <> 1 /\ Forall (surface AsExpr) es
    | List es => Forall (surface AsExpr) es
    | _ => True end).
  { clear. intros x H.
    assert (A1 : forall x, surface AsArg x -> match x with
      | Grp y => surface AsExpr y | Tup es => List.length es <> 1 /\ Forall (surface AsExpr) es
      | List es => Forall (surface AsExpr) es | Lit _ | Var _ => True | _ => False end).
    { clear. intros x H. inversion H; subst; auto. }
    assert (A2 : forall x, surface AsAtom x -> match x with
      | Lam _ y | Let _ y => surface AsExpr y | _ => surface AsArg x end).
    { clear - A1. intros x H. inversion H; subst; auto. match goal with H : surface AsArg x |- _ => pose proof (A1 _ H); destruct x; auto; contradiction end. }
    inversion H; subst.
    - split; auto. now apply su_expr.
    - match goal with H : surface AsApp x |- _ => inversion H; subst; auto end.
      match goal with H : surface AsAtom x |- _ => apply A2 in H end.
      destruct x; auto; match goal with H : surface AsArg _ |- _ => apply A1 in H; auto; contradiction end. }
  apply surface_any in Sf. apply Inv in Sf. clear Inv.
  destruct H as [x M|s M|n N|s b M|f x Hf Hx|a o b O Ha Hb|p e Hp He|e He|es F|es F|d e Hd He]; cbn [plain_expr]; intros P.
  - apply re_lit. now apply literal_made.
  - apply re_name. now apply name_made.
  - now apply re_commas.
  - apply re_section. eapply section_back; eauto.
  - destruct Sf as (S1&S2). apply andb_true_iff in P as (P&P3). apply andb_true_iff in P as (P1&P2).
    apply re_app; [now apply spine_form|now apply arg_form|exact (IH _ Hf _ S1 P2)|exact (IH _ Hx _ S2 P3)].
  - destruct Sf as (S1&S2). apply andb_true_iff in P as (P&P3). apply andb_true_iff in P as (P1&P2).
    apply re_bin; [|exact (IH _ Ha _ S1 P2)|exact (IH _ Hb _ S2 P3)].
    apply op_back; auto. repeat split; try reflexivity; discriminate.
  - apply andb_true_iff in P as (P1&P2). apply re_lam; [now apply plain_pat_readable|exact (IH _ He _ Sf P2)].
  - apply re_grp. exact (IH _ He _ Sf P).
  - destruct Sf as (S1&S2). apply re_tup; auto.
  - apply re_list. auto.
  - apply re_let. exact (IH _ He _ Sf P).
Qed.

(** * Resolution keeps expressions readable *)

Definition stays (a b : expr) : Prop :=
  (readable a -> readable b) /\ (is_arg a = true -> is_arg b = true) /\ (is_spine a = true -> is_spine b = true).

Lemma readable_chain e : readable e -> Forall (fun x => match x with Operand y => readable y | Operator o => an_operator o 32 end) (chain e).
Proof.
  induction e; intros R; try (constructor; [exact R|constructor]). inversion R; subst. cbn [chain]. repeat (constructor; auto).
Qed.
Lemma readable_tree g : Forall (fun x => match x with Operand y => readable y | Operator o => an_operator o 32 end) (yield g) ->
  readable (as_expr g).
Proof.
  induction g as [e|l IHl o r IHr]; cbn [as_expr yield]; intros F.
  - now inversion F.
  - apply Forall_app in F as (F1&F2). inversion F2; subst. apply re_bin; auto.
Qed.

Lemma single_yield g y : yield g = [Operand y] -> as_expr g = y.
Proof.
  destruct g as [x|l o r]; cbn; intros Y; [now injection Y|].
  destruct (yield l) as [|z [|? ?]]; discriminate.
Qed.
Lemma single_tree g a : yield g = chain a -> as_expr g = a \/ exists x o y, a = Bin x o y.
Proof. intros Y. destruct a; eauto; left; now apply single_yield. Qed.

Lemma stays_list a b : Forall2 stays a b -> List.length a = List.length b /\ (Forall readable a -> Forall readable b).
Proof.
  induction 1 as [|x y a b (P&_) F (IH1&IH2)]; [split; auto|]. cbn. split; auto. intros H. inversion H; subst. constructor; auto.
Qed.

Lemma visit_stays n e r r' e' : visit_fuel n r e = Ok (r', e') -> stays e e'.
Proof.
  intros H.
  refine (proj2 (visit_inv (fun _ _ => True) (fun _ => True) stays
    _ _ _ _ _ _ _ _ _ _ _ _ _ _ _ _ _ n e r r' e' I H)); auto.
  - intros [] _; auto; apply Forall_forall; auto.
  - intros x. repeat split; auto.
  - intros a b c (P1&T1&W1) (P2&T2&W2). repeat split; auto.
  - intros t a b R. apply rewrite_iff in R as (g & _ & Y & <-). repeat split.
    + intros P. apply readable_tree. rewrite Y. now apply readable_chain.
    + intros A. destruct (single_tree g a) as [-> | (x&o&y&->)]; auto. discriminate.
    + intros A. destruct (single_tree g a) as [-> | (x&o&y&->)]; auto. discriminate.
  - intros a b a' b' (P1&T1&W1) (P2&T2&W2). repeat split; auto. intros P; inversion P; subst; apply re_app; auto.
  - intros a o b a' b' (P1&T1&W1) (P2&T2&W2). repeat split; auto. intros P; inversion P; subst; apply re_bin; auto.
  - intros p a a' (P1&T1&W1). repeat split; auto. intros P; inversion P; subst; apply re_lam; auto.
  - intros a a' (P1&T1&W1). repeat split; auto. intros P; inversion P; subst; apply re_grp; auto.
  - intros a a' (P1&T1&W1). repeat split; auto. intros P; inversion P.
  - intros a a' F. apply stays_list in F as (P1&T1). repeat split; auto. intros P; inversion P; subst; apply re_tup; auto. congruence.
  - intros a a' F. apply stays_list in F as (P1&T1). repeat split; auto. intros P; inversion P; subst; apply re_list; auto.
  - intros d a a' (P1&T1&W1). repeat split; auto. intros P; inversion P; subst; apply re_let; auto.
Qed.

Lemma resolve_stays r a r' a' errs : resolve_ast r a = Ok (r', a', errs) -> Forall2 stays (a_exprs a) (a_exprs a').
Proof.
  intros H. apply resolve_ast_inv in H as (r1&es&E&_&->&_). cbn [a_exprs].
  revert E. generalize (load_fixities r a) as r0. generalize (a_exprs a) as xs. intros xs. revert es r1.
  induction xs as [|x xs IH]; intros es r1 r0 E; apply visit_list_inv in E.
  - destruct E as (_&->). constructor.
  - destruct E as (r2&e1&es1&E1&E2&->). constructor; eauto. unfold visit_expr in E1. eapply visit_stays; eauto.
Qed.

(** * The table *)

Definition entry_made (p : infix * fixity) : Prop := op_made (fst p) /\ (fx_prec (snd p) <= 9)%N.
Notation table_made := (Forall entry_made).

Lemma insert_made t o f : table_made t -> op_made o -> (fx_prec f <= 9)%N -> table_made (insert_tbl t o f).
Proof.
  intros H O F. induction H as [|(k,v) t (K&V) H IH]; cbn [insert_tbl].
  - constructor; [|constructor]. split; auto.
  - destruct (infix_eqb k o); constructor; auto; split; auto.
Qed.
Lemma remove_made t o : table_made t -> table_made (remove_tbl t o).
Proof. intros H. induction H as [|(k,v) t K H IH]; cbn [remove_tbl]; auto. destruct (infix_eqb k o); auto. Qed.
Lemma get_made t o f : table_made t -> get_defined t o = Some f -> (fx_prec f <= 9)%N.
Proof.
  intros H. induction H as [|(k,v) t (K&V) H IH]; cbn [get_defined]; [discriminate|].
  destruct (infix_eqb k o); auto. intros E. injection E as <-. exact V.
Qed.
Lemma many_made f os : Forall op_made os -> (fx_prec f <= 9)%N -> forall t, table_made t -> table_made (insert_many t f os).
Proof. intros H F. unfold insert_many. induction H; intros t T; cbn; auto. apply IHForall. now apply insert_made. Qed.
Lemma push_made f os : Forall op_made os -> (fx_prec f <= 9)%N -> forall t t1 olds, table_made t -> push_local t f os = (t1, olds) ->
  table_made t1 /\ Forall (fun p => op_made (fst p) /\ match snd p with Some f => (fx_prec f <= 9)%N | None => True end) olds.
Proof.
  intros H F. induction H as [|o os O H IH]; intros t t1 olds T E; cbn [push_local] in E.
  - injection E as <- <-. auto.
  - unfold insert in E. destruct (push_local (insert_tbl t o f) f os) as (t2&olds2) eqn:P. injection E as <- <-.
    apply IH in P as (P1&P2); [|now apply insert_made]. split; [exact P1|]. apply Forall_cons; [|exact P2]. cbn [fst snd]. split; [exact O|].
    destruct (get_defined t o) eqn:G; auto. exact (get_made t o _ T G).
Qed.
Lemma restore_made olds : Forall (fun p => op_made (fst p) /\ match snd p with Some f => (fx_prec f <= 9)%N | None => True end) olds ->
  forall t, table_made t -> table_made (restore t olds).
Proof.
  induction 1 as [|(o&[f|]) olds (O&F) H IH]; intros t T; cbn [restore]; auto; apply IH.
  - now apply insert_made.
  - now apply remove_made.
Qed.

Lemma made_chain e : expr_made e -> Forall (fun x => match x with Operand y => expr_made y | Operator o => op_made o end) (chain e).
Proof.
  induction e; intros R; try (constructor; [exact R|constructor]). inversion R; subst. cbn [chain]. repeat (constructor; auto).
Qed.
Lemma made_tree g : Forall (fun x => match x with Operand y => expr_made y | Operator o => op_made o end) (yield g) ->
  expr_made (as_expr g).
Proof.
  induction g as [e|l IHl o r IHr]; cbn [as_expr yield]; intros F.
  - now inversion F.
  - apply Forall_app in F as (F1&F2). inversion F2; subst. apply em_bin; auto.
Qed.

Lemma visit_made n e r r' e' : expr_made e -> visit_fuel n r e = Ok (r', e') -> table_made (r_fix r) -> table_made (r_fix r').
Proof.
  intros N H.
  refine (proj1 (visit_inv (fun a b => table_made (r_fix a) -> table_made (r_fix b)) expr_made (fun a b => True)
    _ _ _ _ _ _ _ _ _ _ _ _ _ _ _ _ _ n e r r' e' N H)); auto.
  - intros rr x. unfold store_error. destruct (existsb _ _); auto.
  - intros d x D rr r2 t1 olds P K T. cbn [r_fix] in *. inversion D as [| | | | | | | | | |? ? (D1&D2)]; subst.
    apply (push_made _ _ D1 D2 _ _ _ T) in P as (P1&P2). apply restore_made; auto.
  - intros t x x' D R. apply rewrite_iff in R as (g&_&Y&<-). apply made_tree. rewrite Y. now apply made_chain.
  - intros x D. inversion D; subst; auto.
Qed.

Lemma resolve_made r a r' a' errs : Forall expr_made (a_exprs a) -> Forall decl_made (a_infxs a) ->
  resolve_ast r a = Ok (r', a', errs) -> table_made (r_fix r) -> table_made (r_fix r').
Proof.
  intros M D H T. apply resolve_ast_inv in H as (r1&es&E&->&_&_). cbn [r_fix].
  assert (T1 : table_made (r_fix (load_fixities r a))).
  { unfold load_fixities. cbn [r_fix]. revert T. generalize (r_fix r). induction D as [|d ds (D1&D2) D IH]; intros t T; cbn; auto.
    apply IH. now apply many_made. }
  revert T1 E. generalize (load_fixities r a) as r0. revert es r1.
  induction M as [|x xs X M IH]; intros es r1 r0 T1 E; apply visit_list_inv in E.
  - now destruct E as (->&_).
  - destruct E as (r2&e1&es1&E1&E2&->). eapply IH; [|exact E2]. eapply visit_made; eauto.
Qed.

End WithUcd.
