(** Names in parsed and resolved expressions come from the source. *)
From Coq Require Import List Arith NArith Bool Lia String.
From Verif Require Import Prelim Chars Syntax Fixity SpecFixity Style SpecStyle Lexer SpecLexer Parser SpecParser Printer SpecPrinter.
From Verif Require Import ProofTable ProofFixity ProofRewrite ProofResolve ProofResolve2 ProofStyle ProofParser7 ProofParser8 ProofPrinter ProofPrinter6.
Import ListNotations.

(** * Resolution *)

Lemma texts_chain sh s : forall e, texts sh e s <->
  exists x, In x (chain e) /\ match x with Operand y => texts sh y s | Operator o => s = symbol o end.
Proof.
  assert (D : forall e, chain e = [Operand e] ->
    (texts sh e s <-> exists x, In x (chain e) /\ match x with Operand y => texts sh y s | Operator o => s = symbol o end)).
  { intros e ->. split; [intros H; exists (Operand e); cbn; auto|]. intros (x&[<-|[]]&H). auto. }
  induction e; try (apply D; reflexivity). cbn [chain]. split.
  - intros H. inversion H; subst.
    + exists (Operand e1). cbn. auto.
    + exists (Operator o). cbn. auto.
    + apply IHe2 in H4 as (x&I&T). exists x. cbn. auto.
  - intros (x&[<-|[<-|I]]&T).
    + apply tx_bin_l. auto.
    + subst. apply tx_bin_o.
    + apply tx_bin_r. apply IHe2. eauto.
Qed.

Lemma texts_tree sh s : forall g, texts sh (as_expr g) s <->
  exists x, In x (yield g) /\ match x with Operand y => texts sh y s | Operator o => s = symbol o end.
Proof.
  induction g as [e|l IHl o r IHr]; cbn [as_expr yield].
  - split; [intros H; exists (Operand e); cbn; auto|]. intros (x&[<-|[]]&H). auto.
  - split.
    + intros H. inversion H; subst.
      * apply IHl in H4 as (x&I&T). exists x. split; auto. apply in_or_app. auto.
      * exists (Operator o). split; auto. apply in_or_app. right. left. auto.
      * apply IHr in H4 as (x&I&T). exists x. split; auto. apply in_or_app. right. right. auto.
    + intros (x&I&T). apply in_app_or in I as [I|[<-|I]].
      * apply tx_bin_l. apply IHl. eauto.
      * subst. apply tx_bin_o.
      * apply tx_bin_r. apply IHr. eauto.
Qed.

Definition keeps (sh : literal -> str) (a b : expr) : Prop :=
  (positive a -> positive b) /\ forall s, texts sh b s -> texts sh a s.

Lemma keeps_list sh a b : Forall2 (keeps sh) a b ->
  (Forall positive a -> Forall positive b) /\
  forall y s, In y b -> texts sh y s -> exists x, In x a /\ texts sh x s.
Proof.
  induction 1 as [|x y a b (P&T) F (IH1&IH2)]; [split; [auto|intros ? ? []]|]. split.
  - intros H. inversion H; subst. constructor; auto.
  - intros z s [<-|I] X; [exists x; cbn; auto|]. destruct (IH2 _ _ I X) as (w&Iw&Xw). exists w. cbn. auto.
Qed.

Lemma visit_keeps sh n e r r' e' : visit_fuel n r e = Ok (r', e') -> keeps sh e e'.
Proof.
  intros H.
  refine (proj2 (visit_inv (fun _ _ => True) (fun _ => True) (keeps sh)
    _ _ _ _ _ _ _ _ _ _ _ _ _ _ _ _ _ n e r r' e' I H)); auto.
  - intros [] _; auto; apply Forall_forall; auto.
  - intros x. split; auto.
  - intros a b c (P1&T1) (P2&T2). split; auto.
  - intros t a b R. apply rewrite_iff in R as (g & _ & Y & <-). split.
    + intros P. apply positive_tree. intros y I. rewrite Y in I. eapply positive_chain; eauto.
    + intros s T. apply texts_tree in T. apply texts_chain. rewrite Y in T. auto.
  - intros a b a' b' (P1&T1) (P2&T2). split; [intros P; inversion P; subst; constructor; auto|].
    intros s T. inversion T; subst; [apply tx_app_f|apply tx_app_x]; auto.
  - intros a o b a' b' (P1&T1) (P2&T2). split; [intros P; inversion P; subst; constructor; auto|].
    intros s T. inversion T; subst; [apply tx_bin_l|apply tx_bin_o|apply tx_bin_r]; auto.
  - intros p a a' (P1&T1). split; [intros P; inversion P; subst; constructor; auto|].
    intros s T. inversion T; subst; [apply tx_lam_p|apply tx_lam]; auto.
  - intros a a' (P1&T1). split; [intros P; inversion P; subst; constructor; auto|].
    intros s T. inversion T; subst; apply tx_grp; auto.
  - intros a a' (P1&T1). split; [intros P; inversion P|].
    intros s T. inversion T; subst; apply tx_neg; auto.
  - intros a a' F. apply keeps_list in F as (P1&T1). split; [intros P; inversion P; subst; constructor; auto|].
    intros s T. inversion T as [| | | | | | | | | | | | |? x0 ? I0 T0|? x0 ? I0 T0|]; subst. destruct (T1 _ _ I0 T0) as (x&Ix&Tx). eapply tx_tup; eauto.
  - intros a a' F. apply keeps_list in F as (P1&T1). split; [intros P; inversion P; subst; constructor; auto|].
    intros s T. inversion T as [| | | | | | | | | | | | |? x0 ? I0 T0|? x0 ? I0 T0|]; subst. destruct (T1 _ _ I0 T0) as (x&Ix&Tx). eapply tx_list; eauto.
  - intros d a a' (P1&T1). split; [intros P; inversion P; subst; constructor; auto|].
    intros s T. inversion T; subst; apply tx_let; auto.
Qed.

Lemma resolve_keeps sh r a r' a' errs : resolve_ast r a = Ok (r', a', errs) ->
  Forall2 (keeps sh) (a_exprs a) (a_exprs a').
Proof.
  intros H. apply resolve_ast_inv in H as (r1&es&E&_&->&_). cbn [a_exprs].
  revert E. generalize (load_fixities r a) as r0. generalize (a_exprs a) as xs. intros xs. revert es r1.
  induction xs as [|x xs IH]; intros es r1 r0 E; apply visit_list_inv in E.
  - destruct E as (_&->). constructor.
  - destruct E as (r2&e1&es1&E1&E2&->). constructor; eauto. unfold visit_expr in E1. eapply visit_keeps; eauto.
Qed.

(** * Parsing *)

Section Names.
Variable P : str -> Prop.

(** The names in a token satisfy [P]. *)
Definition named (t : token) : Prop :=
  match t with TUpper s | TLower s | TAffix s _ => P s | _ => True end.

Definition pat_named (p : pat) : Prop := forall s, pat_texts (fun _ => []) p s -> P s.
Definition expr_named (e : expr) : Prop := forall s, texts (fun _ => []) e s -> P s.
Definition all_named (ts : list ptok) : Prop := Forall (fun x => named (fst x)) ts.

Hypothesis Pnil : P [].
Hypothesis Pdash : P (lit "-").
Hypothesis Pat : P (lit "@").

Lemma operator_named t i : operator t i -> named t -> P (symbol i).
Proof. intros [| | |]; auto. Qed.

Lemma pats_named q ts ps r : pats q ts ps r -> all_named ts -> Forall pat_named ps.
Proof.
  unfold all_named.
  induction 1; intros A;
    repeat match goal with
    | H : Forall _ (_ ++ _) |- _ => apply Forall_app in H as (? & ?)
    | H : Forall _ (_ :: _) |- _ => inversion H; clear H; subst
    end; cbn [fst named] in *;
    repeat match goal with H : Forall _ ?ts -> Forall pat_named _, H' : Forall _ ?ts |- _ => specialize (H H') end;
    try solve [auto];
    repeat match goal with H : Forall pat_named [_] |- _ => apply Forall_inv in H end;
    try solve [constructor; [|constructor]; intros s0 T; inversion T; subst; auto].
  - constructor; [|constructor]. intros s0 T. inversion T; subst; auto. contradiction.
  - constructor; [|constructor]. intros s0 T. inversion T; subst.
    match goal with H : In _ (_ :: _) |- _ => destruct H as [<-|H] end; auto.
    rewrite Forall_forall in *. eapply IHpats2; eauto.
  - constructor; [|constructor]. intros s0 T. inversion T; subst. contradiction.
  - constructor; [|constructor]. intros s0 T. inversion T; subst.
    match goal with H : In _ (_ :: _) |- _ => destruct H as [<-|H] end; auto.
    rewrite Forall_forall in *. eapply IHpats2; eauto.
  - constructor; [|constructor]. intros s0 T. inversion T; subst; auto.
    rewrite Forall_forall in *. eapply IHpats; eauto.
  - constructor; [|constructor]. intros s0 T. inversion T; subst.
    match goal with H : In _ (_ :: _) |- _ => destruct H as [<-|H] end.
    + match goal with H : pat_texts _ (PCon _ _) _ |- _ => inversion H; subst; auto end.
      rewrite Forall_forall in *. eapply IHpats1; eauto.
    + rewrite Forall_forall in *. eapply IHpats2; eauto.
  - constructor; auto.
  - constructor; auto.
Qed.

Lemma lams_named e : expr_named e -> forall ps, Forall pat_named ps -> expr_named (fold_right Lam e ps).
Proof. intros H ps. induction 1; auto. intros s T. inversion T; subst; auto. Qed.

Lemma exprs_named lay q ts es r : exprs lay q ts es r -> all_named ts ->
  match q with KArgs _ f => expr_named f -> Forall expr_named es | _ => Forall expr_named es end.
Proof.
  unfold all_named.
  induction 1 as [c ts e r H IH N|c ts x o i k t k' us e r H IH O H1 IH1|c ts f us e r H IH H1 IH1|c f r N
    |c f t k ts x us e r A Lk H IH H1 IH1|x k r|s k r|s k r|k ts p ps k' us e r HP H IH|k k' r|k s b k1 k' r
    |k cs k' r Nc F|k t k1 ts e k' r H IH|k t k1 ts e us es k' r H IH H1 IH1 Nu|k ts es k' r H IH
    |k ts d k' us e r D H IH|r N|k ts e us es r H IH H1 IH1|k r|t k ts e k' us es r H IH H1 IH1
    |t k ts e us es r H IH N H1 IH1]; intros B;
    try (apply Forall_app in B as (B1&B2)).
  - auto.
  - apply Forall_cons_iff in B2 as (Ho&B3). cbn [fst] in Ho. specialize (IH B1). specialize (IH1 B3). apply Forall_inv in IH, IH1.
    constructor; [|constructor]. intros s T. inversion T; subst; auto. eapply operator_named; eauto.
  - specialize (IH B1). apply Forall_inv in IH. auto.
  - auto.
  - specialize (IH B1). apply Forall_inv in IH. intros Hf. apply IH1; auto. intros s T. inversion T; subst; auto.
  - constructor; [|constructor]. intros s T. inversion T; auto.
  - apply Forall_inv in B. constructor; [|constructor]. intros s0 T. inversion T; subst; auto.
  - apply Forall_inv in B. constructor; [|constructor]. intros s0 T. inversion T; subst; auto.
  - apply Forall_cons_iff in B as (B1&B2). apply Forall_app in B2 as (B2&B3). apply Forall_cons_iff in B3 as (_&H3).
    specialize (IH H3). apply Forall_inv in IH. constructor; [|constructor]. apply lams_named; auto. eapply pats_named; eauto.
  - constructor; [|constructor]. intros s T. inversion T; subst. contradiction.
  - apply Forall_cons_iff in B as (B1&B2). apply Forall_inv in B2. constructor; [|constructor]. intros s0 T. inversion T; subst; auto.
  - constructor; [|constructor]. intros s0 T. inversion T.
  - apply Forall_cons_iff in B as (B1&B2). apply Forall_app in B2 as (B2&_). specialize (IH B2). apply Forall_inv in IH.
    constructor; [|constructor]. intros s0 T. inversion T; subst; auto.
  - apply Forall_cons_iff in B as (B1&B2). apply Forall_app in B2 as (B2&B3). apply Forall_app in B3 as (B3&_).
    specialize (IH B2). specialize (IH1 B3). apply Forall_inv in IH.
    constructor; [|constructor]. intros s0 T. inversion T; subst.
    match goal with H : In _ (_ :: _) |- _ => destruct H as [<-|H] end; auto. rewrite Forall_forall in IH1. eapply IH1; eauto.
  - apply Forall_cons_iff in B as (B1&B2). apply Forall_app in B2 as (B2&_). specialize (IH B2).
    constructor; [|constructor]. intros s0 T. inversion T; subst. rewrite Forall_forall in IH. eapply IH; eauto.
  - apply Forall_cons_iff in B as (B1&B2). apply Forall_app in B2 as (B2&B3). apply Forall_cons_iff in B3 as (_&H3).
    specialize (IH H3). apply Forall_inv in IH. constructor; [|constructor]. intros s0 T. inversion T; subst; auto.
  - constructor.
  - apply Forall_cons_iff in B as (B1&B2). apply Forall_app in B2 as (B2&B3). specialize (IH B2). specialize (IH1 B3).
    apply Forall_inv in IH. constructor; auto.
  - constructor.
  - apply Forall_cons_iff in B2 as (_&B3). specialize (IH B1). apply Forall_inv in IH. constructor; auto.
  - specialize (IH B1). apply Forall_inv in IH. constructor; auto.
Qed.

Lemma program_named lay ts ds : program lay ts ds -> all_named ts ->
  Forall (fun d => match d with DExpr e => expr_named e | _ => True end) ds.
Proof.
  induction 1 as [|ts d k us ds D _ IH|ts d us ds D _ _ IH]; intros A; [constructor| |];
    apply Forall_app in A as (A1&A2); try (inversion A2; subst); constructor; auto;
    (destruct D as [|t k' ts e r D]; [exact I|]); apply exprs_named in D; auto; inversion D; auto.
Qed.

End Names.

Section WithUcd.
Context {U : ucd}.

Lemma lexeme_named (Q : chr -> Prop) s t v : lexeme s t v -> Forall Q s -> named (Forall Q) t.
Proof.
  intros H F.
  assert (X : forall a b c : str, Forall Q (a ++ b ++ c) -> Forall Q b) by (intros a b c X; apply Forall_app in X as (_&X); apply Forall_app in X as (X&_); auto).
  destruct H; cbn [named]; auto.
  - cbn in H. repeat (destruct H as [H|H]; [injection H as <- <-; exact I|]). destruct H.
  - cbn in H. repeat (destruct H as [H|H]; [injection H as <- <-; exact I|]). destruct H.
  - inversion F as [|? ? _ F1]; subst. inversion F1 as [|? ? Fc F2]; subst.
    constructor; auto. rewrite app_assoc in F2. apply Forall_app in F2 as (F2&_). auto.
  - inversion F; auto.
  - inversion F; auto.
  - cbn in H. repeat (destruct H as [H|H]; [injection H as <- <-; exact I|]). destruct H.
Qed.

Lemma ctokens_named (Q : chr -> Prop) w s ts : ctokens w s ts -> Forall Q s -> all_named (Forall Q) ts.
Proof.
  induction 1 as [w g G|w g s t v ts G L T IH]; intros F; [constructor|].
  apply Forall_app in F as (_&F). apply Forall_app in F as (F1&F2). constructor; [eapply lexeme_named; eauto|apply IH; auto].
Qed.

(** Every name of a parsed expression consists of characters of the source. *)
Lemma parse_named (Q : chr -> Prop) src a l : letters U -> no_lfcr src -> parse src = POk a l ->
  Forall Q src -> Q 45%N -> Q 64%N -> Forall (expr_named (Forall Q)) (a_exprs a).
Proof.
  intros HU C E F Q1 Q2. destruct (proj1 (parse_iff HU src a C)) as (ts&ds&T&G&->); [eauto|].
  apply (ctokens_named Q) in T; auto. apply (program_named (Forall Q)) in G; auto.
  - rewrite ast_of_exprs. cbn [ast_empty a_exprs app]. clear - G. induction G as [|d ds D G IH]; [constructor|].
    destruct d; cbn; auto.
  - repeat constructor; auto.
  - repeat constructor; auto.
Qed.

End WithUcd.
