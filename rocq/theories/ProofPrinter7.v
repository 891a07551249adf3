(** The printed line, read back; matched brackets. *)
From Coq Require Import List Arith NArith ZArith Bool String Lia.
From Verif Require Import Prelim Chars Syntax Fixity SpecFixity Style SpecStyle SpecLexer SpecParser Printer SpecPrinter.
From Verif Require Import ProofStyle ProofFixity Lexer Parser ProofParser7 ProofParser8 ProofParser9.
From Verif Require Import ProofPrinter ProofPrinter2 ProofPrinter3 ProofPrinter4 ProofPrinter5 ProofPrinter6.
Import ListNotations.

(** ** Brackets *)

Definition no_bracket (s : str) : Prop := Forall (fun c => is_bracket c = false) s.

Lemma find_none c : is_bracket c = false -> find (fun p => N.eqb (fst p) c) brackets = None.
Proof.
  intros H. unfold find, brackets, fst. destruct (N.eqb_spec 40 c) as [<-|]; [discriminate|].
  destruct (N.eqb_spec 91 c) as [<-|]; [discriminate|]. reflexivity.
Qed.

Lemma matched_text s open r : no_bracket s -> matched open (s ++ r) = matched open r.
Proof.
  induction 1 as [|c s H F IH]; auto. cbn [app matched]. rewrite find_none, H by auto. exact IH.
Qed.

Lemma nested_matched (leaf : str -> Prop) o : (forall s, leaf s -> no_bracket s) -> nested leaf o ->
  forall open r, matched open (map fst o ++ r) = matched open r.
Proof.
  intros L. induction 1 as [|s o H N IH|s o F N IH|l r a i o I Ni IHi No IHo]; intros open u; auto.
  - rewrite map_app, plainly_fst, <- app_assoc, matched_text by auto. apply IH.
  - rewrite map_app, plainly_fst, <- app_assoc, matched_text by auto. apply IH.
  - cbn [map fst app]. rewrite map_app. cbn [map fst]. rewrite <- app_assoc. cbn [app].
    destruct I as [I|[I|[]]]; injection I as <- <-.
    + change (matched open (40%N :: map fst i ++ 41%N :: map fst o ++ u)) with (matched (41%N :: open) (map fst i ++ 41%N :: map fst o ++ u)).
      rewrite IHi. change (matched (41%N :: open) (41%N :: map fst o ++ u)) with (matched open (map fst o ++ u)). apply IHo.
    + change (matched open (91%N :: map fst i ++ 93%N :: map fst o ++ u)) with (matched (93%N :: open) (map fst i ++ 93%N :: map fst o ++ u)).
      rewrite IHi. change (matched (93%N :: open) (93%N :: map fst o ++ u)) with (matched open (map fst o ++ u)). apply IHo.
Qed.

Section WithUcd.
Context {U : ucd}.

Lemma print_shows (leaf : str -> Prop) t e : positive e -> (forall s, texts show_lit e s -> leaf s) ->
  (forall s, texts nolits e s -> no_esc s) ->
  exists s o, print_expr t e = Ok s /\ read s MText plain = (MText, plain, o) /\
    map fst o = [32%N; 32%N] ++ fexpr false e ++ [10%N] /\ nested leaf o.
Proof.
  intros P L N. destruct (write_expr_puts leaf t _ e (le_n _) P L N []) as (o&(s&E&R)&M&Ne). cbn [inside] in M.
  exists ([32%N; 32%N] ++ s ++ [10%N]), (plainly [32%N; 32%N] ++ o ++ plainly [10%N]).
  unfold print_expr. rewrite E. split; [reflexivity|]. split; [|split].
  - rewrite read_app. rewrite read_text by (intros [H|[H|[]]]; discriminate). rewrite read_app, R.
    rewrite read_text by (intros [H|[]]; discriminate). reflexivity.
  - rewrite !map_app, !plainly_fst, M. reflexivity.
  - apply nested_app; [apply nested_text; repeat constructor|]. apply nested_app; auto. apply nested_text. repeat constructor.
Qed.

(** ** Readable expressions *)

Lemma readable_positive : forall e, readable e -> positive e.
Proof.
  fix IH 2. intros e H. assert (L : forall es, Forall readable es -> Forall positive es).
  { clear H. fix IHl 2. intros es F. destruct F as [|x es Hx F]; constructor; [exact (IH _ Hx)|exact (IHl _ F)]. }
  destruct H; constructor; auto.
Qed.

Lemma clean_no_esc s : Forall (fun c => c <> 10%N /\ c <> 27%N) s -> no_esc s.
Proof. intros F I. rewrite Forall_forall in F. destruct (F _ I). congruence. Qed.
Lemma clean_line s : Forall (fun c => c <> 10%N /\ c <> 27%N) s -> all not_lf s.
Proof. apply Forall_impl. intros c (H&_). unfold not_lf. apply N.eqb_neq in H. rewrite H. reflexivity. Qed.

Lemma readable_pat_texts : forall q p, readable_pat q p -> forall s, pat_texts nolits p s -> no_esc s.
Proof.
  fix IH 3. intros q p H s T.
  assert (L : forall ps, Forall (readable_pat true) ps -> forall p s, In p ps -> pat_texts nolits p s -> no_esc s).
  { clear s H T. fix IHl 2. intros ps F. destruct F as [|x ps Hx F]; intros p0 s I T0; [destruct I|].
    destruct I as [<-|I]; [exact (IH _ _ Hx s T0)|exact (IHl ps F p0 s I T0)]. }
  destruct H as [q|q x N|x R|q x p N R|q p R|q p p' ps R F|q ps Ne F]; inversion T; subst.
  - apply clean_no_esc, name_clean; auto.
  - intros [].
  - apply clean_no_esc, name_clean; auto.
  - eapply (IH _ _ R); eauto.
  - eapply (IH _ _ R); eauto.
  - match goal with I : In _ (_ :: _ :: _) |- _ => destruct I as [<-|I] end; [eapply (IH _ _ R)|eapply (L _ F)]; eauto.
  - eapply (L _ F); eauto.
Qed.

Lemma readable_texts : forall e, readable e -> forall s, texts nolits e s -> no_esc s.
Proof.
  fix IH 2. intros e H s T.
  assert (L : forall es, Forall readable es -> forall x s, In x es -> texts nolits x s -> no_esc s).
  { clear s H T. fix IHl 2. intros ps F. destruct F as [|x ps Hx F]; intros p0 s I T0; [destruct I|].
    destruct I as [<-|I]; [exact (IH _ Hx s T0)|exact (IHl ps F p0 s I T0)]. }
  destruct H as [x Rx|n Rs|k Nk|n Rs|f x Sf Ax Rf Rx|a o c Ro Ra Rc|p e Rp Re|e Re|es Ne F|es F|d e Re]; inversion T; subst.
  - intros [].
  - apply clean_no_esc, name_clean; auto.
  - eapply clean_no_esc, section_clean; eauto.
  - eapply (IH _ Rf); eauto.
  - eapply (IH _ Rx); eauto.
  - eapply (IH _ Ra); eauto.
  - apply (op_clean o 32 Ro).
  - eapply (IH _ Rc); eauto.
  - eapply readable_pat_texts; eauto.
  - eapply (IH _ Re); eauto.
  - eapply (IH _ Re); eauto.
  - eapply (L _ F); eauto.
  - eapply (L _ F); eauto.
  - eapply (IH _ Re); eauto.
Qed.

Lemma line_cons c s : c <> 10%N -> all not_lf s -> all not_lf (c :: s).
Proof. intros H A. constructor; auto. unfold not_lf. apply N.eqb_neq in H. rewrite H. reflexivity. Qed.
Lemma line_app s u : all not_lf s -> all not_lf u -> all not_lf (s ++ u).
Proof. intros A B. apply Forall_app. auto. Qed.
Lemma line_nil : all not_lf [].
Proof. constructor. Qed.
Lemma line_parens b s : all not_lf s -> all not_lf (fparens b s).
Proof. intros A. destruct b; auto. apply line_cons; [discriminate|]. apply line_app; auto. repeat constructor. Qed.
Lemma line_commas ss : Forall (all not_lf) ss -> all not_lf (commas ss).
Proof.
  induction 1 as [|s ss A F IH]; [constructor|]. cbn [commas]. destruct ss; auto.
  apply line_app; auto. apply line_app; auto. repeat constructor.
Qed.

Lemma pat_line : forall q p, readable_pat q p -> all not_lf (fpat p).
Proof.
  fix IH 3. intros q p H. assert (L : forall ps, Forall (readable_pat true) ps -> Forall (all not_lf) (map fpat ps)).
  { fix IHl 2. intros ps F. destruct F; cbn [map]; constructor; eauto. }
  destruct H as [q|q s N|x R|q s p N R|q p R|q p p' ps R F|q ps Ne F]; cbn [fpat].
  - repeat constructor.
  - apply clean_line, name_clean; auto.
  - apply lit_line; auto.
  - apply line_app; [apply clean_line, name_clean; auto|]. apply line_cons; [discriminate|eauto].
  - apply line_parens. apply line_cons; [discriminate|]. apply line_parens. eauto.
  - apply line_parens. apply line_commas. cbn [map]. constructor; [eauto|]. apply (L _ F).
  - apply line_cons; [discriminate|]. apply line_app; [apply line_commas; eauto|]. repeat constructor.
Qed.

Lemma expr_line : forall n e, esize e <= n -> readable e -> forall b, all not_lf (fexpr b e).
Proof.
  induction n as [|n IH]; intros e Sz R b; [destruct e; cbn in Sz; lia|].
  assert (Seq : forall es, list_sum (map esize es) <= n -> Forall readable es -> Forall (all not_lf) (map (fexpr false) es)).
  { induction es as [|x es IHes]; intros H F; [constructor|]. change (esize x + list_sum (map esize es) <= n) in H.
    inversion F; subst. constructor; [apply IH; auto; lia|apply IHes; auto; lia]. }
  destruct R as [x Rx|s Rs|k Nk|s Rs|f x Sf Ax Rf Rx|a o c Ro Ra Rc|p e Rp Re|e Re|es Ne F|es F|d e Re]; cbn [esize] in Sz.
  - apply lit_line; auto.
  - apply clean_line, name_clean; auto.
  - cbn [fexpr ident_is_infix fparens show_ident]. apply line_cons; [discriminate|]. apply line_app; [|repeat constructor].
    apply Forall_forall. intros c I. apply repeat_spec in I. subst. reflexivity.
  - apply line_parens. eapply clean_line, section_clean; eauto.
  - cbn [fexpr]. apply line_app; [apply IH; auto; lia|]. apply line_cons; [discriminate|]. apply IH; auto; lia.
  - cbn [fexpr]. apply line_app; [apply line_parens; apply IH; auto; lia|]. apply line_cons; [discriminate|].
    apply line_app; [rewrite show_infix_text by auto; apply clean_line; eapply op_clean; eauto|].
    apply line_cons; [discriminate|]. apply line_parens; apply IH; auto; lia.
  - rewrite lam_text. apply line_parens. apply line_cons; [discriminate|]. apply line_app; [eapply pat_line; eauto|].
    assert (esize e <= n) as Se by lia. clear Sz. revert Re Se. induction e; intros Re Se;
      try (apply line_app; [repeat constructor|]; apply IH; auto; fail).
    cbn [flams]. apply line_cons; [discriminate|]. inversion Re; subst. cbn [esize] in Se.
    apply line_app; [eapply pat_line; eauto|]. apply IHe; auto. lia.
  - cbn [fexpr]. apply line_parens. apply IH; auto; lia.
  - cbn [fexpr]. apply line_parens. apply line_commas. apply Seq; auto; lia.
  - cbn [fexpr]. apply line_cons; [discriminate|]. apply line_app; [apply line_commas; apply Seq; auto; lia|repeat constructor].
  - cbn [fexpr]. apply IH; auto; lia.
Qed.

Lemma clean_last s : all not_lf s -> no_lfcr (s ++ [10%N]).
Proof.
  intros A a b E. revert a E. induction A as [|c s H A IH]; intros a E.
  - destruct a as [|d a]; [discriminate|]. injection E as _ E. destruct a; discriminate.
  - destruct a as [|d a]; [injection E as -> _; discriminate|]. injection E as _ E. eauto.
Qed.

Lemma print_reads_back t e : letters U -> readable e -> exists s e', print_expr t e = Ok s /\
  (exists l, parse (visible s) = POk (ast_push ast_empty (DExpr e')) l) /\ bare e' = bare e /\ single e'.
Proof.
  intros HU R. destruct (print_shows (fun _ => True) t e (readable_positive _ R) (fun _ _ => I) (readable_texts _ R))
    as (s&o&E&Rd&M&_).
  destruct (expr_reads _ e (le_n _) R false [32%N; 32%N]) as (ts&e'&L&N&B&S1&_&_&X).
  exists s, e'. split; auto. split; [|split; auto].
  unfold visible, shown. rewrite Rd. cbn [snd]. rewrite M. apply (parse_iff HU).
  - replace ([32%N; 32%N] ++ fexpr false e ++ [10%N]) with ((32%N :: 32%N :: fexpr false e) ++ [10%N]) by reflexivity.
    apply clean_last. apply line_cons; [discriminate|]. apply line_cons; [discriminate|]. eapply expr_line; eauto.
  - exists ts, [DExpr e']. split; [|split; [|reflexivity]].
    + cbn [app]. apply ctokens_space. apply ctokens_space. cbn [app].
      rewrite <- (app_nil_r ts). apply L; [cbn; tauto|]. apply ct_end. apply gap_white; [reflexivity|constructor].
    + assert (T : ctokens [] ([32%N; 32%N] ++ fexpr false e) ts).
      { cbn [app]. apply ctokens_space. apply ctokens_space. cbn [app].
        rewrite <- (app_nil_r ts), <- (app_nil_r (fexpr false e)). apply L; [exact I|]. apply ct_end. constructor. }
      apply (ctokens_ascending HU) in T; [|apply line_cons; [discriminate|]; apply line_cons; [discriminate|]; eapply expr_line; eauto].
      eapply program_lay; [|  |exact T].
      { instantiate (1 := fun _ _ => true). intros c k Lt. apply Nat.ltb_lt in Lt. auto. }
      rewrite <- (app_nil_r ts). apply pr_plain; [|reflexivity|constructor].
      destruct ts as [|(t1,k1) ts]; [congruence|]. apply do_expr. apply X. split; reflexivity.
Qed.

Lemma print_back_resolved r e : single e -> r_errs r = [] ->
  exists r', resolve_ast r (ast_push ast_empty (DExpr e)) = Ok (r', ast_push ast_empty (DExpr e), []).
Proof.
  intros H E. destruct (single_flat _ H) as (A&B&C). eexists.
  apply (resolve_ast_complete r (ast_push ast_empty (DExpr e)) [e]); auto; repeat constructor; auto.
Qed.

End WithUcd.
