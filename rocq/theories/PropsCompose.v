(** C108: texts put together from texts of expressions. *)
From Coq Require Import List Arith NArith Bool String Lia.
From Verif Require Import Prelim Chars Syntax Lexer SpecLexer ProofLexer Parser SpecParser SpecViable SpecShape SpecCompose
  ProofParser ProofParser3 ProofParser6 ProofParser7 ProofParser8 ProofParser9 ProofParser11 ProofParser12 ProofPrinter3 ProofPrinter8 ProofShape ProofShape2 PropsShape ProofCompose PropsRepl.
Import ListNotations.
Local Open Scope string_scope.
Local Open Scope list_scope.

Lemma nolfcr_join a b : no_lfcr (10%N :: a) -> ends_lf a -> no_lfcr (10%N :: b) -> no_lfcr (10%N :: a ++ b).
Proof.
  intros A (a0&->) B x z E. rewrite <- app_assoc in E. cbn [app] in E.
  change (10%N :: a0 ++ 10%N :: b) with ((10%N :: a0) ++ 10%N :: b) in E.
  change (no_lfcr ((10%N :: a0) ++ [10%N])) in A. remember (10%N :: a0) as y eqn:Ey. clear a0 Ey. revert x E A.
  induction y as [|c y IH]; intros x E A.
  - cbn [app] in E. exact (B _ _ E).
  - destruct x as [|d x].
    + cbn [app] in E. injection E as -> E. destruct y as [|c y].
      * cbn [app] in E. discriminate.
      * injection E as -> E. apply (A [] (y ++ [10%N])). reflexivity.
    + injection E as <- E. apply (IH x E). intros p q K. apply (A (c :: p) q). cbn [app]. now rewrite K.
Qed.

Lemma nolfcr_front c a : c <> 13%N -> c <> 10%N -> no_lfcr a -> no_lfcr (10%N :: c :: a).
Proof.
  intros N1 N2 A x z E. destruct x as [|d x]; [injection E as -> _; congruence|]. injection E as <- E.
  destruct x as [|d x]; [injection E as -> _; congruence|]. injection E as <- E. exact (A _ _ E).
Qed.

Lemma nolfcr_nl : no_lfcr [10%N; 10%N] /\ no_lfcr [10%N].
Proof.
  split; intros x z E; apply (f_equal (@List.length _)) in E as L; rewrite app_length in L; cbn in L;
    repeat (destruct x as [|? x]; [discriminate|injection E as <- E]; cbn in L); lia.
Qed.

Lemma nolfcr_lf a : no_lfcr (10%N :: a) -> no_lfcr (10%N :: 10%N :: a).
Proof. intros A x z E. destruct x as [|d x]; [discriminate|]. injection E as <- E. exact (A _ _ E). Qed.

Lemma nolfcr_line s a : all not_lf s -> ~ In 13%N s -> no_lfcr (10%N :: a) -> no_lfcr (10%N :: s ++ 10%N :: a).
Proof.
  intros S0 S1 A x z E. destruct x as [|d x].
  - destruct s as [|c s]; [discriminate|]. injection E as -> _. apply S1. now left.
  - injection E as <- E. revert x E. induction s as [|c s IH]; intros x E; [exact (A _ _ E)|].
    inversion S0 as [|? ? Hc Hs]; subst. destruct x as [|d x].
    + injection E as -> _. discriminate Hc.
    + injection E as <- E. apply (IH Hs) with (x := x); auto. intros I. apply S1. now right.
Qed.

Section WithUcd.
Context {U : ucd}.
Hypothesis HU : letters U.

(** The same on tokens. *)
Definition text_ (s : str) (e : expr) : Prop :=
  no_lfcr (10%N :: s) /\ ends_lf s /\ exists t k ts, ctokens [] s ((t, k) :: ts) /\ exprs Nat.ltb (KExpr k) ((t, k) :: ts) [e] [].

Lemma only_program ds e : fold_left ast_push ds ast_empty = only e -> ds = [DExpr e].
Proof.
  intros E.
  assert (K : forall ds a, a_kinds (fold_left ast_push ds a) = a_kinds a ++ map kind ds /\
    a_exprs (fold_left ast_push ds a) = a_exprs a ++ flat_map (fun d => match d with DExpr e => [e] | _ => [] end) ds).
  { clear. induction ds as [|d ds IH]; intros a; cbn [fold_left map flat_map]; [rewrite !app_nil_r; auto|].
    destruct (IH (ast_push a d)) as (->& ->). destruct d; cbn; rewrite <- ?app_assoc; auto. }
  destruct (K ds ast_empty) as (K1&K2). rewrite E in K1, K2. cbn in K1, K2.
  destruct ds as [|d [|d' ds]]; try discriminate. destruct d as [d|d]; [discriminate|]. cbn in K2. now injection K2 as ->.
Qed.

Lemma nolf_cons a : no_lfcr (10%N :: a) -> no_lfcr a.
Proof. intros A x z E. apply (A (10%N :: x) z). cbn. now rewrite E. Qed.

Lemma join0 a ts z us : ctokens [] a ts -> ends_lf a -> ctokens [] z us -> ctokens [] (a ++ z) (ts ++ us).
Proof.
  intros A E Z. eapply ctokens_join; eauto. cbn [app]. rewrite <- (app_nil_r a). apply ctokens_after; auto.
Qed.

Lemma front c t z us : In (c, t) puncts -> ctokens [] z us -> ctokens [] (c :: 10%N :: z) ((t, 2) :: us).
Proof.
  intros I Z. assert (Ec : col_of [c] = 2) by (repeat destruct I as [I|I]; try (injection I as <- <-; reflexivity); destruct I).
  rewrite <- Ec. apply (ct_cons [] [] [c] t (10%N :: z)); [constructor|apply le_punct; auto|]. cbn [app].
  apply ctokens_lf. rewrite <- (app_nil_r ([c] ++ [10%N])). apply ctokens_after; auto. now exists [c].
Qed.

Lemma text_iff s e : text_ s e <-> expression_text s e.
Proof.
  assert (Semi : forall s, ends_lf s -> no_lfcr (10%N :: s) -> no_lfcr (s ++ lit ";")).
  { intros s0 E N. apply nolf_cons. apply nolfcr_join; auto. apply nolfcr_front; try discriminate.
    intros x z K. destruct x; discriminate. }
  assert (Ts : ctokens [] (lit ";") [(TSemi, 2)]).
  { apply (ct_cons [] [] (lit ";") TSemi []); [constructor|apply le_punct; cbn; tauto|]. apply ct_end. constructor. }
  split.
  - intros (N&E&t&k&ts&T&D). split; auto. split; auto. split.
    + apply parse_iff; auto using nolf_cons. exists ((t, k) :: ts), [DExpr e]. split; auto. split; auto.
      rewrite <- (app_nil_r ((t, k) :: ts)). apply pr_plain; [|reflexivity|constructor]. now apply do_expr.
    + apply parse_iff; auto. exists (((t, k) :: ts) ++ [(TSemi, 2)]), [DExpr e]. split; [apply join0; auto|]. split; auto.
      apply pr_semi; [|constructor]. apply do_expr. eapply expr_mild; eauto. split; reflexivity.
  - intros (N&E&P1&P2). split; auto. split; auto.
    apply parse_iff in P1 as (ts&ds&T&Pr&Ed); auto using nolf_cons.
    apply parse_iff in P2 as (us&es&T'&Pr'&Ed'); auto.
    symmetry in Ed, Ed'. apply only_program in Ed as ->. apply only_program in Ed' as ->.
    assert (us = ts ++ [(TSemi, 2)]) as ->.
    { apply (tokens_once HU (s ++ lit ";")); auto. apply join0; auto. }
    destruct (program_inv _ _ Pr') as [(Ea&_)|[(ts2&d2&k2&us2&ds2&Ea&Ed&D2&P2)|(ts2&d2&us2&ds2&Ea&Ed&D2&N2&P2)]].
    + apply app_eq_nil in Ea as (_&Ea). discriminate.
    + injection Ed as <- <-. assert (us2 = []) as ->.
      { inversion P2 as [|? ? ? ? ? D P| ]; auto. }
      apply app_inj_tail in Ea as (<-&_). inversion D2 as [|t k ts0 e0 r D]; subst. exists t, k, ts0. split; auto.
      eapply expr_mild; eauto. split; reflexivity.
    + injection Ed as <- <-. assert (us2 = []) as -> by (inversion P2; auto). rewrite app_nil_r in Ea. subst ts2.
      apply decl_nosemi in D2. apply Forall_app in D2 as (_&D2). inversion D2 as [|? ? X _]. now destruct X.
Qed.

Lemma paren_end : ctokens [] (lit ")" ++ nl) [(TParenR, 2)].
Proof. apply (front 41%N TParenR [] []); [cbn; tauto|]. apply ct_end. constructor. Qed.
Lemma brack_end : ctokens [] (lit "]" ++ nl) [(TBrackR, 2)].
Proof. apply (front 93%N TBrackR [] []); [cbn; tauto|]. apply ct_end. constructor. Qed.

Lemma one_end c : c <> 13%N -> c <> 10%N -> no_lfcr [10%N; c; 10%N].
Proof. intros. apply nolfcr_front; auto. apply nolfcr_nl. Qed.

Lemma ends_more a b : ends_lf b -> ends_lf (a ++ b).
Proof. intros (b0&->). exists (a ++ b0). now rewrite app_assoc. Qed.

(** ** Groups *)

Lemma group_tokens s ts : ctokens [] s ts -> ends_lf s -> ctokens [] (group_text s) ((TParenL, 2) :: ts ++ [(TParenR, 2)]).
Proof. intros T E. apply front; [cbn; tauto|]. apply join0; auto. apply paren_end. Qed.

Lemma group_clean s : no_lfcr (10%N :: s) -> ends_lf s -> no_lfcr (10%N :: group_text s).
Proof.
  intros N E. change (no_lfcr (10%N :: 40%N :: 10%N :: s ++ [41%N; 10%N])). apply nolfcr_front; try discriminate.
  apply nolfcr_join; auto. apply one_end; discriminate.
Qed.

Lemma group_ends s : ends_lf (group_text s).
Proof. unfold group_text. do 4 apply ends_more. now exists []. Qed.

Lemma group_text_ s e : text_ s e -> text_ (group_text s) (Grp e).
Proof.
  intros (N&E&t&k&ts&T&D). split; [now apply group_clean|]. split; [apply group_ends|].
  exists TParenL, 2, (((t, k) :: ts) ++ [(TParenR, 2)]). split; [now apply group_tokens|].
  apply e_one; [|reflexivity]. rewrite <- (app_nil_r (_ :: _ ++ _)). eapply e_app; [|constructor; exact I]. apply t_group.
  eapply expr_mild; eauto. split; reflexivity.
Qed.

(** Put in parentheses. *)
Theorem C108_group : forall s e, expression_text s e -> expression_text (group_text s) (Grp e).
Proof. intros s e H. apply text_iff. apply group_text_. now apply text_iff. Qed.

(** And conversely: if the text in parentheses is read as an expression in
    parentheses, then the text alone is read as that expression. *)
Theorem C108_group_only : forall s e ts, no_lfcr (10%N :: s) -> (exists s0, s = s0 ++ [10%N]) -> ctokens [] s ts ->
  (exists l, parse (group_text s) = POk (only (Grp e)) l) -> expression_text s e.
Proof.
  intros s e ts N E T P. apply text_iff. split; auto. split; auto.
  apply parse_iff in P as (us&ds&T'&Pr&Ed); auto; [|apply nolf_cons, group_clean; auto].
  symmetry in Ed. apply only_program in Ed as ->.
  assert (us = (TParenL, 2) :: ts ++ [(TParenR, 2)]) as ->.
  { apply (tokens_once HU (group_text s)); auto; [apply nolf_cons, group_clean; auto|]. now apply group_tokens. }
  assert (D : decl_of Nat.ltb ((TParenL, 2) :: ts ++ [(TParenR, 2)]) (DExpr (Grp e)) []).
  { destruct (program_inv _ _ Pr) as [(Ea&_)|[(ts2&d2&k2&us2&ds2&Ea&Ed&D2&P2)|(ts2&d2&us2&ds2&Ea&Ed&D2&N2&P2)]].
    - discriminate.
    - injection Ed as <- <-. assert (us2 = []) as -> by (inversion P2; auto).
      change ((TParenL, 2) :: ts ++ [(TParenR, 2)]) with (((TParenL, 2) :: ts) ++ [(TParenR, 2)]) in Ea.
      apply app_inj_tail in Ea as (_&Ea). discriminate.
    - injection Ed as <- <-. assert (us2 = []) as -> by (inversion P2; auto). rewrite app_nil_r in Ea. now rewrite Ea. }
  inversion D as [|t k ts0 e0 r D1]; subst. clear D. inversion D1 as [c ts0 e0 r D2 Nx| | | | | | | | | | | | | | | | | | | | ]; subst. clear D1.
  inversion D2 as [| |c ts0 f us e0 r D3 D4 Ek Et| | | | | | | | | | | | | | | | | | ]; subst. clear D2.
  pose proof (args_follow _ _ _ _ D4 _ _ _ eq_refl eq_refl [] eq_refl) as [(->&<-)|(_&_&g&x&Eg)]; [|discriminate Eg].
  rewrite app_nil_r in Et. subst ts0. inversion D3 as [| | | | | | | | | | | |k t k1 ts1 e1 k' r D5| | | | | | | | ]; subst.
  change ((t, k1) :: ts1 ++ [(TParenR, k')]) with (((t, k1) :: ts1) ++ [(TParenR, k')]) in *.
  match goal with H : _ ++ [_] = _ ++ [_] |- _ => apply app_inj_tail in H as (<-&_) end.
  exists t, k1, ts1. split; auto. eapply expr_mild; eauto. split; reflexivity.
Qed.

(** ** Operators *)

Lemma spelled_no_cr o s : spelled o s -> ~ In 13%N s.
Proof.
  intros H I. assert (K : forall f (l : str), all f l -> In 13%N l -> f 13%N = true) by (intros f l A J; exact (proj1 (Forall_forall _ _) A _ J)).
  destruct H as [s N A _ _ _|c u s W A _ Sc].
  - specialize (K _ _ A I). discriminate.
  - destruct I as [I|[I|I]]; [discriminate|subst c; discriminate W|].
    apply in_app_or in I as [I|I]; [specialize (K _ _ A I); discriminate|].
    apply in_app_or in I as [I|[I|[]]]; [specialize (K _ _ Sc I); discriminate|discriminate].
Qed.

(** An operator on a line of its own between two texts. *)
Theorem C108_operator : forall s x o so z y, expression_text s x -> spelled o so -> expression_text z y ->
  expression_text (operator_text s so z) (extend x o y).
Proof.
  intros s x o so z y X Sp Y. apply text_iff in X as (N&E&t&k&ts&T&D). apply text_iff in Y as (N'&E'&t'&k'&ts'&T'&D').
  apply text_iff. unfold operator_text, nl. split; [|split].
  - apply nolfcr_join; auto. apply nolfcr_line; auto; [eapply spelled_line; eauto|eapply spelled_no_cr; eauto].
  - apply ends_more, ends_more, ends_more. exact E'.
  - destruct (spelled_token _ _ Sp (10%N :: z) eq_refl eq_refl eq_refl) as (to&L&Op&_).
    exists t, k, (ts ++ (to, col_of so) :: (t', k') :: ts'). split.
    + change ((t, k) :: ts ++ (to, col_of so) :: (t', k') :: ts') with (((t, k) :: ts) ++ (to, col_of so) :: (t', k') :: ts').
      apply join0; auto. apply (ct_cons [] [] so to (10%N :: z)); [constructor|exact L|]. cbn [app]. apply ctokens_lf.
      rewrite <- (app_nil_r (so ++ [10%N])). apply ctokens_after; auto. now exists so.
    + refine (exprs_extends to o (col_of so) t' k' ts' y _ _ _ _ Op D [] _ D' x eq_refl). split; reflexivity.
Qed.

(** ** Applications *)

(** One text in parentheses applied to another; the second parenthesis is
    further to the right. *)
Theorem C108_applied : forall s f z x, expression_text s f -> expression_text z x ->
  expression_text (applied_text s z) (App (Grp f) (Grp x)).
Proof.
  intros s f z x X Y. apply text_iff in X as (N&E&t&k&ts&T&D). apply text_iff in Y as (N'&E'&t'&k'&ts'&T'&D').
  apply text_iff. unfold applied_text. split; [|split].
  - apply nolfcr_join; [now apply group_clean|apply group_ends|]. cbn [lit app]. apply nolfcr_front; try discriminate.
    apply nolf_cons, group_clean; auto.
  - do 2 apply ends_more. apply group_ends.
  - exists TParenL, 2. eexists. split.
    + change ((TParenL, 2) :: ?a) with ([(TParenL, 2)] ++ a).
      eassert (Z : ctokens [] (lit " " ++ group_text z) _).
      { cbn [lit app]. apply ctokens_space. cbn [app].
        apply (ct_cons [32%N] [] (lit "(") TParenL (nl ++ z ++ lit ")" ++ nl)); [constructor|apply le_punct; cbn; tauto|].
        cbn [app lit]. apply (ctokens_lf _ (z ++ [41%N; 10%N])). cbn [app].
        rewrite <- (app_nil_r [_; _; _]). apply ctokens_after; [|now exists [32%N; 40%N]]. apply join0; [exact T'|exact E'|apply paren_end]. }
      pose proof (join0 _ _ _ _ (group_tokens s _ T E) (group_ends s) Z) as K. exact K.
    + apply e_one; [|reflexivity].
      refine (e_app Nat.ltb 2 ((TParenL, 2) :: ((t, k) :: ts) ++ [(TParenR, 2)]) (Grp f) _ _ _ _ _).
      * apply t_group. eapply expr_mild; eauto. split; reflexivity.
      * rewrite <- (app_nil_r (_ :: _)). eapply a_cons; [reflexivity|reflexivity| |constructor; exact I].
        cbn [app]. apply (t_group Nat.ltb _ t' k' ts' x 2). eapply expr_mild; eauto. split; reflexivity.
Qed.

(** ** Lists *)

Lemma items_tokens ss es : Forall2 text_ ss es ->
  no_lfcr (10%N :: flat_map (fun s => s ++ lit "," ++ nl) ss ++ lit "]" ++ nl) /\
  exists ts, ctokens [] (flat_map (fun s => s ++ lit "," ++ nl) ss ++ lit "]" ++ nl) (ts ++ [(TBrackR, 2)]) /\
    exprs Nat.ltb KItems ts es [(TBrackR, 2)].
Proof.
  induction 1 as [|s e ss es (N&E&t&k&ts&T&D) F (IH1&us&IH2&IH3)]; cbn [flat_map app].
  - split; [apply one_end; discriminate|]. exists []. split; [apply brack_end|constructor].
  - rewrite <- !app_assoc. split.
    + apply nolfcr_join; auto. cbn [lit app]. apply nolfcr_front; try discriminate. exact IH1.
    + exists (((t, k) :: ts) ++ (TComma, 2) :: us). split.
      * rewrite <- app_assoc. apply join0; auto. cbn [app lit]. apply front; [cbn; tauto|]. exact IH2.
      * apply i_comma; auto. eapply expr_mild; eauto. split; reflexivity.
Qed.

(** Any number of texts, each with a comma after it, in brackets. *)
Theorem C108_list : forall ss es, Forall2 expression_text ss es -> expression_text (list_text ss) (List es).
Proof.
  intros ss es F. assert (F' : Forall2 text_ ss es) by (induction F; constructor; auto; now apply text_iff).
  destruct (items_tokens _ _ F') as (N&ts&T&D). apply text_iff. unfold list_text. split; [|split].
  - cbn [lit app]. apply nolfcr_front; try discriminate. exact N.
  - do 4 apply ends_more. now exists [].
  - exists TBrackL, 2, (ts ++ [(TBrackR, 2)]). split; [apply front; [cbn; tauto|exact T]|].
    apply e_one; [|reflexivity]. rewrite <- (app_nil_r (_ :: _)). eapply e_app; [|constructor; exact I]. now apply t_list.
Qed.

(** ** Tuples *)

Lemma lexeme_line s t v : lexeme s t v -> ~ In 39%N s -> ends_lf s -> False.
Proof.
  intros L I E. destruct L; try (apply I; now left).
  - destruct E as (s0&E). destruct s0 as [|? [|? ?]]; try discriminate. injection E as ->. repeat destruct H as [H|H]; try discriminate. destruct H.
  - repeat destruct H as [H|H]; try (injection H as <- <-; destruct E as (s0&E); apply (f_equal (@rev _)) in E; rewrite rev_app_distr in E; discriminate). destruct H.
  - destruct s as [|c' s].
    + rewrite app_nil_r in E. eapply (ends_lf_all _ (c :: u)); eauto.
    + apply (ends_lf_app (c :: u)) in E; [|discriminate]. eapply ends_lf_all; eauto; reflexivity.
  - eapply ends_lf_all; eauto; reflexivity.
  - apply (ends_lf_last (34%N :: b)) in E. discriminate.
  - replace (96%N :: c :: u ++ s ++ [96%N]) with ((96%N :: c :: u ++ s) ++ [96%N]) in E by (cbn [app]; rewrite <- app_assoc; auto).
    apply ends_lf_app in E; [|discriminate]. apply (ends_lf_last []) in E. discriminate.
  - repeat destruct H as [H|H]; try (injection H as <- <-; destruct E as (s0&E); apply (f_equal (@rev _)) in E; rewrite rev_app_distr in E; discriminate). destruct H.
  - destruct s as [|c' s].
    + rewrite app_nil_r in E. revert E; apply (ends_lf_all op_char); auto.
    + apply (ends_lf_app u) in E; [|discriminate]. revert E; apply (ends_lf_all script); auto.
Qed.

Lemma first_column s t k ts : ctokens [] s ((t, k) :: ts) -> ~ In 39%N s -> 2 <= k.
Proof.
  intros T I. remember ((t, k) :: ts) as us eqn:Eu. destruct T as [g G|g s t' v ts' G L T]; [discriminate|].
  injection Eu as -> <- ->. pose proof (lexeme_nonempty HU _ _ _ L) as Ns. destruct (@exists_last _ s Ns) as (s0&c&Es).
  assert (Nc : c <> 10%N).
  { intros ->. eapply lexeme_line; eauto; [|now exists s0]. intros J. apply I. apply in_or_app. right. apply in_or_app. now left. }
  cbn [app]. rewrite Es, app_assoc, col_of_snoc. apply N.eqb_neq in Nc. rewrite Nc.
  assert (K : 1 <= col_of (g ++ s0)) by (unfold col_of; lia). lia.
Qed.

Lemma commas_tokens ss es : Forall2 text_ ss es -> Forall (fun s => ~ In 39%N s) ss ->
  no_lfcr (10%N :: flat_map (fun s => lit "," ++ nl ++ s) ss ++ lit ")" ++ nl) /\
  exists ts, ctokens [] (flat_map (fun s => lit "," ++ nl ++ s) ss ++ lit ")" ++ nl) (ts ++ [(TParenR, 2)]) /\
    exprs Nat.ltb KTail ts es [(TParenR, 2)] /\ (ss <> [] -> exists us, ts = (TComma, 2) :: us) /\ (ss = [] -> ts = []).
Proof.
  induction 1 as [|s e ss es (N&E&t&k&ts&T&D) F IH]; intros Q; cbn [flat_map app].
  - split; [apply one_end; discriminate|]. exists []. split; [apply paren_end|]. split; [now constructor|split; [congruence|auto]].
  - inversion Q as [|? ? Qs Qss]; subst. destruct (IH Qss) as (IH1&us&IH2&IH3&IH4&IH5). rewrite <- !app_assoc. split.
    + cbn [lit app]. apply nolfcr_front; try discriminate. apply (nolfcr_join s); auto.
    + exists ((TComma, 2) :: ((t, k) :: ts) ++ us). split.
      * cbn [lit app]. apply front; [cbn; tauto|]. rewrite <- app_assoc. apply (join0 s ((t, k) :: ts)); auto.
      * split; [|split; [eauto|discriminate]]. apply tl_cons; auto.
        assert (M : mild (us ++ [(TParenR, 2)])).
        { destruct ss as [|s' ss]; [rewrite (IH5 eq_refl); split; reflexivity|]. destruct IH4 as (us'&->); [discriminate|]. split; reflexivity. }
        apply (expr_lower k); [eapply expr_mild; eauto|apply M|eapply first_column; eauto].
Qed.

(** Two or more texts with commas between them in parentheses.  After a comma,
    the column of the comma is what arguments are compared with: no text after
    the first has an apostrophe in it (see below). *)
Theorem C108_tuple_partial : forall s e ss es, expression_text s e -> Forall2 expression_text ss es -> ss <> [] ->
  Forall (fun s => ~ In 39%N s) ss -> expression_text (tuple_text s ss) (Tup (e :: es)).
Proof.
  intros s e ss es X F Ne Q. assert (F' : Forall2 text_ ss es) by (clear -F HU; induction F; constructor; auto; now apply text_iff).
  apply text_iff in X as (N&E&t&k&ts&T&D).
  destruct (commas_tokens _ _ F' Q) as (N'&us&T'&D'&Hu&_). destruct (Hu Ne) as (us'&->). apply text_iff. unfold tuple_text. split; [|split].
  - cbn [lit app]. apply nolfcr_front; try discriminate. apply (nolfcr_join s); auto.
  - do 5 apply ends_more. now exists [].
  - exists TParenL, 2, (((t, k) :: ts) ++ ((TComma, 2) :: us') ++ [(TParenR, 2)]). split.
    + apply front; [cbn; tauto|]. apply join0; auto.
    + apply e_one; [|reflexivity]. rewrite <- (app_nil_r (_ :: _)). eapply e_app; [|constructor; exact I].
      apply t_tuple; auto; [|discriminate]. eapply expr_mild; eauto. split; reflexivity.
Qed.
End WithUcd.

(** Two texts in parentheses and an operator between them. *)
Corollary C108_infix {U : ucd} : letters U -> forall s x o so z y, expression_text s x -> spelled o so -> expression_text z y ->
  expression_text (operator_text (group_text s) so (group_text z)) (Bin (Grp x) o (Grp y)).
Proof. intros HU s x o so z y X Sp Y. exact (C108_operator HU _ _ _ _ _ _ (C108_group HU _ _ X) Sp (C108_group HU _ _ Y)). Qed.

Print Assumptions C108_group.
Print Assumptions C108_group_only.
Print Assumptions C108_operator.
Print Assumptions C108_applied.
Print Assumptions C108_list.
Print Assumptions C108_tuple_partial.
Print Assumptions C108_infix.

(** ** Examples *)

Local Existing Instance ucd_none.

Ltac text := match goal with |- expression_text ?s _ =>
  split; [apply clean_ok; vm_compute; reflexivity|split; [exists (removelast s); vm_compute; reflexivity|split; vm_compute; eauto]] end.

Definition v_ (s : string) : expr := Var (ILower (lit s)).

Example C108_ex_sum : expression_text (lit "f x ~~ a comment" ++ nl ++ lit "+ \y -> y" ++ nl)
  (Bin (App (v_ "f") (v_ "x")) (Standard (lit "+")) (Lam (PVar (lit "y")) (v_ "y"))).
Proof. text. Qed.
Example C108_ex_one : expression_text (lit "1" ++ nl) (Lit (LInt 1)).
Proof. text. Qed.

(** The lambda takes the rest with it. *)
Example C108_ex_operator : expression_text (lit "f x ~~ a comment" ++ nl ++ lit "+ \y -> y" ++ nl ++ lit "*" ++ nl ++ lit "1" ++ nl)
  (Bin (App (v_ "f") (v_ "x")) (Standard (lit "+")) (Lam (PVar (lit "y")) (Bin (v_ "y") (Standard (lit "*")) (Lit (LInt 1))))).
Proof. text. Qed.

(** A semicolon is no part of an expression. *)
Example C108_ex_semicolon : (exists l, parse (lit "x;" ++ nl) = POk (only (v_ "x")) l) /\
  ~ expression_text (lit "x;" ++ nl) (v_ "x") /\ exists e l, parse (group_text (lit "x;" ++ nl)) = PErr e l.
Proof. split; [vm_compute; eauto|split; [|vm_compute; eauto]]. intros (_&_&_&(l&K)). vm_compute in K. discriminate K. Qed.

(** A character that takes the newline with it, and an argument at the start of
    the next line: an expression, but not after a comma. *)
Theorem C108_tuple_refuted :
  expression_text (lit "x" ++ nl) (v_ "x") /\
  expression_text (lit "'\u41'" ++ nl ++ lit "y" ++ nl) (App (Lit (LChar 65)) (v_ "y")) /\
  exists e l, parse (tuple_text (lit "x" ++ nl) [lit "'\u41'" ++ nl ++ lit "y" ++ nl]) = PErr e l.
Proof. split; [text|]. split; [text|]. vm_compute. eauto. Qed.
Print Assumptions C108_tuple_refuted.
