(** Which sentences of the README are read as one expression. *)
From Coq Require Import List Arith NArith Bool String Lia.
From Verif Require Import Prelim Chars Syntax SpecLexer SpecParser SpecReadme Parser ProofParser6 ProofParser7 ProofReadme.
Import ListNotations.

(** * What the tokens of a sentence are like *)

(** A lambda has names before its arrow. *)
Definition lam_ok (ts : list token) : Prop := forall a b, ts = a ++ TLambda :: b ->
  exists ps c, b = ps ++ TArrow :: c /\ Forall (fun t => pat_tok t = true) ps.

Lemma lam_suffix a b : lam_ok (a ++ b) -> lam_ok b.
Proof. intros H c d ->. apply (H (a ++ c) d). now rewrite <- app_assoc. Qed.

Lemma lam_app a b : lam_ok a -> lam_ok b -> lam_ok (a ++ b).
Proof.
  intros A B c d E. apply app_eq_app in E as (l&[(E1&E2)|(E1&E2)]).
  - destruct l as [|t l]; [|injection E2 as <- ->].
    + cbn in E2. apply (B [] d). auto.
    + destruct (A c l E1) as (ps&e&->&P). exists ps, (e ++ b). split; auto. now rewrite <- app_assoc.
  - apply (B l d). auto.
Qed.
Lemma lam_none ts : ~ In TLambda ts -> lam_ok ts.
Proof. intros N a b ->. exfalso. apply N, in_elt. Qed.
Lemma lam_cons t ts : t <> TLambda -> lam_ok ts -> lam_ok (t :: ts).
Proof. intros N H. apply (lam_app [t]); auto. apply lam_none. intros [X|[]]; congruence. Qed.

Lemma fixity_in f t : fixity_toks f -> In t f -> infix_tok t = true \/ assoc_tok t = true \/ t = TComma \/ exists x, t = TLit x.
Proof.
  assert (K : forall ts, infixes_toks ts -> In t ts -> infix_tok t = true \/ t = TComma).
  { induction 1 as [x I|x ts I H IH]; intros J.
    - destruct J as [<-|[]]; auto.
    - destruct J as [<-|[<-|J]]; auto. }
  intros [a n ts A _ I|a ts A I] J.
  - destruct J as [<-|[<-|J]]; eauto 6. destruct (K _ I J); auto.
  - destruct J as [<-|J]; auto. destruct (K _ I J); auto.
Qed.

Lemma derives_lam x ts : derives x ts -> lam_ok ts.
Proof.
  induction 1 as [ps e N F H IH|f e Fx H IH|e H IH|a H IH|f a H IH H' IH'|s|x|t I|e H IH|e m H IH H' IH' N|e m H IH H' IH'|e t e' H IH I H' IH'| |e m H IH H' IH']; auto.
  - intros a b E. destruct a as [|t a].
    + injection E as <-. exists ps, e. auto.
    + injection E as <- E. assert (X : lam_ok (ps ++ TArrow :: e)); [|apply (X _ _ E)]. apply lam_app; [|apply lam_cons; auto; discriminate].
      apply lam_none. intros J. rewrite Forall_forall in F. apply F in J. discriminate.
  - apply lam_cons; [discriminate|]. apply lam_app; [|apply lam_cons; auto; discriminate].
    apply lam_none. intros J. destruct (fixity_in _ _ Fx J) as [X|[X|[X|(x&X)]]]; discriminate.
  - apply lam_app; auto.
  - apply lam_none. intros [X|[]]; discriminate.
  - apply lam_none. intros [X|[]]; discriminate.
  - apply lam_none. intros [X|[X|[X|[]]]]; try discriminate. subst. discriminate.
  - apply lam_cons; [discriminate|]. apply lam_app; auto. apply lam_none. intros [X|[]]; discriminate.
  - apply lam_cons; [discriminate|]. repeat apply lam_app; auto. apply lam_none. intros [X|[]]; discriminate.
  - apply lam_cons; [discriminate|]. repeat apply lam_app; auto. apply lam_none. intros [X|[]]; discriminate.
  - apply lam_app; auto. apply lam_cons; auto. intros ->. discriminate.
  - apply lam_none. auto.
  - apply lam_cons; [discriminate|]. apply lam_app; auto.
Qed.

Lemma derives_no_semi x ts : derives x ts -> ~ In TSemi ts.
Proof.
  induction 1 as [ps e N F H IH|f e Fx H IH|e H IH|a H IH|f a H IH H' IH'|s|x|t I|e H IH|e m H IH H' IH' N|e m H IH H' IH'|e t e' H IH I H' IH'| |e m H IH H' IH']; auto;
    cbn [In]; rewrite ?in_app_iff; cbn [In]; rewrite ?in_app_iff; cbn [In]; intuition (try discriminate).
  - rewrite Forall_forall in F. match goal with X : In TSemi ps |- _ => apply F in X end. discriminate.
  - match goal with X : In TSemi f |- _ => destruct (fixity_in _ _ Fx X) as [Y|[Y|[Y|(y&Y)]]]; discriminate end.
  - subst. discriminate.
  - subst. discriminate.
Qed.

(** * What the program reads is tame *)

Lemma pats_no_arrow q ts ps r : pats q ts ps r -> ~ In TArrow (map fst ts).
Proof.
  induction 1; cbn [map fst In]; rewrite ?map_app, ?in_app_iff; cbn [map fst In]; rewrite ?map_app, ?in_app_iff; cbn [map fst In]; intuition discriminate.
Qed.

(** Last tokens of expressions. *)
Definition operand_end (t : token) : bool := ends_operand t || match t with TUpper _ => true | _ => false end.

Lemma pair_operand st x o : operand_end x = true -> abstr o = false -> pair_ok st (Some x) o = true.
Proof. intros E A. cbn [pair_ok]. destruct x; try discriminate E; destruct o; try discriminate A; reflexivity. Qed.
Lemma pair_list st x t : operand_end x = true -> bracket st = true -> pair_ok st (Some x) t = true.
Proof. intros E B. cbn [pair_ok]. rewrite B, andb_true_r. destruct x; try discriminate E; destruct t; reflexivity. Qed.
Lemma pair_any st x t : ends_operand x = false -> x <> TParenL -> assoc_tok x = false -> pair_ok st (Some x) t = true.
Proof. intros A B C. cbn [pair_ok]. unfold apart. rewrite A, C. destruct x; try congruence; reflexivity. Qed.

Definition first_ok (st : list token) (p : option token) (ts : list ptok) : Prop :=
  match ts with (t, _) :: _ => pair_ok st p t = true | [] => True end.

Lemma operators_fine ts is r : operators ts is r -> forall st x, (next_is is_affix ts = true \/ assoc_tok x = false) -> x <> TParenL ->
  fine st (Some x) (map fst ts) = true /\ open_after st (map fst ts) = st.
Proof.
  assert (K : forall t i, operator t i -> infix_tok t = true) by (intros t i []; reflexivity).
  assert (Kp : forall st x t, infix_tok t = true -> (is_affix t = true \/ assoc_tok x = false) -> x <> TParenL -> pair_ok st (Some x) t = true).
  { intros st x t I A N. cbn [pair_ok]. unfold apart. destruct t; try discriminate I; destruct A as [A|A]; try discriminate A; rewrite ?A; destruct x; try congruence; reflexivity. }
  induction 1 as [t k i r O N|t k i k' ts is r O H IH]; intros st x A P; cbn [map fst fine next_is] in *.
  - split; [|apply flat_infix; eauto]. rewrite Kp; eauto.
  - destruct (IH (turn (turn st t) TComma) TComma) as (F&Op); [right; reflexivity|discriminate|].
    rewrite Kp, F; eauto. rewrite !open_cons, Op. split; [|cbn; apply flat_infix; eauto].
    rewrite pair_any; auto; apply K in O; destruct t; try discriminate O; try reflexivity; discriminate.
Qed.

Lemma declares_fine ts d r : declares ts d r -> forall st,
  fine st (Some TLet) (map fst ts) = true /\ open_after st (map fst ts) = st.
Proof.
  assert (K : forall t a, associativity t a -> assoc_tok t = true) by (intros t a []; reflexivity).
  intros [t a k n k' us is r' A L O|t a k us is r' A Nx O] st; cbn [map fst fine]; pose proof (K _ _ A) as At.
  - destruct (operators_fine _ _ _ O (turn (turn st t) (TLit (LInt n))) (TLit (LInt n))) as (F&Op); [right; reflexivity|discriminate|].
    rewrite F, !open_cons, Op. destruct t; try discriminate At; split; reflexivity.
  - destruct (operators_fine _ _ _ O (turn st t) t) as (F&Op); [left; auto|intros ->; discriminate|].
    rewrite F, !open_cons, Op. destruct t; try discriminate At; split; reflexivity.
Qed.

Lemma names_fine ps : Forall (fun t => pat_tok t = true) ps -> forall st x, fine st (Some x) ps = true \/ x = TParenL \/ assoc_tok x = true.
Proof.
  induction 1 as [|t ps P F IH]; intros st x; [left; reflexivity|]. cbn [fine].
  destruct (IH (turn st t) t) as [->|[->|X]]; [|discriminate|destruct t; discriminate].
  rewrite andb_true_r. left. cbn [pair_ok]. destruct t; try discriminate P; destruct x; reflexivity.
Qed.

Section Lay.
Variable lay : nat -> nat -> bool.

Definition lam_here (ts : list ptok) : Prop := lam_ok (map fst ts).
Lemma here_r a b : lam_here (a ++ b) -> lam_here b.
Proof. unfold lam_here. rewrite map_app. apply lam_suffix. Qed.
Lemma here_tl a b : lam_here (a :: b) -> lam_here b.
Proof. apply (here_r [a]). Qed.

Lemma begins_pair st x t : begins_expr t false = true -> x = TParenL -> pair_ok st (Some x) t = true.
Proof. intros B ->. destruct t; try discriminate B; reflexivity. Qed.

(** Tokens that leave the brackets as they are, and the last of them. *)
Definition run (st : list token) (p : option token) (ts : list token) (q : option token) : Prop :=
  fine st p ts = true /\ open_after st ts = st /\ final p ts = q.

Lemma run_nil st p : run st p [] p.
Proof. repeat split. Qed.
Lemma run_app st p a q b q' : run st p a q -> run st q b q' -> run st p (a ++ b) q'.
Proof. intros (A&B&C) (D&E&F). unfold run. rewrite fine_app, open_app, final_app, A, B, C, D, E. auto. Qed.
Lemma run_cons st p t ts q : turn st t = st -> pair_ok st p t = true -> run st (Some t) ts q -> run st p (t :: ts) q.
Proof. intros A B (C&D&E). unfold run. cbn [fine]. rewrite open_cons, A, B, C, D. auto. Qed.
Lemma run_paren st p ts q : pair_ok st p TParenL = true -> run (TParenL :: st) (Some TParenL) ts q -> 
  run st p (TParenL :: ts ++ [TParenR]) (Some TParenR).
Proof.
  intros A (B&C&D). unfold run. cbn [fine]. rewrite A, open_cons, open_app, fine_app. change (turn st TParenL) with (TParenL :: st).
  rewrite B, C, D. cbn [fine]. rewrite andb_true_r. cbn [andb]. split; [|split; auto].
  - destruct q as [q|]; auto. destruct q; reflexivity.
  - apply (final_last _ (TParenL :: ts)).
Qed.
Lemma run_brack st p ts q : pair_ok st p TBrackL = true -> run (TBrackL :: st) (Some TBrackL) ts q -> 
  run st p (TBrackL :: ts ++ [TBrackR]) (Some TBrackR).
Proof.
  intros A (B&C&D). unfold run. cbn [fine]. rewrite A, open_cons, open_app, fine_app. change (turn st TBrackL) with (TBrackL :: st).
  rewrite B, C, D. cbn [fine]. rewrite andb_true_r. cbn [andb]. split; [|split; auto].
  - destruct q as [q|]; auto. destruct q; reflexivity.
  - apply (final_last _ (TBrackL :: ts)).
Qed.
Lemma run_plain st p ts : fine st p ts = true -> open_after st ts = st -> run st p ts (final p ts).
Proof. repeat split; auto. Qed.

Lemma arrow_names a z qs c : a ++ TArrow :: z = qs ++ TArrow :: c -> ~ In TArrow a ->
  Forall (fun t => pat_tok t = true) qs -> Forall (fun t => pat_tok t = true) a.
Proof.
  revert qs. induction a as [|t a IH]; intros qs E Na Q; auto. destruct qs as [|q qs]; cbn in E.
  - injection E as -> _. exfalso. apply Na. now left.
  - injection E as <- E. inversion Q; subst. constructor; auto. eapply IH; eauto. intros J. apply Na. now right.
Qed.

Definition ends_well (q : option token) : Prop := exists x, q = Some x /\ operand_end x = true.

Lemma first_begins st p ts t k u : first_ok st p ts -> ts = (t, k) :: u -> pair_ok st p t = true.
Proof. intros F ->. exact F. Qed.
Lemma first_l st p a b : first_ok st p (a ++ b) -> first_ok st p a.
Proof. destruct a as [|[t k] a]; cbn; auto. Qed.
Lemma first_any st x ts : ends_operand x = false -> x <> TParenL -> assoc_tok x = false -> first_ok st (Some x) ts.
Proof. destruct ts as [|[t k] ts]; cbn; auto. intros. apply pair_any; auto. Qed.
Lemma first_args c f ts e r st q : exprs lay (KArgs c f) ts [e] r -> ends_well q -> first_ok st q ts.
Proof.
  intros H (x&->&X). inversion H as [| | | |? ? t ? ? ? ? ? ? A| | | | | | | | | | | | | | | |]; subst; [exact I|]. apply pair_operand; auto.
  destruct t; try discriminate A; reflexivity.
Qed.

Lemma exprs_fine q ts es r : exprs lay q ts es r -> lam_here (ts ++ r) -> forall st p, first_ok st p ts ->
  (q = KItems -> bracket st = true) ->
  exists z, run st p (map fst ts) z /\
  match q with
  | KExpr _ | KApp _ | KAtom => ends_well z
  | KArgs _ _ => ends_well p -> ends_well z
  | _ => True
  end.
Proof.
  induction 1 as [c ts e r H IH N|c ts x o i k t k' us e r H IH O H' IH'|c ts f us e r H IH H' IH'|c f r N|c f t k ts x us e r A La H IH H' IH'
    |x k r|s k r|s k r|k ts p0 ps k' us e r P H IH|k k' r|k s b k1 k' r|k cs k' r N F|k t k1 ts e k' r H IH|k t k1 ts e us es k' r H IH H' IH' N
    |k ts es k' r H IH|k ts d k' us e r D H IH|r N|k ts e us es r H IH H' IH'|k r|t k ts e k' us es r H IH H' IH'|t k ts e us es r H IH N H' IH'];
    intros Lm st p Fo It.
  - apply IH; auto. discriminate.
  - assert (Oi : infix_tok o = true) by (destruct O; reflexivity). rewrite <- app_assoc in Lm.
    destruct (IH Lm st p (first_l _ _ _ _ Fo)) as (z1&R1&(x1&->&X1)); [discriminate|].
    apply here_r in Lm. cbn [app] in Lm. apply here_tl in Lm.
    destruct (IH' Lm st (Some o)) as (z2&R2&W2). { apply first_any; destruct o; try discriminate Oi; try reflexivity; discriminate. } { discriminate. }
    exists z2. split; auto. rewrite map_app. eapply run_app; [exact R1|]. cbn [map fst] in *. apply run_cons; auto; [now apply flat_infix|].
    apply pair_operand; auto. destruct o; try discriminate Oi; reflexivity.
  - rewrite <- app_assoc in Lm. destruct (IH Lm st p (first_l _ _ _ _ Fo)) as (z1&R1&W1); [discriminate|]. apply here_r in Lm.
    destruct (IH' Lm st z1) as (z2&R2&W2). { eapply first_args; eauto. } { discriminate. }
    exists z2. split; auto. rewrite map_app. eapply run_app; eauto.
  - exists p. split; auto. apply run_nil.
  - rewrite <- app_assoc in Lm. destruct (IH Lm st p (first_l _ _ _ _ Fo)) as (z1&R1&W1); [discriminate|]. apply here_r in Lm.
    destruct (IH' Lm st z1) as (z2&R2&W2). { eapply first_args; eauto. } { discriminate. }
    exists z2. split; auto. rewrite map_app. eapply run_app; eauto.
  - exists (Some (TLit x)). split; [|exists (TLit x); auto]. apply run_cons; auto. apply run_nil.
  - exists (Some (TUpper s)). split; [|exists (TUpper s); auto]. apply run_cons; auto. apply run_nil.
  - exists (Some (TLower s)). split; [|exists (TLower s); auto]. apply run_cons; auto. apply run_nil.
  - pose proof (pats_no_arrow _ _ _ _ P) as Na.
    assert (Q : Forall (fun t => pat_tok t = true) (map fst ts)).
    { unfold lam_here in Lm. cbn [app map fst] in Lm. destruct (Lm [] _ eq_refl) as (qs&c&E&Q).
      rewrite <- app_assoc, map_app in E. cbn [app map fst] in E. eapply arrow_names; [exact E|exact Na|exact Q]. }
    cbn [app] in Lm. apply here_tl in Lm. rewrite <- app_assoc in Lm. apply here_r in Lm. cbn [app] in Lm. apply here_tl in Lm.
    destruct (IH Lm st (Some TArrow)) as (z2&R2&W2). { apply first_any; try reflexivity; discriminate. } { discriminate. }
    exists z2. split; auto. cbn [map fst]. rewrite map_app. cbn [map fst]. apply run_cons; auto.
    eapply run_app; [apply run_plain; [|now apply flat_pats]|].
    + destruct (names_fine _ Q st TLambda) as [X|[X|X]]; auto; discriminate X.
    + apply run_cons; auto. destruct (final _ _) as [y|]; auto. destruct y; reflexivity.
  - exists (Some TParenR). split; [|exists TParenR; auto]. apply (run_paren st p [] (Some TParenL)); auto. apply run_nil.
  - exists (Some TParenR). split; [|exists TParenR; auto]. apply (run_paren st p [TAffix s b] (Some (TAffix s b))); auto. apply run_cons; auto. apply run_nil.
  - exists (Some TParenR). split; [|exists TParenR; auto]. cbn [map fst]. rewrite map_app. eapply run_paren; auto.
    assert (X : forall st x, exists z, run st (Some x) (map fst cs) z).
    { clear - F. induction F as [|[t k] cs E F IH]; intros st x; [eexists; apply run_nil|]. cbn in E. subst t.
      destruct (IH st TComma) as (z&R). exists z. cbn [map fst]. apply run_cons; auto. destruct x; reflexivity. }
    destruct (X (TParenL :: st) TParenL) as (z&R). destruct R as (R1&R2&R3). unfold run. rewrite R3. eauto.
  - destruct (exprs_start _ _ _ _ _ H) as (t0&k0&u0&Et&B). injection Et as <- <- <-.
    cbn [app] in Lm. apply here_tl in Lm. change ((t, k1) :: (ts ++ [(TParenR, k')]) ++ r) with ((((t, k1) :: ts) ++ [(TParenR, k')]) ++ r) in Lm. rewrite <- app_assoc in Lm.
    destruct (IH Lm (TParenL :: st) (Some TParenL)) as (z1&R1&W1). { apply begins_pair; auto. } { discriminate. }
    exists (Some TParenR). split; [|exists TParenR; auto]. cbn [map fst]. rewrite map_app. eapply run_paren; eauto.
  - destruct (exprs_start _ _ _ _ _ H) as (t0&k0&u0&Et&B). injection Et as <- <- <-.
    cbn [app] in Lm. apply here_tl in Lm. change ((t, k1) :: (ts ++ us ++ [(TParenR, k')]) ++ r) with ((((t, k1) :: ts) ++ us ++ [(TParenR, k')]) ++ r) in Lm. rewrite <- !app_assoc in Lm.
    destruct (IH Lm (TParenL :: st) (Some TParenL)) as (z1&R1&W1). { apply begins_pair; auto. } { discriminate. }
    apply here_r in Lm. destruct (IH' Lm (TParenL :: st) z1) as (z2&R2&_).
    { destruct W1 as (x1&->&X1). inversion H'; subst; [exact I|]. apply pair_operand; auto. } { discriminate. }
    exists (Some TParenR). split; [|exists TParenR; auto]. cbn [map fst]. rewrite !map_app, app_assoc. eapply run_paren; [exact Fo|]. eapply run_app; eauto.
  - cbn [app] in Lm. apply here_tl in Lm. rewrite <- app_assoc in Lm.
    destruct (IH Lm (TBrackL :: st) (Some TBrackL)) as (z1&R1&_). { apply first_any; try reflexivity; discriminate. } { reflexivity. }
    exists (Some TBrackR). split; [|exists TBrackR; auto]. cbn [map fst]. rewrite map_app. eapply run_brack; eauto.
  - cbn [app] in Lm. apply here_tl in Lm. rewrite <- app_assoc in Lm. apply here_r in Lm. cbn [app] in Lm. apply here_tl in Lm.
    destruct (IH Lm st (Some TIn)) as (z2&R2&W2). { apply first_any; try reflexivity; discriminate. } { discriminate. }
    destruct (declares_fine _ _ _ D st) as (F1&O1).
    exists z2. split; auto. cbn [map fst]. rewrite map_app. cbn [map fst]. apply run_cons; auto.
    eapply run_app; [apply run_plain; eauto|]. apply run_cons; auto. destruct (final _ _) as [y|]; auto. destruct y; reflexivity.
  - exists p. split; auto. apply run_nil.
  - cbn [app] in Lm. apply here_tl in Lm. rewrite <- app_assoc in Lm.
    destruct (IH Lm st (Some TComma)) as (z1&R1&W1). { apply first_any; try reflexivity; discriminate. } { discriminate. }
    apply here_r in Lm. destruct (IH' Lm st z1) as (z2&R2&_).
    { destruct W1 as (x1&->&X1). inversion H'; subst; [exact I|]. apply pair_operand; auto. } { discriminate. }
    exists z2. split; auto. cbn [map fst]. rewrite map_app. apply run_cons; auto. eapply run_app; eauto.
  - exists p. split; auto. apply run_nil.
  - rewrite <- app_assoc in Lm. destruct (IH Lm st p Fo) as (z1&R1&(x1&->&X1)); [discriminate|]. apply here_r in Lm. cbn [app] in Lm. apply here_tl in Lm.
    destruct (IH' Lm st (Some TComma)) as (z2&R2&_); auto. { apply first_any; try reflexivity; discriminate. }
    exists z2. split; auto. rewrite map_app. eapply run_app; [exact R1|]. cbn [map fst]. apply run_cons; auto. apply pair_operand; auto.
  - rewrite <- app_assoc in Lm. destruct (IH Lm st p Fo) as (z1&R1&(x1&->&X1)); [discriminate|]. apply here_r in Lm.
    destruct (IH' Lm st (Some x1)) as (z2&R2&_); auto. { destruct us as [|[t0 k0] us]; [exact I|]. apply pair_list; auto. }
    exists z2. split; auto. rewrite map_app. eapply run_app; [exact R1|]. exact R2.
Qed.

(** A sentence of the README read as one expression is tame. *)
Lemma one_expr_tame ts (cts : list ptok) e : derives Expr ts -> map fst cts = ts -> program lay cts [DExpr e] -> tame ts.
Proof.
  intros D E P. apply tame_fine. pose proof (derives_lam _ _ D) as Lm. pose proof (derives_no_semi _ _ D) as Ns.
  inversion P as [|ts1 d1 k us ds1 D1 P1|ts1 d1 us ds1 D1 N1 P1]; subst.
  - exfalso. apply Ns. rewrite map_app. apply in_or_app. right. now left.
  - inversion P1; subst. rewrite app_nil_r in *. inversion D1; subst.
    match goal with X : exprs _ _ _ _ _ |- _ => destruct (exprs_fine _ _ _ _ X) with (st := @nil token) (p := @None token) as (z&(R&_)&_) end; auto.
    + unfold lam_here. rewrite app_nil_r. exact Lm.
    + reflexivity.
    + discriminate.
Qed.
End Lay.
