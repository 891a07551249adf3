(** Lemmas for C108. *)
From Coq Require Import List Arith NArith Bool String Lia.
From Verif Require Import Prelim Chars Syntax Lexer SpecLexer ProofLexer Parser SpecParser SpecViable SpecShape SpecCompose
  ProofParser ProofParser3 ProofParser6 ProofParser7 ProofParser8 ProofParser9 ProofParser11 ProofParser12 ProofShape ProofShape2 PropsShape.
Import ListNotations.
Local Open Scope string_scope.
Local Open Scope list_scope.

(** * What may follow an expression *)

Definition mild (r : list ptok) : Prop := next_is is_op r = false /\ next_is arg_start r = false.

Lemma mild_no_arg c r : mild r -> no_arg Nat.ltb c r.
Proof. destruct r as [|(t,k) r]; cbn; auto. intros (_&H). cbn in H. now rewrite H. Qed.

Definition in_stead (q : ekind) (r r' : list ptok) : Prop :=
  hd_error r = hd_error r' \/ q <> KItems /\ q <> KTail /\ mild r'.

Lemma in_stead_app q q' us r r' : in_stead q r r' -> q' <> KItems -> q' <> KTail -> in_stead q' (us ++ r) (us ++ r').
Proof.
  intros H Q Q'. destruct us as [|u us]; [|left; auto]. destruct H as [H|(_&_&H)]; [left; auto|right; auto].
Qed.
Lemma in_stead_kind q q' r r' : in_stead q r r' -> q' <> KItems -> q' <> KTail -> in_stead q' r r'.
Proof. apply (in_stead_app q q' []). Qed.

Lemma exprs_mild q ts es r : exprs Nat.ltb q ts es r -> forall r', in_stead q r r' -> exprs Nat.ltb q ts es r'.
Proof.
  induction 1; intros r' E; try (constructor; auto; fail).
  - (* e_one *) constructor; [apply IHexprs; eapply in_stead_kind; eauto; discriminate|].
    destruct E as [E|(_&_&E)]; [rewrite <- (next_hd _ _ _ E); auto|apply E].
  - (* e_bin *) eapply e_bin; eauto; [apply IHexprs1; left; auto|]. apply IHexprs2; eapply in_stead_kind; eauto; discriminate.
  - (* e_app *) eapply e_app; [apply IHexprs1; eapply in_stead_app; eauto; discriminate|].
    apply IHexprs2; eapply in_stead_kind; eauto; discriminate.
  - (* a_nil *) constructor. destruct E as [E|(_&_&E)]; [eapply no_arg_hd; eauto|apply mild_no_arg; auto].
  - (* a_cons *) eapply a_cons; eauto; [apply IHexprs1; eapply in_stead_app; eauto; discriminate|].
    apply IHexprs2; eapply in_stead_kind; eauto; discriminate.
  - (* t_lam *) eapply t_lam; [eapply pats_hd; eauto|]. apply IHexprs; eapply in_stead_kind; eauto; discriminate.
  - (* t_group *) apply t_group. apply IHexprs. left. auto.
  - (* t_tuple *) apply t_tuple; auto; [apply IHexprs1; left; destruct us; auto|apply IHexprs2; left; auto].
  - (* t_list *) apply t_list. apply IHexprs. left. auto.
  - (* t_let *) eapply t_let; [eapply declares_hd; eauto|]. apply IHexprs; eapply in_stead_kind; eauto; discriminate.
  - (* tl_nil *) destruct E as [E|(_&E&_)]; [|congruence]. constructor. rewrite <- (next_hd _ _ _ E); auto.
  - (* tl_cons *) destruct E as [E|(_&E&_)]; [|congruence]. constructor; [apply IHexprs1; left; apply hd_app; auto|apply IHexprs2; left; auto].
  - (* i_nil *) destruct E as [E|(E&_)]; [|congruence]. destruct r' as [|x r']; [discriminate|]. injection E as <-. constructor.
  - (* i_comma *) destruct E as [E|(E&_)]; [|congruence]. apply i_comma; [apply IHexprs1; left; auto|apply IHexprs2; left; auto].
  - (* i_plain *) destruct E as [E|(E&_)]; [|congruence]. apply i_plain.
    + apply IHexprs1. left. apply hd_app; auto.
    + rewrite <- (next_hd is_comma (us ++ r)); auto. apply hd_app; auto.
    + apply IHexprs2. left. auto.
Qed.

Lemma expr_mild c ts e r r' : exprs Nat.ltb (KExpr c) ts [e] r -> mild r' -> exprs Nat.ltb (KExpr c) ts [e] r'.
Proof. intros D M. eapply exprs_mild; eauto. right. repeat split; try discriminate; apply M. Qed.

(** ** An operator and another expression *)

Lemma atom_closed t k ts x r r' : exprs Nat.ltb KAtom ((t, k) :: ts) [x] r -> arg_start t = true ->
  exprs Nat.ltb KAtom ((t, k) :: ts) [x] r'.
Proof.
  intros D A. remember KAtom as q eqn:Q. remember ((t, k) :: ts) as us eqn:Eu. remember [x] as es eqn:Ee.
  destruct D; try discriminate Q; cbn [app] in Eu; injection Eu as <- <- <-; try discriminate A; injection Ee as <-; try (constructor; auto; fail).
  - apply (t_group Nat.ltb k0). eapply exprs_hd; eauto.
  - apply (t_tuple Nat.ltb k0); auto; eapply exprs_hd; eauto. destruct us; auto.
  - apply t_list. eapply exprs_hd; eauto.
Qed.

Lemma args_follow q ts es r : exprs Nat.ltb q ts es r -> forall c f e, q = KArgs c f -> es = [e] ->
  forall r', next_is arg_start r' = false ->
  (ts = [] /\ e = f) \/ (exprs Nat.ltb (KArgs c f) ts [e] r' /\ ts <> [] /\ exists g x, e = App g x).
Proof.
  induction 1; intros c0 f0 e0 Q Es r' M; try discriminate Q.
  - injection Q as <- <-. injection Es as <-. left. auto.
  - injection Q as <- <-. injection Es as <-. right. split; [|split; [discriminate|]].
    + destruct (IHexprs2 _ _ _ eq_refl eq_refl r' M) as [(->&->)|(K&_)].
      * eapply a_cons; eauto; [eapply atom_closed; eauto|]. constructor. destruct r' as [|(t',k') r']; cbn in *; auto. now rewrite M.
      * eapply a_cons; eauto. eapply atom_closed; eauto.
    + destruct (IHexprs2 _ _ _ eq_refl eq_refl r' M) as [(_&->)|(_&_&K)]; eauto.
Qed.

Lemma extend_lams ps : forall e o y, extend (fold_right Lam e ps) o y = fold_right Lam (extend e o y) ps.
Proof. induction ps as [|p ps IH]; intros; cbn; auto. now rewrite IH. Qed.

Lemma op_not_arg t i : operator t i -> arg_start t = false /\ is_op t = true.
Proof. intros []; auto. Qed.

(** [t k' zs] is the text of [y]. *)
Section After.
Variables (o : token) (i : infix) (k : nat) (t : token) (k' : nat) (zs : list ptok) (y : expr).

Definition tail_ (r : list ptok) : list ptok := (o, k) :: (t, k') :: zs ++ r.

Lemma exprs_extends q ts es r : operator o i -> exprs Nat.ltb q ts es r -> forall r', mild r' ->
  exprs Nat.ltb (KExpr k') ((t, k') :: zs) [y] r' ->
  match q with
  | KExpr c => forall x, es = [x] -> exprs Nat.ltb (KExpr c) (ts ++ (o, k) :: (t, k') :: zs) [extend x i y] r'
  | KApp c => forall x, es = [x] ->
      (exprs Nat.ltb (KApp c) ts [x] (tail_ r') /\ extend x i y = Bin x i y) \/
      exprs Nat.ltb (KApp c) (ts ++ (o, k) :: (t, k') :: zs) [extend x i y] r'
  | KAtom => forall x, es = [x] ->
      ((forall r2, exprs Nat.ltb KAtom ts [x] r2) /\ extend x i y = Bin x i y) \/
      exprs Nat.ltb KAtom (ts ++ (o, k) :: (t, k') :: zs) [extend x i y] r'
  | _ => True
  end.
Proof.
  intros Op. destruct (op_not_arg _ _ Op) as (Na&Io). induction 1; intros r' M Y; auto; intros x0 Ex; try (injection Ex as <-).
  - (* e_one *) destruct (IHexprs r' M Y _ eq_refl) as [(D&->)|D].
    + eapply e_bin; eauto.
    + apply e_one; auto. apply M.
  - (* e_bin *) cbn [extend]. rewrite <- app_assoc. cbn [app]. specialize (IHexprs2 r' M Y _ eq_refl).
    eapply (e_bin Nat.ltb c ts x o0 i0 k0 t0 k'0 (us ++ (o, k) :: (t, k') :: zs)); eauto.
    eapply exprs_hd; eauto.
  - (* e_app *) pose proof (args_follow _ _ _ _ H0 c f e eq_refl eq_refl (tail_ r') Na) as [(->&->)|(K&Nu&g&x&->)].
    + rewrite app_nil_r in *. cbn [app] in *. destruct (IHexprs1 r' M Y _ eq_refl) as [(D&E)|D].
      * left. split; auto. rewrite <- (app_nil_r ts). eapply e_app; [apply D|]. constructor. cbn. now rewrite Na.
      * right. rewrite <- (app_nil_r (ts ++ _)). destruct f.
        all: try (eapply e_app; [cbn [app]; exact D|]; constructor; now apply mild_no_arg).
    + left. split; auto. eapply e_app; [|exact K]. eapply exprs_hd; eauto. destruct us; [congruence|auto].
  - left. split; auto. intros. constructor.
  - left. split; auto. intros. constructor.
  - left. split; auto. intros. constructor.
  - (* t_lam *) right. cbn [extend fold_right]. rewrite extend_lams.
    change (Lam p (fold_right Lam (extend e i y) ps)) with (fold_right Lam (extend e i y) (p :: ps)). cbn [app]. rewrite <- app_assoc. cbn [app]. eapply t_lam.
    + eapply pats_hd; eauto.
    + apply (IHexprs r' M Y _ eq_refl).
  - left. split; auto. intros. constructor.
  - left. split; auto. intros. constructor.
  - left. split; auto. intros. constructor; auto.
  - left. split; auto. intros. constructor. eapply exprs_hd; eauto.
  - left. split; auto. intros. constructor; auto; eapply exprs_hd; eauto. destruct us; auto.
  - left. split; auto. intros. constructor. eapply exprs_hd; eauto.
  - (* t_let *) right. cbn [extend app]. rewrite <- app_assoc. cbn [app]. eapply t_let.
    + eapply declares_hd; eauto.
    + apply (IHexprs r' M Y _ eq_refl).
Qed.
End After.

(** ** Starting further to the left *)

Lemma args_lower q ts es r : exprs Nat.ltb q ts es r -> forall c f, q = KArgs c f -> next_is arg_start r = false ->
  forall c', c' <= c -> exprs Nat.ltb (KArgs c' f) ts es r.
Proof.
  induction 1; intros c0 f0 Q M c' L; try discriminate Q; injection Q as <- <-.
  - constructor. destruct r as [|(t,k) r]; cbn in *; auto. now rewrite M.
  - eapply a_cons; eauto. apply Nat.ltb_lt in H0. apply Nat.ltb_lt. lia.
Qed.

Lemma app_lower c c' ts e r : exprs Nat.ltb (KApp c) ts [e] r -> next_is arg_start r = false -> c' <= c -> exprs Nat.ltb (KApp c') ts [e] r.
Proof. intros D M L. inversion D; subst. eapply e_app; eauto. eapply args_lower; eauto. Qed.

Lemma expr_lower c c' ts e r : exprs Nat.ltb (KExpr c) ts [e] r -> next_is arg_start r = false -> c' <= c -> exprs Nat.ltb (KExpr c') ts [e] r.
Proof.
  intros D M L. inversion D; subst.
  - apply e_one; auto. eapply app_lower; eauto.
  - eapply e_bin; eauto. eapply app_lower; eauto. cbn. eapply op_not_arg; eauto.
Qed.
