(** Lemmas for C110. *)
From Coq Require Import List Arith NArith Bool String Lia.
From Verif Require Import Prelim Chars Syntax SpecLexer SpecParser SpecShape SpecRename SpecRespell.
Import ListNotations.

(** * The same with other names *)
Section Functional.
Variable nm : str -> str.
Variable lits : literal -> literal.
Hypothesis Kp : keeps_reserved nm lits.
Notation rt := (respell_token nm lits).
Notation rp := (respell_pat nm lits).
Notation ro := (respell_infix nm).
Notation re := (rename lits (respell_ident nm) rp ro).
Notation rd := (rename_decl ro).

Definition rts (ts : list ptok) : list ptok := map (fun x => (rt (fst x), snd x)) ts.
Lemma rts_app a b : rts (a ++ b) = rts a ++ rts b.
Proof. apply map_app. Qed.

Lemma next_rts P r : (forall t, P (rt t) = P t) -> next_is P (rts r) = next_is P r.
Proof. intros H. destruct r as [|(t,k) r]; cbn; auto. Qed.
Ltac nx := rewrite next_rts by (intros []; reflexivity); auto.

Lemma operator_r t i : operator t i -> operator (rt t) (ro i).
Proof.
  destruct Kp as (K1&K2&_). intros [| |s|s]; cbn.
  - unfold ro. change (lit "-") with [45%N]. rewrite K1. constructor.
  - change (lit "@") with [64%N]. rewrite K2. constructor.
  - constructor.
  - constructor.
Qed.
Lemma operators_r ts is r : operators ts is r -> operators (rts ts) (map ro is) (rts r).
Proof. induction 1; cbn; constructor; auto using operator_r. nx. Qed.
Lemma declares_r ts d r : declares ts d r -> declares (rts ts) (rd d) (rts r).
Proof.
  destruct Kp as (_&_&K3). intros [t a k n k' us is r0 A L O|t a k us is r0 A N O]; cbn; unfold rename_decl; cbn.
  - rewrite (proj2 (K3 (LInt n) n) eq_refl). replace (rt t) with t by (destruct A; auto). constructor; auto. now apply operators_r.
  - replace (rt t) with t by (destruct A; auto). apply de_default; auto; [nx|]. now apply operators_r.
Qed.
Lemma pats_r q ts ps r : pats q ts ps r -> pats q (rts ts) (map rp ps) (rts r).
Proof.
  induction 1; cbn; rewrite ?rts_app in *; cbn in *; try (constructor; auto; fail).
  - apply p_var; auto. nx.
  - apply p_tuple; auto. destruct us; [congruence|discriminate].
  - apply h_pat; auto. nx.
  - apply c_args; auto. nx.
  - rewrite ?map_app. apply c_tuple; auto. destruct us; [congruence|discriminate].
  - apply j_nil. nx.
  - apply cs_nil. nx.
Qed.

Definition rq (q : ekind) : ekind := match q with KArgs c f => KArgs c (re f) | _ => q end.

Lemma start_r t : arg_start (rt t) = arg_start t.
Proof. destruct t; reflexivity. Qed.

Lemma exprs_r q ts es r : exprs Nat.ltb q ts es r -> exprs Nat.ltb (rq q) (rts ts) (map re es) (rts r).
Proof.
  induction 1; cbn; rewrite ?rts_app in *; cbn in *; rewrite ?rts_app in *; cbn in *; try (constructor; auto; fail).
  - apply e_one; auto. nx.
  - eapply e_bin; eauto. now apply operator_r.
  - eapply e_app; eauto.
  - apply a_nil. destruct r as [|(t,k) r]; cbn; auto. rewrite start_r. auto.
  - eapply (a_cons Nat.ltb c (re f) (rt t) k (rts ts) (re x)); eauto. now rewrite start_r.
  - pose proof (pats_r _ _ _ _ H) as P. cbn in P. rewrite rts_app in P.
    assert (E : forall ps, re (fold_right Lam e ps) = fold_right Lam (re e) (map rp ps)).
    { clear. induction ps; cbn; auto. now rewrite IHps. }
    change (Lam p (fold_right Lam e ps)) with (fold_right Lam e (p :: ps)). 
    change (Lam (rp p) (re (fold_right Lam e ps))) with (re (fold_right Lam e (p :: ps))). rewrite E. cbn [map]. eapply t_lam; eauto.
  - replace (List.length cs) with (List.length (rts cs)) by apply map_length. apply t_commas; [destruct cs; [congruence|discriminate]|].
    unfold rts. apply Forall_map. eapply Forall_impl; [|exact H0]. intros (t,k0) E. cbn in *. now rewrite E.
  - apply t_tuple; auto. destruct us; [congruence|discriminate].
  - pose proof (declares_r _ _ _ H) as D. cbn in D. rewrite rts_app in D. now apply t_let.
  - apply tl_nil. nx.
  - apply i_plain; auto. rewrite <- rts_app. nx.
Qed.

Definition rdecl (d : decl) : decl := match d with DInfix i => DInfix (rd i) | DExpr e => DExpr (re e) end.
Lemma decl_r ts d r : decl_of Nat.ltb ts d r -> decl_of Nat.ltb (rts ts) (rdecl d) (rts r).
Proof.
  intros [us d0 r0 H|t k us e r0 H]; cbn.
  - apply do_infix. now apply declares_r.
  - apply (do_expr Nat.ltb (rt t) k (rts us)). exact (exprs_r _ _ _ _ H).
Qed.
Lemma program_r ts ds : program Nat.ltb ts ds -> program Nat.ltb (rts ts) (map rdecl ds).
Proof.
  induction 1 as [|us d k vs ds D P IH|us d vs ds D N P IH]; cbn [map].
  - constructor.
  - rewrite rts_app. apply (pr_semi Nat.ltb (rts us) (rdecl d) k (rts vs)); auto. exact (decl_r _ _ _ D).
  - rewrite rts_app. apply pr_plain; auto; [now apply decl_r|nx].
Qed.
Lemma program_ast ds : fold_left ast_push (map rdecl ds) ast_empty = respell nm lits (fold_left ast_push ds ast_empty).
Proof.
  assert (K : forall ds a, fold_left ast_push (map rdecl ds) (respell nm lits a) = respell nm lits (fold_left ast_push ds a)).
  { clear. induction ds as [|d ds IH]; intros a; cbn [map fold_left]; auto. rewrite <- IH. f_equal.
    destruct d; unfold respell, rename_ast; cbn; rewrite map_app; auto. }
  exact (K ds ast_empty).
Qed.
End Functional.

(** * Acceptance *)

Definition kin (x y : ptok) : Prop := same_kind (fst x) (fst y) /\ snd x = snd y.
Definition kinl := Forall2 kin.

Lemma kinl_app a b c : kinl (a ++ b) c -> exists a' b', c = a' ++ b' /\ kinl a a' /\ kinl b b'.
Proof. intros H. apply Forall2_app_inv_l in H as (a'&b'&A&B&->). eauto 6. Qed.
Lemma kinl_cons t k b c : kinl ((t, k) :: b) c -> exists t' b', c = (t', k) :: b' /\ same_kind t t' /\ kinl b b'.
Proof. intros H. inversion H as [|? (t',k') ? b' (S0&E) B]; subst. cbn in *. subst. eauto 6. Qed.
Lemma kinl_nil c : kinl [] c -> c = [].
Proof. intros H. now inversion H. Qed.
Lemma kin_join a b c d : kinl a b -> kinl c d -> kinl (a ++ c) (b ++ d).
Proof. apply Forall2_app. Qed.
Lemma kin_one t k b c : same_kind t t -> kinl b c -> kinl ((t, k) :: b) ((t, k) :: c).
Proof. intros. constructor; auto. split; auto. Qed.
Lemma next_kin P r r' : (forall t t', same_kind t t' -> P t = P t') -> kinl r r' -> next_is P r' = next_is P r.
Proof. intros H K. inversion K as [|(t,k) (t',k') a b (S0&_) ? ]; subst; cbn; auto. symmetry. now apply H. Qed.
Ltac kd := let S := fresh in intros ? ? S; destruct S; reflexivity.
Ltac nk K := match goal with |- next_is ?P _ = _ => rewrite (next_kin P _ _ ltac:(kd) K); auto end.
Ltac fixed := repeat match goal with
  | H : kinl (_ :: _) _ |- _ => apply kinl_cons in H as (?&?&->&?&H)
  | H : kinl (_ ++ _) _ |- _ => apply kinl_app in H as (?&?&->&?&H)
  | H : kinl [] _ |- _ => apply kinl_nil in H as ->
  | H : same_kind TParenL _ |- _ => inversion H; subst; clear H
  | H : same_kind TParenR _ |- _ => inversion H; subst; clear H
  | H : same_kind TBrackL _ |- _ => inversion H; subst; clear H
  | H : same_kind TBrackR _ |- _ => inversion H; subst; clear H
  | H : same_kind TComma _ |- _ => inversion H; subst; clear H
  | H : same_kind TUnderscore _ |- _ => inversion H; subst; clear H
  | H : same_kind TAt _ |- _ => inversion H; subst; clear H
  | H : same_kind TDash _ |- _ => inversion H; subst; clear H
  | H : same_kind TArrow _ |- _ => inversion H; subst; clear H
  | H : same_kind TLambda _ |- _ => inversion H; subst; clear H
  | H : same_kind TLet _ |- _ => inversion H; subst; clear H
  | H : same_kind TIn _ |- _ => inversion H; subst; clear H
  | H : same_kind TSemi _ |- _ => inversion H; subst; clear H
  | H : same_kind (TUpper _) ?t |- _ => assert (exists s', t = TUpper s') as (?&->) by (inversion H; eauto); clear H
  | H : same_kind (TLower _) ?t |- _ => assert (exists s', t = TLower s') as (?&->) by (inversion H; eauto); clear H
  | H : same_kind (TAffix _ ?b) ?t |- _ => assert (exists s', t = TAffix s' b) as (?&->) by (inversion H; eauto); clear H
  | H : same_kind (TLit _) ?t |- _ => assert (exists s', t = TLit s') as (?&->) by (inversion H; eauto); clear H
  end.

Lemma operator_k t t' i : operator t i -> same_kind t t' -> exists i', operator t' i'.
Proof. intros [| |s|s] K; inversion K; subst; eauto using operator. Qed.
Lemma operators_k ts is r : operators ts is r -> forall ts' r', kinl ts ts' -> kinl r r' -> exists is', operators ts' is' r'.
Proof.
  induction 1 as [t k i r O N|t k i k' ts is r O H IH]; intros ts' r' K K'; fixed.
  - destruct (operator_k _ _ _ O H) as (i'&O'). exists [i']. constructor; auto. nk K'.
  - destruct (operator_k _ _ _ O H0) as (i'&O'). destruct (IH _ _ K K') as (is'&H'). exists (i' :: is'). now constructor.
Qed.
Lemma associativity_k t t' a : associativity t a -> same_kind t t' -> t' = t.
Proof. intros [] K; inversion K; auto. Qed.
Lemma declares_k ts d r : declares ts d r -> forall ts' r', kinl ts ts' -> kinl r r' -> exists d', declares ts' d' r'.
Proof.
  intros [t a k n k' us is r0 A L O|t a k us is r0 A N O] ts' r' K K'.
  - apply kinl_cons in K as (t1&b1&->&S1&K). apply kinl_cons in K as (t2&b2&->&S2&K).
    apply (associativity_k _ _ _ A) in S1 as ->. assert (t2 = TLit (LInt n)) as -> by (inversion S2; subst; auto; congruence).
    destruct (operators_k _ _ _ O _ _ K K') as (is'&O'). eexists. now eapply de_prec; eauto.
  - apply kinl_cons in K as (t1&b1&->&S1&K). apply (associativity_k _ _ _ A) in S1 as ->.
    destruct (operators_k _ _ _ O _ _ K K') as (is'&O'). eexists. eapply de_default; eauto. nk K.
Qed.

Lemma one_of {A} (l : list A) : List.length l = 1 -> exists x, l = [x].
Proof. destruct l as [|x [|? ?]]; try discriminate. eauto. Qed.
Ltac ones := repeat match goal with H : List.length ?l = List.length [_] |- _ => apply one_of in H as (?&->) end.
Lemma kinl_nonnil a b : kinl a b -> a <> [] -> b <> [].
Proof. intros [|]; congruence. Qed.
Global Hint Resolve kin_join kin_one sk_same kinl_nonnil : kin.

Lemma pats_k q ts ps r : pats q ts ps r -> forall ts' r', kinl ts ts' -> kinl r r' -> exists ps', List.length ps' = List.length ps /\ pats q ts' ps' r'.
Proof.
  induction 1; intros ts' r' K K'; fixed.
  - eexists [_]; split; [cbn; auto|]. apply p_wild; auto.
  - eexists [_]; split; [cbn; auto|]. apply p_var; auto. nk K'.
  - edestruct IHpats as (ps'&L&P); eauto. ones. eexists [_]; split; [cbn; auto|]. eapply p_as; eauto.
  - eexists [_]; split; [cbn; auto|]. apply p_con; auto.
  - edestruct IHpats as (ps'&L&P); eauto. ones. eexists [_]; split; [cbn; auto|]. eapply p_inner_con; eauto.
  - eexists [_]; split; [cbn; auto|]. apply p_lit; auto.
  - edestruct IHpats as (ps'&L&P); eauto. ones. eexists [_]; split; [cbn; auto|]. eapply p_minus; eauto.
  - edestruct IHpats as (ps'&L&P); eauto with kin. ones. eexists [_]; split; [cbn; auto|]. eapply p_group; eauto.
  - edestruct IHpats1 as (ps'&L&P); eauto with kin. edestruct IHpats2 as (ps2&L2&P2); eauto with kin. ones.
    eexists [_]; split; [cbn; auto|]. eapply p_tuple; eauto with kin.
  - eexists [_]; split; [cbn; auto|]. apply p_empty; auto.
  - edestruct IHpats1 as (ps'&L&P); eauto with kin. edestruct IHpats2 as (ps2&L2&P2); eauto with kin. ones.
    eexists [_]; split; [cbn; auto|]. eapply p_list; eauto with kin.
  - eexists [_]; split; [cbn; auto|]. apply h_op; auto.
  - edestruct IHpats as (ps'&L&P); eauto. ones. eexists [_]; split; [cbn; auto|]. eapply h_neg; eauto.
  - edestruct IHpats as (ps'&L&P); eauto. ones. eexists [_]; split; [cbn; auto|]. eapply h_con; eauto.
  - edestruct IHpats as (ps'&L&P); eauto. ones. eexists [_]; split; [cbn; auto|]. eapply h_pat; eauto. nk K.
  - edestruct IHpats as (ps'&L&P); eauto. eexists [_]; split; [cbn; auto|]. eapply c_args; eauto. nk K'.
  - edestruct IHpats1 as (ps'&L&P); eauto with kin. edestruct IHpats2 as (ps2&L2&P2); eauto with kin.
    eexists [_]; split; [cbn; auto|]. eapply c_tuple; eauto with kin.
  - exists []; split; [cbn; auto|]. apply j_nil. nk K'.
  - edestruct IHpats1 as (ps'&L&P); eauto with kin. edestruct IHpats2 as (ps2&L2&P2); eauto with kin. ones.
    eexists (_ :: ps2); split; [cbn; auto|]. eapply j_cons; eauto.
  - exists []; split; [cbn; auto|]. apply cs_nil. nk K'.
  - edestruct IHpats1 as (ps'&L&P); eauto with kin. edestruct IHpats2 as (ps2&L2&P2); eauto with kin. ones.
    eexists (_ :: ps2); split; [cbn; auto|]. eapply cs_cons; eauto.
Qed.

Definition kq (q q' : ekind) : Prop := match q, q' with KArgs c _, KArgs c' _ => c = c' | KArgs _ _, _ => False | _, _ => q = q' end.
Lemma start_k t t' : same_kind t t' -> arg_start t' = arg_start t.
Proof. intros []; reflexivity. Qed.
Lemma kinl_same_len a b : kinl a b -> List.length b = List.length a.
Proof. induction 1; cbn; auto. Qed.

Lemma exprs_k q ts es r : exprs Nat.ltb q ts es r -> forall ts' r', kinl ts ts' -> kinl r r' -> forall q', kq q q' ->
  exists es', List.length es' = List.length es /\ exprs Nat.ltb q' ts' es' r'.
Proof.
  induction 1; intros ts' r' K K' q' Q; cbn in Q; try subst q'.
  - (* e_one *) destruct (IHexprs _ _ K K' _ eq_refl) as (es'&L&D). ones. eexists [_]; split; [cbn; auto|]. eapply e_one; eauto. nk K'.
  - (* e_bin *) apply kinl_app in K as (a&b&->&K1&K). apply kinl_cons in K as (o'&b1&->&So&K). assert (K2 := K). apply kinl_cons in K2 as (t'&b2&->&St&_).
    destruct (operator_k _ _ _ H0 So) as (i'&O').
    destruct (IHexprs1 a ((o', k) :: ((t', k') :: b2) ++ r')) with (3 := eq_refl (KApp c)) as (es1&L1&D1); auto.
    { apply (Forall2_cons (R := kin)); [split; auto|]. now apply kin_join. }
    destruct (IHexprs2 _ _ K K' _ eq_refl) as (es2&L2&D2). ones. eexists [_]; split; [cbn; auto|]. eapply e_bin; eauto.
  - (* e_app *) apply kinl_app in K as (a&b&->&K1&K).
    destruct (IHexprs1 a (b ++ r') K1 (kin_join _ _ _ _ K K') _ eq_refl) as (es1&L1&D1). apply one_of in L1 as (f'&->).
    destruct (IHexprs2 _ _ K K' (KArgs c f') eq_refl) as (es2&L2&D2). ones. eexists [_]; split; [cbn; auto|]. eapply e_app; eauto.
  - (* a_nil *) destruct q' as [| |c' f'| | | ]; try destruct Q. apply kinl_nil in K as ->. eexists [_]; split; [cbn; auto|]. apply a_nil.
    destruct K' as [|(t,k) (t',k') l l' (S0&E) _]; cbn in *; auto. subst k'. rewrite (start_k _ _ S0). auto.
  - (* a_cons *) destruct q' as [| |c' f'| | | ]; try destruct Q. apply kinl_app in K as (a&b&->&K1&K). assert (K2 := K1). apply kinl_cons in K2 as (t'&b2&->&St&_).
    destruct (IHexprs1 _ (b ++ r') K1 (kin_join _ _ _ _ K K') _ eq_refl) as (es1&L1&D1). apply one_of in L1 as (x'&->).
    destruct (IHexprs2 _ _ K K' (KArgs c (App f' x')) eq_refl) as (es2&L2&D2). ones. eexists [_]; split; [cbn; auto|].
    eapply a_cons; eauto. rewrite (start_k _ _ St). auto.
  - fixed. eexists [_]; split; [cbn; auto|]. apply t_lit.
  - fixed. eexists [_]; split; [cbn; auto|]. apply t_upper.
  - fixed. eexists [_]; split; [cbn; auto|]. apply t_lower.
  - (* t_lam *) apply kinl_cons in K as (t1&b1&->&S1&K). apply kinl_app in K as (a&b&->&K1&K). apply kinl_cons in K as (t2&b2&->&S2&K).
    inversion S1; subst; clear S1. inversion S2; subst; clear S2.
    destruct (pats_k _ _ _ _ H a ((TArrow, k') :: b2 ++ r') K1) as (ps'&L&P); [apply kin_one; auto using sk_same; now apply kin_join|].
    destruct ps' as [|p' ps']; [discriminate L|].
    destruct (IHexprs _ _ K K' _ eq_refl) as (es'&L'&D). apply one_of in L' as (e'&->). exists [fold_right Lam e' (p' :: ps')]; split; [cbn; auto|].
    now apply t_lam.
  - fixed. eexists [_]; split; [cbn; auto|]. apply t_unit.
  - fixed. eexists [_]; split; [cbn; auto|]. apply t_op.
  - (* t_commas *) apply kinl_cons in K as (t1&b1&->&S1&K). apply kinl_app in K as (a&b&->&K1&K). fixed. eexists [_]; split; [cbn; auto|].
    apply t_commas; [eapply kinl_nonnil; eauto|]. clear - K1 H0. induction K1 as [|(t,k) (t',k') l l' (S0&_) _ IH]; constructor.
    + inversion H0 as [|? ? E _]; subst. cbn in *. subst t. now inversion S0.
    + apply IH. now inversion H0.
  - (* t_group *) apply kinl_cons in K as (t1&b1&->&S1&K). apply kinl_app in K as (a&b&->&K1&K). assert (K2 := K1). apply kinl_cons in K2 as (t'&b2&->&St&_).
    apply kinl_cons in K as (t2&b3&->&S2&K). apply kinl_nil in K as ->. inversion S1; subst; clear S1. inversion S2; subst; clear S2.
    destruct (IHexprs _ ((TParenR, k') :: r') K1) with (2 := eq_refl (KExpr k1)) as (es'&L&D); [apply kin_one; auto using sk_same|]. ones.
    eexists [_]; split; [cbn; auto|]. eapply t_group; eauto.
  - (* t_tuple *) apply kinl_cons in K as (t1&b1&->&S1&K). apply kinl_app in K as (a&b&->&K1&K). assert (K2 := K1). apply kinl_cons in K2 as (t'&b2&->&St&_).
    apply kinl_app in K as (d&b4&->&K3&K).
    apply kinl_cons in K as (t2&b3&->&S2&K). apply kinl_nil in K as ->. inversion S1; subst; clear S1. inversion S2; subst; clear S2.
    assert (Kr : kinl ((TParenR, k') :: r) ((TParenR, k') :: r')) by (apply kin_one; auto using sk_same).
    destruct (IHexprs1 _ _ K1 (kin_join _ _ _ _ K3 Kr) _ eq_refl) as (es1&L1&D1). destruct (IHexprs2 _ _ K3 Kr _ eq_refl) as (es2&L2&D2). ones.
    eexists [_]; split; [cbn; auto|]. eapply t_tuple; eauto. eapply kinl_nonnil; eauto.
  - (* t_list *) apply kinl_cons in K as (t1&b1&->&S1&K). apply kinl_app in K as (a&b&->&K1&K).
    apply kinl_cons in K as (t2&b3&->&S2&K). apply kinl_nil in K as ->. inversion S1; subst; clear S1. inversion S2; subst; clear S2.
    destruct (IHexprs a ((TBrackR, k') :: r') K1) with (2 := eq_refl KItems) as (es'&L&D); [apply kin_one; auto using sk_same|].
    eexists [_]; split; [cbn; auto|]. eapply t_list; eauto.
  - (* t_let *) apply kinl_cons in K as (t1&b1&->&S1&K). apply kinl_app in K as (a&b&->&K1&K). apply kinl_cons in K as (t2&b2&->&S2&K).
    inversion S1; subst; clear S1. inversion S2; subst; clear S2.
    destruct (declares_k _ _ _ H a ((TIn, k') :: b2 ++ r') K1) as (d'&Dd); [apply kin_one; auto using sk_same; now apply kin_join|].
    destruct (IHexprs _ _ K K' _ eq_refl) as (es'&L'&D). ones. eexists [_]; split; [cbn; auto|]. eapply t_let; eauto.
  - apply kinl_nil in K as ->. exists []; split; auto. apply tl_nil. nk K'.
  - (* tl_cons *) apply kinl_cons in K as (t1&b1&->&S1&K). apply kinl_app in K as (a&b&->&K1&K). inversion S1; subst; clear S1.
    destruct (IHexprs1 _ _ K1 (kin_join _ _ _ _ K K') _ eq_refl) as (es1&L1&D1). destruct (IHexprs2 _ _ K K' _ eq_refl) as (es2&L2&D2). ones.
    eexists (_ :: es2); split; [cbn; auto|]. eapply tl_cons; eauto.
  - apply kinl_nil in K as ->. apply kinl_cons in K' as (t1&b1&->&S1&K'). inversion S1; subst. exists []; split; auto. apply i_nil.
  - (* i_comma *) apply kinl_app in K as (a&b&->&K1&K). assert (K2 := K1). apply kinl_cons in K2 as (t'&b2&->&St&_). apply kinl_cons in K as (t2&b3&->&S2&K).
    inversion S2; subst; clear S2.
    destruct (IHexprs1 _ ((TComma, k') :: b3 ++ r') K1) with (2 := eq_refl (KExpr k)) as (es1&L1&D1); [apply kin_one; auto using sk_same; now apply kin_join|].
    destruct (IHexprs2 _ _ K K' _ eq_refl) as (es2&L2&D2). ones. eexists (_ :: es2); split; [cbn; auto|]. eapply i_comma; eauto.
  - (* i_plain *) apply kinl_app in K as (a&b&->&K1&K). assert (K2 := K1). apply kinl_cons in K2 as (t'&b2&->&St&_).
    pose proof (kin_join _ _ _ _ K K') as KK.
    destruct (IHexprs1 _ _ K1 KK _ eq_refl) as (es1&L1&D1). destruct (IHexprs2 _ _ K K' _ eq_refl) as (es2&L2&D2). ones.
    eexists (_ :: es2); split; [cbn; auto|]. eapply i_plain; eauto. nk KK.
Qed.

Lemma decl_k ts d r : decl_of Nat.ltb ts d r -> forall ts' r', kinl ts ts' -> kinl r r' -> exists d', decl_of Nat.ltb ts' d' r'.
Proof.
  intros [us d0 r0 H|t k us e r0 H] ts' r' K K'.
  - destruct (declares_k _ _ _ H _ _ K K') as (d'&D). exists (DInfix d'). now apply do_infix.
  - destruct (exprs_k _ _ _ _ H _ _ K K' _ eq_refl) as (es'&L&D). ones. apply kinl_cons in K as (t'&b2&->&St&_). eexists. eapply do_expr; eauto.
Qed.
Lemma program_k ts ds : program Nat.ltb ts ds -> forall ts', kinl ts ts' -> exists ds', program Nat.ltb ts' ds'.
Proof.
  induction 1 as [|us d k vs ds D P IH|us d vs ds D N P IH]; intros ts' K.
  - apply kinl_nil in K as ->. exists []. constructor.
  - apply kinl_app in K as (a&b&->&K1&K). destruct (decl_k _ _ _ D _ _ K1 K) as (d'&D'). apply kinl_cons in K as (t2&b3&->&S2&K). inversion S2; subst; clear S2.
    destruct (IH _ K) as (ds'&P'). exists (d' :: ds'). now apply pr_semi.
  - apply kinl_app in K as (a&b&->&K1&K). destruct (decl_k _ _ _ D _ _ K1 K) as (d'&D'). destruct (IH _ K) as (ds'&P').
    exists (d' :: ds'). apply pr_plain; auto. nk K.
Qed.
