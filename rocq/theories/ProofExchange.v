(** Lemmas for C109. *)
From Coq Require Import List Arith NArith Bool String Lia.
From Verif Require Import Prelim Chars Syntax Lexer SpecLexer ProofLexer Parser SpecParser SpecViable SpecShape SpecCompose SpecExchange
  ProofParser ProofParser3 ProofParser6 ProofParser7 ProofParser12 ProofShape2 ProofCompose.
Import ListNotations.

(** * Where a part of a list starts *)

Lemma cut {A} (a b p z : list A) : a ++ b = p ++ z -> List.length p < List.length a \/ exists q, p = a ++ q /\ b = q ++ z.
Proof.
  revert p. induction a as [|x a IH]; intros p E; [right; exists p; auto|]. destruct p as [|y p]; [left; cbn; lia|].
  cbn [app] in E. injection E as <- E. destruct (IH p E) as [L|(q&->&->)]; [left; cbn; lia|right; exists q; auto].
Qed.

Lemma outside_app a b : outside_patterns (a ++ b) -> outside_patterns b.
Proof. intros H us k vs ->. apply (H (a ++ us) k vs). now rewrite app_assoc. Qed.
Lemma outside_tail a b : outside_patterns (a :: b) -> outside_patterns b.
Proof. apply (outside_app [a]). Qed.

Definition noarrow (ts : list ptok) : Prop := Forall (fun x => fst x <> TArrow) ts.
Ltac na := repeat (first [assumption | apply Forall_app; split | apply Forall_cons; [try (cbn; discriminate)|] | apply Forall_nil]).
Lemma pats_noarrow q ts ps r : pats q ts ps r -> noarrow ts.
Proof. unfold noarrow. induction 1; na. Qed.

Definition noparen (ts : list ptok) : Prop := Forall (fun x => fst x <> TParenL) ts.
Lemma operators_noparen ts is r : operators ts is r -> noparen ts.
Proof. unfold noparen. induction 1; na; cbn; destruct H; discriminate. Qed.
Lemma declares_noparen ts d r : declares ts d r -> noparen ts.
Proof. unfold noparen. intros [t a k n k' ts' is r' A _ O|t a k ts' is r' A _ O]; apply operators_noparen in O; na; cbn; destruct A; discriminate. Qed.

Section Exchange.
Variables (x y : expr) (kp : nat) (g1 g2 tb : list ptok).
Notation G1 := ((TParenL, kp) :: g1).
Notation G2 := ((TParenL, kp) :: g2).
Hypothesis one1 : forall ts es r, exprs Nat.ltb KAtom ts es r -> ts ++ r = G1 ++ tb -> ts = G1 /\ es = [x].
Hypothesis atom2 : forall r, exprs Nat.ltb KAtom G2 [y] r.

Definition swapl (es es' : list expr) : Prop := exists us e e' vs, es = us ++ e :: vs /\ es' = us ++ e' :: vs /\ swapped x y e e'.
Lemma swapl_one e es : swapl [e] es -> exists e', es = [e'] /\ swapped x y e e'.
Proof. intros ([|? [|? ?]]&a&a'&vs&E&->&S); try discriminate. injection E as -> <-. exists a'. auto. Qed.
Lemma one_swapl e e' : swapped x y e e' -> swapl [e] [e'].
Proof. intros S. exists [], e, e', []. auto. Qed.
Lemma swapl_cons e es es' : swapl es es' -> swapl (e :: es) (e :: es').
Proof. intros (us&a&a'&vs&->&->&S). exists (e :: us), a, a', vs. auto. Qed.
Lemma swapl_here e e' es : swapped x y e e' -> swapl (e :: es) (e' :: es).
Proof. intros S. exists [], e, e', es. auto. Qed.
Lemma swapped_lams ps e e' : swapped x y e e' -> swapped x y (fold_right Lam e ps) (fold_right Lam e' ps).
Proof. intros S. induction ps; cbn; auto using swapped. Qed.

Lemma head_same t k (us p post : list ptok) : (t, k) :: us = p ++ G1 ++ post -> exists us', p ++ G2 ++ post = (t, k) :: us'.
Proof. destruct p as [|d p]; cbn [app]; intros E; [injection E as -> -> E|injection E as <- E]; eauto. Qed.

Lemma args_head q ts es r : exprs Nat.ltb q ts es r -> forall c f e, q = KArgs c f -> es = [e] -> forall f', swapped x y f f' ->
  exists e', exprs Nat.ltb (KArgs c f') ts [e'] r /\ swapped x y e e'.
Proof.
  induction 1; intros c0 f0 e0 Q Es f' S; try discriminate Q; injection Q as <- <-.
  - injection Es as <-. exists f'. split; auto. now constructor.
  - destruct (IHexprs2 _ _ _ eq_refl Es (App f' x0) ltac:(now constructor)) as (e'&D&S'). exists e'. split; auto. eapply a_cons; eauto.
Qed.

Lemma hd_mid (a b p post r : list ptok) : b = p ++ G1 ++ post -> hd_error (a ++ b ++ r) = hd_error (a ++ (p ++ G2 ++ post) ++ r).
Proof. intros ->. destruct a; auto. destruct p; auto. Qed.

Definition moves (q : ekind) (ts : list ptok) (es : list expr) (r : list ptok) : Prop :=
  forall p, ts ++ r = p ++ G1 ++ tb -> List.length p < List.length ts -> outside_patterns p ->
  exists post es', ts = p ++ G1 ++ post /\ swapl es es' /\ exprs Nat.ltb q (p ++ G2 ++ post) es' r.

Ltac ll := cbn [List.length] in *; unfold ptok in *; lia.
Ltac asc := repeat (rewrite <- app_assoc || rewrite <- app_comm_cons); cbn [app].

Ltac to t := unfold ptok in *; match goal with |- exprs _ _ ?u _ _ => replace u with t by (asc; auto) end; unfold ptok in *.

Lemma exprs_moves q ts es r : exprs Nat.ltb q ts es r -> moves q ts es r.
Proof.
  intros D. assert (Atom : forall pre, q = KAtom -> ts ++ r = pre ++ G1 ++ tb -> pre = [] ->
    exists post es', ts = pre ++ G1 ++ post /\ swapl es es' /\ exprs Nat.ltb q (pre ++ G2 ++ post) es' r).
  { intros pre -> E ->. destruct (one1 _ _ _ D E) as (->&->). exists [], [y]. cbn [app]. rewrite !app_nil_r. split; auto.
    split; [apply one_swapl; constructor|apply atom2]. }
  revert Atom. induction D; intros Atom pre E L O.
  - (* e_one *) destruct (IHD ltac:(discriminate) pre E L O) as (post&es'&->&S&D'). apply swapl_one in S as (e'&->&S).
    exists post, [e']. split; auto. split; [now apply one_swapl|]. now apply e_one.
  - (* e_bin *) rewrite <- app_assoc in E. destruct (cut _ _ _ _ E) as [L1|(p2&->&E2)].
    + destruct (IHD1 ltac:(discriminate) pre E L1 O) as (post&es'&->&S&D'). apply swapl_one in S as (x'&->&S).
      exists (post ++ (o, k) :: (t, k') :: us), [Bin x' i e]. split; [asc; auto|]. split; [apply one_swapl; now constructor|].
      to ((pre ++ G2 ++ post) ++ (o, k) :: (t, k') :: us). eapply e_bin; eauto.
    + destruct p2 as [|d p2]; [injection E2 as -> _ _; inversion H|]. cbn [app] in E2. injection E2 as <- E2.
      apply outside_app, outside_tail in O. rewrite !app_length in L. cbn [List.length] in L.
      destruct (IHD2 ltac:(discriminate) p2 E2 ltac:(ll) O) as (post&es'&Eu&S&D'). apply swapl_one in S as (e'&->&S).
      destruct (head_same _ _ _ _ _ Eu) as (us'&Eh).
      exists post, [Bin x0 i e']. split; [rewrite Eu; asc; auto|]. split; [apply one_swapl; now constructor|].
      to (ts ++ (o, k) :: (p2 ++ G2 ++ post)). rewrite Eh.
      eapply e_bin; eauto; [eapply exprs_hd; eauto|]. rewrite <- Eh. exact D'.
  - (* e_app *) rewrite <- app_assoc in E. destruct (cut _ _ _ _ E) as [L1|(p2&->&E2)].
    + destruct (IHD1 ltac:(intros p0 _ E0 ->; destruct (one1 _ _ _ D1 E0) as (->&K); injection K as ->; exists [], [y]; cbn [app]; rewrite !app_nil_r;
        split; [auto|split; [apply one_swapl; constructor|apply atom2]]) pre E L1 O) as (post&es'&->&S&D').
      apply swapl_one in S as (f'&->&S). destruct (args_head _ _ _ _ D2 _ _ _ eq_refl eq_refl _ S) as (e'&D3&S').
      exists (post ++ us), [e']. split; [asc; auto|]. split; [now apply one_swapl|].
      to ((pre ++ G2 ++ post) ++ us). eapply e_app; eauto.
    + apply outside_app in O. rewrite !app_length in L.
      destruct (IHD2 ltac:(discriminate) p2 E2 ltac:(ll) O) as (post&es'&Eu&S&D'). apply swapl_one in S as (e'&->&S).
      exists post, [e']. split; [rewrite Eu; asc; auto|]. split; [now apply one_swapl|].
      unfold ptok in *; rewrite <- app_assoc. eapply e_app; eauto. eapply exprs_hd; eauto. apply (hd_mid [] us p2 post r Eu).
  - cbn [List.length] in L. ll.
  - (* a_cons *) rewrite <- app_assoc in E. destruct (cut _ _ _ _ E) as [L1|(p2&->&E2)].
    + destruct (IHD1 ltac:(intros p0 _ E0 ->; destruct (one1 _ _ _ D1 E0) as (->&K); injection K as ->; exists [], [y]; cbn [app]; rewrite !app_nil_r;
        split; [auto|split; [apply one_swapl; constructor|apply atom2]]) pre E L1 O) as (post&es'&Eu&S&D').
      apply swapl_one in S as (x'&->&S). destruct (args_head _ _ _ _ D2 _ _ _ eq_refl eq_refl (App f x') ltac:(now constructor)) as (e'&D3&S').
      destruct (head_same _ _ _ _ _ Eu) as (us'&Eh).
      exists (post ++ us), [e']. split; [rewrite Eu; asc; auto|]. split; [now apply one_swapl|].
      to ((pre ++ G2 ++ post) ++ us). rewrite Eh in *. eapply a_cons; eauto.
    + apply outside_app in O. rewrite !app_length in L.
      destruct (IHD2 ltac:(discriminate) p2 E2 ltac:(ll) O) as (post&es'&Eu&S&D'). apply swapl_one in S as (e'&->&S).
      exists post, [e']. split; [rewrite Eu; asc; auto|]. split; [now apply one_swapl|].
      unfold ptok in *; rewrite <- app_assoc. eapply a_cons; eauto. eapply exprs_hd; eauto. apply (hd_mid [] us p2 post r Eu).
  - destruct pre as [|d pre]; [auto|cbn [List.length] in L; ll].
  - destruct pre as [|d pre]; [auto|cbn [List.length] in L; ll].
  - destruct pre as [|d pre]; [auto|cbn [List.length] in L; ll].
  - (* t_lam *) destruct pre as [|d pre]; [auto|]. cbn [app] in E. injection E as <- E. rewrite <- app_assoc in E. cbn [List.length] in L.
    destruct (cut _ _ _ _ E) as [L1|(p2&->&E2)].
    + exfalso. destruct (O [] k pre eq_refl) as (ka&I).
      assert (I2 : In (TArrow, ka) ts). { apply (f_equal (firstn (List.length ts))) in E. rewrite firstn_app, firstn_all, Nat.sub_diag, firstn_O, app_nil_r in E.
        rewrite E. rewrite firstn_app. apply in_or_app. left. rewrite firstn_all2 by ll. exact I. }
      apply pats_noarrow in H. apply (proj1 (Forall_forall _ _) H) in I2. now apply I2.
    + cbn [app] in E2. destruct p2 as [|d p2]; [injection E2; discriminate|]. cbn [app] in E2. injection E2 as <- E2.
      apply outside_tail, outside_app, outside_tail in O. rewrite !app_length in L. cbn [List.length] in L.
      destruct (IHD ltac:(discriminate) p2 E2 ltac:(ll) O) as (post&es'&->&S&D'). apply swapl_one in S as (e'&->&S).
      exists post, [fold_right Lam e' (p :: ps)]. split; [asc; auto|]. split; [apply one_swapl, swapped_lams; auto|].
      to ((TLambda, k) :: ts ++ (TArrow, k') :: (p2 ++ G2 ++ post)).
      eapply t_lam; eauto. eapply pats_hd; eauto.
  - destruct pre as [|d [|d' pre]]; [auto| |cbn [List.length] in L; ll]. injection E; discriminate.
  - destruct pre as [|d [|d' [|d'' pre]]]; [auto| | |cbn [List.length] in L; ll]; injection E; discriminate.
  - (* t_commas *) destruct pre as [|d pre]; [auto|]. exfalso. cbn [app] in E. injection E as _ E. rewrite <- app_assoc in E.
    destruct (cut _ _ _ _ E) as [L1|(p2&->&E2)].
    + assert (I : In (TParenL, kp) cs).
      { apply (f_equal (fun l => nth_error l (List.length pre))) in E. rewrite nth_error_app1 in E by auto. rewrite nth_error_app2 in E by ll.
        rewrite Nat.sub_diag in E. cbn in E. eapply nth_error_In; eauto. }
      apply (proj1 (Forall_forall _ _) H0) in I. discriminate I.
    + destruct p2 as [|d2 p2]; [injection E2; discriminate|]. cbn [List.length] in L. rewrite !app_length in L. cbn [List.length] in L. ll.
  - (* t_group *) destruct pre as [|d pre]; [auto|]. cbn [app] in E. injection E as <- E. assert (E1 : ((t, k1) :: ts) ++ (TParenR, k') :: r = pre ++ G1 ++ tb) by (etransitivity; [|exact E]; asc; auto). clear E; rename E1 into E. cbn [List.length] in L. rewrite app_length in L. cbn [List.length] in L.
    destruct (cut _ _ _ _ E) as [L1|(p2&->&E2)].
    + apply outside_tail in O. destruct (IHD ltac:(discriminate) pre E L1 O) as (post&es'&Eu&S&D'). apply swapl_one in S as (e'&->&S).
      destruct (head_same _ _ _ _ _ Eu) as (us'&Eh).
      exists (post ++ [(TParenR, k')]), [Grp e']. split; [rewrite Eu; asc; auto|]. split; [apply one_swapl; now constructor|].
      to ((TParenL, k) :: (pre ++ G2 ++ post) ++ [(TParenR, k')]).
      rewrite Eh in *. now apply t_group.
    + destruct p2 as [|d2 p2]; [injection E2; discriminate|]. cbn [List.length] in L. rewrite !app_length in L. cbn [List.length] in L. ll.
  - (* t_tuple *) destruct pre as [|d pre]; [auto|]. cbn [app] in E. injection E as <- E. assert (E1 : ((t, k1) :: ts) ++ us ++ (TParenR, k') :: r = pre ++ G1 ++ tb) by (etransitivity; [|exact E]; asc; auto). clear E; rename E1 into E. cbn [List.length] in L. rewrite !app_length in L. cbn [List.length] in L.
    destruct (cut _ _ _ _ E) as [L1|(p2&->&E2)].
    + apply outside_tail in O. destruct (IHD1 ltac:(discriminate) pre E L1 O) as (post&es'&Eu&S&D'). apply swapl_one in S as (e'&->&S).
      destruct (head_same _ _ _ _ _ Eu) as (us'&Eh).
      exists (post ++ us ++ [(TParenR, k')]), [Tup (e' :: es)]. split; [rewrite Eu; asc; auto|]. split; [apply one_swapl; exact (sw_tup x y [] e e' es S)|].
      to ((TParenL, k) :: (pre ++ G2 ++ post) ++ us ++ [(TParenR, k')]).
      rewrite Eh in *. now apply t_tuple.
    + destruct (cut _ _ _ _ E2) as [L2|(p3&->&E3)].
      * apply outside_tail, outside_app in O. destruct (IHD2 ltac:(discriminate) p2 E2 L2 O) as (post&es'&Eu&S&D').
        destruct S as (u1&a&a'&v1&->&->&S).
        exists (post ++ [(TParenR, k')]), [Tup (e :: u1 ++ a' :: v1)]. split; [rewrite Eu; asc; auto|].
        split; [apply one_swapl; exact (sw_tup x y (e :: u1) a a' v1 S)|].
        to ((TParenL, k) :: ((t, k1) :: ts) ++ (p2 ++ G2 ++ post) ++ [(TParenR, k')]).
        apply t_tuple; auto; [|destruct p2; discriminate]. eapply exprs_hd; eauto. apply (hd_mid [] us p2 post _ Eu).
      * destruct p3 as [|d2 p3]; [injection E3; discriminate|]. cbn [List.length] in L. rewrite !app_length in L. cbn [List.length] in L. ll.
  - (* t_list *) destruct pre as [|d pre]; [auto|]. cbn [app] in E. injection E as <- E. rewrite <- app_assoc in E. cbn [List.length] in L. rewrite app_length in L. cbn [List.length] in L.
    destruct (cut _ _ _ _ E) as [L1|(p2&->&E2)].
    + apply outside_tail in O. destruct (IHD ltac:(discriminate) pre E L1 O) as (post&es'&->&S&D'). destruct S as (u1&a&a'&v1&->&->&S).
      exists (post ++ [(TBrackR, k')]), [List (u1 ++ a' :: v1)]. split; [asc; auto|]. split; [apply one_swapl; now constructor|].
      to ((TBrackL, k) :: (pre ++ G2 ++ post) ++ [(TBrackR, k')]).
      now apply t_list.
    + destruct p2 as [|d2 p2]; [injection E2; discriminate|]. cbn [List.length] in L. rewrite !app_length in L. cbn [List.length] in L. ll.
  - (* t_let *) destruct pre as [|d0 pre]; [auto|]. cbn [app] in E. injection E as <- E. rewrite <- app_assoc in E. cbn [List.length] in L.
    destruct (cut _ _ _ _ E) as [L1|(p2&->&E2)].
    + exfalso. assert (I : In (TParenL, kp) ts).
      { apply (f_equal (fun l => nth_error l (List.length pre))) in E. rewrite nth_error_app1 in E by auto. rewrite nth_error_app2 in E by ll.
        rewrite Nat.sub_diag in E. cbn in E. eapply nth_error_In; eauto. }
      apply declares_noparen in H. apply (proj1 (Forall_forall _ _) H) in I. now apply I.
    + cbn [app] in E2. destruct p2 as [|d2 p2]; [injection E2; discriminate|]. cbn [app] in E2. injection E2 as <- E2.
      apply outside_tail, outside_app, outside_tail in O. rewrite !app_length in L. cbn [List.length] in L.
      destruct (IHD ltac:(discriminate) p2 E2 ltac:(ll) O) as (post&es'&->&S&D'). apply swapl_one in S as (e'&->&S).
      exists post, [Let d e']. split; [asc; auto|]. split; [apply one_swapl; now constructor|].
      to ((TLet, k) :: ts ++ (TIn, k') :: (p2 ++ G2 ++ post)).
      eapply t_let; eauto. eapply declares_hd; eauto.
  - cbn [List.length] in L. ll.
  - (* tl_cons *) destruct pre as [|d pre]; [injection E; discriminate|]. cbn [app] in E. injection E as <- E. rewrite <- app_assoc in E. cbn [List.length] in L. rewrite app_length in L.
    apply outside_tail in O. destruct (cut _ _ _ _ E) as [L1|(p2&->&E2)].
    + destruct (IHD1 ltac:(discriminate) pre E L1 O) as (post&es'&->&S&D'). apply swapl_one in S as (e'&->&S).
      exists (post ++ us), (e' :: es). split; [asc; auto|]. split; [now apply swapl_here|].
      to ((TComma, k) :: (pre ++ G2 ++ post) ++ us). now apply tl_cons.
    + rewrite !app_length in L. apply outside_app in O. destruct (IHD2 ltac:(discriminate) p2 E2 ltac:(ll) O) as (post&es'&Eu&S&D').
      exists post, (e :: es'). split; [rewrite Eu; asc; auto|]. split; [now apply swapl_cons|].
      to ((TComma, k) :: ts ++ (p2 ++ G2 ++ post)). apply tl_cons; auto.
      eapply exprs_hd; eauto. apply (hd_mid [] us p2 post r Eu).
  - cbn [List.length] in L. ll.
  - (* i_comma *) rewrite <- app_assoc in E. destruct (cut _ _ _ _ E) as [L1|(p2&->&E2)].
    + destruct (IHD1 ltac:(discriminate) pre E L1 O) as (post&es'&Eu&S&D'). apply swapl_one in S as (e'&->&S).
      destruct (head_same _ _ _ _ _ Eu) as (us'&Eh).
      exists (post ++ (TComma, k') :: us), (e' :: es). split; [rewrite Eu; asc; auto|]. split; [now apply swapl_here|].
      to ((pre ++ G2 ++ post) ++ (TComma, k') :: us). rewrite Eh in *. now apply i_comma.
    + destruct p2 as [|d p2]; [injection E2; discriminate|]. cbn [app] in E2. injection E2 as <- E2. rewrite !app_length in L. cbn [List.length] in L.
      apply outside_app, outside_tail in O. destruct (IHD2 ltac:(discriminate) p2 E2 ltac:(ll) O) as (post&es'&Eu&S&D').
      exists post, (e :: es'). split; [rewrite Eu; asc; auto|]. split; [now apply swapl_cons|].
      to (((t, k) :: ts) ++ (TComma, k') :: (p2 ++ G2 ++ post)).
      apply i_comma; auto. eapply exprs_hd; eauto.
  - (* i_plain *) rewrite <- app_assoc in E. destruct (cut _ _ _ _ E) as [L1|(p2&->&E2)].
    + destruct (IHD1 ltac:(discriminate) pre E L1 O) as (post&es'&Eu&S&D'). apply swapl_one in S as (e'&->&S).
      destruct (head_same _ _ _ _ _ Eu) as (us'&Eh).
      exists (post ++ us), (e' :: es). split; [rewrite Eu; asc; auto|]. split; [now apply swapl_here|].
      to ((pre ++ G2 ++ post) ++ us). rewrite Eh in *. now apply i_plain.
    + rewrite !app_length in L. apply outside_app in O. destruct (IHD2 ltac:(discriminate) p2 E2 ltac:(ll) O) as (post&es'&Eu&S&D').
      exists post, (e :: es'). split; [rewrite Eu; asc; auto|]. split; [now apply swapl_cons|].
      pose proof (hd_mid [] us p2 post r Eu) as Hh.
      unfold ptok in *; rewrite <- app_assoc. apply i_plain; auto; [eapply exprs_hd; eauto|]. exact (eq_trans (eq_sym (next_hd is_comma _ _ Hh)) H).
Qed.

Lemma decl_hd ts d r r' : decl_of Nat.ltb ts d r -> hd_error r = hd_error r' -> decl_of Nat.ltb ts d r'.
Proof. intros [? ? ? H|? ? ? ? ? H] E; [apply do_infix; eapply declares_hd; eauto|apply do_expr; eapply exprs_hd; eauto]. Qed.

Inductive swapd : decl -> decl -> Prop := sd_expr e e' : swapped x y e e' -> swapd (DExpr e) (DExpr e').

Lemma decl_moves ts d r : decl_of Nat.ltb ts d r -> forall pre, ts ++ r = pre ++ G1 ++ tb -> List.length pre < List.length ts -> outside_patterns pre ->
  exists post d', ts = pre ++ G1 ++ post /\ swapd d d' /\ decl_of Nat.ltb (pre ++ G2 ++ post) d' r.
Proof.
  intros [us d0 r0 H|t k us e r0 H] pre E L O.
  - exfalso. assert (I : In (TParenL, kp) us).
    { apply (f_equal (fun l => nth_error l (List.length pre))) in E. rewrite nth_error_app1 in E by auto. rewrite nth_error_app2 in E by lia.
      rewrite Nat.sub_diag in E. cbn in E. eapply nth_error_In; eauto. }
    apply declares_noparen in H. apply (proj1 (Forall_forall _ _) H) in I. now apply I.
  - destruct (exprs_moves _ _ _ _ H pre E L O) as (post&es'&Eu&S&D). apply swapl_one in S as (e'&->&S).
    exists post, (DExpr e'). split; auto. split; [now constructor|]. destruct (head_same _ _ _ _ _ Eu) as (us'&Eh).
    unfold ptok in *. rewrite Eh in *. now apply do_expr.
Qed.

Ltac top t := unfold ptok in *; match goal with |- program _ ?u _ => replace u with t by (asc; auto) end; unfold ptok in *.

Lemma program_moves ts ds : program Nat.ltb ts ds -> forall pre, ts = pre ++ G1 ++ tb -> outside_patterns pre ->
  exists us d d' vs, ds = us ++ d :: vs /\ swapd d d' /\ program Nat.ltb (pre ++ G2 ++ tb) (us ++ d' :: vs).
Proof.
  induction 1 as [|ts d k us ds D P IH|ts d us ds D N P IH]; intros pre E O.
  - destruct pre; discriminate.
  - destruct (cut _ _ _ _ E) as [L|(p2&->&E2)].
    + destruct (decl_moves _ _ _ D pre E L O) as (post&d'&->&S&D'). exists [], d, d', ds. split; auto. split; auto.
      assert (Et : tb = post ++ (TSemi, k) :: us) by (rewrite <- !app_assoc in E; apply app_inv_head, app_inv_head in E; auto).
      rewrite Et. top ((pre ++ G2 ++ post) ++ (TSemi, k) :: us).
      now apply pr_semi.
    + destruct p2 as [|x2 p2]; [injection E2; discriminate|]. cbn [app] in E2. injection E2 as <- E2.
      apply outside_app, outside_tail in O. destruct (IH p2 E2 O) as (u1&d1&d2&v1&->&S&P').
      exists (d :: u1), d1, d2, v1. split; auto. split; auto.
      top (ts ++ (TSemi, k) :: (p2 ++ G2 ++ tb)).
      apply (pr_semi Nat.ltb ts d k (p2 ++ G2 ++ tb) (u1 ++ d2 :: v1)); auto. eapply decl_hd; eauto.
  - destruct (cut _ _ _ _ E) as [L|(p2&->&E2)].
    + destruct (decl_moves _ _ _ D pre E L O) as (post&d'&->&S&D'). exists [], d, d', ds. split; auto. split; auto.
      assert (Et : tb = post ++ us) by (rewrite <- !app_assoc in E; apply app_inv_head, app_inv_head in E; auto).
      rewrite Et. top ((pre ++ G2 ++ post) ++ us).
      now apply pr_plain.
    + apply outside_app in O. destruct (IH p2 E2 O) as (u1&d1&d2&v1&->&S&P').
      exists (d :: u1), d1, d2, v1. split; auto. split; auto.
      assert (Hh : hd_error us = hd_error (p2 ++ G2 ++ tb)) by (rewrite E2; destruct p2; auto).
      rewrite <- app_assoc. apply (pr_plain Nat.ltb ts d (p2 ++ G2 ++ tb) (u1 ++ d2 :: v1)); auto; [eapply decl_hd; eauto|].
      exact (eq_trans (eq_sym (next_hd is_semi _ _ Hh)) N).
Qed.

Lemma swapd_program us d d' vs : swapd d d' ->
  swapped_program x y (fold_left ast_push (us ++ d :: vs) ast_empty) (fold_left ast_push (us ++ d' :: vs) ast_empty).
Proof.
  intros [e e' S]. rewrite !fold_left_app. cbn [fold_left]. generalize (fold_left ast_push us ast_empty). intros a.
  assert (K : forall vs k1 i1 u w c c', swapped x y c c' ->
    swapped_program x y (fold_left ast_push vs (mkAst k1 i1 (u ++ c :: w))) (fold_left ast_push vs (mkAst k1 i1 (u ++ c' :: w)))).
  { clear. induction vs as [|d vs IH]; intros k1 i1 u w c c' S; cbn [fold_left].
    - split; auto. split; auto. exists u, c, c', w. auto.
    - destruct d; cbn [ast_push a_kinds a_infxs a_exprs]; rewrite <- ?app_assoc; cbn [app]; apply IH; auto. }
  cbn [ast_push]. exact (K vs _ _ (a_exprs a) [] e e' S).
Qed.
End Exchange.

Section WithUcd.
Context {U : ucd}.
Hypothesis HU : letters U.
Lemma atom_det l ts es r ts' es' r' : sees l (ts ++ r) -> ts ++ r = ts' ++ r' -> exprs Nat.ltb KAtom ts es r -> exprs Nat.ltb KAtom ts' es' r' ->
  ts = ts' /\ es = es'.
Proof.
  intros S0 E D D'. pose (n := List.length ts + List.length ts').
  destruct (exprs_run HU _ _ _ _ D n l ltac:(unfold n; lia) S0) as (x1&l1&->&R1&S1).
  rewrite E in S0. destruct (exprs_run HU _ _ _ _ D' n l ltac:(unfold n; lia) S0) as (x2&l2&->&R2&S2).
  rewrite R1 in R2. injection R2 as <- <-. pose proof (sees_unique _ _ _ S1 S2) as <-. apply app_inv_tail in E. auto.
Qed.
End WithUcd.
