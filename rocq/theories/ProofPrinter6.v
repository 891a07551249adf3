(** Printing panics on negations only, and does not look at the table. *)
From Coq Require Import List Arith NArith ZArith Bool String Lia.
From Verif Require Import Prelim Chars Syntax Fixity SpecFixity Style SpecStyle SpecLexer SpecParser Printer SpecPrinter.
From Verif Require Import ProofPrinter ProofPrinter2.
Import ListNotations.

(** From the stacks [st], [st'] the writers [w], [w'] either write the same text
    and leave [st1], [st1'], or fail; the former iff [P]. *)
Definition same (P : Prop) (w w' : writer) (st st' st1 st1' : list fixity) : Prop :=
  P /\ (exists s, w st = Ok (s, st1) /\ w' st' = Ok (s, st1')) \/
  ~ P /\ w st = Panic PTodoNeg /\ w' st' = Panic PTodoNeg.

Lemma same_seq P Q a a' b b' st st' st1 st1' st2 st2' : same P a a' st st' st1 st1' -> same Q b b' st1 st1' st2 st2' ->
  same (P /\ Q) (a ;; b) (a' ;; b') st st' st2 st2'.
Proof.
  intros [(HP&s&E&E')|(HP&E&E')] H2; unfold same, wseq; rewrite E, E'; cbn [obind]; [|right; tauto].
  destruct H2 as [(HQ&u&F&F')|(HQ&F&F')]; rewrite F, F'; cbn [obind]; [left|right; tauto]. eauto.
Qed.
Lemma same_iff P Q w w' st st' st1 st1' : same P w w' st st' st1 st1' -> (P <-> Q) -> same Q w w' st st' st1 st1'.
Proof. intros [(H&X)|(H&X)] I; [left|right]; tauto. Qed.
Lemma same_ok (P : Prop) (w w' : writer) st st' st1 st1' s : w st = Ok (s, st1) -> w' st' = Ok (s, st1') -> P -> same P w w' st st' st1 st1'.
Proof. intros E E' H. left. eauto. Qed.
Lemma same_wr s st st' : same True (wr s) (wr s) st st' st st'.
Proof. eapply same_ok; reflexivity || exact I. Qed.
Lemma same_then s P b b' st st' st2 st2' : same P b b' st st' st2 st2' -> same P (wr s ;; b) (wr s ;; b') st st' st2 st2'.
Proof. intros H. eapply same_iff; [eapply same_seq; [apply same_wr|exact H]|tauto]. Qed.
Lemma same_set s s' P b b' st st' st2 st2' : same P b b' s s' st2 st2' -> same P (wset s ;; b) (wset s' ;; b') st st' st2 st2'.
Proof. intros H. eapply same_iff; [eapply same_seq; [eapply same_ok; reflexivity || exact I|exact H]|tauto]. Qed.
Lemma same_after s P a a' st st' st2 st2' : same P a a' st st' st2 st2' -> same P (a ;; wr s) (a' ;; wr s) st st' st2 st2'.
Proof. intros H. eapply same_iff; [eapply same_seq; [exact H|apply same_wr]|tauto]. Qed.

Lemma same_push f f' st st' : same True (wpush f) (wpush f') st st' (f :: st) (f' :: st').
Proof. eapply same_ok; reflexivity || exact I. Qed.
Lemma same_pop f f' st st' : same True wpop wpop (f :: st) (f' :: st') st st'.
Proof. eapply same_ok; reflexivity || exact I. Qed.

Lemma same_grouped P w w' st st' : List.length st = List.length st' ->
  same P w w' st st' st st' -> same P (write_grouped w) (write_grouped w') st st' st st'.
Proof.
  intros E H. destruct (same_then (highlighted [40%N] (rainbow_color (rainbow_new (N.of_nat (List.length st))))) _ _ _ _ _ _ _
    (same_after (highlighted [41%N] (rainbow_color (rainbow_new (N.of_nat (List.length st))))) _ _ _ _ _ _ _ H)) as [(HP&s&A&B)|(HP&A&B)];
    [left; split; auto; exists s|right; split; auto]; unfold write_grouped; rewrite <- E; auto.
Qed.

Lemma same_sequence {A} (P : A -> Prop) f f' st st' xs :
  Forall (fun x => same (P x) (f x) (f' x) st st' st st') xs ->
  same (Forall P xs) (write_sequence f xs) (write_sequence f' xs) st st' st st'.
Proof.
  induction 1 as [|x xs H F IH]; [eapply same_iff; [apply same_wr|split; auto]|].
  destruct xs as [|y xs]; [eapply same_iff; [exact H|]|].
  - split; intros K; [constructor; auto|inversion K; auto].
  - eapply same_iff; [eapply same_seq; [exact H|apply same_then; exact IH]|].
    split; [intros (K1&K2); constructor; auto|intros K; inversion K; auto].
Qed.

Section WithUcd.
Context {U : ucd}.

Lemma same_pat : forall p st st', List.length st = List.length st' -> same True (write_pat p) (write_pat p) st st' st st'.
Proof.
  fix IH 1. intros p st st' E.
  assert (IHs : forall ps, Forall (fun x => same True (write_pat x) (write_pat x) st st' st st') ps).
  { induction ps; constructor; auto. }
  destruct p as [|l|s|q|s ps|ps|ps|l r|s q].
  - apply same_wr.
  - apply same_wr.
  - apply same_wr.
  - cbn [write_pat]. apply same_then. apply same_after. pose proof (IH q st st' E) as K. clear IH.
    destruct q; apply same_then; try exact K; apply same_grouped; auto.
  - cbn [write_pat]. destruct ps as [|p ps]; [apply same_wr|]. apply same_then. apply same_after. clear IHs.
    generalize (p :: ps). clear p ps. fix IHl 1. intros [|p ps]; [apply same_wr|]. cbn [write_args]. apply same_then.
    eapply same_iff; [eapply same_seq; [apply IH; auto|apply IHl]|tauto].
  - cbn [write_pat]. apply same_then. apply same_after. eapply same_iff; [apply (same_sequence (fun _ => True)); auto|split; auto; intros _; apply Forall_forall; auto].
  - cbn [write_pat]. apply same_then. apply same_after. eapply same_iff; [apply (same_sequence (fun _ => True)); auto|split; auto; intros _; apply Forall_forall; auto].
  - cbn [write_pat]. set (f := mkFix 5 ARight).
    assert (L : List.length (f :: st) = List.length (f :: st')) by (cbn; congruence).
    apply (same_iff (True /\ True /\ True)); [|tauto].
    eapply same_seq; [apply same_push|]. eapply same_seq; [|apply same_pop].
    pose proof (IH l _ _ L) as Kl. pose proof (IH r _ _ L) as Kr. clear IH IHs.
    apply same_grouped; auto. eapply same_iff.
    + eapply same_seq; [|apply same_then].
      * destruct l; try exact Kl; apply same_grouped; auto.
      * destruct r; try exact Kr; apply same_grouped; auto.
    + tauto.
  - cbn [write_pat]. apply same_then. auto.
Qed.

Lemma same_write t t' : forall n e, esize e <= n -> forall st st', List.length st = List.length st' ->
  same (positive e) (write_expr t e) (write_expr t' e) st st' st st'.
Proof.
  induction n as [|n IH]; intros e Sz st st' E; [destruct e; cbn in Sz; lia|].
  assert (Szs : forall es, list_sum (map esize es) <= n -> forall st st', List.length st = List.length st' ->
    Forall (fun x => same (positive x) (write_expr t x) (write_expr t' x) st st' st st') es).
  { induction es as [|x es IHes]; intros H s s' Es; [constructor|]. change (esize x + list_sum (map esize es) <= n) in H.
    constructor; [apply IH; auto; lia|apply IHes; auto; lia]. }
  destruct e as [x|i|f x|a o b|p e|e|e|es|es|d e]; cbn [esize] in Sz.
  - eapply same_iff; [apply same_wr|split; auto; constructor].
  - cbn [write_expr]. destruct (ident_is_infix i); (eapply same_iff; [apply same_wr|split; auto; constructor]).
  - cbn [write_expr]. eapply same_iff; [eapply same_seq; [apply IH; auto; lia|apply same_then; apply IH; auto; lia]|].
    split; [intros (A&B); constructor; auto|intros K; inversion K; auto].
  - cbn [write_expr].
    assert (H : forall e, esize e <= n -> same (positive e) (if no_paren e then write_expr t e else write_grouped (write_expr t e))
      (if no_paren e then write_expr t' e else write_grouped (write_expr t' e)) (get t o :: st) (get t' o :: st') (get t o :: st) (get t' o :: st')).
    { intros e He. assert (List.length (get t o :: st) = List.length (get t' o :: st')) by (cbn; congruence).
      destruct (no_paren e); [|apply same_grouped; auto]; apply IH; auto. }
    eapply same_iff.
    + eapply same_seq; [apply same_push|]. eapply same_seq; [apply H; lia|]. apply same_then.
      eapply same_seq; [apply H; lia|]. apply same_pop.
    + split; [intros (_&A&B&_); constructor; auto|intros K; inversion K; auto].
  - assert (Hb : forall b, esize b <= n -> same (positive b) (wlams t st b) (wlams t' st' b) [] [] st st').
    { clear Sz. induction b; intros Szb; cbn [esize] in Szb;
        try (apply same_then; apply same_set; apply IH; auto; fail).
      cbn [wlams]. apply same_then. eapply same_iff; [eapply same_seq; [apply same_pat; auto|apply IHb; lia]|].
      split; [intros (A&B); constructor; auto|intros K; inversion K; auto]. }
    assert (In_ : match st' with [] => ([], []) | _ => ([40%N], [41%N]) end = match st with [] => ([], []) | _ => ([40%N], [41%N]) end).
    { destruct st, st'; auto; discriminate. }
    destruct (match st with [] => ([], []) | _ => ([40%N], [41%N]) end) as (l,r) eqn:El.
    assert (G : same (positive (Lam p e)) (wr (l ++ [92%N]) ;; wset [] ;; write_pat p ;; wlams t st e ;; wr r)
      (wr (l ++ [92%N]) ;; wset [] ;; write_pat p ;; wlams t' st' e ;; wr r) st st' st st').
    { apply same_then. apply same_set. eapply same_iff; [eapply same_seq; [apply same_pat; auto|apply same_after; apply Hb; lia]|].
      split; [intros (A&B); constructor; auto|intros K; inversion K; auto]. }
    unfold same in *. cbn [write_expr]. rewrite In_, El. exact G.
  - cbn [write_expr]. eapply same_iff; [apply same_grouped; auto; apply IH; auto; lia|].
    split; [intros A; constructor; auto|intros K; inversion K; auto].
  - right. split; auto. intros K. inversion K.
  - apply (same_iff (Forall positive es)).
    + apply (same_set [] []). apply same_then.
      eapply same_iff; [eapply same_seq; [apply same_sequence; apply Szs; auto; lia|]|].
      * apply same_then. eapply same_ok; reflexivity || exact I.
      * tauto.
    + split; [intros A; constructor; auto|intros K; inversion K; auto].
  - apply (same_iff (Forall positive es)).
    + apply (same_set [] []). apply same_then.
      eapply same_iff; [eapply same_seq; [apply same_sequence; apply Szs; auto; lia|]|].
      * apply same_then. eapply same_ok; reflexivity || exact I.
      * tauto.
    + split; [intros A; constructor; auto|intros K; inversion K; auto].
  - cbn [write_expr]. eapply same_iff; [apply IH; auto; lia|].
    split; [intros A; constructor; auto|intros K; inversion K; auto].
Qed.

Lemma print_same t t' e : print_expr t e = print_expr t' e.
Proof.
  unfold print_expr. destruct (same_write t t' _ e (le_n _) [] [] eq_refl) as [(_&s&->&->)|(_&->&->)]; reflexivity.
Qed.
Lemma print_ok t e : positive e -> exists s, print_expr t e = Ok s.
Proof.
  intros P. unfold print_expr. destruct (same_write t t _ e (le_n _) [] [] eq_refl) as [(_&s&->&_)|(N&_)]; [cbn; eauto|tauto].
Qed.
Lemma print_panic t e : ~ positive e -> print_expr t e = Panic PTodoNeg.
Proof.
  intros P. unfold print_expr. destruct (same_write t t _ e (le_n _) [] [] eq_refl) as [(K&_)|(_&->&_)]; [tauto|reflexivity].
Qed.

End WithUcd.

(** ** Parsed and resolved expressions have no negation *)

Lemma surface_positive : forall e l, surface l e -> positive e.
Proof.
  fix IH 3. intros e l H.
  assert (L : forall es, Forall (surface AsExpr) es -> Forall positive es).
  { fix IHl 2. intros es F. destruct F; constructor; eauto. }
  destruct H; try (constructor; eauto; fail); eauto.
Qed.

Lemma positive_chain e : positive e -> forall x, In (Operand x) (chain e) -> positive x.
Proof.
  induction e; intros P x I; try (cbn in I; destruct I as [I|[]]; injection I as <-; exact P).
  inversion P; subst. cbn [chain] in I. destruct I as [I|[I|I]]; [injection I as <-; auto|discriminate|auto].
Qed.

Lemma positive_tree g : (forall y, In (Operand y) (yield g) -> positive y) -> positive (as_expr g).
Proof.
  induction g as [e|l IHl o r IHr]; intros H; cbn [as_expr].
  - apply H. left. reflexivity.
  - constructor; [apply IHl|apply IHr]; intros y I; apply H; cbn [yield]; apply in_or_app; auto. right. right. auto.
Qed.

Lemma resolves_positive : forall F e e', resolves F e e' -> positive e -> positive e'.
Proof.
  fix IH 4. intros F e e' H P.
  assert (L : forall F es es', Forall2 (resolves F) es es' -> Forall positive es -> Forall positive es').
  { fix IHl 4. intros F0 es es' X. destruct X; intros Y; constructor; inversion Y; subst; eauto. }
  destruct H as [F l|F i|F a b a' b' H1 H2|F a o b g Lg X|F p a a' H1|F a a' H1|F a a' H1|F es es' X|F es es' X|F d a a' H1];
    inversion P; subst; try (constructor; eauto; fail).
  - apply positive_tree. pose proof (positive_chain _ P) as Q. revert Q. clear - IH X.
    revert X. generalize (chain (Bin a o b)) (yield g). fix IHl 3. intros l l' X. destruct X as [|x y l l' R X]; intros Q z I; [destruct I|].
    destruct I as [->|I].
    + inversion R as [c d Rcd|]; subst. eapply IH; [exact Rcd|]. apply Q. left. reflexivity.
    + eapply (IHl l l' X); [|exact I]. intros c Ic. apply Q. right. exact Ic.
Qed.
