(** C107: parentheses can be put around whatever is grouped together. *)
From Coq Require Import String List Arith NArith Bool Lia.
From Verif Require Import Prelim Syntax Fixity SpecFixity SpecMirror SpecParens ProofTable ProofRewrite ProofResolve
  ProofResolve2 ProofFixity PropsFixity PropsRename PropsMirror.
Import ListNotations.

Lemma fits_legal F w : fits F w -> legal_expr F w.
Proof.
  revert F. induction w as [l|i|a A b B|a A o b B|p a A|a A|a A|es|es|d a A]; intros F H; cbn [legal_expr]; auto.
  inversion H; subst. repeat split; eauto.
Qed.

(** ** What fits is the value of what is typed for it *)

Lemma typed_items F : forall w,
  (not_bin w -> resolves F (as_typed w) w) -> fits F w ->
  Forall2 (item_rel (resolves F)) (words w) (inorder w) -> resolves F (as_typed w) w.
Proof.
  intros w N Ft H. destruct w as [l|i|a b|a o b|p a|a|a|es|es|d a]; try (apply N; intros ? ? ? E; discriminate E).
  assert (C : chain (as_typed (Bin a o b)) = words (Bin a o b)).
  { unfold as_typed. rewrite chain_build; [reflexivity|apply alternates_words|apply words_not_bin]. }
  rewrite <- (as_expr_tree_of (Bin a o b)) at 2. apply resolves_bin.
  - apply legal_tree_of. now apply fits_legal.
  - rewrite C. cbn [words]. rewrite app_length. cbn [List.length].
    assert (K : forall e, 1 <= List.length (words e)) by (intros e; destruct (alternates_words e); cbn [List.length]; lia).
    specialize (K a). pose proof (alternates_words b) as X. destruct X; cbn [List.length]; lia.
  - rewrite C, yield_tree_of. exact H.
Qed.

Lemma fits_typed : forall n w F, esize w <= n -> fits F w ->
  resolves F (as_typed w) w /\ Forall2 (item_rel (resolves F)) (words w) (inorder w).
Proof.
  induction n as [|n IH]; intros w F S Ft; [pose proof (esize_pos w); lia|].
  assert (Es : forall es, list_sum (map esize es) <= n -> Forall (fits F) es -> Forall2 (resolves F) (map (fun x => build (words x)) es) es).
  { induction es as [|x es IHs]; intros Sz Fs; cbn [map]; constructor;
      change (list_sum (map esize (x :: es))) with (esize x + list_sum (map esize es)) in Sz; inversion Fs; subst.
    - apply (IH x F); auto. lia.
    - apply IHs; auto. lia. }
  assert (Single : not_bin w -> resolves F (as_typed w) w ->
    resolves F (as_typed w) w /\ Forall2 (item_rel (resolves F)) (words w) (inorder w)).
  { intros N R. split; auto. rewrite (words_single w N). replace (inorder w) with [Operand w].
    - repeat constructor. exact R.
    - destruct w as [l|i|a b|a o b|p a|a|a|es|es|d a]; auto. now elim (N a o b). }
  destruct w as [l|i|a b|a o b|p a|a|a|es|es|d a]; cbn [esize] in S; inversion Ft; subst;
    try (apply Single; [intros ? ? ? E; discriminate E|]; unfold as_typed; cbn [words build]; constructor;
         try (apply IH; auto; lia); try (apply Es; auto; lia)).
  assert (Ha : Forall2 (item_rel (resolves F)) (words a) (inorder a)) by (apply IH; auto; lia).
  assert (Hb : Forall2 (item_rel (resolves F)) (words b) (inorder b)) by (apply IH; auto; lia).
  assert (H : Forall2 (item_rel (resolves F)) (words (Bin a o b)) (inorder (Bin a o b))).
  { cbn [words inorder]. apply Forall2_app; auto. constructor; [constructor|exact Hb]. }
  split; [|exact H]. apply typed_items; auto. intros N. now elim (N a o b).
Qed.

(** ** Values fit *)

Lemma value_not_bin F x y : resolves F x y -> not_bin x -> not_bin y.
Proof. intros R N. inversion R; subst; intros ? ? ? E; try discriminate E. now elim (N a o b). Qed.

Lemma fits_tree F g : legal F g -> (forall y, In (Operand y) (yield g) -> not_bin y /\ fits F y) -> fits F (as_expr g).
Proof.
  induction g as [e|l IHl o r IHr]; intros L H.
  - apply H. now left.
  - cbn [legal yield as_expr] in *. destruct L as (Ll&Lr&L1&L2).
    assert (Hl : forall y, In (Operand y) (yield l) -> not_bin y /\ fits F y) by (intros y I; apply H, in_or_app; auto).
    assert (Hr : forall y, In (Operand y) (yield r) -> not_bin y /\ fits F y) by (intros y I; apply H, in_or_app; right; right; auto).
    constructor; auto.
    + intros x c y E. apply L1. destruct l as [e|l1 c' l2]; [|injection E as _ -> _; reflexivity].
      destruct (Hl e (or_introl eq_refl)) as (N&_). now elim (N x c y).
    + intros x c y E. apply L2. destruct r as [e|l1 c' l2]; [|injection E as _ -> _; reflexivity].
      destruct (Hr e (or_introl eq_refl)) as (N&_). now elim (N x c y).
Qed.

Lemma operands_simple e x : flat e -> In (Operand x) (chain e) -> not_bin x /\ flat x.
Proof.
  induction e as [l|i|a A b B|a A o b B|p a A|a A|a A|es|es|d a A]; intros Fl I;
    try (destruct I as [I|[]]; injection I as <-; split; auto; intros ? ? ? E; discriminate E).
  inversion Fl; subst. cbn [chain] in I. destruct I as [I|[I|I]]; [injection I as <-; auto|discriminate I|auto].
Qed.

Lemma values_fit F e w : resolves F e w -> flat e -> fits F w.
Proof.
  intros H. induction H using resolves_ind'; intros Fl; inversion Fl; subst; try (constructor; auto; fail).
  - apply fits_tree; auto. intros y I.
    assert (K : forall x, In (Operand x) (chain (Bin a o b)) -> not_bin x /\ flat x) by (intros x J; now apply (operands_simple (Bin a o b))).
    revert I K. clear - H0. intros I K. induction H0 as [|x z xs zs Hxz _ IH]; [destruct I|]. destruct I as [->|I].
    + inversion Hxz as [u v (R&P)|]; subst. destruct (K u (or_introl eq_refl)) as (N&Fu). split; [exact (value_not_bin _ _ _ R N)|auto].
    + apply IH; auto. intros u J. apply K. now right.
  - constructor. match goal with X : Forall flat _ |- _ => revert X end. clear - H. induction H as [|x y xs ys (_&K) _ IH]; intros X; constructor; inversion X; auto.
  - constructor. match goal with X : Forall flat _ |- _ => revert X end. clear - H. induction H as [|x y xs ys (_&K) _ IH]; intros X; constructor; inversion X; auto.
Qed.

Lemma flat_typed w : flat (as_typed w).
Proof.
  apply (build_parts flat); [intros; now constructor|apply alternates_words|]. intros x H. exact (flat_words _ _ (le_n _) x H).
Qed.
Lemma nodup_typed w : nodup_lets w -> nodup_lets (as_typed w).
Proof.
  intros N. apply (build_parts nodup_lets); [intros; now constructor|apply alternates_words|]. intros x H. exact (nodup_words _ _ (le_n _) N x H).
Qed.

Lemma values_nodup F e w : resolves F e w -> nodup_lets e -> nodup_lets w.
Proof.
  intros H. induction H using resolves_ind'; intros Nd; try (inversion Nd; subst; constructor; auto; fail).
  - assert (K : forall y, In (Operand y) (yield g) -> nodup_lets y).
    { intros y I. pose proof (nodup_chain _ Nd) as K. revert I K. clear - H0. intros I K.
      induction H0 as [|x z xs zs Hxz _ IH]; [destruct I|]. destruct I as [->|I].
      - inversion Hxz as [u v (R&P)|]; subst. apply P, K. now left.
      - apply IH; auto. intros u J. apply K. now right. }
    revert K. clear. induction g as [e|l IHl o r IHr]; cbn [yield as_expr]; intros K; [apply K; now left|].
    constructor; [apply IHl|apply IHr]; intros y I; apply K, in_or_app; [now left|right; right; auto].
  - inversion Nd as [| | | | | | |? X| |]; subst. constructor. revert X. clear - H. induction H as [|x y xs ys (_&K) _ IH]; intros X; constructor; inversion X; auto.
  - inversion Nd as [| | | | | | | |? X|]; subst. constructor. revert X. clear - H. induction H as [|x y xs ys (_&K) _ IH]; intros X; constructor; inversion X; auto.
Qed.

(** ** More parentheses *)

Lemma parens_bin : forall a x c y, more_parens a (Bin x c y) -> exists x0 y0, a = Bin x0 c y0.
Proof. intros a x c y H. inversion H; subst; eauto. Qed.

Lemma fits_parens : forall n w w' F, esize w' <= n -> more_parens w w' -> fits F w -> fits F w'.
Proof.
  induction n as [|n IH]; intros w w' F S M Ft; [pose proof (esize_pos w'); lia|].
  assert (Es : forall es es', list_sum (map esize es') <= n -> Forall2 more_parens es es' -> Forall (fits F) es -> Forall (fits F) es').
  { intros es es' Sz H. induction H as [|x y xs ys Hxy H IHs]; intros Fs; constructor;
      change (list_sum (map esize (y :: ys))) with (esize y + list_sum (map esize ys)) in Sz; inversion Fs; subst.
    - eapply IH; eauto. lia.
    - apply IHs; auto. lia. }
  destruct M as [a b M|l|i|a b a' b' M1 M2|a o b a' b' M1 M2|p a a' M|a a' M|a a' M|es es' M|es es' M|d a a' M]; cbn [esize] in S.
  - constructor. eapply IH; eauto. lia.
  - exact Ft.
  - exact Ft.
  - inversion Ft; subst. constructor; eapply IH; eauto; lia.
  - inversion Ft; subst. constructor; try (eapply IH; eauto; lia).
    + intros x c y ->. apply parens_bin in M1 as (x0&y0&->). eauto.
    + intros x c y ->. apply parens_bin in M2 as (x0&y0&->). eauto.
  - inversion Ft; subst. constructor; eapply IH; eauto; lia.
  - inversion Ft; subst. constructor; eapply IH; eauto; lia.
  - inversion Ft; subst. constructor; eapply IH; eauto; lia.
  - inversion Ft; subst. constructor. eapply Es; eauto. lia.
  - inversion Ft; subst. constructor. eapply Es; eauto. lia.
  - inversion Ft; subst. constructor. eapply IH; eauto. lia.
Qed.

Lemma nodup_parens : forall n w w', esize w' <= n -> more_parens w w' -> nodup_lets w -> nodup_lets w'.
Proof.
  induction n as [|n IH]; intros w w' S M Ft; [pose proof (esize_pos w'); lia|].
  assert (Es : forall es es', list_sum (map esize es') <= n -> Forall2 more_parens es es' -> Forall nodup_lets es -> Forall nodup_lets es').
  { intros es es' Sz H. induction H as [|x y xs ys Hxy H IHs]; intros Fs; constructor;
      change (list_sum (map esize (y :: ys))) with (esize y + list_sum (map esize ys)) in Sz; inversion Fs; subst.
    - eapply IH; eauto. lia.
    - apply IHs; auto. lia. }
  destruct M as [a b M|l|i|a b a' b' M1 M2|a o b a' b' M1 M2|p a a' M|a a' M|a a' M|es es' M|es es' M|d a a' M]; cbn [esize] in S;
    try exact Ft; try (constructor; eapply IH; eauto; lia);
    inversion Ft; subst; constructor; auto; try (eapply IH; eauto; lia); try (eapply Es; eauto; lia).
Qed.

(** ** C107 *)

(** An expression is the value of what is typed for it exactly if all its
    operators fit where they stand. *)
Theorem C107_values : forall t w, nodup_lets w -> (evaluates t (as_typed w) w <-> fits (get t) w).
Proof.
  intros t w N. rewrite evaluates_iff by (auto using flat_typed, nodup_typed). split.
  - intros R. exact (values_fit _ _ _ R (flat_typed w)).
  - intros Ft. exact (proj1 (fits_typed _ w _ (le_n _) Ft)).
Qed.
Print Assumptions C107_values.

(** Whatever is typed is what is typed for its value. *)
Theorem C107_typed : forall t e w, flat e -> nodup_lets e -> evaluates t e w -> as_typed w = e /\ nodup_lets w.
Proof.
  intros t e w Fl Nd E. assert (Wd : words w = words e).
  { destruct E as (r&E). apply resolve_ast_inv in E as (r1&es&E&_&E1&_). cbn [a_exprs] in E. cbn [visit_list] in E.
    destruct (visit_expr _ e) as [(r2&e2)|p|] eqn:V; try discriminate E. cbn in E. injection E as _ <-. injection E1 as ->.
    exact (C01_visit_keeps_reading _ _ _ _ V). }
  unfold as_typed. rewrite Wd. split; [now apply build_words_flat|].
  apply (evaluates_iff t e w Fl Nd) in E. exact (values_nodup _ _ _ E Nd).
Qed.
Print Assumptions C107_typed.

(** So parentheses can be put around any parts of a value: typed with them, it is
    the value of what is typed. *)
Theorem C107_parens : forall t e w w', flat e -> nodup_lets e -> evaluates t e w -> more_parens w w' ->
  evaluates t (as_typed w') w'.
Proof.
  intros t e w w' Fl Nd E M. destruct (C107_typed t e w Fl Nd E) as (Ty&Nw).
  apply C107_values; [exact (nodup_parens _ _ _ (le_n _) M Nw)|]. apply (fits_parens _ _ _ _ (le_n _) M).
  apply C107_values; auto. now rewrite Ty.
Qed.
Print Assumptions C107_parens.

(** Parentheses around an operand can be left out exactly if the operator in them
    fits there. *)
Theorem C107_left_out : forall t x c y o b, nodup_lets (Bin (Grp (Bin x c y)) o b) ->
  evaluates t (as_typed (Bin (Grp (Bin x c y)) o b)) (Bin (Grp (Bin x c y)) o b) ->
  (evaluates t (as_typed (Bin (Bin x c y) o b)) (Bin (Bin x c y) o b) <-> left_ok (get t) c o).
Proof.
  intros t x c y o b N E. apply C107_values in E; auto.
  assert (N' : nodup_lets (Bin (Bin x c y) o b)) by (inversion N as [| | |? ? ? A B| | | | | |]; subst; inversion A; subst; now constructor).
  rewrite C107_values by exact N'. inversion E as [| | |? ? ? ? A B L R| | | | | |]; subst. inversion A; subst. split.
  - intros H. inversion H as [| | |? ? ? ? _ _ L' _| | | | | |]; subst. eauto.
  - intros H. constructor; auto. intros x0 c0 y0 Eq. injection Eq as _ -> _. exact H.
Qed.
Print Assumptions C107_left_out.

Theorem C107_left_out_right : forall t a o x c y, nodup_lets (Bin a o (Grp (Bin x c y))) ->
  evaluates t (as_typed (Bin a o (Grp (Bin x c y)))) (Bin a o (Grp (Bin x c y))) ->
  (evaluates t (as_typed (Bin a o (Bin x c y))) (Bin a o (Bin x c y)) <-> right_ok (get t) o c).
Proof.
  intros t a o x c y N E. apply C107_values in E; auto.
  assert (N' : nodup_lets (Bin a o (Bin x c y))) by (inversion N as [| | |? ? ? A B| | | | | |]; subst; inversion B; subst; now constructor).
  rewrite C107_values by exact N'. inversion E as [| | |? ? ? ? A B L R| | | | | |]; subst. inversion B; subst. split.
  - intros H. inversion H as [| | |? ? ? ? _ _ _ R'| | | | | |]; subst. eauto.
  - intros H. constructor; auto. intros x0 c0 y0 Eq. injection Eq as _ -> _. exact H.
Qed.
Print Assumptions C107_left_out_right.

(** ** Examples *)
Definition po : infix := Standard (lit "+").
Definition mo : infix := Standard (lit "*").
Definition tb : fixities := [(po, mkFix 6 ALeft); (mo, mkFix 7 ALeft)].
Definition va (s : string) : expr := Var (ILower (lit s)).
(** a + b * c + d *)
Definition typed_ex : expr := Bin (va "a") po (Bin (va "b") mo (Bin (va "c") po (va "d"))).
Definition value_ex : expr := Bin (Bin (va "a") po (Bin (va "b") mo (va "c"))) po (va "d").
(** (a + (b * c)) + d, and a + b * (c + d) *)
Definition parens_ex : expr := Bin (Grp (Bin (va "a") po (Grp (Bin (va "b") mo (va "c"))))) po (va "d").
Definition other_ex : expr := Bin (va "a") po (Bin (va "b") mo (Grp (Bin (va "c") po (va "d")))).
Example C107_ex : flat typed_ex /\ nodup_lets typed_ex /\ evaluates tb typed_ex value_ex /\ more_parens value_ex parens_ex /\
  as_typed parens_ex = Bin (Grp (Bin (va "a") po (Grp (Bin (va "b") mo (va "c"))))) po (va "d") /\ evaluates tb (as_typed parens_ex) parens_ex.
Proof.
  split; [repeat constructor; discriminate|]. split; [repeat constructor|]. split; [eexists; reflexivity|].
  split; [|split; [reflexivity|eexists; reflexivity]]. unfold value_ex, parens_ex, va.
  apply mp_bin; [apply mp_here, mp_bin; [apply mp_var|apply mp_here, mp_bin; apply mp_var]|apply mp_var].
Qed.
(** These parentheses cannot be left out. *)
Example C107_ex_needed : evaluates tb (as_typed other_ex) other_ex /\
  ~ evaluates tb (as_typed (Bin (va "a") po (Bin (va "b") mo (Bin (va "c") po (va "d"))))) (Bin (va "a") po (Bin (va "b") mo (Bin (va "c") po (va "d")))).
Proof. split; [eexists; reflexivity|intros (r&E); vm_compute in E; discriminate E]. Qed.
