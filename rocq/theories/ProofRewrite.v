(** Correctness of the two-stack machine of [Fixities::rewrite]. *)
From Coq Require Import List NArith ZArith Bool Lia.
From Coq Require Import ZifyBool ZifyN.
From Verif Require Import Prelim Syntax Fixity SpecFixity.
Import ListNotations.

Lemma app_cons_split {A} (l1 l2 r1 r2 : list A) x y :
  l1 ++ x :: r1 = l2 ++ y :: r2 ->
  (l1 = l2 /\ x = y /\ r1 = r2)
  \/ (exists m, l2 = l1 ++ x :: m /\ r1 = m ++ y :: r2)
  \/ (exists m, l1 = l2 ++ y :: m /\ r2 = m ++ x :: r1).
Proof.
  revert l2. induction l1 as [|a l1 IH]; intros [|b l2] H; simpl in *; injection H as H1 H2.
  - left; auto.
  - right; left. exists l2. subst; auto.
  - right; right. exists l1. subst; auto.
  - subst b. destruct (IH _ H2) as [(->&->&->)|[(m&->&->)|(m&->&->)]].
    + left; auto.
    + right; left. exists m; auto.
    + right; right. exists m; auto.
Qed.

Section Spec.
Variable F : infix -> fixity.
Notation prec := (prec F).

Lemma legal_ops g : legal F g ->
  match g with
  | Leaf _ => True
  | Node l o r =>
      (forall c, In (Operator c) (yield l) -> left_ok F c o)
      /\ (forall c, In (Operator c) (yield r) -> right_ok F o c)
  end.
Proof.
  induction g as [e|l IHl o r IHr]; simpl; auto.
  intros (Hl & Hr & HL & HR). specialize (IHl Hl). specialize (IHr Hr). split.
  - intros c Hc. destruct l as [e|ll lo lr]; simpl in *.
    + destruct Hc as [Hc|[]]. discriminate.
    + destruct IHl as [I1 I2].
      pose proof (HL lo eq_refl) as Hlo.
      apply in_app_or in Hc as [Hc|[Hc|Hc]].
      * specialize (I1 c Hc). unfold left_ok, is_infixl in *.
        destruct Hlo as [?|(?&?&?)]; destruct I1 as [?|(?&?&?)]; auto; try (left; lia).
        right; repeat split; auto; lia.
      * injection Hc as ->. auto.
      * specialize (I2 c Hc). unfold left_ok, right_ok, is_infixl, is_infixr in *.
        destruct Hlo as [?|(?&?&?)]; destruct I2 as [?|(?&?&?)]; try (left; lia); congruence.
  - intros c Hc. destruct r as [e|rl ro rr]; simpl in *.
    + destruct Hc as [Hc|[]]. discriminate.
    + destruct IHr as [I1 I2].
      pose proof (HR ro eq_refl) as Hro.
      apply in_app_or in Hc as [Hc|[Hc|Hc]].
      * specialize (I1 c Hc). unfold left_ok, right_ok, is_infixl, is_infixr in *.
        destruct Hro as [?|(?&?&?)]; destruct I1 as [?|(?&?&?)]; try (left; lia); congruence.
      * injection Hc as ->. auto.
      * specialize (I2 c Hc). unfold right_ok, is_infixr in *.
        destruct Hro as [?|(?&?&?)]; destruct I2 as [?|(?&?&?)]; auto; try (left; lia).
        right; repeat split; auto; lia.
Qed.

Lemma legal_left l o r c : legal F (Node l o r) -> In (Operator c) (yield l) -> left_ok F c o.
Proof. intros H. apply (legal_ops _ H). Qed.
Lemma legal_right l o r c : legal F (Node l o r) -> In (Operator c) (yield r) -> right_ok F o c.
Proof. intros H. apply (legal_ops _ H). Qed.

Lemma yield_nonempty g : yield g <> [].
Proof. destruct g; simpl; [discriminate|]. destruct (yield g1); discriminate. Qed.

Theorem legal_unique_lemma g1 g2 :
  legal F g1 -> legal F g2 -> yield g1 = yield g2 -> g1 = g2.
Proof.
  revert g2. induction g1 as [e1|l1 IHl o1 r1 IHr]; intros g2 L1 L2 Y.
  - destruct g2 as [e2|l2 o2 r2]; simpl in Y.
    + congruence.
    + destruct (yield l2) as [|a [|b l]] eqn:E; simpl in Y.
      * now apply yield_nonempty in E.
      * injection Y as _ Y. discriminate.
      * discriminate.
  - destruct g2 as [e2|l2 o2 r2]; simpl in Y.
    + destruct (yield l1) as [|a [|b l]] eqn:E; simpl in Y.
      * now apply yield_nonempty in E.
      * injection Y as _ Y. discriminate.
      * discriminate.
    + destruct (app_cons_split _ _ _ _ _ _ Y) as [(A&B&C)|[(m&A&B)|(m&A&B)]].
      * destruct L1 as (?&?&_), L2 as (?&?&_). injection B as ->.
        rewrite (IHl l2), (IHr r2); auto.
      * assert (H1 : left_ok F o1 o2)
          by (apply (legal_left _ _ _ _ L2); rewrite A; apply in_or_app; right; left; auto).
        assert (H2 : right_ok F o1 o2)
          by (apply (legal_right _ _ _ _ L1); rewrite B; apply in_or_app; right; left; auto).
        unfold left_ok, right_ok, is_infixl, is_infixr in *.
        destruct H1 as [?|(?&?&?)], H2 as [?|(?&?&?)]; try lia; congruence.
      * assert (H1 : left_ok F o2 o1)
          by (apply (legal_left _ _ _ _ L1); rewrite A; apply in_or_app; right; left; auto).
        assert (H2 : right_ok F o2 o1)
          by (apply (legal_right _ _ _ _ L2); rewrite B; apply in_or_app; right; left; auto).
        unfold left_ok, right_ok, is_infixl, is_infixr in *.
        destruct H1 as [?|(?&?&?)], H2 as [?|(?&?&?)]; try lia; congruence.
Qed.

(** Same as [clash] with the weaker condition that nothing in between binds
    less tightly. *)
Definition wclash (its : list item) (o1 o2 : infix) : Prop :=
  exists a m b,
    its = a ++ Operator o1 :: m ++ Operator o2 :: b
    /\ prec o1 = prec o2
    /\ ~ (is_infixl F o1 /\ is_infixl F o2)
    /\ ~ (is_infixr F o1 /\ is_infixr F o2)
    /\ (forall o, In (Operator o) m -> (prec o1 <= prec o)%N).

Lemma clash_wclash its o1 o2 : clash F its o1 o2 -> wclash its o1 o2.
Proof.
  intros (a&m&b&H1&H2&H3&H4&H5). exists a, m, b. repeat split; auto.
  intros o Ho. specialize (H5 o Ho). lia.
Qed.

Lemma wclash_not_legal g o1 o2 : legal F g -> wclash (yield g) o1 o2 -> False.
Proof.
  revert o1 o2.
  induction g as [e|l IHl o r IHr]; intros o1 o2 L (a&m&b&Y&Hp&Hl&Hr&Hm); simpl in Y.
  - destruct a as [|x a]; [discriminate|]. injection Y as _ Y. destruct a; discriminate.
  - pose proof L as (Ll & Lr & _).
    destruct (app_cons_split _ _ _ _ _ _ Y) as [(A&B&C)|[(k&A&B)|(k&A&B)]].
    + (* o1 is the root *)
      injection B as ->.
      assert (H : right_ok F o1 o2)
        by (apply (legal_right _ _ _ _ L); rewrite C; apply in_or_app; right; left; auto).
      destruct H as [?|(?&?&?)]; [lia|]. apply Hr; auto.
    + (* o1 right of the root *)
      apply (IHr o1 o2 Lr). exists k, m, b. repeat split; auto.
    + (* o1 left of the root *)
      destruct (app_cons_split _ _ _ _ _ _ B) as [(A'&B'&C')|[(k'&A'&B')|(k'&A'&B')]].
      * injection B' as <-.
        assert (H : left_ok F o1 o2)
          by (apply (legal_left _ _ _ _ L); rewrite A; apply in_or_app; right; left; auto).
        destruct H as [?|(?&?&?)]; [lia|]. apply Hl; auto.
      * apply (IHl o1 o2 Ll). exists a, m, k'. repeat split; auto. congruence.
      * assert (H1 : left_ok F o1 o)
          by (apply (legal_left _ _ _ _ L); rewrite A; apply in_or_app; right; left; auto).
        assert (H2 : right_ok F o o2)
          by (apply (legal_right _ _ _ _ L); rewrite B'; apply in_or_app; right; left; auto).
        assert (H3 : (prec o1 <= prec o)%N)
          by (apply Hm; rewrite A'; apply in_or_app; right; left; auto).
        unfold left_ok, right_ok, is_infixl, is_infixr in *.
        destruct H1 as [?|(?&?&?)], H2 as [?|(?&?&?)]; try lia; congruence.
Qed.

(** Stack of pending (operand, operator) pairs, top first. *)
Definition gstack := list (gtree * infix).

Fixpoint syield (s : gstack) : list item :=
  match s with
  | [] => []
  | (g, o) :: s' => syield s' ++ yield g ++ [Operator o]
  end.

Definition under (s : gstack) (c : infix) : Prop :=
  match s with [] => True | (_, o) :: _ => right_ok F o c end.

Fixpoint ok_stack (s : gstack) : Prop :=
  match s with
  | [] => True
  | (g, o) :: s' =>
      legal F g /\ (forall c, root g = Some c -> left_ok F c o)
      /\ (forall c, root g = Some c -> under s' c)
      /\ under s' o /\ ok_stack s'
  end.

End Spec.

Section Machine.
Variable t : fixities.
Notation F := (get t).

Definition exprs_of (s : gstack) : list expr := map (fun p => as_expr (fst p)) s.
Definition ops_of (s : gstack) : list infix := map snd s.

Lemma from_fixities_spec o c :
  match from_fixities (F o) (F c) with
  | RShift => right_ok F o c
  | RReduce => left_ok F o c
  | RAmbiguous pf cf =>
      pf = F o /\ cf = F c /\ prec F o = prec F c
      /\ ~ (is_infixl F o /\ is_infixl F c) /\ ~ (is_infixr F o /\ is_infixr F c)
  end.
Proof.
  unfold from_fixities, right_ok, left_ok, is_infixl, is_infixr, prec.
  destruct (N.ltb_spec (fx_prec (F o)) (fx_prec (F c))); [left; auto|].
  destruct (N.eqb_spec (fx_prec (F c)) (fx_prec (F o))) as [E|E].
  - destruct (fx_assoc (F c)) eqn:Ac, (fx_assoc (F o)) eqn:Ao;
      try (right; repeat split; congruence);
      repeat split; try congruence; intros [? ?]; congruence.
  - left. lia.
Qed.

Lemma push_op_spec s : forall g op,
  legal F g -> ok_stack F s ->
  (forall c, root g = Some c -> left_ok F c op) ->
  (forall c, root g = Some c -> under F s c) ->
  match push_op t (as_expr g :: exprs_of s) (ops_of s) op with
  | Ok (inl (es, is)) =>
      exists s', es = exprs_of s' /\ is = ops_of s' /\ ok_stack F s'
        /\ (exists g' s0, s' = (g', op) :: s0)
        /\ syield s' = syield s ++ yield g ++ [Operator op]
  | Ok (inr err) =>
      clash F (syield s ++ yield g ++ [Operator op]) (e_prev err) (e_curr err)
      /\ e_prev_fix err = F (e_prev err) /\ e_curr_fix err = F (e_curr err)
      /\ e_curr err = op
  | Panic _ => False
  | NoFuel => False
  end.
Proof.
  induction s as [|[g0 o] s IH]; intros g op Lg Ok_ HL HU; simpl.
  - exists [(g, op)]. simpl. repeat split; auto. exists g, []. auto.
  - pose proof (from_fixities_spec o op) as R.
    destruct (from_fixities (F o) (F op)) as [| |pf cf].
    + exists ((g, op) :: (g0, o) :: s). simpl.
      simpl in Ok_, HU. repeat split; try tauto; auto.
      * exists g, ((g0, o) :: s). auto.
    + simpl in Ok_. destruct Ok_ as (Lg0 & HL0 & HU0 & Uo & Oks).
      change (Bin (as_expr g0) o (as_expr g)) with (as_expr (Node g0 o g)).
      specialize (IH (Node g0 o g) op).
      assert (A1 : legal F (Node g0 o g)) by (simpl; repeat split; auto).
      assert (A2 : forall c, root (Node g0 o g) = Some c -> left_ok F c op)
        by (simpl; intros c Hc; injection Hc as <-; auto).
      assert (A3 : forall c, root (Node g0 o g) = Some c -> under F s c)
        by (simpl; intros c Hc; injection Hc as <-; auto).
      specialize (IH A1 Oks A2 A3).
      replace ((syield s ++ yield g0 ++ [Operator o]) ++ yield g ++ [Operator op])
        with (syield s ++ yield (Node g0 o g) ++ [Operator op])
        by (simpl; rewrite <- !app_assoc; simpl; rewrite <- ?app_assoc; reflexivity).
      exact IH.
    + destruct R as (-> & -> & Hp & Hl & Hr). simpl. repeat split; auto.
      exists (syield s ++ yield g0), (yield g), [].
      rewrite <- !app_assoc. simpl. repeat split; auto.
      intros c Hc.
      assert (R : forall d, root g = Some d -> (prec F o < prec F d)%N).
      { intros d Hd. pose proof (HL d Hd) as [?|(?&?&?)]; [lia|].
        pose proof (HU d Hd) as [?|(?&?&?)]; [lia|].
        unfold is_infixl, is_infixr in *. congruence. }
      destruct g as [e|l c0 r]; simpl in Hc.
      { destruct Hc as [Hc|[]]; discriminate. }
      specialize (R c0 eq_refl).
      apply in_app_or in Hc as [Hc|[Hc|Hc]].
      * apply (legal_left F l c0 r c Lg) in Hc as [?|(?&?&?)]; lia.
      * injection Hc as ->. auto.
      * apply (legal_right F l c0 r c Lg) in Hc as [?|(?&?&?)]; lia.
Qed.

Lemma finish_spec s : forall g,
  legal F g -> ok_stack F s -> (forall c, root g = Some c -> under F s c) ->
  exists g', finish (exprs_of s) (ops_of s) (as_expr g) = Ok (as_expr g')
    /\ legal F g' /\ yield g' = syield s ++ yield g.
Proof.
  induction s as [|[g0 o] s IH]; intros g Lg Ok_ HU; simpl.
  - exists g. auto.
  - simpl in Ok_. destruct Ok_ as (Lg0 & HL0 & HU0 & Uo & Oks).
    destruct (IH (Node g0 o g)) as (g' & E & L & Y); auto.
    + simpl. repeat split; auto.
    + simpl. intros c Hc. injection Hc as <-. auto.
    + exists g'. simpl in E. rewrite E. repeat split; auto.
      rewrite Y. simpl. rewrite <- !app_assoc. reflexivity.
Qed.

Lemma rewrite_loop_spec e : forall s,
  ok_stack F s ->
  match rewrite_loop t e (exprs_of s) (ops_of s) with
  | Ok (inl e') =>
      exists g, as_expr g = e' /\ legal F g /\ yield g = syield s ++ chain e
  | Ok (inr err) =>
      clash F (syield s ++ chain e) (e_prev err) (e_curr err)
      /\ e_prev_fix err = F (e_prev err) /\ e_curr_fix err = F (e_curr err)
  | Panic _ => False
  | NoFuel => False
  end.
Proof.
  assert (Leafcase : forall e0 s, ok_stack F s ->
    match match finish (exprs_of s) (ops_of s) e0 with
          | Ok e' => Ok (inl e') | Panic p => Panic p | NoFuel => NoFuel end with
    | Ok (inl e') =>
        exists g, as_expr g = e' /\ legal F g /\ yield g = syield s ++ [Operand e0]
    | Ok (inr err) =>
        clash F (syield s ++ [Operand e0]) (e_prev err) (e_curr err)
        /\ e_prev_fix err = F (e_prev err) /\ e_curr_fix err = F (e_curr err)
    | Panic _ => False
    | NoFuel => False
    end).
  { intros e0 s Hs. destruct (finish_spec s (Leaf e0)) as (g&E&L&Y); simpl; auto.
    - intros c Hc; discriminate.
    - simpl in E. rewrite E. exists g; auto. }
  induction e as [l|i|f IHf x IHx|l IHl o r IHr|p b IHb|b IHb|b IHb|es|es|d b IHb];
    intros s Hs; try (apply Leafcase; assumption).
  simpl.
  pose proof (push_op_spec s (Leaf l) o I Hs) as P.
  simpl in P. specialize (P ltac:(discriminate) ltac:(discriminate)).
  destruct (push_op t (l :: exprs_of s) (ops_of s) o) as [[[es is]|err]|p|]; try tauto.
  - destruct P as (s' & -> & -> & Hs' & _ & Y).
    specialize (IHr s' Hs'). rewrite Y in IHr.
    rewrite <- app_assoc in IHr. exact IHr.
  - destruct P as ((a&m&b&H1&H2) & H3 & H4 & H5). split; [|auto].
    exists a, m, (b ++ chain r). split; [|exact H2].
    replace (syield s ++ Operand l :: Operator o :: chain r)
      with ((syield s ++ [Operand l; Operator o]) ++ chain r)
      by (rewrite <- app_assoc; reflexivity).
    rewrite H1. rewrite <- !app_assoc. simpl. rewrite <- !app_assoc. reflexivity.
Qed.

Lemma rewrite_spec e :
  match rewrite t e with
  | Ok (inl e') => exists g, as_expr g = e' /\ legal F g /\ yield g = chain e
  | Ok (inr err) =>
      clash F (chain e) (e_prev err) (e_curr err)
      /\ e_prev_fix err = F (e_prev err) /\ e_curr_fix err = F (e_curr err)
  | Panic _ => False
  | NoFuel => False
  end.
Proof. exact (rewrite_loop_spec e [] I). Qed.

Lemma rewrite_complete e g :
  legal F g -> yield g = chain e -> rewrite t e = Ok (inl (as_expr g)).
Proof.
  intros L Y. pose proof (rewrite_spec e) as S.
  destruct (rewrite t e) as [[e'|err]|p|]; try tauto.
  - destruct S as (g' & <- & L' & Y'). rewrite (legal_unique_lemma F g g'); auto. congruence.
  - destruct S as (S & _). exfalso. rewrite <- Y in S.
    exact (wclash_not_legal F g _ _ L (clash_wclash F _ _ _ S)).
Qed.

Lemma rewrite_iff e e' :
  rewrite t e = Ok (inl e') <-> exists g, legal F g /\ yield g = chain e /\ as_expr g = e'.
Proof.
  split.
  - intros H. pose proof (rewrite_spec e) as S. rewrite H in S.
    destruct S as (g&?&?&?). exists g; auto.
  - intros (g&L&Y&<-). apply rewrite_complete; auto.
Qed.
End Machine.
