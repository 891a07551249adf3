(** The two-stack machine computes what the Haskell Report's algorithm computes. *)
From Coq Require Import List NArith ZArith Bool Lia.
From Coq Require Import ZifyBool ZifyN.
From Verif Require Import Prelim Syntax Fixity SpecFixity ProofRewrite.
Import ListNotations.

Inductive alt : list item -> Prop :=
| alt_nil : alt []
| alt_cons o e ts : alt ts -> alt (Operator o :: Operand e :: ts).

Lemma chain_alt e : exists x ts, chain e = Operand x :: ts /\ alt ts.
Proof.
  induction e; simpl; try (eexists; exists []; split; [reflexivity|constructor]).
  destruct IHe2 as (x & ts & E & A). exists e1, (Operator o :: chain e2).
  rewrite E. split; auto. constructor; auto.
Qed.

Section Haskell.
Variable F : infix -> fixity.

Definition oright (op1 : option infix) (c : infix) : Prop :=
  match op1 with None => True | Some o => right_ok F o c end.
Definition opre (op1 : option infix) : list item :=
  match op1 with None => [] | Some o => [Operator o] end.
Definition next_ok (c : option infix) (ts : list item) : Prop :=
  match c, ts with Some c, Operator o :: _ => left_ok F c o | _, _ => True end.
Definition ends (op1 : option infix) (ts : list item) : Prop :=
  match op1, ts with
  | _, [] => True
  | Some p, Operator o :: _ => left_ok F p o
  | _, _ => False
  end.

Lemma wclash_app a its b o1 o2 : wclash F its o1 o2 -> wclash F (a ++ its ++ b) o1 o2.
Proof.
  intros (x&m&y&->&H). exists (a ++ x), m, (y ++ b). split; auto.
  rewrite <- !app_assoc. simpl. rewrite <- !app_assoc. reflexivity.
Qed.

Lemma hs_parse1_spec : forall fuel op1 g1 ts,
  length ts < fuel -> alt ts -> legal F g1 ->
  (forall c, root g1 = Some c -> oright op1 c) ->
  next_ok (root g1) ts ->
  match hs_parse1 F fuel op1 (as_expr g1) ts with
  | None => False
  | Some None => exists o1 o2, wclash F (opre op1 ++ yield g1 ++ ts) o1 o2
  | Some (Some (r, rest)) =>
      exists g, r = as_expr g /\ legal F g /\ yield g ++ rest = yield g1 ++ ts
        /\ (forall c, root g = Some c -> oright op1 c)
        /\ alt rest /\ ends op1 rest /\ length rest <= length ts
  end.
Proof.
  induction fuel as [|fuel IH]; intros op1 g1 ts Hf A L HR HN; [lia|].
  destruct A as [|op2 e2 rest A].
  - simpl. exists g1. repeat split; auto; try constructor.
    destruct op1; simpl; auto.
  - cbn [hs_parse1].
    set (p1 := hs_prec F op1). set (p2 := hs_prec F (Some op2)).
    set (f1 := hs_assoc F op1). set (f2 := hs_assoc F (Some op2)).
    destruct (Z.eqb p1 p2 && (negb (hs_same_assoc f1 f2) || hs_is_none f1)) eqn:E1.
    + apply andb_true_iff in E1 as [Ep Ea].
      destruct op1 as [o1|]; [|unfold p1, p2, hs_prec in Ep; lia].
      exists o1, op2. exists [], (yield g1), (Operand e2 :: rest). simpl.
      assert (P : prec F o1 = prec F op2) by (unfold p1, p2, hs_prec, prec in *; lia).
      split; [reflexivity|]. split; [exact P|].
      unfold f1, f2, hs_assoc, is_infixl, is_infixr in *.
      split; [|split].
      * intros [X Y]. rewrite X, Y in Ea. discriminate.
      * intros [X Y]. rewrite X, Y in Ea. discriminate.
      * intros c Hc. destruct g1 as [e|l c0 r]; simpl in Hc.
        { destruct Hc as [Hc|[]]; discriminate. }
        pose proof (HR c0 eq_refl) as R0. simpl in R0.
        assert (B : (prec F o1 <= prec F c0)%N) by (destruct R0 as [?|(?&?)]; lia).
        apply in_app_or in Hc as [Hc|[Hc|Hc]].
        -- apply (legal_left F l c0 r c L) in Hc as [?|(?&?&?)]; lia.
        -- injection Hc as ->. auto.
        -- apply (legal_right F l c0 r c L) in Hc as [?|(?&?&?)]; lia.
    + destruct (Z.ltb p2 p1 || (Z.eqb p1 p2 && hs_is_left f1)) eqn:E2.
      * exists g1. repeat split; auto.
        { constructor; auto. }
        destruct op1 as [o1|].
        -- simpl. unfold left_ok, is_infixl, prec.
           unfold p1, p2, f1, f2, hs_prec, hs_assoc in *.
           destruct (Z.ltb_spec (Z.of_N (fx_prec (F op2))) (Z.of_N (fx_prec (F o1)))) as [Q|Q]; [left; lia|].
           simpl in E2. apply andb_true_iff in E2 as [E2 E3].
           rewrite E2 in E1. simpl in E1.
           right.
           destruct (fx_assoc (F o1)) eqn:X1; try discriminate.
           destruct (fx_assoc (F op2)) eqn:X2; try discriminate.
           repeat split; auto. lia.
        -- unfold p1, p2, f1, hs_prec, hs_assoc in E2. simpl in E2. lia.
      * (* shift *)
        assert (R12 : oright op1 op2).
        { destruct op1 as [o1|]; simpl; auto.
          unfold right_ok, is_infixr, prec.
          unfold p1, p2, f1, f2, hs_prec, hs_assoc in *.
          destruct (Z.ltb_spec (Z.of_N (fx_prec (F op2))) (Z.of_N (fx_prec (F o1)))) as [Q|Q]; [discriminate|].
          destruct (Z.eqb_spec (Z.of_N (fx_prec (F o1))) (Z.of_N (fx_prec (F op2)))) as [Q2|Q2].
          - right. simpl in E1, E2.
            destruct (fx_assoc (F o1)) eqn:X1, (fx_assoc (F op2)) eqn:X2;
              try discriminate.
            repeat split; auto; lia.
          - left; lia. }
        simpl in Hf.
        pose proof (IH (Some op2) (Leaf e2) rest ltac:(lia) A I) as I1.
        simpl in I1. specialize (I1 ltac:(discriminate) I).
        destruct (hs_parse1 F fuel (Some op2) e2 rest) as [[[r rest2]|]|]; [| |tauto].
        -- destruct I1 as (g & -> & Lg & Yg & Rg & Ag & Eg & Len).
           pose proof (IH op1 (Node g1 op2 g) rest2) as I2.
           specialize (I2 ltac:(lia) Ag).
           assert (LN : legal F (Node g1 op2 g)).
           { simpl. repeat split; auto.
             intros c Hc. unfold next_ok in HN. rewrite Hc in HN. exact HN. }
           specialize (I2 LN ltac:(simpl; intros c Hc; injection Hc as <-; auto)).
           assert (NN : next_ok (root (Node g1 op2 g)) rest2).
           { simpl. simpl in Eg. destruct rest2 as [|[x|o] rest2]; auto. }
           specialize (I2 NN).
           assert (Y2 : yield (Node g1 op2 g) ++ rest2
                        = yield g1 ++ Operator op2 :: Operand e2 :: rest).
           { simpl. rewrite <- app_assoc. simpl. rewrite Yg. reflexivity. }
           rewrite Y2 in I2. simpl as_expr in I2.
           destruct (hs_parse1 F fuel op1 (Bin (as_expr g1) op2 (as_expr g)) rest2)
             as [[[r' rest3]|]|]; [| |tauto].
           ++ destruct I2 as (g' & H1 & H2 & H3 & H4 & H5 & H6 & H7).
              exists g'. repeat split; auto. simpl. lia.
           ++ exact I2.
        -- destruct I1 as (o1 & o2 & W). exists o1, o2.
           pose proof (wclash_app (opre op1 ++ yield g1) _ [] o1 o2 W) as W'.
           rewrite app_nil_r in W'. rewrite <- app_assoc in W'. exact W'.
Qed.

Lemma hs_resolve_spec e :
  match hs_resolve F (chain e) with
  | None => False
  | Some None => exists o1 o2, wclash F (chain e) o1 o2
  | Some (Some r) => exists g, r = as_expr g /\ legal F g /\ yield g = chain e
  end.
Proof.
  destruct (chain_alt e) as (x & ts & E & A). rewrite E. unfold hs_resolve.
  pose proof (hs_parse1_spec (S (length (Operand x :: ts))) None (Leaf x) ts
                ltac:(simpl; lia) A I ltac:(discriminate) I) as S.
  cbn [as_expr] in S.
  destruct (hs_parse1 F _ None x ts) as [[[r rest]|]|]; auto.
  destruct S as (g & -> & L & Y & _ & _ & En & _).
  simpl in En. destruct rest; [|tauto].
  exists g. rewrite app_nil_r in Y. auto.
Qed.
End Haskell.

Lemma rewrite_haskell t e :
  (exists e', rewrite t e = Ok (inl e') /\ hs_resolve (get t) (chain e) = Some (Some e'))
  \/ (exists err, rewrite t e = Ok (inr err) /\ hs_resolve (get t) (chain e) = Some None).
Proof.
  pose proof (rewrite_spec t e) as R. pose proof (hs_resolve_spec (get t) e) as H.
  destruct (rewrite t e) as [[e'|err]|p|]; try tauto;
    destruct (hs_resolve (get t) (chain e)) as [[r|]|]; try tauto.
  - left. exists e'. split; auto. destruct R as (g&<-&L&Y), H as (g'&->&L'&Y').
    rewrite (legal_unique_lemma (get t) g g'); auto. congruence.
  - destruct R as (g&_&L&Y), H as (o1&o2&W). exfalso. rewrite <- Y in W.
    eapply wclash_not_legal; eauto.
  - destruct R as (W&_), H as (g&_&L&Y). exfalso. apply clash_wclash in W.
    rewrite <- Y in W. eapply wclash_not_legal; eauto.
  - right. exists err. auto.
Qed.
