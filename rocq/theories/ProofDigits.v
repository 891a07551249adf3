(** Decimal representation. *)
From Coq Require Import List Arith NArith PArith Pnat Bool Lia.
From Verif Require Import Prelim.
Import ListNotations.
Local Open Scope N_scope.

Fixpoint dec_value (acc : N) (s : str) : N :=
  match s with [] => acc | c :: s' => dec_value (acc * 10 + (c - 48)) s' end.

Definition dec_digit (c : chr) : Prop := 48 <= c <= 57.

Lemma dec_value_app a s t : dec_value a (s ++ t) = dec_value (dec_value a s) t.
Proof. revert a. induction s; simpl; auto. Qed.

Lemma size_div10 n : n <> 0 -> (N.size_nat (n / 10) < N.size_nat n)%nat.
Proof.
  intros H. destruct n as [|p]; [congruence|].
  assert (L : N.pos p / 10 <= N.div2 (N.pos p)).
  { rewrite N.div2_div. apply N.div_le_compat_l. lia. }
  assert (M : forall a b, a <= b -> (N.size_nat a <= N.size_nat b)%nat).
  { intros a b Hab. destruct a as [|a], b as [|b]; simpl; try lia.
    assert (E : forall q, Pos.size_nat q = N.to_nat (N.size (N.pos q))).
    { clear. induction q; simpl; try reflexivity; rewrite IHq; simpl; rewrite Pos2Nat.inj_succ; reflexivity. }
    rewrite !E.
    assert (N.size (N.pos a) <= N.size (N.pos b)).
    { rewrite !N.size_log2 by discriminate. apply N.log2_le_mono in Hab. lia. }
    lia. }
  apply M in L. destruct p; simpl in *; lia.
Qed.

Lemma dec_digits_spec fuel : forall n acc, (N.size_nat n < fuel)%nat ->
  exists ds, dec_digits fuel n acc = ds ++ acc /\ ds <> [] /\ Forall dec_digit ds
    /\ (forall a, dec_value a ds = a * 10 ^ N.of_nat (length ds) + n)
    /\ (n <> 0 -> 10 ^ (N.of_nat (length ds) - 1) <= n) /\ n < 10 ^ N.of_nat (length ds)
    /\ (n = 0 -> length ds = 1%nat).
Proof.
  induction fuel as [|fuel IH]; intros n acc Hf; [lia|]. cbn [dec_digits].
  assert (Dm : n mod 10 < 10) by (apply N.mod_lt; discriminate).
  assert (Dv : n = 10 * (n / 10) + n mod 10) by (apply N.div_mod; discriminate).
  set (m := n mod 10) in *. set (q := n / 10) in *.
  assert (Eq : q = n / 10) by reflexivity. clearbody m q.
  assert (Dd : dec_digit (48 + m)) by (unfold dec_digit; lia).
  destruct (N.eqb_spec (q) 0) as [Z|Z].
  - exists [48 + m]. split; [reflexivity|]. split; [discriminate|].
    rewrite Z in Dv. split; [constructor; [exact Dd|constructor]|].
    split; [|split; [|split]]; simpl length; cbn [dec_value]; intros; change (N.of_nat 1) with 1;
      rewrite ?N.pow_1_r; try lia. change (1 - 1) with 0. rewrite N.pow_0_r. lia.
  - assert (Hf' : (N.size_nat (q) < fuel)%nat).
    { assert (n <> 0) by lia. rewrite Eq. pose proof (size_div10 n). lia. }
    destruct (IH (q) (48 + m :: acc) Hf') as (ds & E & Ne & F & V & Lo & Hi & _).
    exists (ds ++ [48 + m]). rewrite <- app_assoc. split; [exact E|].
    split; [destruct ds; discriminate|]. split.
    { apply Forall_app; split; [exact F|]. constructor; [exact Dd|constructor]. }
    rewrite app_length. simpl length.
    replace (N.of_nat (length ds + 1)) with (N.succ (N.of_nat (length ds))) by lia.
    split; [|split; [|split]].
    + intros a. rewrite dec_value_app. cbn [dec_value]. rewrite V, N.pow_succ_r'. lia.
    + intros _. specialize (Lo Z). replace (N.succ (N.of_nat (length ds)) - 1)
        with (N.succ (N.of_nat (length ds) - 1)) by (destruct ds; [congruence|simpl length; lia]).
      rewrite N.pow_succ_r'. lia.
    + rewrite N.pow_succ_r'. lia.
    + lia.
Qed.

Lemma show_N_spec n : show_N n <> [] /\ Forall dec_digit (show_N n)
  /\ (forall a, dec_value a (show_N n) = a * 10 ^ N.of_nat (length (show_N n)) + n)
  /\ (n <> 0 -> 10 ^ (N.of_nat (length (show_N n)) - 1) <= n)
  /\ n < 10 ^ N.of_nat (length (show_N n))
  /\ (n = 0 -> length (show_N n) = 1%nat).
Proof.
  unfold show_N. destruct (dec_digits_spec (S (N.size_nat n)) n [] ltac:(lia)) as (ds & E & H).
  rewrite app_nil_r in E. rewrite E. exact H.
Qed.

Lemma show_N_value n : dec_value 0 (show_N n) = n.
Proof. destruct (show_N_spec n) as (_&_&V&_). rewrite V. lia. Qed.
