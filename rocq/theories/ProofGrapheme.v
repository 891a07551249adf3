(** Words, trimming, digit counts. *)
From Coq Require Import List Arith NArith Bool Lia.
From Verif Require Import Prelim Chars Grapheme SpecGrapheme ProofBytes ProofTable ProofDigits.
Import ListNotations.

Lemma trim_start_spec s : exists a, s = a ++ trim_start s /\ white a
  /\ match trim_start s with [] => True | c :: _ => is_white c = false end.
Proof.
  induction s as [|c s IH]; simpl.
  - exists []. repeat split. constructor.
  - destruct (is_white c) eqn:E.
    + destruct IH as (a & Es & Ha & Ht). exists (c :: a). simpl. rewrite <- Es.
      repeat split; auto. constructor; auto.
    + exists []. simpl. repeat split; auto. constructor.
Qed.

Lemma trim_start_white a s : white a -> trim_start (a ++ s) = trim_start s.
Proof. induction 1; simpl; auto. rewrite H. auto. Qed.

Lemma trim_start_id c s : is_white c = false -> trim_start (c :: s) = c :: s.
Proof. simpl. now intros ->. Qed.

Lemma white_rev a : white a -> white (rev a).
Proof. unfold white. intros. now apply Forall_rev. Qed.

Lemma trim_spec s : trimmed s (trim s).
Proof.
  destruct (trim_start_spec s) as (a & Es & Ha & Ht). unfold trim, trim_end.
  destruct (trim_start_spec (rev (trim_start s))) as (b & Eb & Hb & Hb').
  set (u := trim_start s) in *. set (v := trim_start (rev u)) in *.
  assert (E : u = rev v ++ rev b).
  { rewrite <- rev_app_distr, <- Eb. now rewrite rev_involutive. }
  exists a, (rev b). split; [rewrite Es at 1; rewrite E at 1; reflexivity|].
  split; auto. split; [now apply white_rev|]. rewrite rev_involutive. split; auto.
  rewrite E in Ht. destruct (rev v); auto.
Qed.

Lemma white_nil_start t : white t -> match t with [] => True | c :: _ => is_white c = false end -> t = [].
Proof. destruct 1; auto. congruence. Qed.

Lemma trimmed_unique s t u : trimmed s t -> trimmed s u -> t = u.
Proof.
  (* compare by computing trim *)
  assert (K : forall s t, trimmed s t -> trim s = t).
  { clear. intros s t (a & b & -> & Ha & Hb & H1 & H2). unfold trim, trim_end.
    rewrite trim_start_white by auto.
    destruct t as [|c t].
    - simpl. rewrite <- (app_nil_r b), trim_start_white by auto. reflexivity.
    - cbn [app]. rewrite trim_start_id by auto.
      change (c :: t ++ b) with ((c :: t) ++ b). rewrite rev_app_distr.
      rewrite trim_start_white by now apply white_rev.
      destruct (rev (c :: t)) as [|d r] eqn:E.
      + apply (f_equal (@rev _)) in E. rewrite rev_involutive in E. discriminate.
      + rewrite trim_start_id by auto. rewrite <- E. apply rev_involutive. }
  intros H1 H2. rewrite <- (K _ _ H1). auto.
Qed.

Lemma trim_unique s t : trimmed s t -> trim s = t.
Proof. intros H. eapply trimmed_unique; eauto. apply trim_spec. Qed.

Lemma take_word_spec s : exists b, s = take_word s ++ b
  /\ Forall (fun c => is_white c = false) (take_word s) /\ starts_white b.
Proof.
  induction s as [|c s IH]; simpl.
  - exists []. repeat split; constructor.
  - destruct (is_white c) eqn:E.
    + exists (c :: s). repeat split; auto.
    + destruct IH as (b & Es & H1 & H2). exists b. simpl. rewrite <- Es. auto.
Qed.

Lemma take_word_app p b : Forall (fun c => is_white c = false) p -> starts_white b ->
  take_word (p ++ b) = p.
Proof.
  induction 1; simpl; intros Hb.
  - destruct b; auto. simpl in *. now rewrite Hb.
  - rewrite H. f_equal; auto.
Qed.

Lemma first_word_some s p : first_word s = Some p <-> exists a b, splits s a p b.
Proof.
  unfold first_word. split.
  - destruct (trim_start_spec s) as (a & Es & Ha & Ht).
    destruct (trim_start s) as [|c t] eqn:E; [discriminate|]. intros [= <-].
    destruct (take_word_spec (c :: t)) as (b & Eb & Hp & Hb).
    exists a, b. split; [|split; [|split]]; auto.
    + now rewrite Es at 1; rewrite Eb at 1.
    + split; auto. simpl. rewrite Ht. discriminate.
  - intros (a & b & -> & Ha & [Hp1 Hp2] & Hb).
    rewrite trim_start_white by auto.
    destruct p as [|c p]; [congruence|]. inversion Hp2 as [|? ? Hc Hp]; subst.
    cbn [app]. rewrite trim_start_id by auto. f_equal.
    change (c :: p ++ b) with ((c :: p) ++ b). now apply take_word_app.
Qed.

Lemma first_word_none s : first_word s = None <-> white s.
Proof.
  unfold first_word. split.
  - destruct (trim_start_spec s) as (a & Es & Ha & _). destruct (trim_start s); [|discriminate].
    rewrite app_nil_r in Es. now subst.
  - intros H. rewrite <- (app_nil_r s), trim_start_white by auto. reflexivity.
Qed.

Lemma slice_rest p b : slice (p ++ b) (blen p) (blen (p ++ b)) = Some b.
Proof.
  pose proof (slice_app p b []) as S. rewrite app_nil_r in S. now rewrite blen_app.
Qed.

Lemma starts_white_trim b : starts_white b -> trim b = [] <-> white b.
Proof.
  intros _. split.
  - intros E. destruct (trim_spec b) as (x & y & Eb & Hx & Hy & _). rewrite E in Eb. simpl in Eb.
    subst. unfold white in *. apply Forall_app; auto.
  - intros H. apply trim_unique. exists b, []. simpl. rewrite app_nil_r. repeat split; auto. constructor.
Qed.

Lemma blen_zero s : blen s = 0 -> s = [].
Proof. destruct s as [|c s]; auto. simpl. pose proof (len_utf8_pos c). lia. Qed.

(** The trimmed length exceeds the word exactly when something follows. *)
Lemma trim_len s a p b : splits s a p b ->
  trim s = p ++ trim_end b /\ (blen p < blen (trim s) <-> ~ white b).
Proof.
  intros (-> & Ha & [Hp1 Hp2] & Hb).
  assert (T : trim (a ++ p ++ b) = p ++ trim_end b).
  { apply trim_unique. unfold trim_end. destruct (trim_start_spec (rev b)) as (y & Ey & Hy & Ht).
    set (v := trim_start (rev b)) in *.
    assert (E : b = rev v ++ rev y) by (rewrite <- rev_app_distr, <- Ey; now rewrite rev_involutive).
    exists a, (rev y). split; [rewrite E at 1; now rewrite <- app_assoc|]. split; auto.
    split; [now apply white_rev|]. split.
    - destruct p; [congruence|]. inversion Hp2; auto.
    - rewrite rev_app_distr, rev_involutive. destruct v; [|auto]. simpl.
      destruct (rev p) as [|d r] eqn:Er; auto. apply Forall_rev in Hp2. rewrite Er in Hp2.
      inversion Hp2; auto. }
  split; auto. rewrite T, blen_app. split.
  - intros L W. assert (trim_end b = []) as Z; [|rewrite Z in L; simpl in L; lia].
    unfold trim_end. apply white_rev in W. rewrite <- (app_nil_r (rev b)), trim_start_white by auto. reflexivity.
  - intros W. destruct (Nat.eq_dec (blen (trim_end b)) 0) as [Z|Z]; [|lia].
    exfalso. apply W. apply blen_zero in Z. unfold trim_end in Z.
    destruct (trim_start_spec (rev b)) as (y & Ey & Hy & _).
    apply (f_equal (@rev _)) in Z. rewrite rev_involutive in Z. simpl in Z. rewrite Z, app_nil_r in Ey.
    rewrite <- (rev_involutive b), Ey. now apply white_rev.
Qed.

(** Digit counts. *)
Lemma size_div b n : (2 <= b)%N -> n <> 0%N -> N.size_nat (N.div n b) < N.size_nat n.
Proof.
  intros Hb H. destruct n as [|p]; [congruence|].
  assert (L : (N.pos p / b <= N.div2 (N.pos p))%N).
  { rewrite N.div2_div. apply N.div_le_compat_l. lia. }
  assert (M : forall x y, (x <= y)%N -> (N.size_nat x <= N.size_nat y)).
  { intros x y Hab. destruct x as [|x], y as [|y]; simpl; try lia.
    assert (E : forall q, Pos.size_nat q = N.to_nat (N.size (N.pos q))).
    { clear. induction q; simpl; try reflexivity; rewrite IHq; simpl; rewrite Pnat.Pos2Nat.inj_succ; reflexivity. }
    rewrite !E.
    assert (N.size (N.pos x) <= N.size (N.pos y))%N.
    { rewrite !N.size_log2 by discriminate. apply N.log2_le_mono in Hab. lia. }
    lia. }
  apply M in L. destruct p; simpl in *; lia.
Qed.

Lemma fold_value b : forall ds a, fold_left (fun a d => (a * b + d)%N) ds a
  = (a * b ^ N.of_nat (length ds) + fold_left (fun a d => (a * b + d)%N) ds 0)%N.
Proof.
  induction ds as [|d ds IH]; intros a; cbn [fold_left length].
  - change (N.of_nat 0) with 0%N. rewrite N.pow_0_r. lia.
  - change (0 * b + d)%N with d. rewrite IH. rewrite (IH d). replace (N.of_nat (S (length ds))) with (N.succ (N.of_nat (length ds))) by lia.
    rewrite N.pow_succ_r'. lia.
Qed.

Lemma numlen_loop_ok b : (2 <= b)%N -> forall fuel n k, N.size_nat n < fuel ->
  exists ds, numlen_loop fuel b n k = Ok (k + N.of_nat (length ds))%N
    /\ Forall (fun d => (d < b)%N) ds
    /\ fold_left (fun a d => (a * b + d)%N) ds 0%N = n
    /\ match ds with [] => n = 0%N | d :: _ => d <> 0%N end.
Proof.
  intros Hb. induction fuel as [|fuel IH]; intros n k Hf; [lia|].
  cbn [numlen_loop]. destruct (N.eqb_spec n 0) as [->|Hn].
  - exists []. simpl. repeat split; auto. f_equal. lia.
  - replace (N.eqb b 0) with false by (symmetry; apply N.eqb_neq; lia).
    assert (Hs : N.size_nat (N.div n b) < fuel) by (pose proof (size_div b n Hb Hn); lia).
    destruct (IH (N.div n b) (k + 1)%N Hs) as (ds & E & F & V & Z).
    exists (ds ++ [N.modulo n b]). split; [|split; [|split]].
    + rewrite E, app_length. f_equal. simpl. lia.
    + apply Forall_app. split; [exact F|]. constructor; [|constructor]. apply N.mod_lt. lia.
    + rewrite fold_left_app, V. cbn [fold_left].
      pose proof (N.div_mod n b ltac:(lia)) as D. lia.
    + destruct ds as [|d ds]; cbn [app]; [|exact Z].
      pose proof (N.div_mod n b ltac:(lia)) as D. rewrite Z in D. intros X. rewrite X in D. lia.
Qed.

Lemma digits_len b n ds es : (2 <= b)%N -> digits_of b n ds -> digits_of b n es -> length ds = length es.
Proof.
  intros Hb (F1 & V1 & Z1) (F2 & V2 & Z2).
  assert (U : forall ds, Forall (fun d => (d < b)%N) ds ->
             (fold_left (fun a d => (a * b + d)%N) ds 0 < b ^ N.of_nat (length ds))%N).
  { clear - Hb. induction ds as [|d ds IH]; intros F; cbn [fold_left length].
    - change (N.of_nat 0) with 0%N. rewrite N.pow_0_r. lia.
    - change (0 * b + d)%N with d. inversion F; subst. rewrite fold_value. specialize (IH H2).
      replace (N.of_nat (S (length ds))) with (N.succ (N.of_nat (length ds))) by lia.
      rewrite N.pow_succ_r'. nia. }
  assert (W : forall ds, match ds with [] => False | [_] => True | d :: _ => d <> 0%N end ->
             1 < length ds ->
             (b ^ (N.of_nat (length ds) - 1) <= fold_left (fun a d => (a * b + d)%N) ds 0)%N).
  { clear - Hb. intros [|d [|e ds]] Z L; simpl in L; try lia.
    change (fold_left (fun a d => (a * b + d)%N) (d :: e :: ds) 0%N)
      with (fold_left (fun a d => (a * b + d)%N) (e :: ds) d).
    rewrite (fold_value b (e :: ds) d).
    replace (N.of_nat (length (d :: e :: ds)) - 1)%N with (N.of_nat (length (e :: ds))) by (simpl length; lia).
    generalize (fold_left (fun a d => (a * b + d)%N) (e :: ds) 0%N). intros x.
    set (P := (b ^ N.of_nat (length (e :: ds)))%N).
    assert (1 <= d)%N by lia. nia. }
  assert (P : forall m k, m < k -> 1 < k -> (b ^ N.of_nat m <= b ^ (N.of_nat k - 1))%N).
  { intros m k L1 L2. apply N.pow_le_mono_r; lia. }
  destruct (Nat.lt_trichotomy (length ds) (length es)) as [L|[L|L]]; auto; exfalso.
  - assert (1 < length es) by (destruct ds; [contradiction|simpl in L; lia]).
    specialize (W es Z2 H). specialize (U ds F1). specialize (P _ _ L H). lia.
  - assert (1 < length ds) by (destruct es; [contradiction|simpl in L; lia]).
    specialize (W ds Z1 H). specialize (U es F2). specialize (P _ _ L H). lia.
Qed.
