(** Byte offsets, slices and string equality. *)
From Coq Require Import List Arith NArith Bool Lia.
From Verif Require Import Prelim.
Import ListNotations.

Lemma len_utf8_pos c : 0 < len_utf8 c.
Proof. unfold len_utf8. repeat destruct (N.ltb _ _); lia. Qed.

Lemma blen_app a b : blen (a ++ b) = blen a + blen b.
Proof. induction a; simpl; lia. Qed.

Lemma blen_nil s : blen s = 0 -> s = [].
Proof. destruct s as [|c s]; auto. simpl. pose proof (len_utf8_pos c). lia. Qed.

Lemma length_le_blen s : length s <= blen s.
Proof. induction s as [|c s IH]; simpl; auto. pose proof (len_utf8_pos c). lia. Qed.

Lemma skip_bytes_0 s : skip_bytes 0 s = Some s.
Proof. destruct s; reflexivity. Qed.
Lemma take_bytes_0 s : take_bytes 0 s = Some [].
Proof. destruct s; reflexivity. Qed.

Lemma skip_bytes_cons n c s : 0 < n ->
  skip_bytes n (c :: s) = if Nat.leb (len_utf8 c) n then skip_bytes (n - len_utf8 c) s else None.
Proof. destruct n; [lia|reflexivity]. Qed.
Lemma take_bytes_cons n c s : 0 < n ->
  take_bytes n (c :: s) =
  if Nat.leb (len_utf8 c) n then option_map (cons c) (take_bytes (n - len_utf8 c) s) else None.
Proof. destruct n; [lia|reflexivity]. Qed.

Lemma skip_bytes_app a b : skip_bytes (blen a) (a ++ b) = Some b.
Proof.
  induction a as [|c a IH]; simpl blen; simpl app.
  - apply skip_bytes_0.
  - pose proof (len_utf8_pos c). rewrite skip_bytes_cons by lia.
    replace (len_utf8 c + blen a - len_utf8 c) with (blen a) by lia.
    replace (Nat.leb (len_utf8 c) (len_utf8 c + blen a)) with true; auto.
    symmetry. apply Nat.leb_le. lia.
Qed.

Lemma take_bytes_app a b : take_bytes (blen a) (a ++ b) = Some a.
Proof.
  induction a as [|c a IH]; simpl blen; simpl app.
  - apply take_bytes_0.
  - pose proof (len_utf8_pos c). rewrite take_bytes_cons by lia.
    replace (len_utf8 c + blen a - len_utf8 c) with (blen a) by lia.
    replace (Nat.leb (len_utf8 c) (len_utf8 c + blen a)) with true
      by (symmetry; apply Nat.leb_le; lia).
    rewrite IH. reflexivity.
Qed.

Lemma skip_bytes_inv : forall s n r, skip_bytes n s = Some r -> exists a, s = a ++ r /\ blen a = n.
Proof.
  induction s as [|c s IH]; intros n r H.
  - destruct n; simpl in H; [injection H as <-; exists []; auto|discriminate].
  - destruct n as [|n].
    + simpl in H. injection H as <-. exists []. auto.
    + rewrite skip_bytes_cons in H by lia.
      destruct (Nat.leb_spec (len_utf8 c) (S n)); [|discriminate].
      apply IH in H as (a&->&E). exists (c :: a). simpl. split; auto. lia.
Qed.

Lemma take_bytes_inv : forall s n r, take_bytes n s = Some r -> exists b, s = r ++ b /\ blen r = n.
Proof.
  induction s as [|c s IH]; intros n r H.
  - destruct n; simpl in H; [injection H as <-; exists []; auto|discriminate].
  - destruct n as [|n].
    + simpl in H. injection H as <-. exists (c :: s). auto.
    + rewrite take_bytes_cons in H by lia.
      destruct (Nat.leb_spec (len_utf8 c) (S n)); [|discriminate].
      destruct (take_bytes (S n - len_utf8 c) s) as [r'|] eqn:E; [|discriminate].
      injection H as <-. apply IH in E as (b&->&E). exists b. simpl. split; auto. lia.
Qed.

(** A slice succeeds exactly at character boundaries. *)
Lemma slice_app a m b : slice (a ++ m ++ b) (blen a) (blen a + blen m) = Some m.
Proof.
  unfold slice. replace (Nat.leb (blen a) (blen a + blen m)) with true
    by (symmetry; apply Nat.leb_le; lia).
  rewrite skip_bytes_app. replace (blen a + blen m - blen a) with (blen m) by lia.
  apply take_bytes_app.
Qed.

Lemma slice_inv s lo hi m : slice s lo hi = Some m ->
  exists a b, s = a ++ m ++ b /\ lo = blen a /\ hi = blen a + blen m.
Proof.
  unfold slice. destruct (Nat.leb_spec lo hi); [|discriminate].
  destruct (skip_bytes lo s) as [r|] eqn:E; [|discriminate]. intros T.
  apply skip_bytes_inv in E as (a&->&Ea). apply take_bytes_inv in T as (b&->&Eb).
  exists a, b. split; auto. lia.
Qed.

Lemma slice_app_r s lo hi m z : slice s lo hi = Some m -> slice (s ++ z) lo hi = Some m.
Proof.
  intros H. apply slice_inv in H as (a&b&->&->&->).
  rewrite <- !app_assoc. apply slice_app.
Qed.
