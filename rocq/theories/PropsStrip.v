(** Stripping a prefix, exactly: C49. *)
From Coq Require Import List Arith NArith Bool Lia String.
From Verif Require Import Prelim Chars Grapheme SpecGrapheme ProofBytes ProofTable ProofGrapheme
  ProofLexer PropsGrapheme.
Import ListNotations.
Local Open Scope string_scope.
Local Open Scope list_scope.

Lemma slice_whole x y : slice (x ++ y) (blen x) (blen (x ++ y)) = Some y.
Proof. apply slice_rest. Qed.

(** The word is cut off by its length: what the call does in every case. *)
Theorem C49_exact : forall p s a b, splits s a p b ->
  (white b -> strip_prefix (is_str p) s = Ok [])
  /\ (~ white b -> forall x y, s = x ++ y -> blen x = blen p ->
        exists r, strip_prefix (is_str p) s = Ok r /\ trimmed y r)
  /\ (~ white b -> (forall x y, s = x ++ y -> blen x <> blen p) ->
        strip_prefix (is_str p) s = Panic PSlice).
Proof.
  intros p s a b S. destruct (trim_len s a p b S) as [_ L].
  unfold strip_prefix. rewrite (proj2 (first_word_some s p)) by eauto.
  unfold is_str. destruct (str_eqb_spec p p) as [_|]; [|congruence].
  destruct (Nat.ltb_spec (blen p) (blen (trim s))) as [C|C].
  - pose proof (proj1 L C) as W. split; [contradiction|]. split; intros _.
    + intros x y -> Hx. rewrite <- Hx, slice_whole. eexists. split; [reflexivity|]. apply trim_spec.
    + intros H. destruct (slice s (blen p) (blen s)) as [m|] eqn:E; auto.
      apply slice_inv in E as (x & z & -> & Hx & _). destruct (H x (m ++ z) eq_refl). auto.
  - assert (~ ~ white b) by (intros N; apply L in N; lia).
    split; auto. split; intros; contradiction.
Qed.

Lemma white_dec s : {white s} + {~ white s}.
Proof. unfold white. apply Forall_dec. intros c. destruct (is_white c); auto. Qed.

Lemma app_by_blen : forall x y u v, x ++ y = u ++ v -> blen x <= blen u ->
  exists z, u = x ++ z /\ y = z ++ v.
Proof.
  induction x as [|c x IH]; intros y u v E L.
  - exists u. auto.
  - destruct u as [|d u].
    + simpl in L. pose proof (len_utf8_pos c). lia.
    + cbn [app] in E. injection E as -> E. simpl in L. apply IH in E as (z & -> & ->); [|lia].
      exists z. auto.
Qed.

Lemma last_word z c : is_white c = false -> forall b r, ~ white b -> trimmed ((z ++ [c]) ++ b) r ->
  trimmed b r -> False.
Proof.
  intros Hc b r Hb T1 T2.
  destruct T2 as (a2 & b2 & E2 & A2 & B2 & H2 & K2).
  assert (R : r <> []).
  { intros ->. apply Hb. rewrite E2. unfold white in *. apply Forall_app. auto. }
  set (t := trim_start (z ++ [c])).
  destruct (trim_start_spec (z ++ [c])) as (w & Ew & Ww & Tw). fold t in Ew, Tw.
  assert (T0 : t <> []).
  { intros E. rewrite E, app_nil_r in Ew. rewrite <- Ew in Ww. unfold white in Ww.
    apply Forall_app in Ww as [_ Ww]. inversion Ww; congruence. }
  assert (T3 : trimmed ((z ++ [c]) ++ b) (t ++ a2 ++ r)).
  { exists w, b2. split; [rewrite Ew, E2, <- !app_assoc; reflexivity|].
    split; auto. split; auto. split.
    - destruct t; [congruence|exact Tw].
    - rewrite app_assoc, rev_app_distr. destruct (rev r) eqn:Er; [|exact K2].
      apply (f_equal (@rev N)) in Er. rewrite rev_involutive in Er. simpl in Er. congruence. }
  pose proof (trimmed_unique _ _ _ T1 T3) as E. apply (f_equal (@List.length N)) in E.
  rewrite !app_length in E. destruct t; [congruence|]. simpl in E. lia.
Qed.

(** C49: the result is the right one exactly when no white space precedes the
    word, or nothing follows it. *)
Theorem C49_right_iff : forall p s a b, splits s a p b ->
  ((exists r, strip_prefix (is_str p) s = Ok r /\ trimmed b r) <-> a = [] \/ white b).
Proof.
  intros p s a b S. split.
  - intros (r & E & T). destruct (white_dec b) as [W|W]; [auto|left].
    destruct (C49_exact p s a b S) as (_ & H1 & H2).
    destruct S as (Es & Ha & [Hp1 Hp2] & Hb).
    destruct (slice s (blen p) (blen s)) as [m|] eqn:Sl.
    + apply slice_inv in Sl as (x & z & E1 & Hx & _).
      destruct (H1 W x (m ++ z) E1 ltac:(auto)) as (r' & E' & T').
      rewrite E in E'. injection E' as <-.
      rewrite E1, (app_assoc a p b) in Es.
      destruct (app_by_blen _ _ _ _ Es) as (u & U1 & U2); [rewrite blen_app; lia|].
      rewrite U2 in T'. destruct u as [|u c _] using rev_ind.
      * rewrite app_nil_r in U1. apply (f_equal blen) in U1. rewrite blen_app in U1.
        apply blen_nil. lia.
      * exfalso. eapply last_word; [|exact W|exact T'|exact T].
        rewrite app_assoc in U1. destruct p as [|q p _] using rev_ind; [congruence|].
        rewrite app_assoc in U1. apply app_inj_tail in U1 as [_ <-].
        apply Forall_app in Hp2 as [_ Hp2]. now inversion Hp2.
    + exfalso. rewrite H2 in E; [discriminate|auto|].
      intros x y Ex Hx. rewrite Ex, <- Hx, slice_whole in Sl. discriminate.
  - intros H. exact (proj1 (C49_strip_prefix_partial p s) a b S H).
Qed.

(** C49: it panics exactly when something follows the word and its length is
    not that of a prefix of the text. *)
Theorem C49_panics_iff : forall p s,
  (exists e, strip_prefix (is_str p) s = Panic e)
  <-> exists a b, splits s a p b /\ ~ white b /\ forall x y, s = x ++ y -> blen x <> blen p.
Proof.
  intros p s. split.
  - intros (e & E). destruct (first_word s) as [t|] eqn:F.
    2:{ unfold strip_prefix in E. rewrite F in E. discriminate. }
    destruct (str_eqb p t) eqn:Q.
    2:{ unfold strip_prefix, is_str in E. rewrite F, Q in E. discriminate. }
    destruct (str_eqb_spec p t) as [<-|]; [|discriminate].
    apply first_word_some in F as (a & b & S). exists a, b. split; auto.
    destruct (C49_exact p s a b S) as (H0 & H1 & _).
    assert (W : ~ white b) by (intros W; rewrite (H0 W) in E; discriminate).
    split; auto. intros x y Ex Hx. destruct (H1 W x y Ex Hx) as (r & Er & _). congruence.
  - intros (a & b & S & W & H). exists PSlice. now apply (C49_exact p s a b S).
Qed.

(** Non-vacuity: all the cases occur. *)
Example C49_exact_ex :
  splits (lit "  a") (lit "  ") (lit "a") [] /\ white []
  /\ splits (lit "  a b") (lit "  ") (lit "a") (lit " b") /\ ~ white (lit " b")
  /\ lit "  a b" = [32%N] ++ lit " a b" /\ blen [32%N] = blen (lit "a")
  /\ strip_prefix (is_str (lit "a")) (lit "  a b") = Ok (lit "a b")
  /\ trimmed (lit " a b") (lit "a b") /\ ~ trimmed (lit " b") (lit "a b")
  /\ splits (160%N :: lit "a b") [160%N] (lit "a") (lit " b")
  /\ strip_prefix (is_str (lit "a")) (160%N :: lit "a b") = Panic PSlice.
Proof.
  unfold splits, white, word.
  split. { repeat split; try discriminate; repeat constructor. }
  split. { constructor. }
  split. { repeat split; try discriminate; repeat constructor. }
  split. { intros H. inversion H as [|? ? _ H2]. inversion H2 as [|? ? H3 _]. discriminate. }
  split; [reflexivity|]. split; [reflexivity|]. split; [vm_compute; reflexivity|].
  split. { exists [32%N], []. repeat split; repeat constructor. }
  split. { intros T. pose proof (trim_unique _ _ T) as E. vm_compute in E. discriminate. }
  split. { repeat split; try discriminate; repeat constructor. }
  vm_compute; reflexivity.
Qed.

Print Assumptions C49_exact.
Print Assumptions C49_right_iff.
Print Assumptions C49_panics_iff.
