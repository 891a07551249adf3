(** String helpers: C48 to C50. *)
From Coq Require Import List Arith NArith Bool Lia String.
From Verif Require Import Prelim Chars Grapheme SpecGrapheme ProofBytes ProofTable ProofDigits ProofGrapheme.
Import ListNotations.
Local Open Scope string_scope.
Local Open Scope list_scope.

(** C48: the test holds exactly when the first word is [p]. *)
Theorem C48_prefix_iff_first_word : forall p s,
  is_prefix (is_str p) s = true <-> exists a b, splits s a p b.
Proof.
  intros p s. unfold is_prefix. split.
  - destruct (first_word s) as [t|] eqn:E; [|discriminate]. unfold is_str.
    destruct (str_eqb_spec p t) as [->|]; [|discriminate]. intros _. now apply first_word_some.
  - intros H. apply first_word_some in H. rewrite H. unfold is_str.
    destruct (str_eqb_spec p p); auto.
Qed.

(** C48: a prefix that is empty or contains white space never matches. *)
Theorem C48_prefix_is_a_word : forall p s,
  is_prefix (is_str p) s = true -> p <> [] /\ Forall (fun c => is_white c = false) p.
Proof.
  intros p s H. apply C48_prefix_iff_first_word in H as (a & b & _ & _ & H & _). exact H.
Qed.

(** C48: with any other kind of matcher: the first word satisfies it. *)
Theorem C48_prefix_general : forall check s,
  is_prefix check s = true <-> exists a p b, splits s a p b /\ check p = true.
Proof.
  intros check s. unfold is_prefix. split.
  - destruct (first_word s) as [t|] eqn:E; [|discriminate]. intros H.
    apply first_word_some in E as (a & b & S). eauto.
  - intros (a & p & b & S & H). rewrite (proj2 (first_word_some s p)); eauto.
Qed.

(** C48: a character matches exactly the one-character word. *)
Theorem C48_char_matcher : forall c t, is_char_str c t = true <-> t = [c].
Proof.
  intros c t. unfold is_char_str. split.
  - intros H. apply andb_true_iff in H as [_ H]. destruct t as [|d [|e t]]; try discriminate.
    + apply andb_true_iff in H as [H _]. apply N.eqb_eq in H. now subst.
    + apply andb_true_iff in H as [_ H]. discriminate.
  - intros ->. simpl. now rewrite Nat.add_0_r, Nat.eqb_refl, N.eqb_refl.
Qed.

(** C49: stripping a prefix.  Missing from the full statement: white space
    before the first word when something follows it, refuted below. *)
Theorem C49_strip_prefix_partial : forall p s,
  (forall a b, splits s a p b -> a = [] \/ white b ->
     exists r, strip_prefix (is_str p) s = Ok r /\ trimmed b r)
  /\ ((forall a b, ~ splits s a p b) -> strip_prefix (is_str p) s = Ok s).
Proof.
  intros p s. split.
  - intros a b S H. destruct (trim_len s a p b S) as [T L].
    unfold strip_prefix. rewrite (proj2 (first_word_some s p)) by eauto.
    unfold is_str. destruct (str_eqb_spec p p) as [_|]; [|congruence].
    destruct (Nat.ltb_spec (blen p) (blen (trim s))) as [C|C].
    + apply L in C. destruct H as [->|W]; [|contradiction]. destruct S as (-> & _).
      cbn [app]. rewrite slice_rest. eexists. split; [reflexivity|]. apply trim_spec.
    + exists []. split; auto.
      destruct (trim_spec b) as (x & y & E & Hx & Hy & Hr).
      assert (W : white b).
      { destruct S as (-> & Ha & Hp & Hb). unfold white. apply Forall_forall. intros c Hc.
        destruct (is_white c) eqn:Ec; auto. exfalso.
        assert (~ white b) as Nw.
        { intros W. unfold white in W. rewrite Forall_forall in W. rewrite (W c Hc) in Ec. discriminate. }
        apply L in Nw. lia. }
      exists b, []. simpl. rewrite app_nil_r. repeat split; auto. constructor.
  - intros H. unfold strip_prefix. destruct (first_word s) as [t|] eqn:E; auto.
    unfold is_str. destruct (str_eqb_spec p t) as [->|]; auto.
    apply first_word_some in E as (a & b & S). exfalso. eapply H; eauto.
Qed.

(** C49: with leading white space the wrong part is cut off, or the call
    panics inside a multi-byte character. *)
Theorem C49_leading_space_refuted :
  strip_prefix (is_str (lit "foo")) (lit "  foo bar") = Ok (lit "oo bar")
  /\ splits (lit "  foo bar") (lit "  ") (lit "foo") (lit " bar")
  /\ strip_prefix (is_str (lit "a")) (12288%N :: lit "a b") = Panic PSlice
  /\ splits (12288%N :: lit "a b") [12288%N] (lit "a") (lit " b").
Proof.
  unfold splits, white, word.
  split; [vm_compute; reflexivity|]. split.
  { repeat split; try discriminate; repeat constructor. }
  split; [vm_compute; reflexivity|].
  repeat split; try discriminate; repeat constructor.
Qed.

(** C49: a string without leading white space is never cut inside a
    character. *)
Theorem C49_no_panic : forall check s,
  match s with [] => True | c :: _ => is_white c = false end ->
  exists r, strip_prefix check s = Ok r.
Proof.
  intros check s H. unfold strip_prefix. destruct (first_word s) as [p|] eqn:E; eauto.
  destruct (check p); eauto. destruct (Nat.ltb _ _); eauto.
  apply first_word_some in E as (a & b & -> & Ha & Hp & Hb).
  destruct Ha as [|c a Hc Ha]; cbn [app] in *; [|congruence].
  rewrite slice_rest. eauto.
Qed.

(** C50: [numlen_base] counts the digits in any base from 2 on. *)
Theorem C50_numlen_base : forall b n ds,
  (2 <= b)%N -> digits_of b n ds -> numlen_base b n = Ok (N.of_nat (List.length ds)).
Proof.
  intros b n ds Hb D. unfold numlen_base. destruct (N.eqb_spec n 0) as [->|Hn].
  - assert (D0 : digits_of b 0 [0%N]).
    { repeat split; auto. constructor; [lia|constructor]. }
    now rewrite (digits_len b 0 ds [0%N] Hb D D0).
  - destruct (numlen_loop_ok b Hb (S (N.size_nat n)) n 0%N ltac:(lia)) as (es & E & F & V & Z).
    rewrite E, N.add_0_l. do 2 f_equal. apply (digits_len b n es ds Hb); auto.
    repeat split; auto. destruct es as [|e [|e' es]]; auto; congruence.
Qed.

(** C50: and such digits exist. *)
Theorem C50_digits_exist : forall b n, (2 <= b)%N -> exists ds, digits_of b n ds.
Proof.
  intros b n Hb. destruct (N.eq_dec n 0) as [->|Hn].
  - exists [0%N]. repeat split; auto. constructor; [lia|constructor].
  - destruct (numlen_loop_ok b Hb (S (N.size_nat n)) n 0%N ltac:(lia)) as (es & E & F & V & Z).
    exists es. repeat split; auto. destruct es as [|e [|e' es]]; auto; congruence.
Qed.

(** The digits of the number as displayed. *)
Lemma show_N_digits n : digits_of 10 n (map (fun c => (c - 48)%N) (show_N n)).
Proof.
  destruct (show_N_spec n) as (Ne & F & V & Lo & Hi & Z).
  split; [|split].
    - apply Forall_map. eapply Forall_impl; [|exact F]. unfold dec_digit. intros c Hc. simpl in *. lia.
    - rewrite <- (show_N_value n) at 2. generalize 0%N.
      induction (show_N n) as [|c s IH]; intros a; simpl; auto.
      clear. revert a c. induction s; intros; simpl; auto.
    - destruct (show_N n) as [|c [|d s]] eqn:E; [congruence|exact I|].
      cbn [map]. intros Hc. assert (Hn : n <> 0%N).
      { intros ->. specialize (Z eq_refl). simpl in Z. lia. }
      specialize (Lo Hn). specialize (V 0%N). cbn [dec_value] in V. rewrite Hc in V.
      inversion F as [|? ? _ F2]; subst.
      assert (X : (dec_value 0 (d :: s) < 10 ^ N.of_nat (List.length (d :: s)))%N).
      { clear - F2. revert F2. induction (d :: s) as [|x l IH] using rev_ind; intros F.
        - simpl. lia.
        - apply Forall_app in F as [F1 F3]. inversion F3; subst. rewrite dec_value_app, app_length.
          cbn [dec_value List.length]. specialize (IH F1). unfold dec_digit in *.
          replace (N.of_nat (List.length l + 1)) with (N.succ (N.of_nat (List.length l))) by lia.
          rewrite N.pow_succ_r'. lia. }
      cbn [dec_value] in X. change (0 * 10 + 0)%N with 0%N in V.
      replace (N.of_nat (List.length (c :: d :: s)) - 1)%N with (N.of_nat (List.length (d :: s))) in Lo
        by (simpl List.length; lia).
      cbn [dec_value] in V. lia.
Qed.

(** C50: [numlen] is the length of the number as displayed. *)
Theorem C50_numlen_is_display_length : forall n,
  numlen n = Ok (N.of_nat (List.length (show_N n))).
Proof.
  intros n. unfold numlen. pose proof (show_N_digits n) as D.
  rewrite (C50_numlen_base 10 n _ ltac:(lia) D). now rewrite map_length.
Qed.

(** Non-vacuity. *)
Example C48_ex : splits (lit " :load  x y") (lit " ") (lit ":load") (lit "  x y")
  /\ is_prefix (is_str (lit ":load")) (lit " :load  x y") = true
  /\ is_prefix (is_str (lit ":loa")) (lit " :load  x y") = false.
Proof. unfold splits, white, word. repeat split; try discriminate; repeat constructor. Qed.

Example C49_ex : strip_prefix (is_str (lit ":load")) (lit ":load  x y ") = Ok (lit "x y")
  /\ strip_prefix (is_str (lit ":load")) (lit ":loads") = Ok (lit ":loads").
Proof. split; vm_compute; reflexivity. Qed.

Example C50_ex : numlen_base 16 255 = Ok 2%N /\ digits_of 16 255 [15; 15]%N /\ numlen 1000 = Ok 4%N.
Proof. repeat split; try discriminate. repeat constructor. Qed.

Print Assumptions C48_prefix_iff_first_word.
Print Assumptions C48_prefix_is_a_word.
Print Assumptions C48_prefix_general.
Print Assumptions C48_char_matcher.
Print Assumptions C49_strip_prefix_partial.
Print Assumptions C49_leading_space_refuted.
Print Assumptions C49_no_panic.
Print Assumptions C50_numlen_base.
Print Assumptions C50_digits_exist.
Print Assumptions C50_numlen_is_display_length.
