(** The lexer on sources without a newline followed by a carriage return: the
    lexical grammar of SpecLexer.v describes it exactly. *)
From Coq Require Import List Arith NArith Bool Lia String.
From Verif Require Import Prelim Chars Syntax Lexer SpecLexer ProofBytes ProofLexer.
Import ListNotations.

(** The state after [w], before [v]. *)
Definition lexer_at (w v : str) (k : option token) (p : loc) : lexer :=
  mkLexer (w ++ v) v k (line_of w) (col_of w) (blen w) p.

Lemma rest_at w v k p : lx_rest (lexer_at w v k p) = v. Proof. auto. Qed.
Lemma prev_at w v k p : lx_prev (lexer_at w v k p) = p. Proof. auto. Qed.
Lemma pos_at w v k p : lx_pos (lexer_at w v k p) = blen w. Proof. auto. Qed.
Lemma currloc_at w v k p : curr_loc (lexer_at w v k p) = loc_of w. Proof. auto. Qed.
Lemma setprev_at w v k p q : set_prev q (lexer_at w v k p) = lexer_at w v k q. Proof. auto. Qed.
Lemma peek_at w c v k p : peek_char (lexer_at w (c :: v) k p) = Some c. Proof. auto. Qed.
Lemma peek_at_nil w k p : peek_char (lexer_at w [] k p) = None. Proof. auto. Qed.
Lemma on_at f w c v k p : on_char f (lexer_at w (c :: v) k p) = f c. Proof. auto. Qed.
Lemma on_at_nil f w k p : on_char f (lexer_at w [] k p) = false. Proof. auto. Qed.
Lemma current_at w c v k p : current_char (lexer_at w (c :: v) k p) = c. Proof. auto. Qed.
Lemma current_at_nil w k p : current_char (lexer_at w [] k p) = 0%N. Proof. auto. Qed.
Lemma bump_at_nil w k p : bump_char (lexer_at w [] k p) = lexer_at w [] k p. Proof. auto. Qed.

Lemma on_char_at f w v k p : on_char f (lexer_at w v k p) = false <-> stops f v.
Proof. destruct v; simpl; [tauto|reflexivity]. Qed.
Lemma on_char_at_true f w v k p : on_char f (lexer_at w v k p) = true <->
  exists c v', v = c :: v' /\ f c = true.
Proof.
  destruct v as [|c v]; simpl; split.
  - discriminate.
  - intros (c&v'&E&_). discriminate.
  - eauto.
  - intros (d&v'&E&H). injection E as -> ->. auto.
Qed.

Lemma bump_at w c v k p : no_lfcr (c :: v) ->
  bump_char (lexer_at w (c :: v) k p) = lexer_at (w ++ [c]) v k p.
Proof.
  intros H. unfold lexer_at. cbn [bump_char]. rewrite line_of_snoc, col_of_snoc, blen_snoc.
  rewrite <- app_assoc. cbn [app].
  destruct (N.eqb_spec c 10) as [->|n].
  - destruct v as [|d v]; auto. destruct (N.eqb_spec d 13) as [->|]; auto.
    exfalso. apply (H [] v). auto.
  - f_equal. lia.
Qed.

Lemma clean_cons c v : no_lfcr (c :: v) -> no_lfcr v.
Proof. apply (no_lfcr_app_r [c]). Qed.

Lemma eat_n_at f : forall u n w v k p, all f u -> stops f v -> no_lfcr (u ++ v) ->
  List.length u <= n ->
  eat_n n f (lexer_at w (u ++ v) k p) = lexer_at (w ++ u) v k p.
Proof.
  induction u as [|c u IH]; intros n w v k p A S N L.
  - rewrite app_nil_r. destruct n; auto. cbn [eat_n app].
    apply (on_char_at f w v k p) in S. rewrite S. auto.
  - simpl in L. destruct n as [|n]; [lia|]. cbn [eat_n app]. rewrite on_at.
    inversion A; subst. rewrite H1. rewrite bump_at by exact N.
    rewrite IH; auto; try lia. { rewrite <- app_assoc. auto. }
    apply clean_cons in N. exact N.
Qed.

Lemma eat_while_at f u w v k p : all f u -> stops f v -> no_lfcr (u ++ v) ->
  eat_while f (lexer_at w (u ++ v) k p) = lexer_at (w ++ u) v k p.
Proof.
  intros. unfold eat_while. rewrite rest_at. apply eat_n_at; auto. rewrite app_length. lia.
Qed.

Lemma span f s : exists u v, s = u ++ v /\ all f u /\ stops f v.
Proof.
  induction s as [|c s (u&v&->&A&S)].
  - exists [], []. repeat split; constructor.
  - destruct (f c) eqn:E.
    + exists (c :: u), v. repeat split; auto. constructor; auto.
    + exists [], (c :: u ++ v). repeat split; auto. constructor.
Qed.

(** If the text starts with such a character, so does the span. *)
Lemma span_cons f c u v : all f u -> stops f v -> f c = true ->
  forall s, c :: s = u ++ v -> exists u', u = c :: u' /\ s = u' ++ v.
Proof.
  intros A S H s E. destruct u as [|d u]; simpl in E.
  - subst v. simpl in S. congruence.
  - injection E as -> ->. eauto.
Qed.

Lemma all_app f a b : all f (a ++ b) <-> all f a /\ all f b.
Proof. apply Forall_app. Qed.
Lemma stops_app f a b : stops f (a ++ b) <-> (a <> [] /\ stops f a) \/ (a = [] /\ stops f b).
Proof.
  destruct a as [|c a]; simpl.
  - split; [tauto|]. intros [(H&_)|(_&H)]; congruence.
  - split; [left; split; [discriminate|auto]|]. intros [(_&H)|(H&_)]; [auto|discriminate].
Qed.
Lemma stops_ext f g s : (forall c, f c = g c) -> stops f s <-> stops g s.
Proof. intros E. destruct s; simpl; [tauto|]. rewrite E. tauto. Qed.
Lemma all_ext f g s : (forall c, f c = g c) -> all f s <-> all g s.
Proof. intros E. unfold all. rewrite !Forall_forall. setoid_rewrite E. tauto. Qed.
Lemma all_impl (f g : chr -> bool) s : (forall c, f c = true -> g c = true) -> all f s -> all g s.
Proof. intros E. apply Forall_impl. auto. Qed.

Lemma trailing_at f u s w v k p :
  all f u -> stops f (s ++ v) -> all is_trailing s -> stops is_trailing v -> no_lfcr (u ++ s ++ v) ->
  eat_with_trailing f (lexer_at w (u ++ s ++ v) k p) = lexer_at (w ++ u ++ s) v k p.
Proof.
  intros A S T T' N. unfold eat_with_trailing. rewrite eat_while_at by auto.
  rewrite eat_while_at; auto. { rewrite <- app_assoc. auto. }
  apply no_lfcr_app_r in N. auto.
Qed.

Lemma slice_at w u v k p : src_slice (lexer_at (w ++ u) v k p) (blen w) (blen (w ++ u)) = Ok u.
Proof.
  unfold src_slice, lexer_at. cbn [lx_src]. rewrite <- app_assoc, blen_app, slice_app. auto.
Qed.
Lemma slice_at' w u x v k p :
  src_slice (lexer_at (w ++ u ++ x) v k p) (blen w) (blen (w ++ u)) = Ok u.
Proof.
  unfold src_slice, lexer_at. cbn [lx_src]. rewrite <- !app_assoc, blen_app, slice_app. auto.
Qed.

(** * Character classes *)

Lemma is_trailing_script c : is_trailing c = script c.
Proof.
  apply eq_true_iff_eq. unfold is_trailing, is_subscript, is_superscript, script, mem, between.
  cbn [existsb]. rewrite !orb_true_iff, !andb_true_iff, !N.leb_le, !N.eqb_eq. lia.
Qed.
Lemma is_infix_op c : is_infix_char c = op_char c.
Proof. reflexivity. Qed.
Lemma ascii_digit_digit c : ascii_digit c = digit c.
Proof.
  apply eq_true_iff_eq. unfold ascii_digit, digit, mem, between. cbn [existsb lit].
  rewrite !orb_true_iff, !andb_true_iff, !N.leb_le, !N.eqb_eq. cbn. lia.
Qed.
Lemma is_hex_hexdigit c : is_hex c = hexdigit c.
Proof.
  apply eq_true_iff_eq. unfold is_hex, ascii_digit, hexdigit, mem, between. cbn [existsb lit].
  rewrite !orb_true_iff, !andb_true_iff, !N.leb_le, !N.eqb_eq. cbn. lia.
Qed.

Lemma is_escapable_true c : is_escapable c = true <-> escapable c.
Proof.
  unfold is_escapable, escapable, escapes. cbn [existsb]. rewrite !orb_true_iff, !N.eqb_eq.
  split.
  - intros H. repeat (destruct H as [->|H]; [eexists; cbn [In]; eauto 10|]). discriminate.
  - intros (d&H). cbn [In] in H.
    repeat (destruct H as [H|H]; [injection H as <- _; tauto|]). contradiction.
Qed.
Lemma get_escaped_escapes e d : In (e, d) escapes -> is_escapable e = true /\ get_escaped e = d.
Proof.
  unfold escapes. cbn [In]. intros H.
  repeat (destruct H as [H|H]; [injection H as <- <-; split; reflexivity|]). contradiction.
Qed.
Lemma escapes_get e : is_escapable e = true -> In (e, get_escaped e) escapes.
Proof.
  intros H. apply is_escapable_true in H as (d&H). destruct (get_escaped_escapes e d H) as (_&->). auto.
Qed.

(** * Numbers *)

Lemma to_digit_10 c : digit c = true -> to_digit 10 c = Some (digit_value c).
Proof.
  intros H. unfold to_digit, digit_in, digit_value. rewrite H. rewrite ascii_digit_digit, H.
  replace (c - 48 <? 10)%N with true; auto. symmetry. apply N.ltb_lt.
  rewrite <- ascii_digit_digit in H. unfold ascii_digit, between in H.
  apply andb_prop in H as (A&B). apply N.leb_le in A, B. lia.
Qed.

Lemma to_digit_16 c : hexdigit c = true -> to_digit 16 c = Some (digit_value c) /\ (digit_value c < 16)%N.
Proof.
  rewrite <- is_hex_hexdigit. intros H. unfold to_digit, digit_in, digit_value.
  rewrite <- ascii_digit_digit. unfold is_hex, ascii_digit, ascii_lower, ascii_upper, between in *.
  destruct (N.leb_spec 48 c); destruct (N.leb_spec c 57); cbn [andb orb] in *.
  all: destruct (N.leb_spec 97 c); destruct (N.leb_spec c 102); cbn [andb orb] in *.
  all: destruct (N.leb_spec 65 c); destruct (N.leb_spec c 70); cbn [andb orb] in *.
  all: destruct (N.leb_spec c 122); destruct (N.leb_spec c 90); cbn [andb orb] in *; try lia; try discriminate.
  all: repeat match goal with |- context [(?a <? 16)%N] => replace (a <? 16)%N with true by (symmetry; apply N.ltb_lt; lia) end.
  all: split; [reflexivity|lia].
Qed.

Lemma value_from radix s acc : (acc * radix ^ N.of_nat (List.length s) <=
  fold_left (fun a c => a * radix + digit_value c) s acc)%N.
Proof.
  revert acc. induction s as [|c s IH]; intros acc; cbn [fold_left List.length].
  - simpl. lia.
  - etransitivity; [|apply IH]. rewrite Nat2N.inj_succ, N.pow_succ_r'.
    rewrite N.mul_assoc. apply N.mul_le_mono_r. lia.
Qed.

Lemma parse_digits_value radix limit : (0 < radix)%N -> forall s acc,
  (forall c, In c s -> to_digit radix c = Some (digit_value c)) -> (acc < limit)%N ->
  parse_digits radix limit acc s =
  let v := fold_left (fun a c => a * radix + digit_value c)%N s acc in
  if (v <? limit)%N then inl v else inr IPosOverflow.
Proof.
  intros R. induction s as [|c s IH]; intros acc D L; cbn [parse_digits fold_left].
  - apply N.ltb_lt in L. cbv zeta. rewrite L. auto.
  - rewrite D by (left; auto). destruct (N.ltb_spec (acc * radix + digit_value c) limit).
    + apply IH; auto. intros d I. apply D. right. auto.
    + cbv zeta. match goal with |- _ = if (?x <? _)%N then _ else _ => destruct (N.ltb_spec x limit) end; auto.
      exfalso. pose proof (value_from radix s (acc * radix + digit_value c)) as V.
      assert (1 <= radix ^ N.of_nat (List.length s))%N.
      { apply N.lt_pred_le. simpl. apply N.neq_0_lt_0. apply N.pow_nonzero. lia. }
      nia.
Qed.

Lemma parse_uint_value radix limit s : (0 < radix)%N -> (0 < limit)%N -> s <> [] ->
  (forall c, In c s -> to_digit radix c = Some (digit_value c)) ->
  (forall c, In c s -> c <> 43%N /\ c <> 45%N) ->
  parse_uint radix limit s = if (value radix s <? limit)%N then inl (value radix s) else inr IPosOverflow.
Proof.
  intros R L N D P. unfold parse_uint. destruct s as [|c s]; [congruence|].
  destruct (P c (or_introl eq_refl)) as (P1&P2). apply N.eqb_neq in P1, P2.
  destruct s as [|d s]; rewrite P1; [rewrite P2; cbn [orb]|]; rewrite parse_digits_value; auto.
Qed.

Lemma digit_not_sign c : digit c = true -> c <> 43%N /\ c <> 45%N.
Proof. intros H; split; intros ->; discriminate H. Qed.
Lemma hexdigit_not_sign c : hexdigit c = true -> c <> 43%N /\ c <> 45%N.
Proof. intros H; split; intros ->; discriminate H. Qed.

Lemma parse_usize s : s <> [] -> all digit s ->
  parse_uint 10 usize_limit s =
  if (value 10 s <? 2 ^ 64)%N then inl (value 10 s) else inr IPosOverflow.
Proof.
  intros N A. unfold all in A. rewrite Forall_forall in A. apply parse_uint_value; try reflexivity; auto.
  - intros c I. apply to_digit_10; auto.
  - intros c I. apply digit_not_sign; auto.
Qed.

Lemma value_bound s acc : all hexdigit s ->
  (fold_left (fun a c => a * 16 + digit_value c) s acc < (acc + 1) * 16 ^ N.of_nat (List.length s))%N.
Proof.
  revert acc. induction s as [|c s IH]; intros acc A; cbn [fold_left List.length].
  - simpl. lia.
  - inversion A; subst. destruct (to_digit_16 c H1) as (_&B). eapply N.lt_le_trans; [apply IH; auto|].
    rewrite Nat2N.inj_succ, N.pow_succ_r', N.mul_assoc. apply N.mul_le_mono_r. lia.
Qed.

Lemma parse_hex s : s <> [] -> all hexdigit s -> List.length s <= 6 ->
  parse_uint 16 u32_limit s = inl (value 16 s).
Proof.
  intros N A L. rewrite parse_uint_value; try reflexivity; auto.
  - replace (value 16 s <? u32_limit)%N with true; auto. symmetry. apply N.ltb_lt.
    pose proof (value_bound s 0 A) as B. unfold value. eapply N.lt_le_trans; [exact B|].
    transitivity ((0 + 1) * 16 ^ 6)%N; [|discriminate].
    apply N.mul_le_mono_l. apply N.pow_le_mono_r; lia.
  - unfold all in A. rewrite Forall_forall in A. intros c I. apply to_digit_16; auto.
  - unfold all in A. rewrite Forall_forall in A. intros c I. apply hexdigit_not_sign; auto.
Qed.

Lemma char_from_u32_scalar n :
  (scalar n /\ char_from_u32 n = Some n) \/ (~ scalar n /\ char_from_u32 n = None).
Proof.
  unfold scalar, char_from_u32. destruct (N.ltb_spec n 55296); cbn [orb].
  - left. split; auto.
  - destruct (N.leb_spec 57344 n); destruct (N.ltb_spec n 1114112); cbn [andb]; [left|right..]; split; auto; lia.
Qed.

Lemma hex_blen h : all hexdigit h -> blen h = List.length h.
Proof.
  induction 1 as [|c h H A IH]; auto. cbn [blen List.length]. rewrite IH.
  replace (len_utf8 c) with 1; auto. rewrite <- is_hex_hexdigit in H.
  unfold len_utf8. replace (c <? 128)%N with true; auto. symmetry. apply N.ltb_lt.
  unfold is_hex, ascii_digit, between in H. rewrite !orb_true_iff, !andb_true_iff, !N.leb_le in H. lia.
Qed.

Lemma str_eqb_eq a b : str_eqb a b = true <-> a = b.
Proof.
  revert b. induction a as [|x a IH]; intros [|y b]; cbn [str_eqb]; split; intros H; try discriminate; auto.
  - apply andb_prop in H as (H1&H2). apply N.eqb_eq in H1. apply IH in H2. congruence.
  - injection H as -> ->. rewrite N.eqb_refl. apply IH. auto.
Qed.
Lemma str_eqb_neq a b : str_eqb a b = false <-> a <> b.
Proof. rewrite <- str_eqb_eq. destruct (str_eqb a b); split; congruence. Qed.
