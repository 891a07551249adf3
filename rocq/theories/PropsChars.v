(** Characters and bytes: C74 and C75. *)
From Coq Require Import List Arith NArith ZArith Bool String Lia ZifyN.
From Verif Require Import Prelim Chars Syntax Lexer Grapheme SpecLexer SpecLexRun SpecChars ProofBytes PropsLexer.
Import ListNotations.
Local Open Scope N_scope.

(** ** C74 *)

Lemma In_mem c l : In c l <-> mem l c = true.
Proof.
  unfold mem. rewrite existsb_exists. split.
  - intros H. exists c. rewrite N.eqb_refl. auto.
  - intros (x&H&E). apply N.eqb_eq in E. congruence.
Qed.

Lemma between_spec a c b : between a c b = true <-> a <= c <= b.
Proof. unfold between. rewrite andb_true_iff, !N.leb_le. tauto. Qed.

Theorem C74_white : forall c, is_white c = true <-> In c white_space.
Proof.
  intros c. unfold is_white, white_space. rewrite !orb_true_iff, !between_spec, !N.eqb_eq. cbn [In]. lia.
Qed.

Section WithUcd.
Context {U : ucd}.

(** For ASCII characters the classes are the usual ones, for others those of the
    table. *)
Theorem C74_ascii : forall c, c < 128 ->
  (is_lower c = true <-> In c small_letters) /\ (is_upper c = true <-> In c big_letters) /\
  (is_alpha c = true <-> In c small_letters \/ In c big_letters) /\
  (is_numeric c = true <-> In c ten_digits) /\ (ascii_digit c = true <-> In c ten_digits) /\
  (is_hex c = true <-> In c (lit "0123456789abcdefABCDEF")).
Proof.
  intros c H. unfold is_lower, is_upper, is_alpha, is_numeric, is_hex, ascii_digit.
  rewrite (proj2 (N.ltb_lt c 128) H). unfold ascii_lower, ascii_upper, ascii_digit. rewrite !orb_true_iff, !between_spec. cbn. lia.
Qed.
Theorem C74_others : forall c, 128 <= c ->
  is_lower c = u_lower c /\ is_upper c = u_upper c /\ is_alpha c = u_alpha c /\ is_numeric c = u_numeric c /\
  ascii_digit c = false /\ is_hex c = false /\ is_infix_char c = false.
Proof.
  intros c H. unfold is_lower, is_upper, is_alpha, is_numeric. rewrite (proj2 (N.ltb_ge c 128) H). repeat split; auto.
  - apply not_true_is_false. unfold ascii_digit. rewrite between_spec. lia.
  - apply not_true_is_false. unfold is_hex, ascii_digit. rewrite !orb_true_iff, !between_spec. lia.
  - apply not_true_is_false. intros X. apply (proj2 (In_mem c _)) in X. cbn in X. lia.
Qed.

(** What can begin or continue a name. *)
Theorem C74_names : forall c,
  (is_ident_start c = true <-> c = 95 \/ is_upper c = true \/ is_lower c = true) /\
  (is_ident_start_ext c = true <-> c = 95 \/ is_alpha c = true) /\
  (is_ident_char c = true <-> In c (lit "_'") \/ is_alpha c = true \/ is_numeric c = true).
Proof.
  intros c. unfold is_ident_start, is_ident_start_ext, is_ident_char, is_alnum, has_case.
  rewrite !orb_true_iff, !N.eqb_eq. cbn. intuition auto.
Qed.

(** No character belongs to two of: white space, starts of names, digits,
    operator characters, scripts (which may also be numeric), punctuation. *)
Theorem C74_disjoint : letters U -> forall c,
  let classes := [is_white c; is_ident_start c; ascii_digit c; is_infix_char c; mem (lit "()[],;`'""") c] in
  forall i j, (i < j)%nat -> nth i classes false = true -> nth j classes false = false.
Proof.
  intros HU c. cbv zeta. destruct (N.lt_ge_cases c 128) as [H|H].
  - pose proof (C74_ascii c H) as (L&Up&_&_&Dg&_).
    assert (Id : is_ident_start c = true <-> In c (lit "_" ++ small_letters ++ big_letters)).
    { rewrite (proj1 (C74_names c)), L, Up, !in_app_iff. cbn [In lit]. intuition auto. }
    assert (W : is_white c = true <-> In c white_space) by apply C74_white.
    assert (I : is_infix_char c = true <-> In c [126; 33; 64; 35; 36; 37; 94; 38; 42; 45; 43; 61; 60; 62; 47; 92; 58; 124; 63; 46])
      by (symmetry; apply In_mem).
    assert (P : mem (lit "()[],;`'""") c = true <-> In c (lit "()[],;`'""")) by (symmetry; apply In_mem).
    assert (D : forall l l' : list N, forallb (fun x => negb (existsb (N.eqb x) l')) l = true -> In c l -> ~ In c l').
    { intros l l' F I1 I2. rewrite forallb_forall in F. apply F in I1. apply negb_true_iff in I1. apply (proj1 (In_mem c l')) in I2.
      unfold mem in I2. congruence. }
    intros i j Lt. destruct i as [|[|[|[|[|i]]]]], j as [|[|[|[|[|j]]]]]; try lia; cbn [nth]; intros E; try discriminate; try (destruct i; discriminate); try (destruct j; reflexivity);
      apply not_true_is_false; rewrite ?W, ?Id, ?Dg, ?I, ?P in *; revert E; apply D; vm_compute; reflexivity.
  - pose proof (C74_others c H) as (L&Up&_&_&Dg&_&Inf).
    assert (P : mem (lit "()[],;`'""") c = false).
    { apply not_true_is_false. rewrite <- In_mem. cbn. lia. }
    assert (WI : is_ident_start c = true -> is_white c = false).
    { rewrite (proj1 (C74_names c)), L, Up. intros [->|[E|E]]; [lia|..]; apply (HU c); left; apply (HU c); auto. }
    intros i j Lt. destruct i as [|[|[|[|[|i]]]]], j as [|[|[|[|[|j]]]]]; try lia; cbn [nth]; intros E; try congruence; try (destruct i; discriminate); try (destruct j; reflexivity).
    destruct (is_ident_start c) eqn:X; auto. rewrite WI in E; [discriminate|auto].
Qed.

End WithUcd.

(** Digits in any radix up to 36; an underscore may separate them. *)
Definition digit_val (c : chr) : option nat :=
  if ascii_digit c then Some (N.to_nat (c - 48)) else if ascii_lower c then Some (N.to_nat (c - 87))
  else if ascii_upper c then Some (N.to_nat (c - 55)) else None.

Lemma below k (f : N -> bool) c : forallb f (map N.of_nat (seq 0 k)) = true -> c < N.of_nat k -> f c = true.
Proof.
  intros F L. rewrite forallb_forall in F. apply F. rewrite <- (N2Nat.id c). apply in_map. apply in_seq. lia.
Qed.

Definition eq_opt (a : option N) (c : N) : bool := match a with Some x => N.eqb x c | None => false end.
Lemma digit_of_val v c : digit_of v c <-> digit_val c = Some v.
Proof.
  unfold digit_of. split.
  - assert (A : forall l, forallb (fun v => match nth_error l v with Some c => match digit_val c with Some w => Nat.eqb w v | None => false end | None => true end)
        (seq 0 (List.length l)) = true -> nth_error l v = Some c -> digit_val c = Some v).
    { intros l F E. rewrite forallb_forall in F. assert (L : (v < List.length l)%nat) by (apply nth_error_Some; congruence).
      specialize (F v (proj2 (in_seq _ _ _) (conj (Nat.le_0_l _) L))). rewrite E in F.
      destruct (digit_val c); [|discriminate]. apply Nat.eqb_eq in F. congruence. }
    intros [E|E]; revert E; apply A; vm_compute; reflexivity.
  - intros E. assert (L : c < N.of_nat 128).
    { revert E. unfold digit_val, ascii_digit, ascii_lower, ascii_upper, between.
      destruct (N.leb_spec c 57), (N.leb_spec c 122), (N.leb_spec c 90); rewrite ?andb_false_r, ?andb_true_r; try discriminate; lia. }
    pose proof (below 128 (fun c => match digit_val c with
      | Some v => eq_opt (nth_error (ten_digits ++ small_letters) v) c || eq_opt (nth_error (ten_digits ++ big_letters) v) c
      | None => true end) c ltac:(vm_compute; reflexivity) L) as F. cbv beta in F. rewrite E in F.
    apply orb_true_iff in F. unfold eq_opt in F.
    destruct (nth_error (ten_digits ++ small_letters) v), (nth_error (ten_digits ++ big_letters) v); destruct F as [F|F]; try discriminate;
      apply N.eqb_eq in F; subst; auto.
Qed.

Theorem C74_digits : forall r c first,
  (is_num_char r c first = true <-> (exists v, digit_of v c /\ N.of_nat v < r) \/ (first = false /\ c = 95)).
Proof.
  intros r c first. unfold is_num_char. rewrite orb_true_iff, andb_true_iff, negb_true_iff, N.eqb_eq.
  assert (D : digit_in r c = true <-> exists v, digit_of v c /\ N.of_nat v < r); [|rewrite D; tauto].
  assert (V : digit_in r c = match digit_val c with Some v => N.of_nat v <? r | None => false end).
  { unfold digit_in, digit_val. destruct (ascii_digit c), (ascii_lower c), (ascii_upper c); rewrite ?N2Nat.id; auto. }
  rewrite V. split.
  - intros E. destruct (digit_val c) as [v|] eqn:Ev; [|discriminate]. exists v. split; [apply digit_of_val; auto|]. apply N.ltb_lt. auto.
  - intros (v&Dv&L). apply digit_of_val in Dv. rewrite Dv. apply N.ltb_lt. auto.
Qed.

(** The value of a digit. *)
Theorem C74_digit_value : forall r c v, to_digit r c = Some v <-> digit_of (N.to_nat v) c /\ v < r.
Proof.
  intros r c v. rewrite digit_of_val.
  assert (E : to_digit r c = match digit_val c with Some w => if N.of_nat w <? r then Some (N.of_nat w) else None | None => None end).
  { unfold to_digit, digit_in, digit_val. destruct (ascii_digit c), (ascii_lower c), (ascii_upper c); rewrite ?N2Nat.id; auto. }
  rewrite E. destruct (digit_val c) as [w|]; [|split; [discriminate|intros (X&_); discriminate]].
  destruct (N.ltb_spec (N.of_nat w) r); split.
  - intros X. injection X as <-. rewrite Nat2N.id. auto.
  - intros (X&_). injection X as ->. rewrite N2Nat.id. auto.
  - discriminate.
  - intros (X&L). injection X as ->. rewrite N2Nat.id in *. lia.
Qed.

(** Escapes. *)
Theorem C74_escapes : forall c,
  (is_escapable c = true <-> exists d, In (c, d) escapes) /\
  (forall d, In (c, d) escapes -> get_escaped c = d) /\
  (is_escapable c = false -> get_escaped c = c).
Proof.
  intros c. split; [|split].
  - change (is_escapable c) with (mem (map fst escapes) c). rewrite <- In_mem, in_map_iff. split.
    + intros ((x&d)&E&I). cbn in E. subst. eauto.
    + intros (d&I). exists (c, d). auto.
  - intros d I. unfold escapes in I. repeat destruct I as [I|I]; try (injection I as <- <-; reflexivity). destruct I.
  - unfold is_escapable, get_escaped. cbn [existsb].
    repeat match goal with |- context [N.eqb c ?k] => destruct (N.eqb c k); [discriminate|] end. reflexivity.
Qed.

(** Prefix letters of integers. *)
Theorem C74_radix_letters : forall c r, int_prefix_radix c = Some r <-> exists s, In (s, r) radix_letters /\ In c s.
Proof.
  intros c r. unfold int_prefix_radix, radix_letters. split.
  - destruct (N.eqb_spec c 98), (N.eqb_spec c 66), (N.eqb_spec c 111), (N.eqb_spec c 79), (N.eqb_spec c 120), (N.eqb_spec c 88);
      cbn [orb]; intros E; try discriminate; injection E as <-; subst; eexists; (split; [cbn; auto|cbn; auto]).
  - intros (s&I&J). repeat destruct I as [I|I]; try (injection I as <- <-; cbn in J; repeat destruct J as [<-|J]; try reflexivity; destruct J). destruct I.
Qed.

(** ** C75 *)

Ltac Zify.zify_post_hook ::= Z.div_mod_to_equations.

Lemma utf8_length c : List.length (utf8 c) = len_utf8 c.
Proof. unfold utf8, len_utf8. repeat destruct (N.ltb _ _); reflexivity. Qed.

(** The length of a text is that of its encoding. *)
Theorem C75_length : forall s, blen s = List.length (encoded s).
Proof. induction s as [|c s IH]; auto. cbn [blen encoded flat_map]. rewrite app_length, utf8_length, IH. reflexivity. Qed.

Lemma utf8_head c : exists b t, utf8 c = b :: t /\ ~ continues b /\ Forall continues t.
Proof.
  unfold utf8, continues. destruct (N.ltb_spec c 128), (N.ltb_spec c 2048), (N.ltb_spec c 65536); try lia; eexists _, _; split; try reflexivity;
    (split; [lia|]); [apply Forall_nil|..]; repeat (apply Forall_cons; [lia|]); apply Forall_nil.
Qed.

Lemma utf8_inj c d x y : utf8 c ++ x = utf8 d ++ y -> c = d /\ x = y.
Proof.
  assert (C : forall a b s t, a :: s = b :: t -> (a : N) = b /\ (s : list N) = t) by (intros a b s t E; injection E; auto).
  unfold utf8. destruct (N.ltb_spec c 128), (N.ltb_spec c 2048), (N.ltb_spec c 65536); try lia;
    destruct (N.ltb_spec d 128), (N.ltb_spec d 2048), (N.ltb_spec d 65536); try lia; cbn [app]; intros E;
    repeat (match type of E with _ :: _ = _ :: _ => let X := fresh in apply C in E as (X&E) end); clear C;
    try (split; [lia|assumption]); exfalso; clear E; lia.
Qed.

(** Different texts have different encodings, and none is the beginning of
    another unless the text is. *)
Theorem C75_decodable : forall s t x, encoded s = encoded t ++ x -> exists u, s = t ++ u /\ x = encoded u.
Proof.
  intros s t. revert s. induction t as [|c t IH]; intros s x E; [exists s; auto|].
  destruct s as [|d s].
  - cbn in E. destruct (utf8_head c) as (b&r&Eb&_). rewrite Eb in E. discriminate.
  - cbn [encoded flat_map] in E. rewrite <- app_assoc in E. apply utf8_inj in E as (->&E). apply IH in E as (u&->&->). exists u. auto.
Qed.

Theorem C75_bytes : forall s, Forall (fun c => c < 1114112) s -> Forall (fun b => b < 256) (encoded s).
Proof.
  induction 1 as [|c s H _ IH]; cbn [encoded flat_map]; [constructor|]. apply Forall_app. split; auto.
  unfold utf8. destruct (N.ltb_spec c 128), (N.ltb_spec c 2048), (N.ltb_spec c 65536); try lia; repeat constructor; lia.
Qed.

Lemma encoded_app a b : encoded (a ++ b) = encoded a ++ encoded b.
Proof. apply flat_map_app. Qed.

Lemma boundary_split s n : boundary (encoded s) n <-> exists a b, s = a ++ b /\ blen a = n.
Proof.
  split.
  - revert n. induction s as [|c s IH]; intros n B.
    + exists [], []. destruct B as [->|(b&E&_)]; auto. destruct n; discriminate.
    + destruct (utf8_head c) as (h&t&Eh&Nh&Ct).
      destruct n as [|n]; [exists [], (c :: s); auto|].
      assert (L : (len_utf8 c <= S n)%nat).
      { destruct (le_lt_dec (len_utf8 c) (S n)); auto. exfalso.
        rewrite <- utf8_length, Eh in l. cbn [List.length] in l. destruct B as [E|(b&E&Nb)].
        - cbn [encoded flat_map] in E. rewrite app_length, Eh in E. cbn in E. lia.
        - cbn [encoded flat_map] in E. rewrite Eh in E. cbn [app nth_error] in E. rewrite nth_error_app1 in E by lia.
          apply nth_error_In in E. rewrite Forall_forall in Ct. auto. }
      destruct (IH (S n - len_utf8 c)%nat) as (a&b&->&E).
      * destruct B as [E|(b&E&Nb)].
        -- left. rewrite E. cbn [encoded flat_map]. rewrite app_length, utf8_length. unfold encoded. lia.
        -- right. exists b. split; auto. cbn [encoded flat_map] in E. rewrite nth_error_app2, utf8_length in E; rewrite ?utf8_length; auto.
      * exists (c :: a), b. split; auto. cbn [blen]. lia.
  - intros (a&b&->&<-). rewrite encoded_app, C75_length. destruct b as [|c b].
    + left. rewrite app_length. cbn. lia.
    + right. destruct (utf8_head c) as (h&t&Eh&Nh&_). exists h. split; auto. rewrite nth_error_app2, Nat.sub_diag by lia.
      cbn [encoded flat_map]. rewrite Eh. reflexivity.
Qed.

(** Slicing a text by byte positions takes the bytes between them, and panics
    unless they are between characters and in order. *)
Theorem C75_slice : forall s lo hi t, slice s lo hi = Some t <->
  (lo <= hi)%nat /\ boundary (encoded s) lo /\ boundary (encoded s) hi /\
  encoded t = firstn (hi - lo) (skipn lo (encoded s)).
Proof.
  intros s lo hi t. split.
  - intros E. apply slice_inv in E as (a&b&->&->&->). split; [lia|]. split; [|split].
    + apply boundary_split. exists a, (t ++ b). auto.
    + apply boundary_split. exists (a ++ t), b. rewrite <- app_assoc, blen_app. auto.
    + rewrite !encoded_app, C75_length, skipn_app, skipn_all, Nat.sub_diag. cbn [app skipn].
      replace (List.length (encoded a) + blen t - List.length (encoded a))%nat with (List.length (encoded t)) by (rewrite C75_length; lia).
      rewrite firstn_app, firstn_all, Nat.sub_diag. cbn [firstn]. symmetry. apply app_nil_r.
  - intros (L&B1&B2&E). apply boundary_split in B1 as (a&r&->&<-). apply boundary_split in B2 as (a2&r2&E2&<-).
    assert (K : exists m, a2 = a ++ m /\ r = m ++ r2).
    { clear E. revert a2 E2 L. induction a as [|c a IH]; intros a2 E2 L; [exists a2; auto|].
      destruct a2 as [|d a2].
      - cbn [blen] in L. pose proof (len_utf8_pos c). lia.
      - cbn [app] in E2. injection E2 as <- E2. destruct (IH a2 E2) as (m&->&->); [cbn [blen] in L; lia|]. exists m. auto. }
    destruct K as (m&->&->). rewrite blen_app. rewrite !encoded_app in E. rewrite blen_app in E.
    rewrite (C75_length a) in E. rewrite skipn_app, skipn_all, Nat.sub_diag in E. cbn [app skipn] in E.
    replace (List.length (encoded a) + blen m - List.length (encoded a))%nat with (List.length (encoded m)) in E by (rewrite C75_length; lia).
    rewrite firstn_app, firstn_all, Nat.sub_diag in E. cbn [firstn] in E. rewrite app_nil_r in E.
    assert (t = m). { destruct (C75_decodable t m []) as (u&->&X); [rewrite app_nil_r; auto|]. destruct u as [|c u]; [apply app_nil_r|].
      destruct (utf8_head c) as (h&y&Eh&_). cbn in X. rewrite Eh in X. discriminate. }
    subst t. apply slice_app.
Qed.

(** The position the lexer reports counts the bytes of the encoding. *)
Theorem C75_position : forall U, letters U -> forall src l, @reachable U src l -> no_lfcr src ->
  exists w, src = w ++ lx_rest l /\ l_pos (curr_loc l) = List.length (encoded w) /\
    encoded src = encoded w ++ encoded (lx_rest l).
Proof.
  intros U HU src l R N. destruct (C24_positions HU src l R N) as (w&E&P). exists w. split; auto.
  rewrite P, <- C75_length. split; [reflexivity|]. rewrite E at 1. apply encoded_app.
Qed.

(** * Cases *)

Example C74_ex : (is_white 12288 = true) /\ @is_ident_start ucd_none 95 = true /\ to_digit 16 70 = Some 15 /\
  is_num_char 8 56 true = false /\ is_num_char 10 95 false = true /\ get_escaped 98 = 8 /\ int_prefix_radix 79 = Some 8.
Proof. repeat split. Qed.
(** The Greek lambda and a character of three bytes. *)
Example C75_ex : encoded [955; 8594; 97] = [206; 187; 226; 134; 146; 97] /\ slice [955; 8594; 97] 2 5 = Some [8594] /\
  slice [955; 8594; 97] 1 5 = None /\ ~ boundary (encoded [955; 8594; 97]) 1.
Proof.
  repeat split. intros [E|(b&E&N)]; [discriminate|]. cbn in E. injection E as <-. apply N. unfold continues. lia.
Qed.

Print Assumptions C74_white.
Print Assumptions C74_ascii.
Print Assumptions C74_others.
Print Assumptions C74_names.
Print Assumptions C74_disjoint.
Print Assumptions C74_digits.
Print Assumptions C74_digit_value.
Print Assumptions C74_escapes.
Print Assumptions C74_radix_letters.
Print Assumptions C75_length.
Print Assumptions C75_decodable.
Print Assumptions C75_bytes.
Print Assumptions C75_slice.
Print Assumptions C75_position.
