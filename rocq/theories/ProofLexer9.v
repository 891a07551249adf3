(** The mistakes of the lexical grammar are reported as such. *)
From Coq Require Import List Arith NArith Bool Lia String.
From Verif Require Import Prelim Chars Syntax Lexer SpecLexer SpecLexRun SpecParser SpecViable SpecOutcome ProofBytes ProofLexer ProofLexer2
  ProofLexer3 ProofLexer4 ProofLexer5 ProofLexer6 ProofLexer7 ProofLexer8.
Import ListNotations.

Section WithUcd.
Context {U : ucd}.

(** Eating up to the next apostrophe, when it is known where that is. *)
Lemma eat_quote_at w b x v k q : upto 39 b x v -> no_lfcr (b ++ x ++ v) ->
  eat_while not_quote (lexer_at w (b ++ x ++ v) k q) = lexer_at (w ++ b) (x ++ v) k q /\
  bump_char (lexer_at (w ++ b) (x ++ v) k q) = lexer_at (w ++ b ++ x) v k q.
Proof.
  intros (A&X) N. split.
  - apply eat_while_at; auto. destruct X as [->|(->&->)]; reflexivity.
  - apply no_lfcr_app_r in N. destruct X as [->|(->&->)]; cbn [app] in *.
    + rewrite bump_at by auto. rewrite <- app_assoc. auto.
    + rewrite bump_at_nil, !app_nil_r. auto.
Qed.

Lemma escape_start w r m k p : no_lfcr (39%N :: 92%N :: r) ->
  lex_f (S m) (lexer_at w (39%N :: 92%N :: r) k p) =
  lex_char_escape (loc_of w) (lexer_at (w ++ [39%N; 92%N]) r k (loc_of w)).
Proof.
  intros N. rewrite lex_f_step by auto. unfold dispatch. cbn [N.eqb Pos.eqb].
  unfold lex_char. cbv zeta. rewrite bump_at by auto. apply clean_cons in N. rewrite current_at.
  cbn [N.eqb Pos.eqb]. rewrite bump_at by auto. rewrite <- app_assoc. reflexivity.
Qed.

Lemma unicode_start w u r m k p : u = 117%N \/ u = 85%N -> no_lfcr (39%N :: 92%N :: u :: r) ->
  lex_f (S m) (lexer_at w (39%N :: 92%N :: u :: r) k p) =
  lex_unicode (loc_of w) (lexer_at (w ++ [39%N; 92%N; u]) r k (loc_of w)).
Proof.
  intros H N. rewrite escape_start by auto. unfold lex_char_escape. rewrite peek_at.
  replace ((u =? 117)%N || (u =? 85)%N) with true by (destruct H as [-> | ->]; reflexivity).
  apply clean_cons, clean_cons in N. rewrite bump_at by auto. rewrite <- app_assoc. reflexivity.
Qed.

Lemma mistake_step : letters U -> forall w s e v, mistake w s e v -> forall k p m, no_lfcr (s ++ v) ->
  exists q, lex_f (S m) (lexer_at w (s ++ v) k p) = Ok (TError e, lexer_at (w ++ s) v k q).
Proof.
  intros HU w s e v H k p m. destruct H as
    [c v W O D B P N1 N2 N3|s v Ns A Sd Le|b Un|b Un|c u s v Wc A B Sw Ss Sq|b x v (A&X) Sw|v|v Sn
    |c b v N1 N2 N3 Wc A Sa Sq Sw| |e b x v Es Up Bx|c b x v Ne Nu NU Up|u pl b c v Hu Hp Pn A Sb Ec Hc
    |u pl h b v Hu Hp Hh A Sh Sq B Sb|u pl h v Hu Hp A L|u pl h x v Hu Hp Hh A L Sc Lx Nx]; intros N.
  - (* unknown *)
    exists (loc_of w). cbn [app] in *. rewrite app_nil_r, lex_f_step by auto. unfold dispatch.
    assert (Q : forall d, In d (map fst puncts) -> N.eqb c d = false).
    { intros d I. apply N.eqb_neq. intros ->. auto. }
    rewrite ascii_digit_digit, D, word_start_ident, W, is_infix_op, O.
    apply N.eqb_neq in N1, N2, N3. rewrite N1, N2, N3.
    rewrite !Q by (cbn [puncts map fst In]; auto 10). reflexivity.
  - (* numbers *)
    exists (loc_of w). destruct s as [|c s]; [congruence|]. pose proof (Forall_inv A) as Dc.
    cbn [app] in *. rewrite lex_f_step by (auto using digit_white). rewrite digit_dispatch by auto.
    change (c :: s ++ v) with ((c :: s) ++ v) in *. rewrite number_eq by auto. apply N.ltb_ge in Le. rewrite Le. auto.
  - (* strings *)
    cbn [app] in *. rewrite app_nil_r in *. rewrite lex_f_step by auto. unfold dispatch. cbn [N.eqb Pos.eqb].
    unfold lex_string. cbv zeta. rewrite bump_at by auto. apply clean_cons in N. rewrite rest_at.
    destruct (string_total k (List.length b) b (w ++ [34%N]) (loc_of w) [] (List.length b))
      as [(b1&s&v&->&C)|(_&s&q&E)]; auto; [destruct (Un _ _ _ eq_refl C)|].
    rewrite E. cbn [obind]. rewrite prev_at. eexists. rewrite <- app_assoc. reflexivity.
  - (* comments *)
    cbn [app] in *. rewrite app_nil_r in *. rewrite lex_f_step by auto. rewrite op_dispatch by auto.
    rewrite (operator_eq _ w [126%N] [] (123%N :: b)); auto; try (repeat constructor; fail).
    unfold op_token. change (str_eqb ([126%N] ++ []) (lit "~")) with true. cbv iota. rewrite eqb_on.
    change (123 =? 123)%N with true. cbv iota. cbn [app].
    apply clean_cons in N. rewrite bump_at by auto. apply clean_cons in N. unfold block_comment. rewrite rest_at, prev_at.
    destruct (comment_total k (loc_of w) (List.length b) b 1 ((w ++ [126%N]) ++ [123%N]) (List.length b))
      as [(b1&x&->&C)|(_&E)]; auto; [destruct (Un _ _ eq_refl C)|].
    rewrite E. cbn [obind]. eexists. rewrite <- !app_assoc. reflexivity.
  - (* backquoted, not closed *)
    exists (loc_of w). cbn [app] in *. rewrite lex_f_step by auto. unfold dispatch. cbn [N.eqb Pos.eqb].
    change (ascii_digit 96) with false. cbv iota. rewrite <- app_assoc in *. rewrite backquoted_eq by auto.
    replace (on 96 (lexer_at w v k (loc_of w))) with false by (symmetry; apply on_char_at; auto). auto.
  - (* backquote and something else *)
    exists (loc_of w). cbn [app] in *. rewrite <- app_assoc in *. rewrite lex_f_step by auto. unfold dispatch. cbn [N.eqb Pos.eqb].
    change (ascii_digit 96) with false. cbv iota.
    unfold lex_backquote. cbv zeta. rewrite bump_at by auto. apply clean_cons in N.
    replace (on_char is_ident_start (lexer_at (w ++ [96%N]) (b ++ x ++ v) k (loc_of w))) with false.
    2:{ symmetry. apply on_char_at. apply (stops_ext _ _ _ word_start_ident). auto. }
    rewrite eat_while_at; auto. 2:{ destruct X as [->|(->&->)]; reflexivity. }
    rewrite !pos_at, currloc_at. destruct X as [->|(->&->)]; cbn [app] in *.
    + rewrite eqb_on. cbn [N.eqb Pos.eqb]. rewrite bump_at by (apply no_lfcr_app_r in N; auto).
      rewrite <- (app_assoc (w ++ [96%N])). rewrite slice_at'. cbn [obind]. rewrite <- !app_assoc. reflexivity.
    + replace (on 96 (lexer_at ((w ++ [96%N]) ++ b) [] k (loc_of w))) with false by reflexivity.
      rewrite slice_at. cbn [obind]. rewrite <- !app_assoc, !app_nil_r. reflexivity.
  - (* empty *)
    exists (loc_of w). cbn [app] in *. rewrite lex_f_step by auto. unfold dispatch. cbn [N.eqb Pos.eqb].
    unfold lex_char. cbv zeta. rewrite bump_at by auto. apply clean_cons in N. rewrite current_at.
    cbn [N.eqb Pos.eqb]. rewrite bump_at by auto. rewrite prev_at, <- app_assoc. reflexivity.
  - (* nothing, or a null character *)
    exists (loc_of w). cbn [app] in *. rewrite lex_f_step by auto. unfold dispatch. cbn [N.eqb Pos.eqb].
    unfold lex_char. cbv zeta. rewrite bump_at by auto. destruct v as [|c v].
    + rewrite current_at_nil. reflexivity.
    + rewrite current_at. cbn [stops] in Sn. destruct (N.eqb_spec c 0) as [->|]; [reflexivity|discriminate].
  - (* something that is not a letter *)
    exists (loc_of w). cbn [app] in *. rewrite lex_f_step by auto. unfold dispatch. cbn [N.eqb Pos.eqb].
    unfold lex_char. cbv zeta. rewrite bump_at by auto. apply clean_cons in N. rewrite current_at.
    apply N.eqb_neq in N1, N2, N3. rewrite N1, N2, N3. rewrite bump_at by auto. apply clean_cons in N.
    replace (on 39 (lexer_at ((w ++ [39%N]) ++ [c]) (b ++ v) k (loc_of w))) with false
      by (symmetry; apply on_char_at; auto).
    replace (on_char is_white (lexer_at ((w ++ [39%N]) ++ [c]) (b ++ v) k (loc_of w))) with false
      by (symmetry; apply on_char_at; auto).
    rewrite word_start_ident, Wc.
    assert (X : forall c, (not_quote c && is_alnum c) || N.eqb c 95 = is_alnum c || N.eqb c 95).
    { intros x. unfold not_quote. destruct (N.eqb_spec x 39) as [->|]; [|reflexivity]. reflexivity. }
    rewrite eat_while_at; auto.
    2:{ apply (all_ext _ _ _ X). auto. }
    2:{ apply (stops_ext _ _ _ X). auto. }
    rewrite !prev_at, <- !app_assoc. reflexivity.
  - (* a backslash at the end *)
    exists (loc_of w). cbn [app] in *. rewrite escape_start by auto. reflexivity.
  - (* more than one character *)
    exists (loc_of w). cbn [app] in *. rewrite escape_start by auto. unfold lex_char_escape. rewrite peek_at.
    apply is_escapable_true in Es. rewrite Es.
    replace ((e =? 117)%N || (e =? 85)%N) with false.
    2:{ symmetry. apply orb_false_intro; apply N.eqb_neq; intros ->; discriminate Es. }
    cbv zeta. apply clean_cons, clean_cons in N. rewrite bump_at by auto. apply clean_cons in N. rewrite <- (app_assoc b x v) in *.
    replace (on 39 (lexer_at ((w ++ [39%N; 92%N]) ++ [e]) (b ++ x ++ v) k (loc_of w))) with false.
    2:{ symmetry. apply on_char_at. destruct b as [|y b]; cbn [app].
        - rewrite (Bx eq_refl) in *. destruct Up as (_&[X|(_&->)]); [discriminate|exact I].
        - destruct Up as (A&_). apply Forall_inv in A. cbn [stops]. rewrite N.eqb_sym. destruct (y =? 39)%N; [discriminate|auto]. }
    destruct (eat_quote_at ((w ++ [39%N; 92%N]) ++ [e]) b x v k (loc_of w) Up N) as (E1&E2).
    rewrite E1, E2, prev_at. repeat (rewrite <- !app_assoc; cbn [app]). reflexivity.
  - (* an unknown escape *)
    exists (loc_of w). cbn [app] in *. rewrite escape_start by auto. unfold lex_char_escape. rewrite peek_at.
    apply N.eqb_neq in Nu, NU. rewrite Nu, NU. cbn [orb].
    destruct (is_escapable c) eqn:Ec; [apply is_escapable_true in Ec; contradiction|].
    cbv zeta. apply clean_cons, clean_cons in N.
    change (c :: (b ++ x) ++ v) with ((c :: b ++ x) ++ v) in *.
    replace ((c :: b ++ x) ++ v) with (c :: b ++ x ++ v) in * by (cbn [app]; rewrite <- app_assoc; auto).
    assert (Up' : upto 39 (c :: b) x v).
    { destruct Up as (A&X). split; auto. constructor; auto. destruct (N.eqb_spec c 39) as [->|]; auto. }
    destruct (eat_quote_at (w ++ [39%N; 92%N]) (c :: b) x v k (loc_of w) Up' N) as (E1&E2). cbn [app] in E1, E2.
    rewrite E1, E2, prev_at. repeat (rewrite <- !app_assoc; cbn [app]). reflexivity.
  - (* no hexadecimal digit *)
    exists (loc_of w). cbn [app] in *. rewrite <- (app_assoc pl b v) in *. rewrite unicode_start by auto. unfold lex_unicode. cbv zeta.
    do 3 apply clean_cons in N. rewrite plus_eq by auto. apply no_lfcr_app_r in N.
    assert (Hx : is_hex (current_char (lexer_at ((w ++ [39%N; 92%N; u]) ++ pl) (b ++ v) k (loc_of w))) = false).
    { rewrite is_hex_hexdigit. rewrite <- Hc, Ec. destruct (b ++ v); reflexivity. }
    rewrite Hx, currloc_at. rewrite eat_while_at by auto.
    assert (Ec' : current_char (lexer_at ((w ++ [39%N; 92%N; u]) ++ pl) (b ++ v) k (loc_of w)) = c) by (rewrite Ec; destruct (b ++ v); reflexivity).
    rewrite Ec'. repeat (rewrite <- !app_assoc; cbn [app]). reflexivity.
  - (* not closed after the digits *)
    exists (loc_of w). cbn [app] in *.
    replace ((pl ++ h ++ b) ++ v) with (pl ++ h ++ b ++ v) in * by (rewrite <- !app_assoc; auto).
    rewrite unicode_start by auto. unfold lex_unicode. cbv zeta.
    do 3 apply clean_cons in N. destruct h as [|c h]; [congruence|].
    rewrite plus_eq; auto.
    2:{ intros _. cbn [app stops]. apply Forall_inv in A. apply N.eqb_neq. intros <-. discriminate A. }
    apply no_lfcr_app_r in N. rewrite eat_while_at; auto.
    2:{ apply (all_ext _ _ _ is_hex_hexdigit). auto. }
    2:{ apply (stops_ext _ _ _ is_hex_hexdigit). auto. }
    cbn [app]. rewrite current_at, is_hex_hexdigit, (Forall_inv A).
    replace (on 39 (lexer_at (((w ++ [39%N; 92%N; u]) ++ pl) ++ c :: h) (b ++ v) k (loc_of w))) with false.
    2:{ symmetry. apply on_char_at. exact Sq. }
    apply (no_lfcr_app_r (c :: h)) in N. rewrite eat_while_at by auto. rewrite currloc_at.
    repeat (rewrite <- !app_assoc; cbn [app]). reflexivity.
  - (* too many digits *)
    exists (loc_of w). cbn [app] in *.
    replace ((pl ++ h ++ [39%N]) ++ v) with (pl ++ h ++ 39%N :: v) in * by (rewrite <- !app_assoc; auto).
    rewrite unicode_start by auto. unfold lex_unicode. cbv zeta.
    do 3 apply clean_cons in N. destruct h as [|c h]; [cbn in L; lia|].
    rewrite plus_eq; auto.
    2:{ intros _. cbn [app stops]. apply Forall_inv in A. apply N.eqb_neq. intros <-. discriminate A. }
    apply no_lfcr_app_r in N. rewrite eat_while_at; auto.
    2:{ apply (all_ext _ _ _ is_hex_hexdigit). auto. }
    2:{ reflexivity. }
    cbn [app]. rewrite current_at, is_hex_hexdigit, (Forall_inv A).
    rewrite eqb_on. change (39 =? 39)%N with true. cbv iota.
    apply (no_lfcr_app_r (c :: h)) in N.
    rewrite bump_at by auto. rewrite !pos_at, currloc_at.
    rewrite (blen_app ((w ++ [39%N; 92%N; u]) ++ pl)), (hex_blen (c :: h)) by auto.
    set (W := (w ++ [39%N; 92%N; u]) ++ pl) in *.
    replace (Nat.eqb (blen W) (blen W + List.length (c :: h))) with false
      by (symmetry; apply Nat.eqb_neq; simpl; lia).
    replace (Nat.leb (blen W + List.length (c :: h) - blen W) 6) with false
      by (symmetry; apply Nat.leb_gt; lia).
    rewrite <- (hex_blen (c :: h)) by auto. rewrite <- blen_app.
    rewrite <- (app_assoc W), slice_at'. cbn [obind]. unfold W. repeat (rewrite <- !app_assoc; cbn [app]). reflexivity.
  - (* not a character *)
    exists (loc_of w). cbn [app] in *.
    replace ((pl ++ h ++ 39%N :: x) ++ v) with (pl ++ h ++ 39%N :: x ++ v) in * by (rewrite <- !app_assoc; reflexivity).
    rewrite unicode_start by auto. do 3 apply clean_cons in N. rewrite unicode_closed_eq by auto.
    destruct (char_from_u32_scalar (value 16 h)) as [(F&_)|(_&->)]; [contradiction|].
    assert (Eb : forall W, bump_char (lexer_at W (x ++ v) k (loc_of w)) = lexer_at (W ++ x) v k (loc_of w)).
    { intros W. destruct x as [|y0 [|y1 y]]; cbn [app List.length] in *; try lia.
      - rewrite Nx by auto. rewrite bump_at_nil, app_nil_r. auto.
      - rewrite bump_at; auto. do 2 apply no_lfcr_app_r in N. apply clean_cons in N. auto. }
    rewrite Eb. repeat (rewrite <- !app_assoc; cbn [app]). reflexivity.
Qed.

Lemma lex_mistake : letters U -> forall g s e v w k p, gap g (s ++ v) -> mistake (w ++ g) s e v ->
  no_lfcr (g ++ s ++ v) ->
  exists q, lex (lexer_at w (g ++ s ++ v) k p) = Ok (TError e, lexer_at (w ++ g ++ s) v k q).
Proof.
  intros HU g s e v w k p G M N. unfold lex. rewrite rest_at.
  destruct (gap_step HU g (s ++ v) G w k p (List.length (s ++ v)) N) as (m&q&_&E).
  rewrite app_length. replace (S (List.length g + List.length (s ++ v))) with (S (List.length (s ++ v)) + List.length g) by lia.
  rewrite E. apply no_lfcr_app_r in N.
  destruct (mistake_step HU (w ++ g) s e v M k q m N) as (q'&E'). exists q'. rewrite app_assoc. auto.
Qed.

Lemma odd_step : letters U -> forall r, odd_name r -> forall w k p m, no_lfcr r ->
  lex_f (S m) (lexer_at w r k p) = Panic PIdentStart.
Proof.
  intros HU r (c&z&->&Wc&Lc&Un) w k p m N. rewrite lex_f_step by (auto using word_white). rewrite word_dispatch by auto.
  destruct (span_word (c :: z)) as (u&s&v&E&A&Sw&B&Ss). rewrite E in *.
  destruct u as [|d u].
  { exfalso. simpl in E. rewrite <- E in Sw. simpl in Sw. rewrite word_start_char in Sw; auto. discriminate. }
  simpl in E. injection E as <- ->. change (c :: u ++ s ++ v) with ((c :: u) ++ s ++ v) in *.
  rewrite ident_eq; auto.
  destruct (ident_token_cases c ((c :: u) ++ s) (lexer_at (w ++ (c :: u) ++ s) v k (loc_of w))) as [(t&H)|(H&E)].
  - exfalso. pose proof (script_not_in_reserved _ _ _ H B) as ->. rewrite app_nil_r in H. cbn [app] in *.
    destruct (reserved_chars _ _ H) as (c'&s'&X&_&_&R1&R2). injection X as <- <-.
    destruct (N.eq_dec c 95) as [->|n]; [|rewrite (R2 n) in Lc; discriminate].
    rewrite (R1 eq_refl) in *. apply (Un eq_refl). split; auto.
  - rewrite E. unfold identifier. rewrite Lc. destruct (is_upper c); reflexivity.
Qed.

Lemma lex_odd : letters U -> forall g r w k p, gap g r -> odd_name r -> no_lfcr (g ++ r) ->
  lex (lexer_at w (g ++ r) k p) = Panic PIdentStart.
Proof.
  intros HU g r w k p G O N. unfold lex. rewrite rest_at.
  destruct (gap_step HU g r G w k p (List.length r) N) as (m&q&_&E).
  rewrite app_length. replace (S (List.length g + List.length r)) with (S (List.length r) + List.length g) by lia.
  rewrite E. apply no_lfcr_app_r in N. apply odd_step; auto.
Qed.

(** * Where gaps end *)

(** No gap begins [r], except the empty one. *)
Definition solid (r : str) : Prop := forall g v, r = g ++ v -> gap g v -> g = [].

Lemma closes_unique : forall d b, closes d b -> forall b' y y', closes d b' -> b ++ y = b' ++ y' -> b = b'.
Proof.
  induction 1 as [|d b C IH|d b C IH|d c b C IH H1 H2]; intros b' y y' C' E.
  - inversion C'; auto.
  - destruct b' as [|x b']; [destruct (closes_cons _ _ C' eq_refl)|]. cbn [app] in E. injection E as <- E.
    apply closes_inv in C' as [(_&s&->&C')|[(X&_)|(C'&H1&_)]]; [|discriminate|].
    + cbn [app] in E. injection E as E. f_equal. f_equal. eapply IH; eauto.
    + exfalso. specialize (H1 eq_refl). destruct b' as [|z b']; [destruct (closes_cons _ _ C' eq_refl)|].
      cbn [app] in E. injection E as <- _. discriminate H1.
  - destruct b' as [|x b']; [destruct (closes_cons _ _ C' eq_refl)|]. cbn [app] in E. injection E as <- E.
    apply closes_inv in C' as [(X&_)|[(_&s&->&C')|(C'&_&H2)]]; [discriminate| |].
    + cbn [app] in E. injection E as E. f_equal. f_equal. eapply IH; eauto.
    + exfalso. specialize (H2 eq_refl). destruct b' as [|z b']; [destruct (closes_cons _ _ C' eq_refl)|].
      cbn [app] in E. injection E as <- _. discriminate H2.
  - destruct b' as [|x b']; [destruct (closes_cons _ _ C' eq_refl)|]. cbn [app] in E. injection E as <- E.
    destruct b as [|z b]; [destruct (closes_cons _ _ C eq_refl)|].
    apply closes_inv in C' as [(->&s&->&C')|[(->&s&->&C')|(C'&_&_)]].
    + exfalso. cbn [app] in E. injection E as -> _. specialize (H1 eq_refl). discriminate H1.
    + exfalso. cbn [app] in E. injection E as -> _. specialize (H2 eq_refl). discriminate H2.
    + f_equal. eapply IH; eauto.
Qed.

Lemma gap_unique g r : gap g r -> forall g' r', gap g' r' -> solid r -> solid r' -> g ++ r = g' ++ r' -> g = g'.
Proof.
  induction 1 as [r|c g r W G IH|b g r B1 B2 B3 B4 G IH|b x g r C L X G IH]; intros g' r' G' Sr Sr' E.
  - cbn [app] in E. symmetry. eapply Sr; eauto.
  - destruct G' as [r'|c' g' r' W' G'|b' g' r' B1' B2' B3' B4' G'|b' x' g' r' C' L' X' G']; cbn [app] in E.
    + apply (Sr' (c :: g) r); [auto|constructor; auto].
    + injection E as <- E. f_equal. eapply IH; eauto.
    + injection E as -> _. discriminate W.
    + injection E as -> _. discriminate W.
  - destruct G' as [r'|c' g' r' W' G'|b' g' r' B1' B2' B3' B4' G'|b' x' g' r' C' L' X' G']; cbn [app] in E.
    + apply (Sr' (126%N :: 126%N :: b ++ g) r); [auto|apply gap_line; auto].
    + injection E as <- _. discriminate W'.
    + injection E as E. rewrite <- !app_assoc in E.
      destruct (span_unique not_lf _ _ _ _ B1 B2 B1' B2' E) as (<-&E'). f_equal. f_equal. f_equal. eapply IH; eauto.
    + discriminate E.
  - destruct G' as [r'|c' g' r' W' G'|b' g' r' B1' B2' B3' B4' G'|b' x' g' r' C' L' X' G']; cbn [app] in E.
    + apply (Sr' (126%N :: 123%N :: b ++ x ++ g) r); [auto|apply gap_block; auto].
    + injection E as <- _. discriminate W'.
    + discriminate E.
    + injection E as E. rewrite <- !app_assoc in E.
      pose proof (closes_unique _ _ C _ _ _ C' E) as <-. apply app_inv_head in E.
      assert (x = x' /\ g ++ r = g' ++ r') as (<-&E').
      { destruct x as [|x0 [|x1 x]], x' as [|x0' [|x1' x']]; cbn [app List.length] in *; try lia; auto.
        - rewrite (X eq_refl) in E. discriminate.
        - rewrite (X' eq_refl) in E. discriminate.
        - injection E as <- E. auto. }
      do 4 f_equal. eapply IH; eauto.
Qed.

Lemma solid_nil : solid [].
Proof. intros g v E _. symmetry in E. apply app_eq_nil in E. tauto. Qed.

(** What begins with neither a space nor a comment. *)
Lemma solid_at c r : is_white c = false ->
  (c = 126%N -> forall b g v, r = 126%N :: b ++ g ++ v -> stops op_char (b ++ g ++ v) -> stops script (b ++ g ++ v) -> False) ->
  (c = 126%N -> forall b z, r = 123%N :: b ++ z -> closes 1 b -> False) -> solid (c :: r).
Proof.
  intros W H1 H2 g v E G. destruct G as [r'|c' g' r' W' G'|b' g' r' B1' B2' B3' B4' G'|b' x' g' r' C' L' X' G']; auto; exfalso; cbn [app] in E.
  - injection E as -> _. congruence.
  - injection E as -> E. rewrite <- app_assoc in E. eapply H1; eauto.
  - injection E as -> E. rewrite <- !app_assoc in E. eapply H2; eauto.
Qed.

Lemma solid_plain c r : is_white c = false -> c <> 126%N -> solid (c :: r).
Proof. intros W n. apply solid_at; auto; congruence. Qed.

Lemma word_tilde c : word_start c = true -> c <> 126%N.
Proof. intros W ->. discriminate W. Qed.

Lemma lexeme_solid : letters U -> forall s t v, lexeme s t v -> solid (s ++ v).
Proof.
  intros HU s t v L. destruct L as
    [c t v I|s t v I Sw Ss|c u s v Lc Uc A B Sw Ss NR|s v Ns A Sd Lt|b s v C|c v N1 N2 N3|e d v I
    |x pl h y v Hx Hp Hh A Lh Sc Ly Ny|c u s v Wc A Sw B|c u s v Wc A B Sw Ss Sq Sb|c d v N1 N2 N3 Wd
    |s t v I So Ss|u s v Nu A B So Ss NS N2 N1]; cbn [app]; try (apply solid_plain; [reflexivity|discriminate]).
  - cbn in I. repeat (destruct I as [I|I]; [injection I as <- <-; apply solid_plain; [reflexivity|discriminate]|]). destruct I.
  - apply reserved_chars in I as (c&s'&->&W&_). cbn [app]. apply solid_plain; [apply word_white; auto|apply word_tilde; auto].
  - assert (W : word_start c = true) by (unfold word_start; rewrite Lc; apply orb_true_r).
    apply solid_plain; [apply word_white; auto|apply word_tilde; auto].
  - destruct s as [|c s]; [congruence|]. apply Forall_inv in A. cbn [app]. apply solid_plain; [apply digit_white; auto|].
    intros ->. discriminate A.
  - cbn in I. repeat (destruct I as [I|I]; [injection I as <- <-; apply solid_plain; [reflexivity|discriminate]|]). destruct I.
  - rewrite <- app_assoc.
    destruct u as [|c u]; [congruence|]. pose proof (Forall_inv A) as Ac. cbn [app]. apply solid_at; [apply op_white; auto| |].
    + intros -> b g z E S1 S2.
      destruct (span_unique op_char (126%N :: u) (s ++ v) [126%N; 126%N] (b ++ g ++ z)) as (Eu&Ev); auto.
      { repeat constructor. }
      { cbn [app]. rewrite E. auto. }
      injection Eu as ->. destruct s as [|c s]; [apply N2; auto|].
      cbn [app] in Ev. rewrite <- Ev in S2. cbn [stops] in S2. apply Forall_inv in B. congruence.
    + intros -> b z E C.
      destruct (span_unique op_char (126%N :: u) (s ++ v) [126%N] (123%N :: b ++ z)) as (Eu&Ev); auto.
      { repeat constructor. }
      { cbn. auto. }
      { cbn [app]. rewrite E. auto. }
      injection Eu as ->. destruct s as [|c s].
      * cbn [app] in *. specialize (N1 eq_refl). rewrite Ev in N1. discriminate N1.
      * cbn [app] in Ev. injection Ev as -> _. apply Forall_inv in B. discriminate B.
Qed.

Lemma odd_solid : letters U -> forall r, odd_name r -> solid r.
Proof. intros HU r (c&v&->&W&_). apply solid_plain; [apply word_white; auto|apply word_tilde; auto]. Qed.

Lemma mistake_solid : letters U -> forall w s e v, mistake w s e v -> solid (s ++ v).
Proof.
  intros HU w s e v H. destruct H as
    [c v W O D B P N1 N2 N3|s v Ns A Sd Le|b Un|b Un|c u s v Wc A B Sw Ss Sq|b x v (A&X) Sw|v|v Sn
    |c b v N1 N2 N3 Wc A Sa Sq Sw| |e b x v Es Up Bx|c b x v Ne Nu NU Up|u pl b c v Hu Hp Pn A Sb Ec Hc
    |u pl h b v Hu Hp Hh A Sh Sq B Sb|u pl h v Hu Hp A L|u pl h x v Hu Hp Hh A L Sc Lx Nx]; cbn [app];
    try (apply solid_plain; [reflexivity|discriminate]).
  - apply solid_plain; auto. intros ->. discriminate O.
  - destruct s as [|c s]; [congruence|]. apply Forall_inv in A. cbn [app]. apply solid_plain; [apply digit_white; auto|].
    intros ->. discriminate A.
  - rewrite app_nil_r. apply solid_at; [reflexivity|discriminate|]. intros _ b' z E C. injection E as ->. eapply Un; eauto.
Qed.

(** * What comes next *)

(** What the lexer says to [i]. *)
Definition told (w g s v : str) (k : option token) (i : item) (o : outcome (token * lexer)) : Prop :=
  match i with
  | IEnd => o = Ok (TEof, lexer_at (w ++ g) [] k (loc_of (w ++ g)))
  | IToken t => exists q, o = Ok (t, lexer_at (w ++ g ++ s) v k q) /\ (q = loc_of (w ++ g) \/ exists x, t = TLit (LStr x))
  | IMistake e => exists q, o = Ok (TError e, lexer_at (w ++ g ++ s) v k q)
  | IOddName => o = Panic PIdentStart
  end.

Lemma comes_told : letters U -> forall w r g s i v k p, no_lfcr r -> comes w r g s i v ->
  told w g s v k i (lex (lexer_at w r k p)).
Proof.
  intros HU w r g s i v k p N C. destruct C as [g G|g s t v G L|g s e v G M|g r G O]; cbn [told].
  - apply lex_end; auto.
  - apply lex_token; auto.
  - apply lex_mistake; auto.
  - apply lex_odd; auto.
Qed.

Lemma comes_text w r g s i v : comes w r g s i v -> r = g ++ s ++ v.
Proof. destruct 1; cbn [app]; rewrite ?app_nil_r; auto. Qed.

Lemma comes_solid : letters U -> forall w r g s i v, comes w r g s i v -> gap g (s ++ v) /\ solid (s ++ v).
Proof.
  intros HU w r g s i v C. destruct C as [g G|g s t v G L|g s e v G M|g r G O]; split; auto.
  - apply solid_nil.
  - eapply lexeme_solid; eauto.
  - eapply mistake_solid; eauto.
  - apply odd_solid; auto.
Qed.

Lemma comes_plain w r g s t v : comes w r g s (IToken t) v -> t <> TEof /\ forall e, t <> TError e.
Proof. intros C. inversion C; subst. eapply lexeme_not_error; eauto. Qed.

Lemma comes_total : letters U -> forall w r, no_lfcr r -> exists g s i v, comes w r g s i v.
Proof.
  intros HU w r N. destruct (lex_text HU w r None (loc_of w) N)
    as (g&z&->&G&[(->&_)|[(s&t&v&q&->&_&L&_)|[(s&e&v&q&->&_&M)|(_&O)]]]).
  - exists g, [], IEnd, []. rewrite app_nil_r. constructor. auto.
  - exists g, s, (IToken t), v. constructor; auto.
  - exists g, s, (IMistake e), v. constructor; auto.
  - exists g, [], IOddName, z. constructor; auto.
Qed.

Lemma comes_unique : letters U -> forall w r g s i v g' s' i' v', no_lfcr r ->
  comes w r g s i v -> comes w r g' s' i' v' -> g = g' /\ s = s' /\ i = i' /\ v = v'.
Proof.
  intros HU w r g s i v g' s' i' v' N C C'.
  pose proof (comes_text _ _ _ _ _ _ C) as E. pose proof (comes_text _ _ _ _ _ _ C') as E'.
  destruct (comes_solid HU _ _ _ _ _ _ C) as (G&So). destruct (comes_solid HU _ _ _ _ _ _ C') as (G'&So').
  assert (g = g') as <-. { eapply gap_unique; eauto. congruence. }
  split; auto. rewrite E in E'. apply app_inv_head in E'.
  pose proof (comes_told HU _ _ _ _ _ _ None (loc_of w) N C) as T.
  pose proof (comes_told HU _ _ _ _ _ _ None (loc_of w) N C') as T'.
  assert (X : i = i' /\ (i = IEnd /\ s = [] /\ s' = [] \/ i = IOddName /\ s = [] /\ s' = [] \/ v = v')).
  { destruct i as [|t|e|], i' as [|t'|e'|]; cbn [told] in T, T'.
    - split; auto. left. inversion C; inversion C'; auto.
    - destruct T' as (q&T'&_). rewrite T in T'. injection T' as X. destruct (comes_plain _ _ _ _ _ _ C') as (P1&P2); congruence.
    - destruct T' as (q&T'). congruence.
    - congruence.
    - destruct T as (q&T&_). rewrite T in T'. injection T' as X. destruct (comes_plain _ _ _ _ _ _ C) as (P1&P2); congruence.
    - destruct T as (q&T&_), T' as (q'&T'&_). rewrite T in T'. unfold lexer_at in T'. injection T' as -> _ -> _ _ _ _. auto.
    - destruct T as (q&T&_), T' as (q'&T'). rewrite T in T'. injection T' as X. destruct (comes_plain _ _ _ _ _ _ C) as (P1&P2); congruence.
    - destruct T as (q&T&_). congruence.
    - destruct T as (q&T). congruence.
    - destruct T as (q&T), T' as (q'&T'&_). rewrite T in T'. injection T' as X. destruct (comes_plain _ _ _ _ _ _ C') as (P1&P2); congruence.
    - destruct T as (q&T), T' as (q'&T'). rewrite T in T'. unfold lexer_at in T'. injection T' as -> _ -> _ _ _ _. auto.
    - destruct T as (q&T). congruence.
    - congruence.
    - destruct T' as (q&T'&_). congruence.
    - destruct T' as (q&T'). congruence.
    - split; auto. right. left. inversion C; inversion C'; auto. }
  destruct X as (<-&X). destruct X as [(->&->&->)|[(->&->&->)| ->]]; auto.
  apply app_inv_tail in E'. auto.
Qed.

End WithUcd.
