(** The functions for numbers, strings, names, operators and characters. *)
From Coq Require Import List Arith NArith Bool Lia String.
From Verif Require Import Prelim Chars Syntax Lexer SpecLexer ProofBytes ProofLexer ProofLexer2 ProofLexer3.
Import ListNotations.

Section WithUcd.
Context {U : ucd}.

(** What a function may answer when called after [w], before [r]. *)
Definition reads (w r : str) (k : option token) (o : outcome (token * lexer)) : Prop :=
  (exists s t v q, r = s ++ v /\ o = Ok (t, lexer_at (w ++ s) v k q) /\ lexeme s t v /\
     (q = loc_of w \/ exists x, t = TLit (LStr x))) \/
  (exists s e v q, r = s ++ v /\ o = Ok (TError e, lexer_at (w ++ s) v k q) /\ mistake w s e v) \/
  (o = Panic PIdentStart /\ odd_name r).

(** * Numbers *)

Lemma number_eq w u v k p : u <> [] -> all digit u -> stops digit v -> no_lfcr (u ++ v) ->
  lex_number (lexer_at w (u ++ v) k p) =
  Ok (if (value 10 u <? 2 ^ 64)%N then TLit (LInt (value 10 u)) else TError (EInvalidInt p IPosOverflow),
      lexer_at (w ++ u) v k p).
Proof.
  intros N A S C. unfold lex_number. rewrite eat_while_at; auto.
  2:{ apply (all_ext _ _ _ ascii_digit_digit). auto. }
  2:{ apply (stops_ext _ _ _ ascii_digit_digit). auto. }
  cbv zeta. rewrite !pos_at, prev_at.
  change (src_slice (lexer_at w (u ++ v) k p)) with (src_slice (lexer_at w (u ++ v) k p)).
  assert (E : src_slice (lexer_at w (u ++ v) k p) (blen w) (blen (w ++ u)) = Ok u).
  { unfold src_slice, lexer_at. cbn [lx_src]. rewrite blen_app, slice_app. auto. }
  rewrite E. cbn [obind]. rewrite parse_usize by auto. destruct (value 10 u <? 2 ^ 64)%N; auto.
Qed.

Lemma number_reads w c r k : digit c = true -> no_lfcr (c :: r) ->
  reads w (c :: r) k (lex_number (lexer_at w (c :: r) k (loc_of w))).
Proof.
  intros D N. destruct (span digit (c :: r)) as (u&v&E&A&S).
  assert (Nu : u <> []). { intros ->. simpl in E. subst v. simpl in S. congruence. }
  rewrite E in *. rewrite number_eq by auto.
  destruct (N.ltb_spec (value 10 u) (2 ^ 64)).
  - left. do 4 eexists. split; [reflexivity|]. split; [reflexivity|]. split; [apply le_int; auto|]. auto.
  - right; left. do 4 eexists. split; [reflexivity|]. split; [reflexivity|]. apply mi_int; auto.
Qed.

(** * Strings *)

Lemma string_eq w b s v k p : contents b s -> no_lfcr (34%N :: b ++ 34%N :: v) ->
  exists q, lex_string (lexer_at w (34%N :: b ++ 34%N :: v) k p) =
            Ok (TLit (LStr s), lexer_at (w ++ 34%N :: b ++ [34%N]) v k q).
Proof.
  intros C N. unfold lex_string. cbv zeta. rewrite bump_at by auto. apply clean_cons in N.
  rewrite rest_at.
  destruct (string_complete k b s C v (List.length (b ++ 34%N :: v)) (w ++ [34%N]) p []) as (q&E); auto.
  { rewrite app_length. simpl. lia. }
  rewrite E. cbn [obind app]. exists q. rewrite <- app_assoc. auto.
Qed.

Lemma string_reads w r k : no_lfcr (34%N :: r) ->
  reads w (34%N :: r) k (lex_string (lexer_at w (34%N :: r) k (loc_of w))).
Proof.
  intros N. pose proof (clean_cons _ _ N) as N'.
  destruct (string_total k (List.length r) r (w ++ [34%N]) (loc_of w) [] (List.length r))
    as [(b&s&v&->&C)|(Un&s&q&E)]; auto.
  - left. destruct (string_eq w b s v k (loc_of w) C N) as (q&E).
    exists (34%N :: b ++ [34%N]), (TLit (LStr s)), v, q. split.
    { cbn [app]. rewrite <- app_assoc. auto. }
    split; [exact E|]. split; [apply le_string; auto|eauto].
  - right; left. unfold lex_string. cbv zeta. rewrite bump_at by auto. rewrite rest_at, E.
    cbn [obind]. rewrite prev_at. exists (34%N :: r). do 3 eexists. split; [symmetry; apply app_nil_r|].
    rewrite <- app_assoc. split; [reflexivity|]. apply mi_string. auto.
Qed.

(** * Names *)

Lemma word_char_ident c : is_ident_char c = word_char c.
Proof. reflexivity. Qed.
Lemma word_start_ident c : is_ident_start c = word_start c.
Proof. unfold is_ident_start, word_start, has_case. apply orb_assoc. Qed.
Lemma word_start_char : letters U -> forall c, word_start c = true -> word_char c = true.
Proof.
  intros HU c H. rewrite <- word_start_ident in H. apply (ident_start_char HU) in H. auto.
Qed.

Definition ident_token (c : chr) (s : str) (l : lexer) : outcome (token * lexer) :=
  if str_eqb s (lit "_") then Ok (TUnderscore, l)
  else if str_eqb s (lit "infixl") then Ok (TInfixL, l)
  else if str_eqb s (lit "infixr") then Ok (TInfixR, l)
  else if str_eqb s (lit "infix") then Ok (TInfix, l)
  else if str_eqb s (lit "let") then Ok (TLet, l)
  else if str_eqb s (lit "in") then Ok (TIn, l)
  else obind (identifier c s) (fun t => Ok (t, l)).

Lemma ident_token_reserved c s t l : In (s, t) reserved -> ident_token c s l = Ok (t, l).
Proof.
  unfold reserved. cbn [In]. intros H.
  repeat (destruct H as [H|H]; [injection H as <- <-; reflexivity|]). contradiction.
Qed.

Lemma ident_token_cases c s l :
  (exists t, In (s, t) reserved) \/
  (~ In s (map fst reserved) /\ ident_token c s l = obind (identifier c s) (fun t => Ok (t, l))).
Proof.
  unfold ident_token.
  destruct (str_eqb s (lit "_")) eqn:E1; [apply str_eqb_eq in E1 as ->; left; eexists; left; reflexivity|].
  destruct (str_eqb s (lit "infixl")) eqn:E2; [apply str_eqb_eq in E2 as ->; left; eexists; right; left; reflexivity|].
  destruct (str_eqb s (lit "infixr")) eqn:E3; [apply str_eqb_eq in E3 as ->; left; eexists; do 2 right; left; reflexivity|].
  destruct (str_eqb s (lit "infix")) eqn:E4; [apply str_eqb_eq in E4 as ->; left; eexists; do 3 right; left; reflexivity|].
  destruct (str_eqb s (lit "let")) eqn:E5; [apply str_eqb_eq in E5 as ->; left; eexists; do 4 right; left; reflexivity|].
  destruct (str_eqb s (lit "in")) eqn:E6; [apply str_eqb_eq in E6 as ->; left; eexists; do 5 right; left; reflexivity|].
  right. split; auto. apply str_eqb_neq in E1, E2, E3, E4, E5, E6.
  cbn [map fst reserved In]. intuition congruence.
Qed.

Lemma ident_eq c w u s v k p :
  all word_char u -> stops word_char (s ++ v) -> all script s -> stops script v -> no_lfcr (u ++ s ++ v) ->
  lex_ident c (lexer_at w (u ++ s ++ v) k p) = ident_token c (u ++ s) (lexer_at (w ++ u ++ s) v k p).
Proof.
  intros A S B T N. unfold lex_ident. cbv zeta. rewrite trailing_at; auto.
  2:{ apply (all_ext _ _ _ is_trailing_script). auto. }
  2:{ apply (stops_ext _ _ _ is_trailing_script). auto. }
  rewrite !pos_at, slice_at. reflexivity.
Qed.

Lemma span_word r : exists u s v, r = u ++ s ++ v /\ all word_char u /\ stops word_char (s ++ v) /\
  all script s /\ stops script v.
Proof.
  destruct (span word_char r) as (u&z&->&A&S). destruct (span script z) as (s&v&->&B&T). eauto 10.
Qed.

(** Reserved words start with a lowercase letter or are the underscore. *)
Lemma reserved_chars s t : In (s, t) reserved -> exists c s', s = c :: s' /\
  word_start c = true /\ all word_char s /\ (c = 95%N -> s' = []) /\ (c <> 95%N -> is_lower c = true).
Proof.
  unfold reserved. cbn [In]. intros H.
  repeat (destruct H as [H|H]; [injection H as <- <-; eexists _, _; split; [reflexivity|];
    split; [reflexivity|]; split; [repeat constructor|]; split; intros X; first [reflexivity|congruence]|]). contradiction.
Qed.

Lemma script_not_in_reserved u s t : In (u ++ s, t) reserved -> all script s -> s = [].
Proof.
  intros H A. destruct s as [|x s]; auto. exfalso.
  assert (F : forall z t, In (z, t) reserved -> forall y, In y z -> script y = false).
  { clear. intros z t H y I. unfold reserved in H. cbn [In] in H.
    repeat (destruct H as [H|H]; [injection H as <- <-; vm_compute in I;
      repeat (destruct I as [<-|I]; [reflexivity|]); destruct I|]). destruct H. }
  specialize (F _ _ H x). rewrite (Forall_inv A) in F. discriminate F. apply in_or_app. right. left. auto.
Qed.

Lemma ident_reads w c r k : letters U -> word_start c = true -> no_lfcr (c :: r) ->
  reads w (c :: r) k (lex_ident c (lexer_at w (c :: r) k (loc_of w))).
Proof.
  intros HU Wc N. destruct (span_word (c :: r)) as (u&s&v&E&A&S&B&T).
  destruct u as [|d u].
  { exfalso. simpl in E. rewrite <- E in S. simpl in S. rewrite word_start_char in S; auto. discriminate. }
  simpl in E. injection E as <- ->.
  change (c :: u ++ s ++ v) with ((c :: u) ++ s ++ v) in *.
  rewrite ident_eq; auto.
  destruct (ident_token_cases c ((c :: u) ++ s) (lexer_at (w ++ (c :: u) ++ s) v k (loc_of w)))
    as [(t&H)|(H&E)].
  - left. rewrite (ident_token_reserved _ _ _ _ H).
    exists ((c :: u) ++ s), t, v, (loc_of w). rewrite <- !app_assoc. split; auto. split; auto.
    split; auto. pose proof (script_not_in_reserved _ _ _ H B) as ->.
    simpl app in *. apply le_reserved; auto.
  - rewrite E. unfold identifier. destruct (is_lower c) eqn:Lc.
    + left. assert (Uc : is_upper c = false).
      { clear -HU Lc. unfold is_lower, is_upper in *. destruct (c <? 128)%N eqn:X.
        - unfold ascii_lower, ascii_upper, between in *. apply andb_prop in Lc as (P&Q).
          apply N.leb_le in P, Q. apply andb_false_intro2. apply N.leb_gt. lia.
        - apply HU. auto. }
      rewrite Uc. cbn [obind]. do 4 eexists. split; [|split; [reflexivity|split; [|left; reflexivity]]].
      { rewrite <- app_assoc. auto. }
      apply le_name; auto.
    + right; right. cbn [obind]. split; auto. exists c, (u ++ s ++ v). split; auto. split; auto. split; auto.
      intros ->. intros (P&Q). apply H. left. cbn [fst]. simpl app.
      assert (u = []) as ->.
      { destruct u as [|x u]; auto. simpl in P. apply Forall_inv_tail, Forall_inv in A. congruence. }
      assert (s = []) as ->.
      { destruct s as [|x s]; auto. simpl in Q. apply Forall_inv in B. congruence. }
      reflexivity.
Qed.

(** * Backquotes *)

Lemma backquoted_eq w c u s v k p :
  word_start c = true -> all word_char u -> stops word_char (s ++ v) -> all script s -> stops script v ->
  no_lfcr (96%N :: c :: u ++ s ++ v) ->
  lex_backquote (lexer_at w (96%N :: c :: u ++ s ++ v) k p) =
  (if on 96 (lexer_at w v k p)
   then Ok (TAffix (c :: u ++ s) true, bump_char (lexer_at (w ++ 96%N :: c :: u ++ s) v k p))
   else Ok (TError (EInvalidPromotedInfix (loc_of (w ++ [96%N])) (c :: u ++ s)),
            lexer_at (w ++ 96%N :: c :: u ++ s) v k p)).
Proof.
  intros Wc A S B T N. unfold lex_backquote. cbv zeta. rewrite bump_at by auto. apply clean_cons in N.
  rewrite on_at, word_start_ident, Wc. unfold promoted_operator. cbv zeta.
  rewrite bump_at by auto. apply clean_cons in N. rewrite trailing_at; auto.
  2:{ apply (all_ext _ _ _ is_trailing_script). auto. }
  2:{ apply (stops_ext _ _ _ is_trailing_script). auto. }
  rewrite !pos_at, currloc_at.
  replace ((w ++ [96%N]) ++ [c]) with (w ++ [96%N; c]) by (rewrite <- app_assoc; auto).
  replace ((w ++ [96%N; c]) ++ u ++ s) with ((w ++ [96%N]) ++ (c :: u ++ s)) by (rewrite <- !app_assoc; auto).
  rewrite slice_at. cbn [obind]. rewrite <- !app_assoc. reflexivity.
Qed.

Lemma backquote_stop_script v : stops script (96%N :: v).
Proof. reflexivity. Qed.
Lemma backquote_stop_word v : stops word_char (96%N :: v).
Proof. reflexivity. Qed.

Lemma backquote_reads w r k : no_lfcr (96%N :: r) ->
  reads w (96%N :: r) k (lex_backquote (lexer_at w (96%N :: r) k (loc_of w))).
Proof.
  intros N. destruct r as [|c r].
  - right; left. exists [96%N]. do 3 eexists. split; [symmetry; apply app_nil_r|].
    unfold lex_backquote. cbv zeta. rewrite bump_at by auto. rewrite on_at_nil.
    replace (eat_while (fun c => negb (c =? 96)%N) (lexer_at (w ++ [96%N]) [] k (loc_of w)))
      with (lexer_at (w ++ [96%N]) [] k (loc_of w)) by reflexivity.
    replace (on 96 (lexer_at (w ++ [96%N]) [] k (loc_of w))) with false by reflexivity. cbv iota.
    rewrite pos_at. pose proof (slice_at (w ++ [96%N]) [] [] k (loc_of w)) as E.
    rewrite app_nil_r in E. rewrite E. cbn [obind]. split; [reflexivity|].
    apply (mi_backquote w [] []); [|exact I]. split; [constructor|auto].
  - destruct (word_start c) eqn:Wc.
    + destruct (span_word r) as (u&s&v&->&A&S&B&T).
      rewrite backquoted_eq by auto. destruct v as [|d v].
      * right; left. exists (96%N :: c :: u ++ s). do 3 eexists. split.
        { cbn [app]. rewrite !app_nil_r. reflexivity. }
        split; [reflexivity|]. apply mi_backquoted; auto.
      * rewrite eqb_on. destruct (N.eqb_spec 96 d) as [<-|n].
        -- left. rewrite bump_at. 2:{ do 2 apply clean_cons in N. do 2 apply no_lfcr_app_r in N. auto. }
           exists (96%N :: c :: u ++ s ++ [96%N]). do 3 eexists. split.
           { cbn [app]. rewrite <- !app_assoc. reflexivity. }
           split.
           { rewrite <- app_assoc. cbn [app]. rewrite <- !app_assoc. reflexivity. }
           split; [|left; reflexivity]. apply le_backquoted; auto.
           destruct s as [|x s]; simpl in *; auto.
        -- right; left. exists (96%N :: c :: u ++ s). do 3 eexists. split.
           { cbn [app]. rewrite <- !app_assoc. reflexivity. }
           split; [reflexivity|]. apply mi_backquoted; auto. cbn [stops]. apply N.eqb_neq. auto.
    + destruct (span (fun c => negb (N.eqb c 96)) (c :: r)) as (b&v&E&A&S). rewrite E in *.
      assert (X : lex_backquote (lexer_at w (96%N :: b ++ v) k (loc_of w)) =
        Ok (TError (EInvalidPromotedInfix (loc_of (w ++ [96%N])) b),
          if on 96 (lexer_at w v k (loc_of w)) then bump_char (lexer_at (w ++ 96%N :: b) v k (loc_of w))
          else lexer_at (w ++ 96%N :: b) v k (loc_of w))).
      { unfold lex_backquote. cbv zeta. rewrite bump_at by auto. pose proof (clean_cons _ _ N) as N'.
        replace (on_char is_ident_start (lexer_at (w ++ [96%N]) (b ++ v) k (loc_of w))) with false.
        2:{ rewrite <- E, on_at, word_start_ident. auto. }
        rewrite eat_while_at by auto. rewrite !pos_at, currloc_at. rewrite <- app_assoc. cbn [app].
        replace (on 96 (lexer_at (w ++ 96%N :: b) v k (loc_of w))) with (on 96 (lexer_at w v k (loc_of w)))
          by reflexivity.
        destruct v as [|d v].
        - replace (on 96 (lexer_at w [] k (loc_of w))) with false by reflexivity.
          replace (w ++ 96%N :: b) with ((w ++ [96%N]) ++ b) by (rewrite <- app_assoc; auto).
          rewrite slice_at. reflexivity.
        - rewrite eqb_on. destruct (N.eqb 96 d).
          + rewrite bump_at by (apply no_lfcr_app_r in N'; auto).
            replace ((w ++ 96%N :: b) ++ [d]) with ((w ++ [96%N]) ++ b ++ [d]) by (rewrite <- !app_assoc; auto).
            replace (w ++ 96%N :: b) with ((w ++ [96%N]) ++ b) by (rewrite <- app_assoc; auto).
            rewrite slice_at'. reflexivity.
          + replace (w ++ 96%N :: b) with ((w ++ [96%N]) ++ b) by (rewrite <- app_assoc; auto).
            rewrite slice_at. reflexivity. }
      rewrite X. clear X. right; left. destruct v as [|d v].
      * exists (96%N :: b). do 3 eexists. split; [reflexivity|]. split; [reflexivity|].
        replace (96%N :: b) with (96%N :: b ++ []) by (rewrite app_nil_r; auto).
        apply mi_backquote. { split; auto. }
        cbn [app]. rewrite <- E. simpl. auto.
      * simpl in S. destruct (N.eqb_spec d 96) as [->|]; [|discriminate].
        exists (96%N :: b ++ [96%N]). do 3 eexists. split. { cbn [app]. rewrite <- app_assoc. reflexivity. }
        rewrite eqb_on. cbn [N.eqb Pos.eqb]. rewrite bump_at.
        2:{ apply clean_cons in N. apply no_lfcr_app_r in N. auto. }
        split. { rewrite <- app_assoc. cbn [app]. reflexivity. }
        apply mi_backquote. { split; auto. }
        cbn [app]. rewrite <- E. simpl. auto.
Qed.

End WithUcd.
