(** The whole lexer: sound and complete for the lexical grammar. *)
From Coq Require Import List Arith NArith Bool Lia String.
From Verif Require Import Prelim Chars Syntax Lexer SpecLexer ProofBytes ProofLexer ProofLexer2
  ProofLexer3 ProofLexer4 ProofLexer5.
Import ListNotations.

Section WithUcd.
Context {U : ucd}.

(** * The dispatch on the first character *)

Definition dispatch (m : nat) (c : chr) (l : lexer) : outcome (token * lexer) :=
  if N.eqb c 59 then Ok (TSemi, bump_char l)
  else if N.eqb c 39 then lex_char l
  else if N.eqb c 34 then lex_string l
  else if ascii_digit c then lex_number l
  else if N.eqb c 96 then lex_backquote l
  else if is_ident_start c then lex_ident c l
  else if N.eqb c 40 then Ok (TParenL, bump_char l)
  else if N.eqb c 41 then Ok (TParenR, bump_char l)
  else if N.eqb c 91 then Ok (TBrackL, bump_char l)
  else if N.eqb c 93 then Ok (TBrackR, bump_char l)
  else if N.eqb c 123 then Ok (TCurlyL, bump_char l)
  else if N.eqb c 125 then Ok (TCurlyR, bump_char l)
  else if N.eqb c 44 then Ok (TComma, bump_char l)
  else if is_infix_char c then operator (lex_f m) l
  else Ok (TError EUnknown, l).

Lemma lex_f_white m w ws z k p : all is_white ws -> stops is_white z -> no_lfcr (ws ++ z) ->
  lex_f (S m) (lexer_at w (ws ++ z) k p) =
  match z with
  | [] => Ok (TEof, lexer_at (w ++ ws) [] k (loc_of (w ++ ws)))
  | c :: _ => dispatch m c (lexer_at (w ++ ws) z k (loc_of (w ++ ws)))
  end.
Proof.
  intros A S N. cbn [lex_f]. cbv zeta. unfold eat_whitespace. rewrite eat_while_at by auto.
  repeat rewrite ?currloc_at, ?setprev_at. destruct z; reflexivity.
Qed.

Lemma lex_f_step m w c r k p : is_white c = false -> no_lfcr (c :: r) ->
  lex_f (S m) (lexer_at w (c :: r) k p) = dispatch m c (lexer_at w (c :: r) k (loc_of w)).
Proof.
  intros W N. rewrite (lex_f_white m w [] (c :: r)); auto; [|constructor].
  rewrite app_nil_r. auto.
Qed.

(** * Character classes are disjoint *)

Lemma digit_cases c : digit c = true -> In c (lit "0123456789").
Proof. unfold digit, mem. rewrite existsb_exists. intros (x&I&E). apply N.eqb_eq in E. subst. auto. Qed.
Lemma op_cases c : op_char c = true -> In c (lit "~!@#$%^&*-+=<>/\:|?.").
Proof. unfold op_char, mem. rewrite existsb_exists. intros (x&I&E). apply N.eqb_eq in E. subst. auto. Qed.

Ltac cases_in H := cbn [lit] in H; vm_compute in H; repeat (destruct H as [<-|H]); [..|contradiction].

Lemma digit_dispatch m c l : digit c = true -> dispatch m c l = lex_number l.
Proof. intros H. apply digit_cases in H. cases_in H; reflexivity. Qed.
Lemma digit_white c : digit c = true -> is_white c = false.
Proof. intros H. apply digit_cases in H. cases_in H; reflexivity. Qed.
Lemma op_dispatch m c l : op_char c = true -> dispatch m c l = operator (lex_f m) l.
Proof. intros H. apply op_cases in H. cases_in H; reflexivity. Qed.
Lemma op_white c : op_char c = true -> is_white c = false.
Proof. intros H. apply op_cases in H. cases_in H; reflexivity. Qed.
Lemma op_script c : op_char c = true -> script c = false.
Proof. intros H. apply op_cases in H. cases_in H; reflexivity. Qed.
Lemma word_digit c : word_start c = true -> digit c = false.
Proof.
  intros W. destruct (digit c) eqn:E; auto. apply digit_cases in E. cases_in E; discriminate W.
Qed.
Lemma word_dispatch m c l : word_start c = true -> dispatch m c l = lex_ident c l.
Proof.
  intros W. unfold dispatch.
  destruct (N.eqb_spec c 59) as [->|]; [discriminate W|].
  destruct (N.eqb_spec c 39) as [->|]; [discriminate W|].
  destruct (N.eqb_spec c 34) as [->|]; [discriminate W|].
  rewrite ascii_digit_digit, word_digit by auto.
  destruct (N.eqb_spec c 96) as [->|]; [discriminate W|].
  rewrite word_start_ident, W. auto.
Qed.
Lemma word_white c : letters U -> word_start c = true -> is_white c = false.
Proof.
  intros HU W. unfold word_start in W. destruct (N.ltb_spec c 128) as [L|L].
  - apply N.ltb_lt in L. destruct (is_white c) eqn:E; auto.
    unfold is_white in E. rewrite !orb_true_iff, !N.eqb_eq in E.
    unfold is_upper, is_lower in W. rewrite L in W. unfold ascii_upper, ascii_lower, between in *.
    rewrite !orb_true_iff, !andb_true_iff, !N.leb_le, N.eqb_eq in W.
    rewrite !andb_true_iff, !N.leb_le in E. apply N.ltb_lt in L. lia.
  - unfold is_upper, is_lower in W. apply N.ltb_ge in L. rewrite L in W.
    destruct (HU c) as (H1&H&_). apply H. left. apply H1. rewrite !orb_true_iff, N.eqb_eq in W.
    destruct W as [[->|W]|W]; auto. discriminate L.
Qed.

(** * Operators *)

Definition op_token (lex : lexer -> outcome (token * lexer)) (s : str) (l : lexer) : outcome (token * lexer) :=
  if str_eqb s (lit "~")
  then if on 123 l
       then obind (block_comment (bump_char l)) (fun r =>
            match r with
            | (Some err, l2) => Ok (TError err, l2)
            | (None, l2) => lex l2
            end)
       else Ok (TAffix (lit "~") false, l)
  else if str_eqb s (lit "~~") then lex (line_comment l)
  else if str_eqb s (lit "\") || str_eqb s [955%N] then Ok (TLambda, l)
  else if str_eqb s (lit "-") then Ok (TDash, l)
  else if str_eqb s (lit "->") || str_eqb s [8594%N] || str_eqb s [10230%N]
          || str_eqb s [8614%N] || str_eqb s [10236%N] then Ok (TArrow, l)
  else if str_eqb s (lit "@") then Ok (TAt, l)
  else Ok (TAffix s false, l).

Lemma operator_eq lex w u s v k p :
  all op_char u -> stops op_char (s ++ v) -> all script s -> stops script v -> no_lfcr (u ++ s ++ v) ->
  operator lex (lexer_at w (u ++ s ++ v) k p) = op_token lex (u ++ s) (lexer_at (w ++ u ++ s) v k p).
Proof.
  intros A S B T N. unfold operator. cbv zeta. rewrite trailing_at; auto.
  2:{ apply (all_ext _ _ _ is_trailing_script). auto. }
  2:{ apply (stops_ext _ _ _ is_trailing_script). auto. }
  rewrite !pos_at, slice_at. reflexivity.
Qed.

Lemma op_token_symbol lex s t l : In (s, t) symbols -> op_token lex s l = Ok (t, l).
Proof.
  unfold symbols. cbn [In]. intros H.
  repeat (destruct H as [H|H]; [injection H as <- <-; reflexivity|]). contradiction.
Qed.

(** No operator starts with one of the other arrows or a lambda. *)
Lemma op_token_other lex u s l : u <> [] -> all op_char u ->
  ~ In (u ++ s) (map fst symbols) -> u ++ s <> lit "~" -> u ++ s <> lit "~~" ->
  op_token lex (u ++ s) l = Ok (TAffix (u ++ s) false, l).
Proof.
  intros Nu A H N1 N2. unfold op_token. apply str_eqb_neq in N1, N2. rewrite N1, N2.
  assert (X : forall x, op_char x = false -> str_eqb (u ++ s) [x] = false).
  { intros x Hx. apply str_eqb_neq. destruct u as [|c u]; [congruence|]. apply Forall_inv in A.
    intros E. injection E as <- _. congruence. }
  rewrite !X by reflexivity. rewrite !orb_false_r. cbn [map fst symbols In] in H.
  destruct (str_eqb (u ++ s) (lit "\")) eqn:E1; [apply str_eqb_eq in E1; exfalso; apply H; auto|].
  destruct (str_eqb (u ++ s) (lit "-")) eqn:E2; [apply str_eqb_eq in E2; exfalso; apply H; auto|].
  destruct (str_eqb (u ++ s) (lit "->")) eqn:E3; [apply str_eqb_eq in E3; exfalso; apply H; auto|].
  destruct (str_eqb (u ++ s) (lit "@")) eqn:E4; [apply str_eqb_eq in E4; exfalso; apply H; auto 6|].
  auto.
Qed.

Lemma span_op r : exists u s v, r = u ++ s ++ v /\ all op_char u /\ stops op_char (s ++ v) /\
  all script s /\ stops script v.
Proof.
  destruct (span op_char r) as (u&z&->&A&S). destruct (span script z) as (s&v&->&B&T). eauto 10.
Qed.

(** * Soundness *)

Definition lexes (w r : str) (k : option token) (o : outcome (token * lexer)) : Prop :=
  exists g z, r = g ++ z /\ gap g z /\
    ((z = [] /\ o = Ok (TEof, lexer_at (w ++ g) [] k (loc_of (w ++ g)))) \/ reads (w ++ g) z k o).

Lemma gap_whites ws : all is_white ws -> forall g v, gap g v -> gap (ws ++ g) v.
Proof. induction 1; intros; simpl; auto. constructor; auto. Qed.

Lemma line_comment_at w b z k p : all not_lf b -> stops not_lf z -> no_lfcr (b ++ z) ->
  line_comment (lexer_at w (b ++ z) k p) = lexer_at (w ++ b) z k p.
Proof. intros A S N. unfold line_comment. apply (eat_while_at not_lf); auto. Qed.

Lemma block_comment_at w b z k p : closes 1 b -> no_lfcr (b ++ z) ->
  exists x v, z = x ++ v /\ List.length x <= 1 /\ (x = [] -> v = []) /\
  block_comment (lexer_at w (b ++ z) k p) = Ok (None, lexer_at (w ++ b ++ x) v k p).
Proof.
  intros C N. unfold block_comment. rewrite rest_at, prev_at. rewrite (comment_complete _ _ _ _ C); auto.
  2:{ rewrite app_length. lia. }
  cbn [obind]. apply no_lfcr_app_r in N. destruct (bump_one (w ++ b) z k p N) as (x&v&->&E&L&X).
  exists x, v. rewrite E, <- app_assoc. auto.
Qed.

Lemma tilde_eq (s1 s2 : str) c : s1 ++ s2 = [c] -> s1 <> [] -> s1 = [c] /\ s2 = [].
Proof. destruct s1 as [|x [|y s1]]; simpl; intros E N; try congruence. injection E as -> ->. auto. Qed.

Lemma script_tail (u s : str) t : u ++ s = t -> all script s -> (forall x, In x t -> script x = false) -> s = [].
Proof.
  intros <- A H. destruct s as [|x s]; auto. exfalso. apply Forall_inv in A.
  rewrite (H x) in A; [discriminate|]. apply in_or_app. right. left. auto.
Qed.

Lemma symbols_script s t : In (s, t) symbols -> forall x, In x s -> script x = false.
Proof.
  intros H x I. unfold symbols in H. cbn [In] in H.
  repeat (destruct H as [H|H]; [injection H as <- <-; vm_compute in I;
      repeat (destruct I as [<-|I]; [reflexivity|]); destruct I|]). destruct H.
Qed.

Lemma symbols_dec s : (exists t, In (s, t) symbols) \/ ~ In s (map fst symbols).
Proof.
  destruct (in_dec (list_eq_dec N.eq_dec) s (map fst symbols)) as [I|]; auto.
  left. apply in_map_iff in I as ((s'&t)&<-&I). eauto.
Qed.

Lemma lex_sound : letters U -> forall n r w k p, List.length r < n -> no_lfcr r ->
  lexes w r k (lex_f n (lexer_at w r k p)).
Proof.
  intros HU. induction n as [|n IH]; intros r w k p L N; [lia|].
  destruct (span is_white r) as (ws&z&->&A&S). rewrite lex_f_white by auto.
  pose proof (no_lfcr_app_r _ _ N) as Nz. rewrite app_length in L.
  assert (G0 : gap ws z). { rewrite <- (app_nil_r ws). apply gap_whites; auto. constructor. }
  destruct z as [|c z].
  { exists ws, []. split; auto. }
  set (W := w ++ ws) in *.
  (* results without a comment *)
  assert (G : forall o, reads W (c :: z) k o -> lexes w (ws ++ c :: z) k o).
  { intros o H. exists ws, (c :: z). auto. }
  (* one-character tokens *)
  assert (P : forall t, In (c, t) puncts ->
    lexes w (ws ++ c :: z) k (Ok (t, bump_char (lexer_at W (c :: z) k (loc_of W))))).
  { intros t Ht. apply G. rewrite bump_at by auto. left. exists [c]. do 3 eexists. split; [reflexivity|].
    split; [reflexivity|]. split; [|auto]. apply le_punct. auto. }
  cbn [stops] in S. unfold dispatch.
  destruct (N.eqb_spec c 59) as [->|N59]. { apply P. cbn [puncts In]. auto 10. }
  destruct (N.eqb_spec c 39) as [->|N39]. { apply G, char_reads. auto. }
  destruct (N.eqb_spec c 34) as [->|N34]. { apply G, string_reads. auto. }
  rewrite ascii_digit_digit. destruct (digit c) eqn:Dc. { apply G, number_reads; auto. }
  destruct (N.eqb_spec c 96) as [->|N96]. { apply G, backquote_reads. auto. }
  rewrite word_start_ident. destruct (word_start c) eqn:Wc. { apply G, ident_reads; auto. }
  destruct (N.eqb_spec c 40) as [->|N40]. { apply P. cbn [puncts In]. auto 10. }
  destruct (N.eqb_spec c 41) as [->|N41]. { apply P. cbn [puncts In]. auto 10. }
  destruct (N.eqb_spec c 91) as [->|N91]. { apply P. cbn [puncts In]. auto 10. }
  destruct (N.eqb_spec c 93) as [->|N93]. { apply P. cbn [puncts In]. auto 10. }
  destruct (N.eqb_spec c 123) as [->|N123]. { apply P. cbn [puncts In]. auto 10. }
  destruct (N.eqb_spec c 125) as [->|N125]. { apply P. cbn [puncts In]. auto 10. }
  destruct (N.eqb_spec c 44) as [->|N44]. { apply P. cbn [puncts In]. auto 10. }
  rewrite is_infix_op. destruct (op_char c) eqn:Oc.
  2:{ apply G. right; left. exists []. do 3 eexists. split; [reflexivity|]. rewrite app_nil_r. split; [reflexivity|].
      apply mi_unknown; auto. cbn [puncts map fst In]. intuition congruence. }
  destruct (span_op (c :: z)) as (u&s&v&E&Au&Su&Bs&Ts). rewrite E in *.
  assert (Nu : u <> []). { intros ->. simpl in E, Su. rewrite <- E in Su. simpl in Su. congruence. }
  rewrite operator_eq by auto.
  destruct (symbols_dec (u ++ s)) as [(t&Ht)|Hs].
  { rewrite (op_token_symbol _ _ _ _ Ht). apply G. left.
    pose proof (script_tail u s _ eq_refl Bs (symbols_script _ _ Ht)) as ->.
    rewrite app_nil_r in *. simpl app in *.
    exists u, t, v, (loc_of W). split; [reflexivity|]. split; [reflexivity|]. split; [|auto].
    apply le_symbol; auto. }
  destruct (list_eq_dec N.eq_dec (u ++ s) (lit "~")) as [E1|N1].
  { unfold op_token. rewrite (proj2 (str_eqb_eq _ _) E1).
    destruct (tilde_eq u s 126%N E1 Nu) as (->&->). cbn [app] in *.
    destruct (on 123 (lexer_at (W ++ [126%N]) v k (loc_of W))) eqn:Ob.
    - apply on_char_at_true in Ob as (d&v'&->&Hd). apply N.eqb_eq in Hd. subst d.
      pose proof (clean_cons _ _ Nz) as Nv. rewrite bump_at by auto. apply clean_cons in Nv.
      rewrite <- app_assoc. cbn [app].
      destruct (comment_total k (loc_of W) (List.length v') v' 1 (W ++ [126; 123]%N) (List.length v'))
        as [(b&x&->&C)|(Un&Ec)]; auto.
      + destruct (block_comment_at (W ++ [126; 123]%N) b x k (loc_of W) C Nv) as (y&v2&->&Ly&Ny&->).
        cbn [obind]. rewrite app_assoc in Nv. apply no_lfcr_app_r in Nv.
        destruct (IH v2 ((W ++ [126; 123]%N) ++ b ++ y) k (loc_of W)) as (g&z2&->&Gg&R); auto.
        { injection E as -> ->. cbn [List.length] in L. rewrite !app_length in L. lia. }
        exists (ws ++ 126%N :: 123%N :: b ++ y ++ g), z2. split.
        { repeat (rewrite <- !app_assoc; cbn [app]). reflexivity. }
        split.
        { apply gap_whites; auto. apply gap_block; auto. }
        replace (w ++ ws ++ 126%N :: 123%N :: b ++ y ++ g) with (((W ++ [126; 123]%N) ++ b ++ y) ++ g).
        { exact R. }
        unfold W. repeat (rewrite <- !app_assoc; cbn [app]). reflexivity.
      + unfold block_comment. rewrite rest_at, prev_at, Ec. cbn [obind].
        apply G. right; left. exists (126%N :: 123%N :: v'). do 3 eexists. split; [symmetry; apply app_nil_r|].
        rewrite <- app_assoc. cbn [app]. split; [reflexivity|]. apply mi_comment. exact Un.
    - apply on_char_at in Ob. apply G. left. exists [126%N]. do 3 eexists. split; [reflexivity|].
      split; [reflexivity|]. split; [|auto]. apply (le_op [126%N] []); auto. discriminate. }
  destruct (list_eq_dec N.eq_dec (u ++ s) (lit "~~")) as [E2|N2].
  { unfold op_token. rewrite (proj2 (str_eqb_neq _ _) N1), (proj2 (str_eqb_eq _ _) E2).
    assert (s = []) as ->.
    { apply (script_tail u s _ E2 Bs). intros x I. vm_compute in I. intuition (subst; reflexivity). }
    rewrite app_nil_r in E2. subst u. cbn [app] in *. change (lit "~~") with [126; 126]%N in *. cbn [app] in *.
    destruct (span not_lf v) as (b&z2&->&Ab&Sz).
    pose proof (clean_cons _ _ (clean_cons _ _ Nz)) as Nv.
    rewrite line_comment_at by auto. apply no_lfcr_app_r in Nv.
    destruct (IH z2 ((W ++ [126; 126]%N) ++ b) k (loc_of W)) as (g&z3&->&Gg&R); auto.
    { injection E as -> ->. cbn [List.length] in L. rewrite !app_length in L. lia. }
    exists (ws ++ 126%N :: 126%N :: b ++ g), z3. split.
    { repeat (rewrite <- !app_assoc; cbn [app]). reflexivity. }
    split.
    { apply gap_whites; auto. apply gap_line; auto. }
    replace (w ++ ws ++ 126%N :: 126%N :: b ++ g) with (((W ++ [126; 126]%N) ++ b) ++ g).
    { exact R. }
    unfold W. repeat (rewrite <- !app_assoc; cbn [app]). reflexivity. }
  rewrite op_token_other by auto. apply G. left. exists (u ++ s). do 3 eexists. rewrite <- app_assoc.
  split; [reflexivity|]. split; [reflexivity|]. split; [|auto]. apply le_op; auto. congruence.
Qed.

(** * Completeness *)

Lemma lexeme_step : letters U -> forall s t v, lexeme s t v -> forall w k p m, no_lfcr (s ++ v) ->
  exists q, lex_f (S m) (lexer_at w (s ++ v) k p) = Ok (t, lexer_at (w ++ s) v k q) /\
            (q = loc_of w \/ exists x, t = TLit (LStr x)).
Proof.
  intros HU s t v H w k p m. destruct H as
    [c t v I|s t v I Sw Ss|c u s v Lc Uc A B Sw Ss NR|s v Ns A Sd Lt|b s v C|c v N1 N2 N3|e d v I
    |x pl h y v Hx Hp Hh A Lh Sc Ly Ny|c u s v Wc A Sw B|c u s v Wc A B Sw Ss Sq Sb|c d v N1 N2 N3 Wd
    |s t v I So Ss|u s v Nu A B So Ss NS N2 N1]; intros N; cbn [app] in *.
  - (* punctuation *)
    exists (loc_of w). split; [|auto]. rewrite lex_f_step; auto.
    + unfold puncts in I. cbn [In] in I.
      repeat (destruct I as [I|I]; [injection I as <- <-; unfold dispatch; cbn [N.eqb Pos.eqb];
        change (is_ident_start _) with false; cbn -[lexer_at bump_char]; rewrite bump_at by auto; reflexivity|]).
      contradiction.
    + unfold puncts in I. cbn [In] in I.
      repeat (destruct I as [I|I]; [injection I as <- <-; reflexivity|]). contradiction.
  - (* reserved words *)
    exists (loc_of w). split; [|auto]. destruct (reserved_chars s t I) as (c&s'&->&Wc&A&_&_).
    cbn [app] in *. rewrite lex_f_step by (auto using word_white). rewrite word_dispatch by auto.
    pose proof (ident_eq c w (c :: s') [] v k (loc_of w) A Sw (Forall_nil _) Ss N) as E.
    cbn [app] in E. rewrite E. rewrite app_nil_r. apply ident_token_reserved. auto.
  - (* names *)
    exists (loc_of w). split; [|auto]. assert (Wc : word_start c = true).
    { unfold word_start. rewrite Lc. apply orb_true_r. }
    rewrite lex_f_step by (auto using word_white). rewrite word_dispatch by auto.
    rewrite <- app_assoc in *.
    rewrite (ident_eq c w (c :: u) s v k (loc_of w)); auto.
    destruct (ident_token_cases c ((c :: u) ++ s) (lexer_at (w ++ (c :: u) ++ s) v k (loc_of w))) as [(t&I)|(_&->)].
    { exfalso. apply NR. apply in_map_iff. exists (c :: u ++ s, t). auto. }
    unfold identifier. rewrite Lc, Uc. reflexivity.
  - (* numbers *)
    exists (loc_of w). split; [|auto]. destruct s as [|c s]; [congruence|]. pose proof (Forall_inv A) as Dc.
    cbn [app] in *. rewrite lex_f_step by (auto using digit_white). rewrite digit_dispatch by auto.
    change (c :: s ++ v) with ((c :: s) ++ v) in *. rewrite number_eq by auto. apply N.ltb_lt in Lt. rewrite Lt. auto.
  - (* strings *)
    rewrite <- app_assoc in *. cbn [app] in *. rewrite lex_f_step by auto.
    destruct (string_eq w b s v k (loc_of w) C N) as (q&E). exists q. split; [exact E|eauto].
  - (* characters *)
    exists (loc_of w). split; [|auto]. rewrite lex_f_step by auto. unfold dispatch. cbn [N.eqb Pos.eqb].
    unfold lex_char. cbv zeta. rewrite bump_at by auto. apply clean_cons in N. rewrite current_at.
    apply N.eqb_neq in N1, N2, N3. rewrite N1, N2, N3. rewrite bump_at by auto. apply clean_cons in N.
    rewrite eqb_on. cbn [N.eqb Pos.eqb]. rewrite bump_at by auto. rewrite <- !app_assoc. reflexivity.
  - (* escapes *)
    exists (loc_of w). split; [|auto]. rewrite lex_f_step by auto. unfold dispatch. cbn [N.eqb Pos.eqb].
    unfold lex_char. cbv zeta. rewrite bump_at by auto. apply clean_cons in N. rewrite current_at.
    cbn [N.eqb Pos.eqb]. rewrite bump_at by auto. apply clean_cons in N. unfold lex_char_escape.
    rewrite peek_at. destruct (get_escaped_escapes e d I) as (E1&E2). rewrite E1, E2.
    replace ((e =? 117)%N || (e =? 85)%N) with false.
    2:{ symmetry. apply orb_false_intro; apply N.eqb_neq; intros ->; discriminate E1. }
    cbv zeta. rewrite bump_at by auto. apply clean_cons in N. rewrite eqb_on. cbn [N.eqb Pos.eqb].
    rewrite bump_at by auto. rewrite <- !app_assoc. reflexivity.
  - (* unicode escapes *)
    exists (loc_of w). split; [|auto]. rewrite lex_f_step by auto. unfold dispatch. cbn [N.eqb Pos.eqb].
    unfold lex_char. cbv zeta. rewrite bump_at by auto. apply clean_cons in N. rewrite current_at.
    cbn [N.eqb Pos.eqb]. rewrite bump_at by auto. apply clean_cons in N. unfold lex_char_escape.
    rewrite peek_at. replace ((x =? 117)%N || (x =? 85)%N) with true.
    2:{ destruct Hx as [-> | ->]; reflexivity. }
    rewrite bump_at by auto. apply clean_cons in N.
    replace ((pl ++ h ++ 39%N :: y) ++ v) with (pl ++ h ++ 39%N :: y ++ v) in *
      by (rewrite <- !app_assoc; reflexivity).
    rewrite unicode_closed_eq by auto.
    destruct (char_from_u32_scalar (value 16 h)) as [(_&->)|(F&_)]; [|contradiction].
    assert (Eb : forall W, bump_char (lexer_at W (y ++ v) k (loc_of w)) = lexer_at (W ++ y) v k (loc_of w)).
    { intros W. destruct y as [|y0 [|y1 y]]; cbn [app List.length] in *; try lia.
      - rewrite Ny by auto. rewrite bump_at_nil, app_nil_r. auto.
      - rewrite bump_at; auto. do 2 apply no_lfcr_app_r in N. apply clean_cons in N. auto. }
    rewrite ?prev_at, Eb. repeat (rewrite <- !app_assoc; cbn [app]). reflexivity.
  - (* backquoted *)
    exists (loc_of w). split; [|auto]. rewrite lex_f_step by auto. unfold dispatch. cbn [N.eqb Pos.eqb ascii_digit].
    change (ascii_digit 96) with false. cbv iota.
    replace ((u ++ s ++ [96%N]) ++ v) with (u ++ s ++ 96%N :: v) in * by (rewrite <- !app_assoc; reflexivity).
    rewrite backquoted_eq; auto.
    2:{ destruct s; simpl in *; auto. }
    2:{ reflexivity. }
    rewrite eqb_on. cbn [N.eqb Pos.eqb]. rewrite bump_at.
    2:{ do 2 apply clean_cons in N. do 2 apply no_lfcr_app_r in N. auto. }
    repeat (rewrite <- !app_assoc; cbn [app]). reflexivity.
  - (* apostrophe and name *)
    exists (loc_of w). split; [|auto]. rewrite lex_f_step by auto. unfold dispatch. cbn [N.eqb Pos.eqb].
    unfold lex_char. cbv zeta. rewrite bump_at by auto. apply clean_cons in N. rewrite current_at.
    destruct (N.eqb_spec c 39) as [->|]; [discriminate Wc|].
    destruct (N.eqb_spec c 92) as [->|]; [discriminate Wc|].
    destruct (N.eqb_spec c 0) as [->|]; [discriminate Wc|].
    rewrite bump_at by auto. apply clean_cons in N. rewrite <- (app_assoc u s v) in *.
    replace (on 39 (lexer_at ((w ++ [39%N]) ++ [c]) (u ++ s ++ v) k (loc_of w))) with false
      by (symmetry; apply on_char_at; auto).
    replace (on_char is_white (lexer_at ((w ++ [39%N]) ++ [c]) (u ++ s ++ v) k (loc_of w))) with false
      by (symmetry; apply on_char_at; auto).
    rewrite word_start_ident, Wc. rewrite trailing_at; auto.
    2:{ apply (all_ext _ _ _ is_trailing_script). auto. }
    2:{ apply (stops_ext _ _ _ is_trailing_script). auto. }
    rewrite !pos_at. rewrite <- (app_assoc (w ++ [39%N])), slice_at. cbn [obind].
    rewrite <- !app_assoc. reflexivity.
  - (* apostrophe and white space *)
    exists (loc_of w). split; [|auto]. rewrite lex_f_step by auto. unfold dispatch. cbn [N.eqb Pos.eqb].
    unfold lex_char. cbv zeta. rewrite bump_at by auto. apply clean_cons in N. rewrite current_at.
    apply N.eqb_neq in N1, N2, N3. rewrite N1, N2, N3. rewrite bump_at by auto. apply clean_cons in N.
    rewrite eqb_on. destruct (N.eqb_spec 39 d) as [<-|]; [discriminate Wd|].
    rewrite on_at, Wd. rewrite bump_at by auto. rewrite !pos_at.
    rewrite <- (app_assoc (w ++ [39%N])), slice_at. cbn [obind]. rewrite <- !app_assoc. reflexivity.
  - (* symbols *)
    exists (loc_of w). split; [|auto].
    assert (Hs : s <> [] /\ all op_char s).
    { unfold symbols in I. cbn [In] in I.
      repeat (destruct I as [I|I]; [injection I as <- <-; split; [discriminate|repeat constructor]|]). contradiction. }
    destruct Hs as (Ns&A). destruct s as [|c s]; [congruence|]. pose proof (Forall_inv A) as Oc. cbn [app] in *.
    rewrite lex_f_step by (auto using op_white). rewrite op_dispatch by auto.
    pose proof (operator_eq (lex_f m) w (c :: s) [] v k (loc_of w) A So (Forall_nil _) Ss N) as E.
    cbn [app] in E. rewrite E. rewrite app_nil_r. apply op_token_symbol. auto.
  - (* operators *)
    exists (loc_of w). split; [|auto]. destruct u as [|c u]; [congruence|]. pose proof (Forall_inv A) as Oc.
    rewrite <- app_assoc in *. cbn [app] in *.
    rewrite lex_f_step by (auto using op_white). rewrite op_dispatch by auto.
    rewrite (operator_eq (lex_f m) w (c :: u) s v k (loc_of w)); auto.
    destruct (list_eq_dec N.eq_dec ((c :: u) ++ s) (lit "~")) as [E1|E1].
    + specialize (N1 E1). unfold op_token. rewrite (proj2 (str_eqb_eq _ _) E1).
      replace (on 123 (lexer_at (w ++ (c :: u) ++ s) v k (loc_of w))) with false
        by (symmetry; apply on_char_at; auto).
      change (c :: u ++ s) with ((c :: u) ++ s). rewrite E1. auto.
    + rewrite op_token_other; auto.
Qed.

Lemma gap_step : letters U -> forall g v, gap g v -> forall w k p n, no_lfcr (g ++ v) ->
  exists m q, n <= m /\
    lex_f (S n + List.length g) (lexer_at w (g ++ v) k p) = lex_f (S m) (lexer_at (w ++ g) v k q).
Proof.
  intros HU. induction 1 as [v|c g v Wc G IH|b g v A Sn So Ss G IH|b x g v C Lx Nx G IH]; intros w k p n N.
  - exists n, p. rewrite app_nil_r, Nat.add_0_r. auto.
  - cbn [app List.length] in *. pose proof (clean_cons _ _ N) as N'.
    destruct (IH (w ++ [c]) k p (S n) N') as (m&q&L&E). exists m, q. split; [lia|].
    rewrite <- app_assoc in E. cbn [app] in E. rewrite <- E. clear E.
    replace (S n + S (List.length g)) with (S (S n + List.length g)) by lia.
    replace (S (S n) + List.length g) with (S (S n + List.length g)) by lia.
    destruct (span is_white (g ++ v)) as (ws&z&E&Aw&Sz). rewrite E in *.
    change (c :: ws ++ z) with ((c :: ws) ++ z) in *.
    rewrite !lex_f_white; auto. 2:{ constructor; auto. }
    rewrite <- app_assoc. reflexivity.
  - cbn [app List.length] in *. rewrite <- app_assoc in *.
    replace (S n + S (S (List.length (b ++ g)))) with (S (S n + List.length b + 1 + List.length g))
      by (rewrite app_length; lia).
    rewrite lex_f_step by auto. rewrite op_dispatch by auto.
    pose proof (operator_eq (lex_f (S n + List.length b + 1 + List.length g)) w [126; 126]%N [] (b ++ g ++ v) k (loc_of w)) as E.
    cbn [app] in E. rewrite E; auto; try (repeat constructor; fail). clear E.
    unfold op_token. cbn [str_eqb lit N.eqb andb]. 
    change (str_eqb [126; 126]%N (lit "~")) with false. change (str_eqb [126; 126]%N (lit "~~")) with true. cbv iota.
    apply clean_cons, clean_cons in N. rewrite line_comment_at by auto. apply no_lfcr_app_r in N.
    destruct (IH ((w ++ [126; 126]%N) ++ b) k (loc_of w) (n + List.length b + 1) N) as (m&q&L&E).
    exists m, q. split; [lia|].
    replace (S n + List.length b + 1 + List.length g) with (S (n + List.length b + 1) + List.length g) by lia.
    rewrite E. repeat (rewrite <- !app_assoc; cbn [app]). auto.
  - cbn [app List.length] in *.
    replace ((b ++ x ++ g) ++ v) with (b ++ x ++ g ++ v) in * by (rewrite <- !app_assoc; auto).
    replace (S n + S (S (List.length (b ++ x ++ g)))) with (S (S n + List.length (b ++ x) + 1 + List.length g))
      by (rewrite !app_length; lia).
    rewrite lex_f_step by auto. rewrite op_dispatch by auto.
    pose proof (operator_eq (lex_f (S n + List.length (b ++ x) + 1 + List.length g)) w [126]%N [] (123%N :: b ++ x ++ g ++ v) k (loc_of w)) as E.
    cbn [app] in E. rewrite E; auto; try (repeat constructor; fail). clear E.
    unfold op_token. change (str_eqb [126]%N (lit "~")) with true. cbv iota.
    rewrite eqb_on. change (123 =? 123)%N with true. cbv iota.
    apply clean_cons in N. rewrite bump_at by auto. apply clean_cons in N.
    destruct (block_comment_at ((w ++ [126]%N) ++ [123]%N) b (x ++ g ++ v) k (loc_of w) C N) as (y&v2&E1&Ly&Ny&E2).
    rewrite E2. cbn [obind].
    assert (x = y /\ v2 = g ++ v) as (<-&->).
    { destruct x as [|x0 [|x1 x]]; destruct y as [|y0 [|y1 y]]; cbn [app List.length] in *; try lia; auto.
      - rewrite Nx in E1 by auto. discriminate.
      - rewrite Ny in E1 by auto. discriminate.
      - injection E1 as -> ->. auto. }
    rewrite app_assoc in N. apply no_lfcr_app_r in N.
    destruct (IH (((w ++ [126]%N) ++ [123]%N) ++ b ++ x) k (loc_of w) (n + List.length (b ++ x) + 1)) as (m&q&L&E).
    { exact N. }
    exists m, q. split; [lia|].
    replace (S n + List.length (b ++ x) + 1 + List.length g) with (S (n + List.length (b ++ x) + 1) + List.length g) by lia.
    rewrite E. repeat (rewrite <- !app_assoc; cbn [app]). auto.
Qed.

(** The two together, for [lex]. *)
Lemma lex_token : letters U -> forall g s t v w k p, gap g (s ++ v) -> lexeme s t v ->
  no_lfcr (g ++ s ++ v) ->
  exists q, lex (lexer_at w (g ++ s ++ v) k p) = Ok (t, lexer_at (w ++ g ++ s) v k q) /\
            (q = loc_of (w ++ g) \/ exists x, t = TLit (LStr x)).
Proof.
  intros HU g s t v w k p G L N. unfold lex. rewrite rest_at.
  destruct (gap_step HU g (s ++ v) G w k p (List.length (s ++ v)) N) as (m&q&_&E).
  rewrite app_length. replace (S (List.length g + List.length (s ++ v))) with (S (List.length (s ++ v)) + List.length g) by lia.
  rewrite E. apply no_lfcr_app_r in N.
  destruct (lexeme_step HU s t v L (w ++ g) k q m N) as (q'&E'&H). exists q'. rewrite app_assoc. auto.
Qed.

Lemma lex_end : letters U -> forall g w k p, gap g [] -> no_lfcr g ->
  lex (lexer_at w g k p) = Ok (TEof, lexer_at (w ++ g) [] k (loc_of (w ++ g))).
Proof.
  intros HU g w k p G N. unfold lex. rewrite rest_at.
  destruct (gap_step HU g [] G w k p 0) as (m&q&_&E). { rewrite app_nil_r. auto. }
  rewrite app_nil_r in E. cbn [Nat.add] in E. rewrite E.
  pose proof (lex_f_white m (w ++ g) [] [] k q (Forall_nil _) I) as X. cbn [app] in X.
  rewrite X. { rewrite app_nil_r. auto. }
  intros a b Eb. destruct a; discriminate.
Qed.

Lemma lex_text : letters U -> forall w r k p, no_lfcr r -> lexes w r k (lex (lexer_at w r k p)).
Proof. intros HU w r k p N. unfold lex. rewrite rest_at. apply lex_sound; auto. Qed.

End WithUcd.
