(** Character literals, operators and the whole lexer. *)
From Coq Require Import List Arith NArith Bool Lia String.
From Verif Require Import Prelim Chars Syntax Lexer SpecLexer ProofBytes ProofLexer ProofLexer2
  ProofLexer3 ProofLexer4.
Import ListNotations.

Section WithUcd.
Context {U : ucd}.

(** * Character literals *)

Lemma plus_eq w p z k q : p = [] \/ p = [43%N] -> (p = [] -> stops (N.eqb 43) z) -> no_lfcr (p ++ z) ->
  (if on 43 (lexer_at w (p ++ z) k q) then bump_char (lexer_at w (p ++ z) k q) else lexer_at w (p ++ z) k q)
  = lexer_at (w ++ p) z k q.
Proof.
  intros [-> | ->] H N.
  - specialize (H eq_refl). simpl app. rewrite app_nil_r. destruct z as [|c z]; [reflexivity|].
    rewrite eqb_on. cbn [stops] in H. rewrite H. auto.
  - cbn [app]. rewrite eqb_on. cbn [N.eqb Pos.eqb]. rewrite bump_at; auto.
Qed.

Lemma plus_split z : exists p z', z = p ++ z' /\ (p = [] \/ p = [43%N]) /\ (p = [] -> stops (N.eqb 43) z').
Proof.
  destruct z as [|c z].
  - exists [], []. simpl. auto.
  - destruct (N.eqb_spec 43 c) as [<-|n].
    + exists [43%N], z. split; auto. split; auto. discriminate.
    + exists [], (c :: z). split; auto. split; auto. intros _. cbn [stops]. apply N.eqb_neq. auto.
Qed.

(** A valid unicode escape takes one more character. *)
Lemma unicode_closed_eq st w p h z k q :
  p = [] \/ p = [43%N] -> h <> [] -> all hexdigit h -> List.length h <= 6 ->
  no_lfcr (p ++ h ++ 39%N :: z) ->
  lex_unicode st (lexer_at w (p ++ h ++ 39%N :: z) k q) =
  Ok (match char_from_u32 (value 16 h) with
      | Some c => TLit (LChar c)
      | None => TError (EInvalidUnicode (loc_of (w ++ p)) (CpNotInCharRange h (value 16 h)))
      end,
      bump_char (lexer_at (w ++ p ++ h ++ [39%N]) z k q)).
Proof.
  intros P Hn A L N. unfold lex_unicode. cbv zeta. rewrite plus_eq; auto.
  2:{ intros _. destruct h as [|c h]; [congruence|]. cbn [app stops]. apply Forall_inv in A.
      apply N.eqb_neq. intros <-. discriminate A. }
  apply no_lfcr_app_r in N. assert (N' := N). destruct h as [|c h]; [congruence|].
  cbn [app]. rewrite current_at. rewrite is_hex_hexdigit, (Forall_inv A).
  change (c :: h ++ 39%N :: z) with ((c :: h) ++ 39%N :: z).
  rewrite eat_while_at; auto.
  2:{ apply (all_ext _ _ _ is_hex_hexdigit). auto. }
  2:{ reflexivity. }
  rewrite eqb_on. change (39 =? 39)%N with true. cbv iota. apply no_lfcr_app_r in N.
  rewrite bump_at by auto. rewrite !pos_at, currloc_at.
  rewrite (blen_app (w ++ p)), (hex_blen (c :: h)) by auto.
  replace (Nat.eqb (blen (w ++ p)) (blen (w ++ p) + List.length (c :: h))) with false
    by (symmetry; apply Nat.eqb_neq; simpl; lia).
  replace (Nat.leb (blen (w ++ p) + List.length (c :: h) - blen (w ++ p)) 6) with true
    by (symmetry; apply Nat.leb_le; lia).
  apply clean_cons in N.
  assert (E : src_slice (bump_char (lexer_at (((w ++ p) ++ c :: h) ++ [39%N]) z k q))
                (blen (w ++ p)) (blen (w ++ p) + List.length (c :: h)) = Ok (c :: h)).
  { rewrite <- (hex_blen (c :: h)) by auto. rewrite <- blen_app. destruct z as [|d z].
    - rewrite bump_at_nil. rewrite <- (app_assoc (w ++ p)). apply slice_at'.
    - rewrite bump_at by auto. rewrite <- !(app_assoc (w ++ p)), <- (app_assoc (c :: h)). apply slice_at'. }
  rewrite E. cbn [obind]. rewrite parse_hex by auto.
  rewrite <- !app_assoc. destruct (char_from_u32_scalar (value 16 (c :: h))) as [(_&->)|(_&->)]; auto.
Qed.

(** The text after the optional plus is not a closed escape. *)
Lemma bump_one w z k q : no_lfcr z -> exists x v, z = x ++ v /\
  bump_char (lexer_at w z k q) = lexer_at (w ++ x) v k q /\ List.length x <= 1 /\ (x = [] -> v = []).
Proof.
  intros N. destruct z as [|d z].
  - exists [], []. rewrite bump_at_nil, !app_nil_r. split; [auto|]. split; [auto|]. split; [simpl; lia|auto].
  - exists [d], z. rewrite bump_at by auto. split; [auto|]. split; [auto|]. split; [simpl; lia|discriminate].
Qed.

Lemma quote_upto v : stops not_quote v -> v = [] \/ exists v', v = 39%N :: v'.
Proof.
  destruct v as [|c v]; auto. unfold not_quote. cbn [stops]. destruct (N.eqb_spec c 39) as [->|]; [|discriminate].
  eauto.
Qed.

(** Eating up to the next apostrophe and that apostrophe. *)
Lemma eat_quote w r k q : no_lfcr r -> exists b x v, r = b ++ x ++ v /\ upto 39 b x v /\
  eat_while not_quote (lexer_at w r k q) = lexer_at (w ++ b) (x ++ v) k q /\
  bump_char (lexer_at (w ++ b) (x ++ v) k q) = lexer_at (w ++ b ++ x) v k q.
Proof.
  intros N. destruct (span not_quote r) as (b&v&->&A&S).
  rewrite eat_while_at by auto. apply no_lfcr_app_r in N. destruct (quote_upto v S) as [->|(v'&->)].
  - exists b, [], []. simpl app. rewrite !app_nil_r. split; [auto|]. split; [split; auto|]. auto.
  - exists b, [39%N], v'. simpl app. rewrite bump_at by auto. rewrite <- app_assoc. split; [auto|]. split; [split; auto|]. auto.
Qed.

Lemma unicode_reads w u r k : u = 117%N \/ u = 85%N -> no_lfcr r ->
  reads w (39%N :: 92%N :: u :: r) k
    (lex_unicode (loc_of w) (lexer_at (w ++ [39%N; 92%N; u]) r k (loc_of w))).
Proof.
  intros Hu N. destruct (plus_split r) as (p&z&->&P&Pn).
  destruct (span hexdigit z) as (h&z'&->&A&S).
  destruct h as [|c h].
  - (* no hex digit *)
    cbn [app] in *. unfold lex_unicode. cbv zeta. rewrite plus_eq by auto. apply no_lfcr_app_r in N.
    assert (Hc : is_hex (current_char (lexer_at ((w ++ [39%N; 92%N; u]) ++ p) z' k (loc_of w))) = false).
    { rewrite is_hex_hexdigit. destruct z'; [reflexivity|exact S]. }
    rewrite Hc. rewrite currloc_at.
    destruct (span not_quote z') as (b&v&->&B&T). rewrite eat_while_at by auto.
    right; left. exists (39%N :: 92%N :: u :: p ++ b). do 3 eexists. split.
    { cbn [app]. rewrite <- !app_assoc. reflexivity. }
    split.
    { rewrite <- !app_assoc. cbn [app]. reflexivity. }
    apply mi_connector; auto.
    + destruct (b ++ v); reflexivity.
    + rewrite is_hex_hexdigit in Hc. exact Hc.
  - destruct z' as [|d z'].
    + (* nothing after the digits *)
      assert (X : lex_unicode (loc_of w) (lexer_at (w ++ [39%N; 92%N; u]) (p ++ (c :: h) ++ []) k (loc_of w))
        = Ok (TError (EUnterminatedChar (loc_of w) (loc_of (w ++ 39%N :: 92%N :: u :: p ++ c :: h))),
              lexer_at (w ++ 39%N :: 92%N :: u :: p ++ c :: h) [] k (loc_of w))).
      { unfold lex_unicode. cbv zeta. rewrite plus_eq by auto. apply no_lfcr_app_r in N.
        rewrite eat_while_at; auto. 2:{ apply (all_ext _ _ _ is_hex_hexdigit). auto. }
        cbn [app]. rewrite current_at, is_hex_hexdigit, (Forall_inv A).
        replace (on 39 (lexer_at (((w ++ [39%N; 92%N; u]) ++ p) ++ c :: h) [] k (loc_of w))) with false by reflexivity.
        change (eat_while not_quote (lexer_at (((w ++ [39%N; 92%N; u]) ++ p) ++ c :: h) [] k (loc_of w)))
          with (lexer_at (((w ++ [39%N; 92%N; u]) ++ p) ++ c :: h) [] k (loc_of w)).
        rewrite currloc_at. rewrite <- !app_assoc. reflexivity. }
      rewrite X. right; left. exists (39%N :: 92%N :: u :: p ++ (c :: h) ++ []). do 3 eexists. split.
      { cbn [app]. rewrite !app_nil_r. reflexivity. }
      split. { rewrite app_nil_r. reflexivity. }
      replace (w ++ 39%N :: 92%N :: u :: p ++ c :: h) with (w ++ 39%N :: 92%N :: u :: p ++ (c :: h) ++ [])
        by (rewrite app_nil_r; auto).
      apply mi_hex_open; auto; try constructor. discriminate.
    + destruct (N.eqb_spec 39 d) as [<-|nd].
      * (* closed *)
        destruct (le_lt_dec (List.length (c :: h)) 6) as [L|L].
        -- rewrite unicode_closed_eq; auto; [|discriminate].
           match goal with |- context [bump_char (lexer_at ?w' z' k _)] =>
             destruct (bump_one w' z' k (loc_of w)) as (x&v&->&Ex&Lx&Nx) end.
           { apply no_lfcr_app_r in N. apply (no_lfcr_app_r (c :: h)) in N. apply clean_cons in N. auto. }
           rewrite Ex.
           assert (Er : 39%N :: 92%N :: u :: p ++ (c :: h) ++ 39%N :: x ++ v =
                        (39%N :: 92%N :: u :: p ++ (c :: h) ++ 39%N :: x) ++ v).
           { cbn [app]. rewrite <- !app_assoc. cbn [app]. rewrite <- app_assoc. reflexivity. }
           assert (Ew : ((w ++ [39%N; 92%N; u]) ++ p ++ (c :: h) ++ [39%N]) ++ x =
                        w ++ 39%N :: 92%N :: u :: p ++ (c :: h) ++ 39%N :: x).
           { repeat (rewrite <- !app_assoc; cbn [app]). reflexivity. }
           destruct (char_from_u32_scalar (value 16 (c :: h))) as [(Sc&->)|(Sc&->)].
           ++ left. exists (39%N :: 92%N :: u :: p ++ (c :: h) ++ 39%N :: x). do 3 eexists. split; [exact Er|].
              split. { rewrite Ew. reflexivity. }
              split; [|left; reflexivity]. apply le_unicode; auto. discriminate.
           ++ right; left. exists (39%N :: 92%N :: u :: p ++ (c :: h) ++ 39%N :: x). do 3 eexists. split; [exact Er|].
              split. { rewrite Ew. reflexivity. }
              replace ((w ++ [39%N; 92%N; u]) ++ p) with (w ++ 39%N :: 92%N :: u :: p) by (rewrite <- app_assoc; auto).
              apply mi_hex_range; auto. discriminate.
        -- assert (X : lex_unicode (loc_of w) (lexer_at (w ++ [39%N; 92%N; u]) (p ++ (c :: h) ++ 39%N :: z') k (loc_of w))
             = Ok (TError (EInvalidUnicode (loc_of (w ++ 39%N :: 92%N :: u :: p)) (CpTooLong (c :: h))),
                   lexer_at (w ++ 39%N :: 92%N :: u :: p ++ (c :: h) ++ [39%N]) z' k (loc_of w))).
           { unfold lex_unicode. cbv zeta. rewrite plus_eq by auto. apply no_lfcr_app_r in N.
             rewrite eat_while_at; auto. 2:{ apply (all_ext _ _ _ is_hex_hexdigit). auto. }
             cbn [app]. rewrite current_at, is_hex_hexdigit, (Forall_inv A).
             rewrite eqb_on. change (39 =? 39)%N with true. cbv iota.
             apply (no_lfcr_app_r (c :: h)) in N.
             rewrite bump_at by auto. rewrite !pos_at, currloc_at.
             rewrite (blen_app ((w ++ [39%N; 92%N; u]) ++ p)), (hex_blen (c :: h)) by auto.
             set (W := (w ++ [39%N; 92%N; u]) ++ p) in *.
             replace (Nat.eqb (blen W) (blen W + List.length (c :: h))) with false
               by (symmetry; apply Nat.eqb_neq; simpl; lia).
             replace (Nat.leb (blen W + List.length (c :: h) - blen W) 6) with false
               by (symmetry; apply Nat.leb_gt; lia).
             rewrite <- (hex_blen (c :: h)) by auto. rewrite <- blen_app.
             rewrite <- (app_assoc W), slice_at'. cbn [obind]. unfold W. rewrite <- !app_assoc. reflexivity. }
           rewrite X. right; left. exists (39%N :: 92%N :: u :: p ++ (c :: h) ++ [39%N]). do 3 eexists. split.
           { cbn [app]. rewrite <- !app_assoc. cbn [app]. rewrite <- app_assoc. reflexivity. }
           split; [reflexivity|]. apply mi_hex_long; auto.
      * (* something else after the digits *)
        destruct (span not_quote (d :: z')) as (b&v&E&B&T). rewrite E in *.
        assert (Sd : stops (N.eqb 39) (b ++ v)). { rewrite <- E. cbn [stops]. apply N.eqb_neq. auto. }
        assert (X : lex_unicode (loc_of w) (lexer_at (w ++ [39%N; 92%N; u]) (p ++ (c :: h) ++ b ++ v) k (loc_of w))
             = Ok (TError (EUnterminatedChar (loc_of w) (loc_of (w ++ 39%N :: 92%N :: u :: p ++ (c :: h) ++ b))),
                   lexer_at (w ++ 39%N :: 92%N :: u :: p ++ (c :: h) ++ b) v k (loc_of w))).
        { unfold lex_unicode. cbv zeta. rewrite plus_eq by auto. apply no_lfcr_app_r in N.
          rewrite eat_while_at; auto.
          2:{ apply (all_ext _ _ _ is_hex_hexdigit). auto. }
          2:{ apply (stops_ext _ _ _ is_hex_hexdigit). auto. }
          cbn [app]. rewrite current_at, is_hex_hexdigit, (Forall_inv A).
          replace (on 39 (lexer_at (((w ++ [39%N; 92%N; u]) ++ p) ++ c :: h) (b ++ v) k (loc_of w))) with false.
          2:{ symmetry. apply on_char_at. exact Sd. }
          apply (no_lfcr_app_r (c :: h)) in N. rewrite eat_while_at by auto. rewrite currloc_at.
          rewrite <- !app_assoc. cbn [app]. reflexivity. }
        rewrite X. right; left. exists (39%N :: 92%N :: u :: p ++ (c :: h) ++ b). do 3 eexists. split.
        { cbn [app]. rewrite <- !app_assoc. cbn [app]. rewrite <- app_assoc. reflexivity. }
        split; [reflexivity|]. apply mi_hex_open; auto. discriminate.
Qed.

Lemma escape_reads w r k : no_lfcr r ->
  reads w (39%N :: 92%N :: r) k
    (lex_char_escape (loc_of w) (lexer_at (w ++ [39%N; 92%N]) r k (loc_of w))).
Proof.
  intros N. unfold lex_char_escape. destruct r as [|c r].
  - rewrite peek_at_nil. right; left. exists [39%N; 92%N]. do 3 eexists. split; [rewrite app_nil_r; reflexivity|].
    rewrite prev_at. split; [reflexivity|]. apply mi_escape_end.
  - rewrite peek_at. destruct (N.eqb c 117 || N.eqb c 85) eqn:Eu.
    + apply orb_prop in Eu. rewrite !N.eqb_eq in Eu. rewrite bump_at by auto. apply clean_cons in N.
      rewrite <- app_assoc. cbn [app]. apply unicode_reads; auto.
    + apply orb_false_elim in Eu as (E1&E2). apply N.eqb_neq in E1, E2.
      destruct (is_escapable c) eqn:Ec.
      * cbv zeta. rewrite bump_at by auto. apply clean_cons in N.
        destruct (eat_quote ((w ++ [39%N; 92%N]) ++ [c]) r k (loc_of w) N) as (b&x&v&->&Up&E&B).
        destruct b as [|y b].
        -- destruct Up as (_&[->|(->&->)]).
           ++ left. cbn [app]. rewrite eqb_on. change (39 =? 39)%N with true. cbv iota. rewrite bump_at by auto.
              exists [39%N; 92%N; c; 39%N]. do 3 eexists. split; [reflexivity|]. rewrite <- !app_assoc. cbn [app].
              split; [reflexivity|]. split; [|left; reflexivity]. apply le_escape. apply escapes_get. auto.
           ++ right; left. cbn [app] in *.
              replace (on 39 (lexer_at ((w ++ [39%N; 92%N]) ++ [c]) [] k (loc_of w))) with false by reflexivity.
              cbv iota. rewrite E, B. rewrite prev_at. exists [39%N; 92%N; c]. do 3 eexists. split; [rewrite app_nil_r; reflexivity|].
              cbn [app]. rewrite app_nil_r. rewrite <- app_assoc. cbn [app].
              split; [reflexivity|]. apply (mi_escape_long w c [] []); auto.
              ** apply is_escapable_true. auto.
              ** split; [constructor|auto].
        -- right; left. assert (Hy : (39 =? y)%N = false).
           { destruct Up as (A&_). apply Forall_inv in A. rewrite N.eqb_sym. destruct (y =? 39)%N; [discriminate|auto]. }
           cbn [app]. rewrite eqb_on, Hy. cbn [app] in E. rewrite E, B, prev_at.
           exists (39%N :: 92%N :: c :: (y :: b) ++ x). do 3 eexists. split.
           { cbn [app]. rewrite <- !app_assoc. reflexivity. }
           split. { rewrite <- !app_assoc. cbn [app]. reflexivity. }
           apply mi_escape_long; auto. { apply is_escapable_true. auto. } discriminate.
      * destruct (eat_quote (w ++ [39%N; 92%N]) (c :: r) k (loc_of w) N) as (b&x&v&Er&Up&E&B).
        cbv zeta. rewrite E, B, prev_at.
        assert (Nc : ~ escapable c). { intros X. apply is_escapable_true in X. congruence. }
        destruct b as [|y b].
        { exfalso. destruct Up as (_&[->|(->&->)]); [|discriminate]. injection Er as -> ->.
          apply Nc. exists 39%N. unfold escapes. cbn [In]. auto 10. }
        injection Er as <- ->. right; left. exists (39%N :: 92%N :: c :: b ++ x). do 3 eexists. split.
        { cbn [app]. rewrite <- !app_assoc. reflexivity. }
        split. { rewrite <- !app_assoc. cbn [app]. reflexivity. }
        apply mi_escape; auto. destruct Up as (A&Up). split; auto. apply Forall_inv_tail in A. auto.
Qed.

Lemma char_reads w r k : no_lfcr (39%N :: r) ->
  reads w (39%N :: r) k (lex_char (lexer_at w (39%N :: r) k (loc_of w))).
Proof.
  intros N. unfold lex_char. cbv zeta. rewrite bump_at by auto. apply clean_cons in N. rewrite prev_at.
  destruct r as [|c r].
  - rewrite current_at_nil. change (0 =? 39)%N with false. change (0 =? 92)%N with false.
    change (0 =? 0)%N with true. cbv iota. rewrite prev_at. right; left.
    exists [39%N]. do 3 eexists. split; [reflexivity|]. split; [reflexivity|]. apply mi_quote. exact I.
  - rewrite current_at. destruct (N.eqb_spec c 39) as [->|n39].
    { rewrite bump_at by auto. rewrite prev_at. right; left. exists [39%N; 39%N]. do 3 eexists. split; [reflexivity|].
      rewrite <- app_assoc. cbn [app]. split; [reflexivity|]. apply mi_empty. }
    destruct (N.eqb_spec c 92) as [->|n92].
    { rewrite bump_at by auto. apply clean_cons in N. rewrite <- app_assoc. cbn [app]. apply escape_reads. auto. }
    destruct (N.eqb_spec c 0) as [->|n0].
    { rewrite prev_at. right; left. exists [39%N]. do 3 eexists. split; [reflexivity|]. split; [reflexivity|].
      apply mi_quote. reflexivity. }
    rewrite bump_at by auto. apply clean_cons in N. rewrite !pos_at, !prev_at.
    destruct r as [|d r].
    + replace (on 39 (lexer_at ((w ++ [39%N]) ++ [c]) [] k (loc_of w))) with false by reflexivity.
      rewrite on_at_nil. rewrite word_start_ident. destruct (word_start c) eqn:Wc.
      * left. change (eat_with_trailing is_ident_char (lexer_at ((w ++ [39%N]) ++ [c]) [] k (loc_of w)))
          with (lexer_at ((w ++ [39%N]) ++ [c]) [] k (loc_of w)).
        rewrite pos_at, slice_at. cbn [obind]. exists [39%N; c]. do 3 eexists. split; [reflexivity|].
        rewrite <- app_assoc. cbn [app]. split; [reflexivity|]. split; [|left; reflexivity].
        apply (le_quoted c [] [] []); auto; try constructor; exact I.
      * right; left.
        match goal with |- context [eat_while ?f (lexer_at ((w ++ [39%N]) ++ [c]) [] k (loc_of w))] =>
          change (eat_while f (lexer_at ((w ++ [39%N]) ++ [c]) [] k (loc_of w)))
          with (lexer_at ((w ++ [39%N]) ++ [c]) [] k (loc_of w)) end.
        exists [39%N; c]. do 3 eexists. split; [reflexivity|].
        rewrite <- app_assoc. cbn [app]. split; [reflexivity|].
        apply (mi_char w c [] []); auto; try constructor; exact I.
    + rewrite eqb_on. destruct (N.eqb_spec 39 d) as [<-|nd].
      { rewrite bump_at by auto. left. exists [39%N; c; 39%N]. do 3 eexists. split; [reflexivity|].
        rewrite <- !app_assoc. cbn [app]. split; [reflexivity|]. split; [|left; reflexivity].
        apply le_char; auto. }
      rewrite on_at. destruct (is_white d) eqn:Wd.
      { rewrite bump_at by auto. rewrite pos_at. left. rewrite <- (app_assoc (w ++ [39%N])), slice_at. cbn [obind].
        exists [39%N; c; d]. do 3 eexists. split; [reflexivity|].
        rewrite <- !app_assoc. cbn [app]. split; [reflexivity|]. split; [|left; reflexivity].
        apply le_quoted_white; auto. }
      rewrite word_start_ident. destruct (word_start c) eqn:Wc.
      * destruct (span_word (d :: r)) as (u&s&v&Er&A&S&B&T). rewrite Er in *.
        rewrite trailing_at; auto.
        2:{ apply (all_ext _ _ _ is_trailing_script). auto. }
        2:{ apply (stops_ext _ _ _ is_trailing_script). auto. }
        rewrite pos_at. rewrite <- (app_assoc (w ++ [39%N])), slice_at. cbn [obind]. left.
        exists (39%N :: c :: u ++ s). do 3 eexists. split.
        { cbn [app]. rewrite <- !app_assoc. reflexivity. }
        rewrite <- !app_assoc. cbn [app]. split; [reflexivity|]. split; [|left; reflexivity].
        apply le_quoted; auto; rewrite <- Er; cbn [stops]; auto. apply N.eqb_neq. auto.
      * destruct (span (fun c => (not_quote c && is_alnum c) || N.eqb c 95) (d :: r)) as (b&v&Er&A&S).
        rewrite Er in *. rewrite eat_while_at by auto. right; left.
        assert (X : forall c, (not_quote c && is_alnum c) || N.eqb c 95 = is_alnum c || N.eqb c 95).
        { intros x. unfold not_quote. destruct (N.eqb_spec x 39) as [->|]; [|reflexivity]. reflexivity. }
        exists (39%N :: c :: b). do 3 eexists. split; [reflexivity|].
        rewrite <- !app_assoc. cbn [app]. split; [reflexivity|].
        apply mi_char; auto.
        -- apply (all_ext _ _ _ X). auto.
        -- apply (stops_ext _ _ _ X). auto.
        -- rewrite <- Er. cbn [stops]. apply N.eqb_neq. auto.
        -- rewrite <- Er. cbn [stops]. auto.
Qed.

End WithUcd.
