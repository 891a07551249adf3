(** One lemma per lexer function: its result on a text is described by the
    lexical grammar. *)
From Coq Require Import List Arith NArith Bool Lia String.
From Verif Require Import Prelim Chars Syntax Lexer SpecLexer ProofBytes ProofLexer ProofLexer2.
Import ListNotations.

Lemma span_unique f u v u' v' : all f u -> stops f v -> all f u' -> stops f v' ->
  u ++ v = u' ++ v' -> u = u' /\ v = v'.
Proof.
  intros A S. revert u'. induction A as [|c u H A IH]; intros u' A' S' E.
  - destruct u' as [|d u']; auto. simpl in E. subst v. simpl in S. inversion A'; congruence.
  - destruct u' as [|d u'].
    + simpl in E. subst v'. simpl in S'. congruence.
    + simpl in E. injection E as -> E. inversion A'; subst.
      destruct (IH u') as (->&->); auto.
Qed.

(** * Strings *)

Lemma string_complete k : forall b s, contents b s ->
  forall (v : str) n w p buf, no_lfcr (b ++ 34%N :: v) -> List.length b < n ->
  exists p', string_loop n buf false (lexer_at w (b ++ 34%N :: v) k p) =
             Ok (true, buf ++ s, lexer_at (w ++ b ++ [34%N]) v k p').
Proof.
  induction 1 as [|c b s N1 N2 C IH|e d b s I C IH|c b s NE N C IH|u b s A St C IH];
    intros v n w p buf N0 L; cbn [app List.length] in *.
  - destruct n as [|n]; [lia|]. cbn [string_loop]. rewrite peek_at. cbv zeta.
    rewrite bump_at by auto. exists p. rewrite app_nil_r. auto.
  - destruct n as [|n]; [lia|]. cbn [string_loop]. rewrite peek_at. cbv zeta.
    rewrite bump_at by auto. apply N.eqb_neq in N1, N2. rewrite N1, N2.
    apply clean_cons in N0.
    destruct (IH v n (w ++ [c]) p (buf ++ [c])) as (p'&E); auto; try lia.
    exists p'. etransitivity; [exact E|]. rewrite <- !app_assoc. auto.
  - destruct n as [|[|n]]; [lia|lia|]. cbn [string_loop]. rewrite peek_at. cbv zeta.
    rewrite bump_at by auto. cbn [N.eqb]. rewrite peek_at. apply clean_cons in N0.
    rewrite bump_at by auto. apply clean_cons in N0.
    destruct (get_escaped_escapes e d I) as (E1&E2).
    change (N.eqb 92 34) with false. change (N.eqb 92 92) with true. cbv iota. rewrite E1, E2.
    destruct (IH v n ((w ++ [92%N]) ++ [e]) p (buf ++ [d])) as (p'&E); auto; try lia.
    exists p'. etransitivity; [exact E|]. rewrite <- !app_assoc. auto.
  - destruct n as [|[|n]]; [lia|lia|]. cbn [string_loop]. rewrite peek_at. cbv zeta.
    rewrite bump_at by auto. rewrite peek_at. apply clean_cons in N0.
    rewrite bump_at by auto. apply clean_cons in N0.
    change (N.eqb 92 34) with false. change (N.eqb 92 92) with true. cbv iota.
    destruct (is_escapable c) eqn:Ec. { apply is_escapable_true in Ec. contradiction. }
    apply N.eqb_neq in N. rewrite N.
    destruct (IH v n ((w ++ [92%N]) ++ [c]) p (buf ++ [c])) as (p'&E); auto; try lia.
    exists p'. etransitivity; [exact E|]. rewrite <- !app_assoc. auto.
  - destruct n as [|[|n]]; [lia|lia|]. cbn [string_loop]. rewrite peek_at. cbv zeta.
    rewrite bump_at by auto. rewrite peek_at. apply clean_cons in N0.
    rewrite bump_at by auto. apply clean_cons in N0.
    change (N.eqb 92 34) with false. change (N.eqb 92 92) with true.
    change (is_escapable 10%N) with false. change (N.eqb 10 10) with true. cbv iota.
    rewrite <- !app_assoc in *. unfold eat_whitespace.
    rewrite (eat_while_at is_white u); [|exact A|destruct b; [reflexivity|exact St]|exact N0].
    rewrite setprev_at. apply no_lfcr_app_r in N0. rewrite app_length in L.
    match goal with |- context [string_loop n buf false (lexer_at ?w' _ _ ?q)] =>
      destruct (IH v n w' q buf) as (p'&E); auto; try lia end.
    exists p'. etransitivity; [exact E|]. rewrite <- !app_assoc. auto.
Qed.

Lemma contents_cons_inv c b s : contents (c :: b) s -> c <> 34%N /\
  (c <> 92%N -> exists s', contents b s') /\
  (c = 92%N -> exists e b', b = e :: b' /\
     (e <> 10%N -> exists s', contents b' s') /\
     (e = 10%N -> exists u b'', b' = u ++ b'' /\ all is_white u /\ stops is_white b'' /\
                              exists s', contents b'' s')).
Proof.
  intros H. remember (c :: b) as z eqn:Ez. destruct H as [|c0 b0 s N1 N2 C|e d b0 s I0 C|c0 b0 s NE N0 C|u b0 s A St C];
    inversion Ez; subst; clear Ez.
  - split; auto. split; eauto. congruence.
  - split; [discriminate|]. split; [congruence|]. intros _. exists e, b0. split; auto. split; eauto.
    intros ->. unfold escapes in I0. cbn [In] in I0.
    repeat (destruct I0 as [I0|I0]; [discriminate|]). contradiction.
  - split; [discriminate|]. split; [congruence|]. intros _. exists c0, b0. split; auto. split; eauto.
    congruence.
  - split; [discriminate|]. split; [congruence|]. intros _. eexists _, _. split; [reflexivity|].
    split; [congruence|]. eauto 8.
Qed.

Lemma unclosed_cons c r : c <> 34%N -> c <> 92%N -> unclosed r -> unclosed (c :: r).
Proof.
  intros N1 N2 H b1 s b2 E C. destruct b1 as [|d b1]; simpl in E; injection E as E0 E; [congruence|subst d].
  apply contents_cons_inv in C as (_&C&_). destruct (C N2) as (s'&C'). eapply H; eauto.
Qed.
Lemma unclosed_escape c r : c <> 10%N -> unclosed r -> unclosed (92%N :: c :: r).
Proof.
  intros N1 H b1 s b2 E C. destruct b1 as [|d b1]; simpl in E; injection E as E0 E; [congruence|subst d].
  apply contents_cons_inv in C as (_&_&C). destruct C as (e&b'&->&C&_); auto.
  simpl in E. injection E as <- E. destruct (C N1) as (s'&C'). eapply H; eauto.
Qed.
Lemma unclosed_continue u r : all is_white u -> stops is_white r -> unclosed r ->
  unclosed (92%N :: 10%N :: u ++ r).
Proof.
  intros A S H b1 s b2 E C. destruct b1 as [|d b1]; simpl in E; injection E as E0 E; [congruence|subst d].
  apply contents_cons_inv in C as (_&_&C). destruct C as (e&b'&->&_&C); auto.
  simpl in E. injection E as <- E. destruct C as (u'&b''&->&A'&S'&s'&C'); auto.
  rewrite <- app_assoc in E.
  destruct (span_unique is_white u r u' (b'' ++ 34%N :: b2)) as (<-&->); auto.
  - destruct b''; [reflexivity|exact S'].
  - eapply H; eauto.
Qed.

Lemma string_total k : forall m (r : str) (w : str) p buf n, List.length r <= m -> List.length r <= n -> no_lfcr r ->
  (exists b s v, r = b ++ 34%N :: v /\ contents b s) \/
  (unclosed r /\ exists s p', string_loop n buf false (lexer_at w r k p) = Ok (false, s, lexer_at (w ++ r) [] k p')).
Proof.
  induction m as [|m IH]; intros r w p buf n Lm Ln N0.
  - destruct r; [|simpl in Lm; lia]. right. split.
    + intros b1 s b2 E. destruct b1; discriminate.
    + exists buf, p. destruct n; cbn [string_loop]; rewrite peek_at_nil, app_nil_r; auto.
  - destruct r as [|c r].
    { right. split.
      + intros b1 s b2 E. destruct b1; discriminate.
      + exists buf, p. destruct n; cbn [string_loop]; rewrite peek_at_nil, app_nil_r; auto. }
    simpl in Lm, Ln. destruct n as [|n]; [lia|]. cbn [string_loop]. rewrite peek_at. cbv zeta.
    rewrite bump_at by auto. pose proof (clean_cons _ _ N0) as N1.
    destruct (N.eqb_spec c 34) as [->|n1].
    { left. exists [], [], r. split; auto. constructor. }
    destruct (N.eqb_spec c 92) as [->|n2].
    + destruct r as [|e r].
      { right. split.
        - intros b1 s b2 E. destruct b1 as [|d [|? ?]]; discriminate.
        - exists buf, p. destruct n; cbn [string_loop]; rewrite peek_at_nil; auto. }
      simpl in Lm, Ln. destruct n as [|n]; [lia|]. cbn [string_loop]. rewrite peek_at. cbv zeta.
      rewrite bump_at by auto. pose proof (clean_cons _ _ N1) as N2.
      destruct (N.eqb_spec e 10) as [->|n3].
      * change (is_escapable 10%N) with false. cbv iota.
        destruct (span is_white r) as (u&v&->&A&S). unfold eat_whitespace.
        rewrite eat_while_at by auto. rewrite setprev_at.
        rewrite app_length in *. apply no_lfcr_app_r in N2.
        match goal with |- context [string_loop n buf false (lexer_at ?w' _ _ ?q)] =>
          destruct (IH v w' q buf n) as [(b&s&v'&->&C)|(Un&s&p'&E)]; auto; try lia end.
        -- left. exists (92 :: 10 :: u ++ b)%N, s, v'. cbn [app]. rewrite <- app_assoc. split; auto.
           constructor; auto. destruct b; [exact I|exact S].
        -- right. split. { apply unclosed_continue; auto. }
           exists s, p'. rewrite E. rewrite <- !app_assoc. auto.
      * assert (G : forall buf', 
          (exists b s v, (92 :: e :: r)%N = b ++ 34%N :: v /\ contents b s) \/
          (unclosed (92 :: e :: r)%N /\ exists s p', string_loop n buf' false
             (lexer_at ((w ++ [92%N]) ++ [e]) r k p) = Ok (false, s, lexer_at (w ++ 92%N :: e :: r) [] k p'))).
        { intros buf'. destruct (IH r ((w ++ [92%N]) ++ [e]) p buf' n) as [(b&s&v'&->&C)|(Un&s&p'&E)]; auto; try lia.
          -- left. destruct (is_escapable e) eqn:Ee.
             ++ exists (92 :: e :: b)%N, (get_escaped e :: s), v'. split; auto. apply co_escape; auto.
                apply escapes_get. auto.
             ++ exists (92 :: e :: b)%N, (e :: s), v'. split; auto. apply co_other; auto.
                intros X. apply is_escapable_true in X. congruence.
          -- right. split. { apply unclosed_escape; auto. }
             exists s, p'. rewrite E. rewrite <- !app_assoc. auto. }
        destruct (is_escapable e); apply G.
    + destruct (IH r (w ++ [c]) p (buf ++ [c]) n) as [(b&s&v'&->&C)|(Un&s&p'&E)]; auto; try lia.
      * left. exists (c :: b), (c :: s), v'. split; auto. constructor; auto.
      * right. split. { apply unclosed_cons; auto. }
        exists s, p'. rewrite E. rewrite <- !app_assoc. auto.
Qed.

(** * Comments *)

Lemma closes_cons d s : closes (S d) s -> s <> [].
Proof. intros H. inversion H; discriminate. Qed.

Lemma closes_inv d c s : closes (S d) (c :: s) ->
  (c = 125%N /\ exists s', s = 126%N :: s' /\ closes d s') \/
  (c = 126%N /\ exists s', s = 123%N :: s' /\ closes (S (S d)) s') \/
  (closes (S d) s /\ (c = 125%N -> stops (N.eqb 126%N) s) /\ (c = 126%N -> stops (N.eqb 123%N) s)).
Proof. intros H. inversion H; subst; eauto 6. Qed.

Lemma eqb_on c w x v k p : on c (lexer_at w (x :: v) k p) = N.eqb c x.
Proof. reflexivity. Qed.

Lemma comment_complete k p : forall d b, closes d b -> forall (v : str) n (w : str), no_lfcr (b ++ v) ->
  List.length b <= n ->
  comment_loop n d p (lexer_at w (b ++ v) k p) = Ok (false, p, lexer_at (w ++ b) v k p).
Proof.
  induction 1 as [|d s C IH|d s C IH|d c s C IH N1 N2]; intros v n w N0 L; cbn [app List.length] in *.
  - rewrite app_nil_r. destruct n; auto.
  - destruct n as [|n]; [lia|]. cbn [comment_loop]. rewrite peek_at. cbv zeta.
    change (N.eqb 125 126) with false. change (N.eqb 125 125) with true. cbv iota.
    rewrite bump_at by auto. apply clean_cons in N0. rewrite eqb_on.
    change (N.eqb 126 126) with true. cbv iota. rewrite bump_at by auto. apply clean_cons in N0.
    rewrite IH by (auto; lia). rewrite <- !app_assoc. auto.
  - destruct n as [|[|n]]; [lia|lia|]. cbn [comment_loop]. rewrite peek_at. cbv zeta.
    change (N.eqb 126 126) with true. cbv iota.
    rewrite bump_at by auto. apply clean_cons in N0. rewrite eqb_on.
    change (N.eqb 123 123) with true. cbv iota. rewrite peek_at.
    change (N.eqb 123 126) with false. change (N.eqb 123 125) with false. cbv iota.
    rewrite prev_at. rewrite bump_at by auto. apply clean_cons in N0.
    rewrite IH by (auto; lia). rewrite <- !app_assoc. auto.
  - destruct n as [|n]; [lia|]. cbn [comment_loop]. rewrite peek_at. cbv zeta.
    rewrite bump_at by auto. apply clean_cons in N0.
    assert (IH' : comment_loop n (S d) p (lexer_at (w ++ [c]) (s ++ v) k p) =
                  Ok (false, p, lexer_at (w ++ c :: s) v k p)).
    { rewrite IH by (auto; lia). rewrite <- !app_assoc. auto. }
    destruct s as [|x s]. { apply closes_cons in C. congruence. }
    destruct (N.eqb_spec c 126) as [->|].
    { specialize (N2 eq_refl). simpl in N2. cbn [app]. rewrite eqb_on.
      simpl. rewrite N2. exact IH'. }
    destruct (N.eqb_spec c 125) as [->|].
    { specialize (N1 eq_refl). simpl in N1. cbn [app]. rewrite eqb_on.
      simpl. rewrite N1. exact IH'. }
    rewrite prev_at. exact IH'.
Qed.

Definition never_closes (d : nat) (r : str) : Prop := forall b1 b2, r = b1 ++ b2 -> ~ closes d b1.

Lemma comment_total k p : forall m (r : str) d (w : str) n, List.length r <= m -> List.length r <= n -> no_lfcr r ->
  (exists b v, r = b ++ v /\ closes d b) \/
  (never_closes d r /\ comment_loop n d p (lexer_at w r k p) = Ok (true, p, lexer_at (w ++ r) [] k p)).
Proof.
  induction m as [|m IH]; intros r d w n Lm Ln N0; (destruct d as [|d];
    [left; exists [], r; split; [auto|constructor]|]).
  - destruct r; [|simpl in Lm; lia]. right. split.
    + intros b1 b2 E C. apply closes_cons in C. destruct b1; [congruence|discriminate].
    + destruct n; cbn [comment_loop]; rewrite peek_at_nil, app_nil_r; auto.
  - destruct r as [|c r].
    { right. split.
      + intros b1 b2 E C. apply closes_cons in C. destruct b1; [congruence|discriminate].
      + destruct n; cbn [comment_loop]; rewrite peek_at_nil, app_nil_r; auto. }
    simpl in Lm, Ln. destruct n as [|n]; [lia|]. cbn [comment_loop]. rewrite peek_at. cbv zeta.
    rewrite bump_at by auto. pose proof (clean_cons _ _ N0) as N1.
    (* the plain case *)
    assert (G : (c = 125%N -> stops (N.eqb 126%N) r) -> (c = 126%N -> stops (N.eqb 123%N) r) ->
      (exists b v, c :: r = b ++ v /\ closes (S d) b) \/
      (never_closes (S d) (c :: r) /\
       comment_loop n (S d) p (lexer_at (w ++ [c]) r k p) = Ok (true, p, lexer_at (w ++ c :: r) [] k p))).
    { intros G1 G2. destruct (IH r (S d) (w ++ [c]) n) as [(b&v&->&C)|(Un&E)]; auto; try lia.
      - left. exists (c :: b), v. split; auto. constructor; auto.
        + intros X. specialize (G1 X). destruct b; simpl in *; auto.
        + intros X. specialize (G2 X). destruct b; simpl in *; auto.
      - right. split.
        + intros b1 b2 Eb C. destruct b1 as [|x b1]; [inversion C|]. simpl in Eb. injection Eb as <- Eb.
          apply closes_inv in C as [(X&s'&->&C)|[(X&s'&->&C)|(C&_)]].
          * subst r. specialize (G1 X). discriminate G1.
          * subst r. specialize (G2 X). discriminate G2.
          * eapply Un; eauto.
        + rewrite E. rewrite <- app_assoc. auto. }
    destruct (N.eqb_spec c 126) as [->|nt].
    + destruct r as [|x r].
      * replace (on 123%N (lexer_at (w ++ [126%N]) [] k p)) with false by reflexivity.
        cbv iota. apply G; simpl; auto.
      * rewrite eqb_on. destruct (N.eqb_spec 123 x) as [<-|nx].
        2:{ apply G; intros; [discriminate|]. cbn [stops]. apply N.eqb_neq. auto. }
        simpl in Lm, Ln. destruct n as [|n]; [lia|]. cbn [comment_loop]. rewrite peek_at.
        change (N.eqb 123 126) with false. change (N.eqb 123 125) with false. cbv iota.
        rewrite prev_at. rewrite bump_at by auto. pose proof (clean_cons _ _ N1) as N2.
        destruct (IH r (S (S d)) ((w ++ [126%N]) ++ [123%N]) n) as [(b&v&->&C)|(Un&E)]; auto; try lia.
        -- left. exists (126 :: 123 :: b)%N, v. split; auto. constructor; auto.
        -- right. split.
           ++ intros b1 b2 Eb C. destruct b1 as [|y b1]; [inversion C|]. simpl in Eb. injection Eb as <- Eb.
              apply closes_inv in C as [(X&_)|[(_&s'&->&C)|(C&_&St)]]; [discriminate X| |].
              ** simpl in Eb. injection Eb as Eb. eapply Un; eauto.
              ** destruct b1 as [|z b1]; [inversion C|]. simpl in Eb. injection Eb as <- Eb.
                 specialize (St eq_refl). discriminate St.
           ++ rewrite E. rewrite <- !app_assoc. auto.
    + destruct (N.eqb_spec c 125) as [->|nb].
      2:{ rewrite prev_at. apply G; congruence. }
      destruct r as [|x r].
      * replace (on 126%N (lexer_at (w ++ [125%N]) [] k p)) with false by reflexivity.
        cbv iota. apply G; simpl; auto.
      * rewrite eqb_on. destruct (N.eqb_spec 126 x) as [<-|nx].
        2:{ apply G; intros; [|discriminate]. cbn [stops]. apply N.eqb_neq. auto. }
        rewrite bump_at by auto. pose proof (clean_cons _ _ N1) as N2. simpl in Lm, Ln.
        destruct (IH r d ((w ++ [125%N]) ++ [126%N]) n) as [(b&v&->&C)|(Un&E)]; auto; try lia.
        -- left. exists (125 :: 126 :: b)%N, v. split; auto. constructor; auto.
        -- right. split.
           ++ intros b1 b2 Eb C. destruct b1 as [|y b1]; [inversion C|]. simpl in Eb. injection Eb as <- Eb.
              apply closes_inv in C as [(_&s'&->&C)|[(X&_)|(C&St&_)]]; [|discriminate X|].
              ** simpl in Eb. injection Eb as Eb. eapply Un; eauto.
              ** destruct b1 as [|z b1]; [inversion C|]. simpl in Eb. injection Eb as <- Eb.
                 specialize (St eq_refl). discriminate St.
           ++ rewrite E. rewrite <- !app_assoc. auto.
Qed.
