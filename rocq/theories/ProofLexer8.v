(** The observable behaviour of the lexer, step by step and over whole sources. *)
From Coq Require Import List Arith NArith Bool Lia String.
From Verif Require Import Prelim Chars Syntax Lexer SpecLexer SpecLexRun ProofBytes ProofLexer ProofLexer2
  ProofLexer3 ProofLexer4 ProofLexer5 ProofLexer6 ProofLexer7.
Import ListNotations.

Section WithUcd.
Context {U : ucd}.

Lemma before_at l r : before l r -> exists w, l = lexer_at w r (lx_curr l) (lx_prev l) /\ no_lfcr (w ++ r).
Proof.
  destruct l as [src rest k a b n p]. intros (w&E1&E2&E3&N). cbn in *. subst. exists w.
  unfold curr_loc, loc_of in E3. cbn in E3. injection E3 as -> -> ->. auto.
Qed.
Lemma at_before w r k p : no_lfcr (w ++ r) -> before (lexer_at w r k p) r.
Proof. intros N. exists w. auto. Qed.

Lemma at_clean l w : at_ l w -> no_lfcr (lx_src l) ->
  l = lexer_at w (lx_rest l) (lx_curr l) (lx_prev l) /\ no_lfcr (w ++ lx_rest l).
Proof.
  destruct l as [src rest k a b n p]. unfold at_. cbn. intros (->&E&_) N. split; auto.
  rewrite strip_clean in E by (eapply no_lfcr_app_l; eauto).
  unfold curr_loc, loc_of in E. cbn in E. injection E as -> -> ->. auto.
Qed.

Lemma at_lexer_at w r k p : no_lfcr (w ++ r) -> at_ (lexer_at w r k p) w.
Proof.
  intros N. split; auto. split.
  - rewrite strip_clean; auto. eapply no_lfcr_app_l; eauto.
  - intros (a&->). cbn [lx_rest lexer_at]. destruct r as [|c r]; [exact I|]. cbn [stops].
    destruct (N.eqb_spec 13 c) as [<-|]; auto. exfalso. apply (N a r). rewrite <- app_assoc. auto.
Qed.

Lemma next_ok l t l' : lex l = Ok (t, l') -> t <> TEof ->
  lx_next l = Ok (Some (t, (lx_prev l', curr_loc l')), l').
Proof. intros E N. unfold lx_next. rewrite E. cbn [obind]. destruct t; congruence || auto. Qed.

(** One step. *)
Lemma step : letters U -> forall w r k p x l', no_lfcr (w ++ r) ->
  lx_next (lexer_at w r k p) = Ok (x, l') ->
  (x = None /\ gap r [] /\ exists q, l' = lexer_at (w ++ r) [] k q) \/
  (exists g s v t q, r = g ++ s ++ v /\ gap g (s ++ v) /\ x = Some (t, (q, loc_of (w ++ g ++ s))) /\
     l' = lexer_at (w ++ g ++ s) v k q /\ t <> TEof /\
     ((lexeme s t v /\ (q = loc_of (w ++ g) \/ exists y, t = TLit (LStr y))) \/
      exists e, t = TError e /\ mistake (w ++ g) s e v)).
Proof.
  intros HU w r k p x l' N E. apply next_lex in E as (t&E&H).
  pose proof (lex_text HU w r k p (no_lfcr_app_r _ _ N)) as L. rewrite E in L.
  destruct L as (g&z&->&G&[(->&Eo)|[(s&t'&v&q&->&Eo&Le&Q)|[(s&e&v&q&->&Eo&Mi)|(Eo&_)]]]).
  - injection Eo as -> ->. destruct H as [(_&->)|(H&_)]; [|congruence]. left. rewrite app_nil_r. eauto.
  - injection Eo as -> ->. destruct H as [(->&_)|(Nt&->)]. { inversion Le; subst;
      repeat match goal with I : In (_, _) _ |- _ => cbn in I; repeat (destruct I as [I|I]; [discriminate I|]); destruct I end. }
    right. exists g, s, v, t', q. rewrite !prev_at, currloc_at, <- !app_assoc. repeat split; auto.
  - injection Eo as -> ->. destruct H as [(H&_)|(Nt&->)]; [discriminate|].
    right. exists g, s, v, (TError e), q. rewrite !prev_at, currloc_at, <- !app_assoc. repeat split; eauto.
  - discriminate.
Qed.

(** Over a whole run, for every token: what it is and where. *)
Lemma scan_tokens : letters U -> forall l ts l', scan l ts l' -> forall w, at_ l w -> no_lfcr (lx_src l) ->
  forall t a b, In (t, (a, b)) ts -> exists x s v,
    lx_src l = x ++ s ++ v /\ b = loc_of (x ++ s) /\
    ((lexeme s t v /\ (a = loc_of x \/ exists y, t = TLit (LStr y))) \/
     exists e, t = TError e /\ mistake x s e v).
Proof.
  intros HU. induction 1 as [l|l x l1 ts l2 E S IH]; intros w A N t a b I; [destruct I|].
  apply at_clean in A as (El&Nw); auto. rewrite El in E. apply step in E; auto.
  destruct E as [(Ex&_)|(g&s&v&t'&q&Er&G&Ex&->&_&H)]; [discriminate|].
  injection Ex as ->. assert (Es : lx_src l = (w ++ g) ++ s ++ v).
  { rewrite El. cbn [lx_src lexer_at]. rewrite Er, <- !app_assoc. auto. }
  destruct I as [I|I].
  - injection I as -> -> <-. exists (w ++ g), s, v. rewrite <- !app_assoc in *. auto.
  - rewrite Er in Nw. replace (w ++ g ++ s ++ v) with ((w ++ g ++ s) ++ v) in Nw by (rewrite <- !app_assoc; auto).
    replace (lx_src l) with (lx_src (lexer_at (w ++ g ++ s) v (lx_curr l) q)).
    2:{ cbn [lx_src lexer_at]. rewrite Es, <- !app_assoc. auto. }
    apply (IH (w ++ g ++ s)); auto. apply at_lexer_at. auto.
Qed.

Lemma lexeme_spells s t v : lexeme s t v -> spells t s.
Proof.
  destruct 1; cbn [spells]; auto;
    repeat match goal with I : In (_, _) _ |- _ => cbn in I; repeat (destruct I as [I|I]; [injection I as <- <-; exact Logic.I|]); destruct I end.
  left. cbn [app]. rewrite <- app_assoc. auto.
Qed.

Lemma scan_covers : letters U -> forall l ts l', scan l ts l' -> forall w, at_ l w -> no_lfcr (lx_src l) ->
  exists w', covers spells w ts w' /\ lx_src l = w' ++ lx_rest l' /\ at_ l' w' /\ lx_src l' = lx_src l.
Proof.
  intros HU. induction 1 as [l|l x l1 ts l2 E S IH]; intros w A N.
  - exists w. split; [|split; auto; apply A]. rewrite <- (app_nil_r w) at 2. constructor.
  - pose proof A as A0. apply at_clean in A as (El&Nw); auto.
    pose proof E as E0. apply next_lex in E0 as (t0&E0&_). rewrite El in E.
    destruct (lex_span HU _ _ _ _ E0 A0) as (a&b&Er0&A1&C&Ep). 
    apply step in E; auto.
    destruct E as [(Ex&_)|(g&s&v&t&q&Er&G&Ex&E1&_&H)]; [discriminate|].
    injection Ex as ->. rewrite E1 in Er0. cbn [lx_rest lexer_at] in Er0. 
    assert (Eab : a ++ b = g ++ s).
    { apply (app_inv_tail v). rewrite <- !app_assoc. congruence. }
    assert (Es : lx_src l = w ++ g ++ s ++ v) by (rewrite El; cbn [lx_src lexer_at]; congruence).
    assert (E1s : lx_src l1 = lx_src l).
    { rewrite E1, Es. cbn [lx_src lexer_at]. rewrite <- !app_assoc. auto. }
    destruct (IH (w ++ a ++ b)) as (w'&Cv&Ew'&Aw'&Sw'); auto. { congruence. }
    exists w'. split; [|split; [congruence|split; [auto|congruence]]].
    assert (D : spells t s /\ q = loc_of (w ++ g) \/ (forall x, spells t x)).
    { destruct H as [(Le&[->|(y&->)])|(e&->&_)].
      - left. split; auto. eapply lexeme_spells; eauto.
      - right. intros x. exact I.
      - right. intros x. exact I. }
    destruct D as [(Sp&->)|Sp].
    + constructor; auto. rewrite <- Eab. auto.
    + assert (q = loc_of (w ++ a)) as ->.
      { rewrite E1 in Ep. cbn [lx_prev lexer_at] in Ep. rewrite Ep. f_equal. apply strip_clean.
        rewrite Er0, !app_assoc in Nw. do 2 apply no_lfcr_app_l in Nw. auto. }
      rewrite <- Eab. constructor; auto.
Qed.

(** * The grammar *)

Lemma scan_grammar : letters U -> forall l ts l', scan l ts l' -> forall w, at_ l w -> no_lfcr (lx_src l) ->
  (exists l'', lx_next l' = Ok (None, l'')) -> (forall e, ~ In (TError e) (map fst ts)) ->
  tokens (lx_rest l) (map fst ts).
Proof.
  intros HU. induction 1 as [l|l x l1 ts l2 E S IH]; intros w A N F NE.
  - destruct F as (l''&E). apply at_clean in A as (El&Nw); auto. rewrite El in E. apply step in E; auto.
    destruct E as [(_&G&_)|(g&s&v&t&q&_&_&Ex&_)]; [|discriminate]. cbn [map]. constructor. auto.
  - apply at_clean in A as (El&Nw); auto. rewrite El in E. apply step in E; auto.
    destruct E as [(Ex&_)|(g&s&v&t'&q&Er&G&Ex&->&_&H)]; [discriminate|].
    injection Ex as ->. cbn [map fst] in *. rewrite Er.
    destruct H as [(Le&_)|(e&->&_)]. 2:{ exfalso. apply (NE e). left. auto. }
    constructor; auto.
    rewrite Er in Nw. replace (w ++ g ++ s ++ v) with ((w ++ g ++ s) ++ v) in Nw by (rewrite <- !app_assoc; auto).
    apply (IH (w ++ g ++ s)); auto. { apply at_lexer_at. auto. } intros e I. apply (NE e). right. auto.
Qed.

Lemma lexeme_not_error s t v : lexeme s t v -> t <> TEof /\ forall e, t <> TError e.
Proof.
  destruct 1; split; try discriminate; try (intros ? ?; discriminate);
    repeat match goal with I : In (_, _) _ |- _ => cbn in I; repeat (destruct I as [I|I]; [injection I as <- <-; discriminate|]); destruct I end.
Qed.

Lemma grammar_scan : letters U -> forall r ts, tokens r ts -> forall w k p, no_lfcr (w ++ r) ->
  exists xs l, scan (lexer_at w r k p) xs l /\ map fst xs = ts /\ lx_next l = Ok (None, lexer_at (w ++ r) [] k (loc_of (w ++ r))).
Proof.
  intros HU. induction 1 as [g G|g s t v ts G L T IH]; intros w k p N.
  - exists [], (lexer_at w g k p). split; [constructor|]. split; auto. unfold lx_next.
    rewrite (lex_end HU); auto. eapply no_lfcr_app_r; eauto.
  - destruct (lex_token HU g s t v w k p G L) as (q&E&_). { eapply no_lfcr_app_r; eauto. }
    replace (w ++ g ++ s ++ v) with ((w ++ g ++ s) ++ v) in * by (rewrite <- !app_assoc; auto).
    destruct (IH (w ++ g ++ s) k q N) as (xs&l&S&M&F).
    eexists (_ :: xs), l. split; [|split; [|exact F]].
    + econstructor; [|exact S]. apply next_ok; [exact E|]. apply lexeme_not_error in L. tauto.
    + cbn [map fst]. rewrite M. auto.
Qed.

Lemma scan_det : forall l xs l1, scan l xs l1 -> forall ys l2, scan l ys l2 ->
  (exists l', lx_next l1 = Ok (None, l')) -> (exists l', lx_next l2 = Ok (None, l')) -> xs = ys /\ l1 = l2.
Proof.
  induction 1 as [l|l x l1 ts l2 E S IH]; intros ys l3 S' F1 F2.
  - destruct S' as [|l y l4 ys l3 E' S']; auto. destruct F1 as (a&F1). rewrite E' in F1. discriminate.
  - destruct S' as [l|l y l4 ys l3 E' S']. { destruct F2 as (a&F2). rewrite E in F2. discriminate. }
    rewrite E in E'. injection E' as <- <-. destruct (IH ys l3 S' F1 F2) as (->&->). auto.
Qed.

(** [lexer_new] stands after leading white space; the tokens are those of the
    whole text. *)
Lemma new_at src : no_lfcr src -> exists ws v k p, src = ws ++ v /\ all is_white ws /\ stops is_white v /\
  lexer_new src = lexer_at ws v k p.
Proof.
  intros N. destruct (span is_white src) as (ws&v&->&A&S). unfold lexer_new, eat_whitespace. cbv zeta.
  change (mkLexer (ws ++ v) (ws ++ v) None 1 1 0 loc_default) with (lexer_at [] (ws ++ v) None loc_default).
  rewrite eat_while_at by auto. cbn [app]. rewrite setprev_at. eauto 10.
Qed.

Lemma tokens_white ws v ts : all is_white ws -> tokens v ts -> tokens (ws ++ v) ts.
Proof.
  intros A T. destruct T.
  - constructor. apply gap_whites; auto.
  - rewrite app_assoc. constructor; auto. apply gap_whites; auto.
Qed.
Lemma gap_white_inv ws : all is_white ws -> forall g v, gap g v -> forall z, ws ++ z = g ++ v -> stops is_white z ->
  (v = [] \/ stops is_white v) -> exists g', g = ws ++ g' /\ gap g' v.
Proof.
  induction 1 as [|c ws Hc A IH]; intros g v G z E S Sv.
  - exists g. auto.
  - destruct G as [v|d g v Hd G|b g v B1 B2 B3 B4 G|b x g v C1 C2 C3 G]; cbn [app] in E.
    + destruct Sv as [->|Sv]; [discriminate|]. subst v. cbn [stops] in Sv. congruence.
    + injection E as <- E. destruct (IH g v G z E S Sv) as (g'&->&G'). exists g'. auto.
    + injection E as -> _. discriminate.
    + injection E as -> _. discriminate.
Qed.

Lemma lexeme_start : letters U -> forall s t v, lexeme s t v -> exists c s', s = c :: s' /\ is_white c = false.
Proof.
  intros HU s t v L. destruct L as
    [c t v I|s t v I Sw Ss|c u s v Lc Uc A B Sw Ss NR|s v Ns A Sd Lt|b s v C|c v N1 N2 N3|e d v I
    |x pl h y v Hx Hp Hh A Lh Sc Ly Ny|c u s v Wc A Sw B|c u s v Wc A B Sw Ss Sq Sb|c d v N1 N2 N3 Wd
    |s t v I So Ss|u s v Nu A B So Ss NS N2 N1]; try (eexists _, _; split; [reflexivity|]; try reflexivity).
  - cbn in I. repeat (destruct I as [I|I]; [injection I as <- <-; reflexivity|]). destruct I.
  - apply reserved_chars in I as (c&s'&->&W&_). exists c, s'. split; auto. apply word_white; auto.
  - apply word_white; auto. unfold word_start. rewrite Lc. apply orb_true_r.
  - destruct s as [|c s]; [congruence|]. exists c, s. split; auto. apply digit_white. apply Forall_inv in A. auto.
  - cbn in I. repeat (destruct I as [I|I]; [injection I as <- <-; eexists _, _; split; reflexivity|]). destruct I.
  - destruct u as [|c u]; [congruence|]. exists c, (u ++ s). split; auto. apply op_white. apply Forall_inv in A. auto.
Qed.

Lemma tokens_white_inv : letters U -> forall ws v ts, all is_white ws -> stops is_white v -> tokens (ws ++ v) ts -> tokens v ts.
Proof.
  intros HU ws v ts A S T. remember (ws ++ v) as r eqn:E. destruct T as [g G|g s t v' ts G L T].
  - rewrite <- (app_nil_r g) in E. destruct (gap_white_inv ws A g [] G v (eq_sym E) S) as (g'&->&G'); auto.
    rewrite <- app_assoc in E. apply app_inv_head in E. rewrite app_nil_r in E. subst. constructor. auto.
  - destruct (gap_white_inv ws A g (s ++ v') G v (eq_sym E) S) as (g'&->&G').
    { right. destruct (lexeme_start HU s t v' L) as (c&s'&->&W). exact W. }
    rewrite <- app_assoc in E. apply app_inv_head in E. subst. constructor; auto.
Qed.

(** * Fuel *)

Lemma operator_mono (f g : lexer -> outcome (token * lexer)) l :
  (forall a, f a <> NoFuel -> g a = f a) -> operator f l <> NoFuel -> operator g l = operator f l.
Proof.
  intros H. unfold operator. cbv zeta. destruct (src_slice _ _ _) as [s| |]; auto. cbn [obind].
  destruct (str_eqb s (lit "~")).
  { destruct (on 123 _); auto. destruct (block_comment _) as [[[e|] r]| |]; cbn [obind]; auto. }
  destruct (str_eqb s (lit "~~")); auto.
Qed.

Lemma lex_f_mono : forall n m l, n <= m -> lex_f n l <> NoFuel -> lex_f m l = lex_f n l.
Proof.
  induction n as [|n IH]; intros m l L; [cbn; congruence|]. destruct m as [|m]; [lia|].
  cbn [lex_f]. cbv zeta. destruct (peek_char _) as [c|]; [|reflexivity].
  do 13 (match goal with |- context [if ?b then _ else _] => destruct b end; [reflexivity|]).
  destruct (is_infix_char c); [|reflexivity]. apply operator_mono. intros a. apply IH. lia.
Qed.

Lemma lex_gap : letters U -> forall g v w k p, gap g v -> no_lfcr (g ++ v) ->
  lex (lexer_at w (g ++ v) k p) = lex (lexer_at (w ++ g) v k p).
Proof.
  intros HU g v w k p G N. destruct (gap_step HU g v G w k p (List.length v) N) as (m&q&L&E).
  unfold lex at 1. rewrite rest_at, app_length.
  replace (S (List.length g + List.length v)) with (S (List.length v) + List.length g) by lia.
  rewrite E. replace (lexer_at (w ++ g) v k q) with (set_prev q (lexer_at (w ++ g) v k p)) by reflexivity.
  rewrite lex_f_set_prev. unfold lex. rewrite rest_at. apply lex_f_mono; [lia|].
  pose proof (lex_terminates HU (lexer_at (w ++ g) v k p)) as F. unfold lex in F. rewrite rest_at in F.
  intros X. rewrite X in F. exact F.
Qed.

(** Skipping [g]: the lexer goes on as if it stood after it. *)
Lemma next_gap : letters U -> forall l g v, before l (g ++ v) -> gap g v ->
  exists l', before l' v /\ lx_src l' = lx_src l /\ lx_curr l' = lx_curr l /\ lx_next l = lx_next l'.
Proof.
  intros HU l g v B G. apply before_at in B as (w&El&N).
  exists (lexer_at (w ++ g) v (lx_curr l) (lx_prev l)). split.
  { apply at_before. rewrite <- app_assoc. exact N. }
  split. { rewrite El. cbn [lx_src lexer_at]. rewrite <- app_assoc. auto. }
  split; [reflexivity|]. unfold lx_next. rewrite El at 1. rewrite lex_gap; auto. eapply no_lfcr_app_r; eauto.
Qed.

(** A lexeme at the current position. *)
Lemma next_lexeme : letters U -> forall l s t v, before l (s ++ v) -> lexeme s t v ->
  exists l' a, before l' v /\ lx_next l = Ok (Some (t, (a, curr_loc l')), l') /\ lx_src l' = lx_src l /\
    (a = curr_loc l \/ exists x, t = TLit (LStr x)).
Proof.
  intros HU l s t v B L. apply before_at in B as (w&El&N).
  destruct (lex_token HU [] s t v w (lx_curr l) (lx_prev l) (gap_nil _) L (no_lfcr_app_r _ _ N)) as (q&E&H).
  cbn [app] in E. rewrite <- El in E. rewrite app_nil_r in H.
  exists (lexer_at (w ++ s) v (lx_curr l) q), q. split.
  { apply at_before. rewrite <- app_assoc. exact N. }
  split. { apply (next_ok _ _ _ E). apply lexeme_not_error in L. tauto. }
  split. { rewrite El. cbn [lx_src lexer_at]. rewrite <- app_assoc. auto. }
  rewrite El. rewrite currloc_at. auto.
Qed.

End WithUcd.
