(** Errors and the text after the token found. *)
From Coq Require Import List Arith NArith Bool String Lia.
From Verif Require Import Prelim Chars Syntax Lexer SpecLexer SpecLexRun Parser SpecParser SpecViable.
From Verif Require Import ProofLexer ProofLexer2 ProofLexer6 ProofLexer7 ProofLexer8.
From Verif Require Import ProofParser ProofParser2 ProofParser3 ProofParser7 ProofParser8 ProofParser10.
Import ListNotations.

Notation run := leads.

Section WithUcd.
Context {U : ucd}.
Context (HU : letters U).

(** * One character of lookahead *)

Definition first (s : str) : option chr := match s with [] => None | c :: _ => Some c end.

Lemma first_app s v v' : first v = first v' -> first (s ++ v) = first (s ++ v').
Proof. destruct s; auto. Qed.
Lemma stops_first f v v' : first v = first v' -> stops f v -> stops f v'.
Proof. destruct v, v'; cbn; try discriminate; auto. intros E. injection E as ->. auto. Qed.
Lemma nil_first v v' : first v = first v' -> v = [] -> v' = [].
Proof. destruct v, v'; cbn; discriminate || auto. Qed.

Lemma lexeme_first s t v v' : lexeme s t v -> first v = first v' -> lexeme s t v'.
Proof.
  intros L E. assert (E' : forall s, first (s ++ v) = first (s ++ v')) by (intros; apply first_app; auto).
  destruct L.
  - apply le_punct; auto.
  - apply le_reserved; auto; eapply stops_first; eauto.
  - apply le_name; auto; eapply stops_first; eauto.
  - apply le_int; auto; eapply stops_first; eauto.
  - apply le_string; auto.
  - apply le_char; auto.
  - apply le_escape; auto.
  - apply le_unicode; auto. intros Hx. eapply nil_first; eauto.
  - apply le_backquoted; auto.
  - apply le_quoted; auto; (eapply stops_first; [|eassumption]); auto; rewrite !app_assoc; auto.
  - apply le_quoted_white; auto.
  - apply le_symbol; auto; eapply stops_first; eauto.
  - apply le_op; auto; try (eapply stops_first; eauto; fail). intros X. eapply stops_first; eauto.
Qed.

Lemma gap_first g v : gap g v -> forall v', first v = first v' -> gap g v'.
Proof.
  induction 1 as [v|c g v W G IH|b g v B S1 S2 S3 G IH|b x g v C L X G IH]; intros v' E.
  - constructor.
  - constructor; auto.
  - constructor; auto; (eapply stops_first; [|eassumption]); rewrite ?app_assoc; apply first_app; auto.
  - apply gap_block; auto. intros Hx. eapply nil_first; [|apply X; auto]. apply first_app; auto.
Qed.

(** A token may always be the last. *)
Lemma lexeme_last s t v : lexeme s t v -> lexeme s t [].
Proof.
  assert (S : forall f s v, stops f (s ++ v) -> stops f (s ++ [])) by (intros f [|c u] v'; cbn; auto).
  intros L. destruct L.
  - apply le_punct; auto.
  - apply le_reserved; cbn; auto.
  - apply le_name; cbn; auto. eapply S; eauto.
  - apply le_int; cbn; auto.
  - apply le_string; auto.
  - apply le_char; auto.
  - apply le_escape; auto.
  - apply le_unicode; auto.
  - apply le_backquoted; auto.
  - apply le_quoted; cbn; auto; try (eapply S; eauto; fail); rewrite app_assoc in *; eapply S; eauto.
  - apply le_quoted_white; auto.
  - apply le_symbol; cbn; auto.
  - apply le_op; cbn; auto. eapply S; eauto.
Qed.

(** * Reading tokens *)

Lemma lexeme_nonempty s t v : lexeme s t v -> s <> [].
Proof. intros L ->. destruct (lexeme_start HU _ _ _ L) as (c&s'&E&_). discriminate. Qed.

Lemma run_swap w r ts w0 r0 : run w r ts w0 r0 -> exists y, w0 = w ++ y /\ r = y ++ r0 /\
  forall r1, first r0 = first r1 -> run w (y ++ r1) ts w0 r1.
Proof.
  induction 1 as [w r|w g s t v ts w' r' G L R (y&->&->&H)].
  - exists []. rewrite app_nil_r. repeat split; auto. intros r1 _. apply ru_nil.
  - exists (g ++ s ++ y). rewrite <- !app_assoc. split; auto. split; auto. intros r1 E.
    rewrite <- !app_assoc. assert (E1 : first (y ++ r') = first (y ++ r1)) by (apply first_app; auto).
    apply ru_cons.
    + eapply gap_first; eauto. apply first_app; auto.
    + eapply lexeme_first; eauto.
    + specialize (H r1 E). rewrite <- !app_assoc in H. exact H.
Qed.

Lemma run_snoc w r ts w0 g s t v : run w r ts w0 (g ++ s ++ v) -> gap g (s ++ v) -> lexeme s t v ->
  run w r (ts ++ [(t, col_of (w0 ++ g ++ s))]) (w0 ++ g ++ s) v.
Proof.
  intros R G L. remember (g ++ s ++ v) as r0 eqn:E. revert g s t v E G L.
  induction R as [w r|w g s t v ts w' r' G L R IH]; intros g1 s1 t1 v1 E G1 L1.
  - subst r. cbn [app]. apply ru_cons; auto. apply ru_nil.
  - cbn [app]. apply ru_cons; auto.
Qed.

Lemma ctokens_run w r ts w0 r0 us : run w r ts w0 r0 -> ctokens w0 r0 us -> ctokens w r (ts ++ us).
Proof. induction 1; intros T; auto. cbn [app]. apply ct_cons; auto. Qed.

Lemma peek_at_token w g s t v p : no_lfcr (g ++ s ++ v) -> gap g (s ++ v) -> lexeme s t v ->
  exists q, lx_peek (lexer_at w (g ++ s ++ v) None p) = Ok (Some t, lexer_at (w ++ g ++ s) v (Some t) q).
Proof.
  intros N G L. destruct (lex_token HU g s t v w None p G L) as (q&E&_); auto. exists q.
  unfold lx_peek. cbn [lexer_at lx_curr]. change (mkLexer _ _ _ _ _ _ _) with (lexer_at w (g ++ s ++ v) None p).
  rewrite E. cbn [obind]. apply lexeme_plain in L. destruct t; try discriminate L; reflexivity.
Qed.

(** Two texts that begin with the same tokens. *)
Lemma near_run w r ts w0 r0 : run w r ts w0 r0 -> forall g s t v v' y p p', r0 = g ++ s ++ v ->
  w0 = w ++ y -> gap g (s ++ v) -> lexeme s t v -> lexeme s t v' ->
  no_lfcr r -> no_lfcr (y ++ g ++ s ++ v') ->
  near (S (List.length v)) (List.length ts) (lexer_at w r None p) (lexer_at w (y ++ g ++ s ++ v') None p').
Proof.
  induction 1 as [w r|w g1 s1 t1 v1 ts w' r' G1 L1 R IH]; intros g s t v v' y p p' E0 Ew G L L' N N'.
  - subst r. assert (y = []). { rewrite <- (app_nil_r w) in Ew at 1. apply app_inv_head in Ew. auto. } subst y. cbn [app].
    destruct (peek_at_token w g s t v p N G L) as (q&E).
    destruct (peek_at_token w g s t v' p' N') as (q'&E'); auto.
    { eapply gap_first; eauto. destruct s; [destruct (lexeme_nonempty _ _ _ L eq_refl)|auto]. }
    cbn [List.length near]. split; auto. split; auto. exists t. eexists _, _. split; [exact E|]. split; [exact E'|].
    split; [eapply lexeme_plain; eauto|]. split; auto. unfold left_. cbn [lexer_at lx_curr lx_rest].
    rewrite (lexeme_plain _ _ _ L). auto.
  - destruct (run_swap _ _ _ _ _ R) as (y1&Ew1&Er1&Sw). subst r'.
    assert (y = g1 ++ s1 ++ y1). { rewrite Ew1, <- !app_assoc in Ew. apply app_inv_head in Ew. auto. } subst y v1.
    rewrite <- !app_assoc in *.
    assert (Es : first (g ++ s ++ v) = first (g ++ s ++ v')).
    { apply first_app. destruct s; [destruct (lexeme_nonempty _ _ _ L eq_refl)|auto]. }
    destruct (peek_at_token w g1 s1 t1 _ p N G1 L1) as (q&E).
    destruct (peek_at_token w g1 s1 t1 (y1 ++ g ++ s ++ v') p') as (q'&E'); auto.
    { eapply gap_first; eauto. apply first_app, first_app. auto. }
    { eapply lexeme_first; eauto. apply first_app; auto. }
    cbn [List.length near]. split; auto. split; auto. exists t1. eexists _, _. split; [exact E|]. split; [exact E'|].
    split; [eapply lexeme_plain; eauto|]. split; auto. split.
    + unfold left_, lx_bump. cbn [lexer_at lx_curr snd set_curr lx_rest]. rewrite !app_length.
      pose proof (lexeme_nonempty _ _ _ L). destruct s; [congruence|]. cbn [List.length]. lia.
    + change (near (S (List.length v)) (List.length ts) (lexer_at (w ++ g1 ++ s1) (y1 ++ g ++ s ++ v) None q)
        (lexer_at (w ++ g1 ++ s1) (y1 ++ g ++ s ++ v') None q')).
      eapply IH; eauto.
      * rewrite <- !app_assoc. auto.
      * do 2 apply no_lfcr_app_r in N. auto.
      * do 2 apply no_lfcr_app_r in N'. auto.
Qed.

(** * Where the parser stands *)

(** [ts] tokens have been consumed, up to the end of [w]; the next one may have
    been looked at. *)
Definition stood (src : str) (l : lexer) (ts : list ptok) (w : str) : Prop :=
  exists r, run [] src ts w r /\
  match lx_curr l with
  | None => exists g v p, r = g ++ v /\ l = lexer_at (w ++ g) v None p /\
      (all is_white g /\ stops is_white v \/ g = [] \/ v = [] /\ gap g [])
  | Some t => exists g s v p, r = g ++ s ++ v /\ l = lexer_at (w ++ g ++ s) v (Some t) p /\ gap g (s ++ v) /\
      (lexeme s t v \/ exists e, t = TError e /\ mistake (w ++ g) s e v)
  end.

Lemma peek_cases l t l1 : peek l = POk t l1 -> exists o, lx_peek l = Ok (o, l1) /\ t = match o with Some t => t | None => TEof end.
Proof. unfold peek. destruct (lx_peek l) as [[[t'|] l']| |]; try discriminate; intros E; injection E as <- <-; eauto. Qed.

Lemma run_text w r ts w' r' : run w r ts w' r' -> w ++ r = w' ++ r'.
Proof. intros R. destruct (run_swap _ _ _ _ _ R) as (y&->&->&_). rewrite <- app_assoc. auto. Qed.

Lemma stood_peek src l t l1 ts w : no_lfcr src -> stood src l ts w -> peek l = POk t l1 -> stood src l1 ts w.
Proof.
  intros N (r&R&H) E. apply peek_cases in E as (o&E&->). exists r. split; auto.
  pose proof (run_text _ _ _ _ _ R) as Et. cbn [app] in Et.
  destruct (lx_curr l) as [t|] eqn:C.
  - unfold lx_peek in E. rewrite C in E. injection E as <- <-. rewrite C. auto.
  - destruct H as (g&v&p&->&->&Hg). apply (peek_stands HU) in E; [|rewrite <- app_assoc, <- Et; auto].
    destruct E as [(->&G&q&->)|(t&g'&s&v'&q&->&->&G&->&X)]; cbn [lexer_at lx_curr].
    + exists (g ++ v), [], q. rewrite app_nil_r, app_assoc. split; auto. split; auto. right. right. split; auto.
      destruct Hg as [(A&_)|[->|(->&G')]]; auto; [apply gap_whites; auto|rewrite app_nil_r; auto].
    + exists (g ++ g'), s, v', q. rewrite <- !app_assoc. split; auto. split; auto.
      destruct Hg as [(A&_)|[->|(Ev&G')]].
      * split; [apply gap_whites; auto|]. destruct X as [X|(e&->&X)]; auto. right. exists e. split; auto. rewrite app_assoc; auto.
      * cbn [app] in *. split; auto. rewrite app_nil_r in X. auto.
      * exfalso. destruct X as [X|(e&->&X)].
        -- pose proof (lexeme_nonempty _ _ _ X). destruct g'; [destruct s; [congruence|]|]; discriminate.
        -- destruct g', s, v'; try discriminate. inversion X; congruence.
Qed.

(** The last token of [ts] is [o]. *)
Definition ends (o : option token) (ts : list ptok) : Prop :=
  match o with None => ts = [] | Some t => exists ts' k, ts = ts' ++ [(t, k)] end.
(** No fixity keyword is followed by a number above 9. *)
Definition tidy (ts : list ptok) : Prop :=
  forall a t k t' k' b, ts = a ++ (t, k) :: (t', k') :: b -> word t && over t' = false.

Lemma tidy_nil : tidy [].
Proof. intros [|? ?] ? ? ? ? ? E; discriminate. Qed.
Lemma tidy_snoc o ts t k : tidy ts -> ends o ts -> worded o && over t = false -> tidy (ts ++ [(t, k)]).
Proof.
  intros T E W a t1 k1 t2 k2 b X. destruct b as [|x b _] using rev_ind.
  - change (a ++ [(t1, k1); (t2, k2)]) with (a ++ [(t1, k1)] ++ [(t2, k2)]) in X. rewrite app_assoc in X.
    apply app_inj_tail in X as (->&X). injection X as -> _. destruct o as [t|]; cbn [ends worded] in *.
    + destruct E as (ts'&k'&E). apply app_inj_tail in E as (_&E). injection E as -> _. auto.
    + destruct a; discriminate.
  - rewrite !app_comm_cons, app_assoc in X. apply app_inj_tail in X as (->&_). eapply T; eauto.
Qed.

Lemma path_stood src o l : no_lfcr src -> path src o l -> exists ts w, stood src l ts w /\ ends o ts /\ tidy ts.
Proof.
  intros N P. induction P as [|o l t l1 P (ts&w&IH&En&Ti) E|o l t P (ts&w&IH&En&Ti) C Sn W].
  - destruct (new_none src N) as (ws&v&p&E0&A&S&E). exists [], []. split; [|split; [reflexivity|apply tidy_nil]].
    exists src. split; [apply ru_nil|]. rewrite E. cbn [lexer_at lx_curr]. exists ws, v, p. rewrite E0. auto 10.
  - exists ts, w. split; auto. eapply stood_peek; eauto.
  - destruct IH as (r&R&H). rewrite C in H. destruct H as (g&s&v&p&->&->&G&X).
    destruct X as [X|(e&->&_)]; [|discriminate]. eexists (ts ++ [(t, _)]), _.
    split; [|split; [exists ts; eauto|eapply tidy_snoc; eauto]]. exists v. split; [eapply run_snoc; eauto|].
    unfold lx_bump. cbn [lexer_at lx_curr snd set_curr]. exists [], v, p. rewrite app_nil_r. cbn [app]. auto 10.
Qed.

(** * The end of a failing run *)

Lemma fail_stood {A} src (p : parser A) e l : no_lfcr src -> alike_on src (calm src) p p -> p (lexer_new src) = PErr e l ->
  exists ts w r, run [] src ts w r /\ (exists o, ends o ts /\ worded o && is_int (found e) = false) /\ tidy ts /\
  ((found e = TEof /\ gap r [] /\ sees l [] /\ exists b c, r = b ++ c /\ error_loc e = loc_of (w ++ b)) \/
   exists g s v, r = g ++ s ++ v /\ gap g (s ++ v) /\ lx_curr l = Some (found e) /\ lx_rest l = v /\
     (lexeme s (found e) v \/ exists x, found e = TError x /\ mistake (w ++ g) s x v) /\
     ((exists b c, g = b ++ c /\ error_loc e = loc_of (w ++ b)) \/ error_loc e = loc_of (w ++ g ++ s))).
Proof.
  intros N K E. destruct (K _ (calm_new src)) as (T&_). rewrite E in T. cbn [tame] in T.
  destruct T as (_&_&o0&l0&P0&Pe&El&Wo). destruct (path_stood src o0 l0 N P0) as (ts&w&(r&R&H)&En&Ti).
  exists ts, w, r. split; auto. split; [eauto|]. split; auto. pose proof (run_text _ _ _ _ _ R) as Et. cbn [app] in Et.
  apply peek_cases in Pe as (o&Pe&F). rewrite F. destruct (lx_curr l0) as [t0|] eqn:C0.
  - right. unfold lx_peek in Pe. rewrite C0 in Pe. injection Pe as <- <-. destruct H as (g&s&v&q&->&->&G&X).
    exists g, s, v. cbn [lexer_at lx_rest lx_curr]. rewrite El. auto 10.
  - destruct H as (b&c&q&->&->&Hb). apply (peek_stands HU) in Pe; [|rewrite <- app_assoc, <- Et; auto].
    destruct Pe as [(->&G&q1&->)|(t&g'&s&v'&q1&->&->&G&->&X)].
    + left. split; auto. split.
      * destruct Hb as [(A0&_)|[->|(->&Gb)]]; auto; [apply gap_whites; auto|rewrite app_nil_r; auto].
      * split; [|exists b, c; rewrite El; auto]. cbn [sees]. unfold lx_peek. cbn [lexer_at lx_curr].
        change (mkLexer _ _ _ _ _ _ _) with (lexer_at ((w ++ b) ++ c) [] None q1). rewrite (lex_end HU []); [|constructor|intros [|? [|]] ? X; discriminate X].
        cbn [obind]. eauto.
    + right. exists (b ++ g'), s, v'. cbn [lexer_at lx_rest lx_curr].
      rewrite <- !app_assoc. split; auto. split; [|split; [auto|split; [auto|split]]].
      * destruct Hb as [(A0&_)|[->|(Ev&Gb)]]; auto; [apply gap_whites; auto|].
        exfalso. destruct X as [X|(e'&->&X)].
        -- pose proof (lexeme_nonempty _ _ _ X). destruct g'; [destruct s; [congruence|]|]; discriminate.
        -- destruct g', s, v'; try discriminate. inversion X; congruence.
      * rewrite <- app_assoc in X. auto.
      * left. exists b, g'. rewrite El. auto.
Qed.

(** * Errors are final *)

Lemma near_source ts w0 g s t v v' : run [] (w0 ++ g ++ s ++ v) ts w0 (g ++ s ++ v) ->
  gap g (s ++ v) -> lexeme s t v -> lexeme s t v' ->
  no_lfcr (w0 ++ g ++ s ++ v) -> no_lfcr (w0 ++ g ++ s ++ v') ->
  exists n, near (S (List.length v)) n (lexer_new (w0 ++ g ++ s ++ v)) (lexer_new (w0 ++ g ++ s ++ v')).
Proof.
  intros R G L L' N N'.
  destruct (new_none _ N) as (ws&x&p&E&A&S&En). destruct (new_none _ N') as (ws'&x'&p'&E'&A'&S'&En').
  destruct (lexeme_start HU _ _ _ L) as (c&s'&->&W).
  assert (Q : exists y, w0 ++ g = ws ++ y /\ x = y ++ (c :: s') ++ v /\ ws' = ws /\ x' = y ++ (c :: s') ++ v').
  { assert (Q1 : forall ws z x v, z ++ (c :: s') ++ v = ws ++ x -> all is_white ws -> stops is_white x ->
      exists y, z = ws ++ y /\ x = y ++ (c :: s') ++ v).
    { clear - W. induction ws as [|d ws IH]; intros z x v E A S.
      - exists z. auto.
      - destruct z as [|d' z]; cbn [app] in E; injection E as E1 E2.
        + subst d. apply Forall_inv in A. congruence.
        + subst d'. destruct (IH z x v) as (y&->&->); auto. { inversion A; auto. } exists y. auto. }
    rewrite app_assoc in E, E'.
    destruct (Q1 _ _ _ _ E A S) as (y&Y1&Y2), (Q1 _ _ _ _ E' A' S') as (y'&Y1'&Y2').
    exists y. split; auto. split; auto.
    assert (ws' = ws).
    { subst x x'. refine (white_unique ws ws' (y ++ [c]) (y' ++ [c]) _ A A' _ _).
      - rewrite !app_assoc, <- Y1, Y1'. auto.
      - destruct y; cbn in *; auto.
      - destruct y'; cbn in *; auto. }
    subst ws'. rewrite Y1 in Y1'. apply app_inv_head in Y1'. subst y'. auto. }
  destruct Q as (y&Ew&->&->&->). rewrite En, En'.
  (* the first step starts at the white space *)
  inversion R as [r Er Ew0|g1 s1 t1 v1 ts1 w1 r1 G1 L1 R1 E1]; subst.
  - cbn [app] in *. subst g. 
    destruct (gap_white_inv ws A _ _ G (y ++ (c :: s') ++ v)) as (y1&Y&Gy); [rewrite <- app_assoc; auto|auto|right; exact W|].
    apply app_inv_head in Y. subst y1.
    exists 0. refine (near_run ws _ [] ws _ (ru_nil _ _) y (c :: s') t v v' [] p p' eq_refl _ Gy L L' _ _).
    + rewrite app_nil_r. auto.
    + rewrite <- app_assoc in N. apply no_lfcr_app_r in N. auto.
    + rewrite <- app_assoc in N'. apply no_lfcr_app_r in N'. auto.
  - exists (List.length ((t1, col_of (g1 ++ s1)) :: ts1)).
    destruct (lexeme_start HU _ _ _ L1) as (c1&s1'&->&W1).
    assert (Q2 : exists g1', g1 = ws ++ g1' /\ gap g1' ((c1 :: s1') ++ v1)).
    { refine (gap_white_inv ws A _ _ G1 (y ++ (c :: s') ++ v) _ S (or_intror W1)). rewrite <- E. symmetry. exact E1. }
    destruct Q2 as (g1'&->&G1').
    destruct (run_swap _ _ _ _ _ R1) as (y2&Ew2&Ev&_).
    assert (R2 : run ws (g1' ++ (c1 :: s1') ++ v1) ((t1, col_of (ws ++ g1' ++ c1 :: s1')) :: ts1) w0 (g ++ (c :: s') ++ v)).
    { apply ru_cons; auto. cbn [app] in R1. rewrite <- app_assoc in R1. exact R1. }
    pose proof (run_swap _ _ _ _ _ R2) as (y3&Ew3&Er3&_).
    assert (Ey : y = y3 ++ g). { rewrite Ew3, <- app_assoc in Ew. apply app_inv_head in Ew. auto. } subst y.
    rewrite <- !app_assoc. rewrite <- Er3.
    eapply (near_run _ _ _ _ _ R2 g (c :: s') t v v' y3 p p'); auto.
    + rewrite Er3. rewrite Ew3, <- app_assoc in N. apply no_lfcr_app_r in N. auto.
    + rewrite Ew3, <- app_assoc in N'. apply no_lfcr_app_r in N'. auto.
Qed.
End WithUcd.
