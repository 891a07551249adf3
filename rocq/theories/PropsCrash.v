(** Exactly which lines stop the program by a panic: the rest of C53. *)
From Coq Require Import List Arith NArith Bool String Lia.
From Verif Require Import ProofLexer8 SpecViable SpecOutcome ProofParser16 PropsOutcome.
From Verif Require Import Prelim Chars Syntax Fixity Style Lexer Parser Printer Grapheme Messages Repl
  SpecGrapheme SpecLexer SpecParser SpecFixity SpecRepl SpecCrash PropsLexer ProofGrapheme
  ProofRepl ProofRepl2 ProofRepl3 ProofRepl4 ProofRepl5 ProofRepl6 ProofRepl9 PropsRepl.
Import ListNotations.
Local Open Scope string_scope.
Local Open Scope list_scope.

Section WithUcd.
Context {U : ucd}.

Lemma fatal_deadly (HU : letters U) t p : no_lfcr t -> fatal t p <-> deadly t p.
Proof.
  intros N. unfold fatal, deadly. split.
  - intros [(e&l&a&b&P&F&->)|P]; [right|left].
    + split; auto. exists a, b. apply (C73_mistakes HU); eauto.
    + apply (C73_crashes HU); auto.
  - intros [J|(->&a&b&J)]; [right|left].
    + apply (C73_crashes HU); auto.
    + apply (C73_mistakes HU) in J as (e&l&P&F); auto. eauto 10.
Qed.

Lemma fatal_feed (HU : letters U) r t p : fatal t p ->
  feed_input r t = Panic p \/
  exists r' e, feed_input r t = Ok (r', inr e) /\ show_error e = Panic p /\ forall q, show_error_with_path e q = Panic p.
Proof.
  intros [(e&l&a&b&P&F&->)|P]; unfold feed_input; rewrite P; cbn; [right|auto].
  eexists _, _. split; [reflexivity|].
  assert (W : forall x a t0, e = Expected x a t0 -> In x [TParenL; TParenR; TBrackL; TBrackR; TLambda; TArrow; TIn]).
  { intros x y t0 ->. destruct (PropsParser.C38_expected_token HU t x y t0 l) as (I&_); auto. }
  unfold show_error, show_error_with_path.
  destruct (show_perror_total e W) as [(c&d&F'&E1&E2)|(X&_)]; [|elim (X _ _ F)]. rewrite E1, E2. auto.
Qed.

Lemma fatal_buffer (HU : letters U) s p : fatal (s_buf s) p -> read_buffer s = ([], Crashed p).
Proof.
  intros F. unfold read_buffer. cbn [s_res set_buf].
  destruct (fatal_feed HU (s_res s) _ _ F) as [E|(r&e&E&Sh&_)]; rewrite E; cbn [answer]; auto. rewrite Sh. reflexivity.
Qed.
Lemma fatal_file (HU : letters U) w k s q x p : w_read w k q = inl x -> fatal (relevant q x) p ->
  exists acts, read_file w k s q = (acts, Crashed p).
Proof.
  intros R F. unfold read_file. rewrite R.
  destruct (fatal_feed HU (s_res s) _ _ F) as [E|(r&e&E&_&Sh)]; rewrite E; cbn [answer]; eauto. rewrite Sh. cbn. eauto.
Qed.
Lemma fatal_unique t p q : fatal t p -> fatal t q -> p = q.
Proof. intros [(e&l&a&b&P&F&->)|P] [(e'&l'&a'&b'&P'&F'&->)|P']; congruence. Qed.

(** The first file that cannot be evaluated stops the program. *)
Definition stops_first (w : world) (k : nat) (ps : list str) (p : panic) : Prop :=
  exists i a q x, nth_error ps i = Some a /\ path_of a q /\ w_read w (k + i) q = inl x /\ fatal (relevant q x) p /\
    forall j a' q' x' p', j < i -> nth_error ps j = Some a' -> path_of a' q' -> w_read w (k + j) q' = inl x' -> ~ fatal (relevant q' x') p'.

Lemma path_unique a q q' : path_of a q -> path_of a q' -> q = q'.
Proof. intros H H'. apply unquote_iff in H, H'. congruence. Qed.

Lemma read_files_crash (HU : letters U) w ps : forall k s p,
  (exists acts, read_files w k s ps = (acts, Crashed p)) <-> stops_first w k ps p.
Proof.
  induction ps as [|a ps IH]; intros k s p; cbn [read_files].
  - split; [intros (acts&E); discriminate|]. intros ([|i]&b&q&x&E&_); discriminate.
  - destruct (unquote_total a) as (q&Q). rewrite Q, answer_nil. apply unquote_iff in Q.
    destruct (read_file w k s q) as (a1&st1) eqn:R. pose proof R as R'.
    apply (read_file_stops HU) in R as [(s1&->)|(p1&x&->&Rd&Ft)].
    + assert (Nf : forall x p', w_read w k q = inl x -> ~ fatal (relevant q x) p').
      { intros x p' Rd F. destruct (fatal_file HU w k s q x p' Rd F) as (acts&E). congruence. }
      transitivity (exists acts, read_files w (S k) s1 ps = (acts, Crashed p)).
      { destruct (read_files w (S k) s1 ps) as (a2&st2). split; intros (acts&E); injection E as _ ->; eauto. }
      rewrite IH. split.
      * intros (i&b&q'&x&Ni&P&Rd&F&Fst). exists (S i), b, q', x. cbn [nth_error]. rewrite <- plus_n_Sm. repeat split; auto.
        intros [|j] a' q'' x' p' Lt Nj P' Rd'.
        -- cbn in Nj. injection Nj as <-. rewrite Nat.add_0_r in Rd'. rewrite (path_unique _ _ _ P' Q) in *. auto.
        -- cbn in Nj. rewrite <- plus_n_Sm in Rd'. eapply (Fst j); eauto. lia.
      * intros ([|i]&b&q'&x&Ni&P&Rd&F&Fst).
        -- cbn in Ni. injection Ni as <-. rewrite Nat.add_0_r in Rd. rewrite (path_unique _ _ _ P Q) in *. elim (Nf _ _ Rd F).
        -- cbn in Ni. rewrite <- plus_n_Sm in Rd. exists i, b, q', x. repeat split; auto.
           intros j a' q'' x' p' Lt Nj P' Rd'. apply (Fst (S j) a' q''); auto; [lia|]. rewrite <- plus_n_Sm. auto.
    + split.
      * intros (acts&E). injection E as _ ->. exists 0, a, q, x. rewrite Nat.add_0_r. repeat split; auto. intros; lia.
      * intros ([|i]&b&q'&x'&Ni&P&Rd'&F&Fst).
        -- cbn in Ni. injection Ni as <-. rewrite Nat.add_0_r in Rd'. rewrite (path_unique _ _ _ P Q) in *.
           assert (x' = x) by congruence. subst x'. rewrite (fatal_unique _ _ _ F Ft). eauto.
        -- exfalso. refine (Fst 0 a q x p1 _ eq_refl Q _ Ft); [lia|]. rewrite Nat.add_0_r. auto.
Qed.

Lemma command_load w s c arg ps : trimmed c c -> starts 58 c -> command c ":load" arg ->
  arg <> lit "--prelude" -> arg <> lit "--math" -> word_list arg ps -> ps <> [] ->
  read_command w s c = read_files w 0 s ps.
Proof.
  intros T St C N1 N2 W Np. rewrite (load_command w s c arg T St C). unfold cmd_load.
  apply split_whitespace_iff in W. subst ps. destruct arg as [|x a]; [elim Np; reflexivity|].
  cbn [is_nil]. destruct (str_eqb (x :: a) (lit "--prelude")) eqn:E; [apply ProofLexer2.str_eqb_eq in E; congruence|].
  destruct (str_eqb (x :: a) (lit "--math")) eqn:E2; [apply ProofLexer2.str_eqb_eq in E2; congruence|]. reflexivity.
Qed.

Lemma command_unique c n a b : command c n a -> command c n b -> a = b.
Proof. intros (x&->&_&T) (y&E&_&T'). apply app_inv_head in E. subst. eapply trimmed_unique; eauto. Qed.

Theorem C53_crashes_iff : letters U -> forall s e p, (forall t, event_text (s_buf s) e t -> no_lfcr t) ->
  (exists acts, step s e = (acts, Crashed p)) <-> stopper (s_buf s) e p.
Proof.
  intros HU s e p N.
  assert (Ld : forall w l c arg ps, e = Line w l -> reads l (Command c) -> s_buf s = [] -> command c ":load" arg ->
    arg <> lit "--prelude" -> arg <> lit "--math" -> word_list arg ps -> ps <> [] ->
    ((exists acts, step s e = (acts, Crashed p)) <-> stopper (s_buf s) e p)).
  { intros w l c arg ps -> R B C N1 N2 W Np. destruct (reads_command _ _ R) as (T&St).
    rewrite (step_command _ _ _ _ R B), (command_load w s c arg ps T St C N1 N2 W Np), (read_files_crash HU).
    assert (As : forall k q, asks_for c k q <-> exists a, nth_error ps k = Some a /\ path_of a q).
    { intros k q. split.
      - intros (arg'&ps'&a&C'&_&_&W'&Nk&P). rewrite <- (command_unique _ _ _ _ C C') in W'.
        apply split_whitespace_iff in W, W'. subst ps ps'. eauto.
      - intros (a&Nk&P). exists arg, ps, a. auto 10. }
    assert (Ev : forall k q x, asks_for c k q -> w_read w k q = inl x -> no_lfcr (relevant q x)).
    { intros k q x A Rd. apply N. exists w, l. split; auto. right. split; auto. exists c, k, q, x. repeat split; auto. now apply relevant_iff. }
    split.
    - intros (i&a&q&x&Ni&P&Rd&F&Fst). cbn in Rd.
      assert (A : asks_for c i q) by (apply As; eauto).
      apply st_load with c i (relevant q x); auto.
      + exists q, x. repeat split; auto. now apply relevant_iff.
      + apply (fatal_deadly HU); eauto.
      + intros j u p' Lt (q'&x'&A'&Rd'&L') D. apply relevant_iff in L'. subst u.
        pose proof (proj1 (As _ _) A') as (a'&Nj&P'). apply (Fst j a' q' x' p'); auto. apply (fatal_deadly HU); eauto.
    - intros Sp. inversion Sp as [? ? y ? R' D|? ? c' k t ? B' R' (q&x&A&Rd&L) D Fst]; subst.
      { pose proof (reads_unique _ _ _ R R') as X. discriminate. }
      pose proof (reads_unique _ _ _ R R') as X. injection X as <-. apply relevant_iff in L. subst t.
      pose proof (proj1 (As _ _) A) as (a&Nk&P). exists k, a, q, x. cbn. repeat split; auto.
      + apply (fatal_deadly HU); eauto.
      + intros j a' q' x' p' Lt Nj P' Rd' F. assert (A' : asks_for c j q') by (apply As; eauto).
        apply (Fst j (relevant q' x') p' Lt).
        * exists q', x'. repeat split; auto. now apply relevant_iff.
        * apply (fatal_deadly HU); eauto. }
  split.
  - intros (acts&E). pose proof E as E0.
    destruct (step_stops HU _ _ _ _ E) as [(s'&X)|[(X&_)|[(X&_)|(q&t&X&Ev&F)]]]; try discriminate. injection X as <-.
    pose proof Ev as (w&l&->&[(x&R&->)|(B&c&k&q&x&R&A&Rd&L)]).
    + apply st_say with x; auto. apply (fatal_deadly HU); auto.
    + destruct A as (arg&ps&a&C&N1&N2&W&Nk&P). apply (Ld w l c arg ps); eauto. intros ->. destruct k; discriminate.
  - intros Sp. inversion Sp as [w l y ? R D|w l c k t ? B R A D Fst]; subst.
    + apply (fatal_deadly HU) in D; [|apply N; exists w, l; split; auto; left; eauto].
      exists []. cbn [step]. rewrite (line_reads w s l _ R). cbn [react]. apply (fatal_buffer HU). auto.
    + destruct A as (q&x&(arg&ps&a&C&N1&N2&W&Nk&P)&_). apply (Ld w l c arg ps); eauto. intros ->. destruct k; discriminate.
Qed.

(** The panic is determined. *)
Theorem C53_one_panic : letters U -> forall s e p q, (forall t, event_text (s_buf s) e t -> no_lfcr t) ->
  stopper (s_buf s) e p -> stopper (s_buf s) e q -> p = q.
Proof. intros HU s e p q N A B. apply (C53_crashes_iff HU) in A as (x&A), B as (y&B); auto. congruence. Qed.

(** Every other event leaves the session running or ends it as C53_ends_iff
    says. *)
Theorem C53_goes_on : letters U -> forall s e, (forall t, event_text (s_buf s) e t -> no_lfcr t) ->
  (forall p, ~ stopper (s_buf s) e p) -> e <> Eof -> e <> Interrupted ->
  (forall w l c, e = Line w l -> reads l (Command c) -> s_buf s = [] -> ~ quits c) ->
  exists acts s', step s e = (acts, Running s').
Proof.
  intros HU s e N St N1 N2 Q. destruct (step s e) as (acts&st) eqn:E. exists acts.
  destruct (step_stops HU _ _ _ _ E) as [(s'&->)|[(->&_&[X|X])|[(->&w&l&c&->&R&B&X)|(p&t&->&_)]]]; eauto; try congruence.
  - exfalso. apply (Q w l c); auto. unfold quits. intuition auto.
  - exfalso. apply (St p). apply (C53_crashes_iff HU); eauto.
Qed.

End WithUcd.

(** * Cases *)

Lemma texts_of w l b x t : @reads l (Say x) -> event_text b (Line w l) t -> t = b ++ x.
Proof.
  intros R (w'&l'&E&[(y&R'&->)|(_&c&k&q&y&R'&_)]); injection E as <- <-; pose proof (reads_unique _ _ _ R R') as X; congruence.
Qed.

(** Evaluating [f (x + Just)] stops the program; [f ) Just] does not, because
    the bracket is reported first; pending text counts. *)
Example C53_ex_name : @stopper ucd_none [] (Line nowhere (lit "f (x + Just)")) PIdentStart /\
  (forall p, ~ @stopper ucd_none [] (Line nowhere (lit "f ) Just")) p) /\
  @stopper ucd_none (lit "infixl 1") (Line nowhere (lit "2 +")) PTodoPrec.
Proof.
  assert (R : forall x : str, trimmed x x -> x <> [] -> ~ starts 58 x -> ~ starts 123 x -> ~ ends 92 x -> @reads x (Say x))
    by (intros; now apply rd_plain).
  assert (K : forall b x p, @reads x (Say x) -> clean (b ++ x) = true ->
    ((exists acts, @step ucd_none (mkSession (mkResolver [] []) b false []) (Line nowhere x) = (acts, Crashed p))
      <-> @stopper ucd_none b (Line nowhere x) p)).
  { intros b x p Rx C. apply (C53_crashes_iff letters_none (mkSession (mkResolver [] []) b false [])).
    intros t Ev. cbn [s_buf] in Ev. rewrite (texts_of _ _ _ _ _ Rx Ev). apply clean_ok; auto. }
  assert (S1 : forall x, trim x = x -> x <> [] -> (match x with 58%N :: _ | 123%N :: _ => false | _ => true end) = true ->
    (match rev x with 92%N :: _ => false | _ => true end) = true -> @reads x (Say x)).
  { intros x T N1 A B. apply R; auto.
    - rewrite <- T at 2. apply trim_spec.
    - intros (y&->). discriminate.
    - intros (y&->). discriminate.
    - intros (y&->). rewrite rev_app_distr in B. discriminate. }
  split; [|split].
  - apply K; [apply S1; try reflexivity; discriminate|reflexivity|]. eexists. vm_compute. reflexivity.
  - intros p. rewrite <- K; [|apply S1; try reflexivity; discriminate|reflexivity]. intros (acts&E). vm_compute in E. discriminate.
  - apply K; [apply S1; try reflexivity; discriminate|reflexivity|]. eexists. vm_compute. reflexivity.
Qed.

(** The second file stops the program. *)
Definition two_files : world :=
  mkWorld (fun k _ => match k with 0 => inl (lit "infixl 3 +") | 1 => inl (lit "infixr 12 *") | _ => inr [] end)
    (fun _ => None) (fun _ _ => inl []).
Example C53_ex_load : @stopper ucd_none [] (Line two_files (lit ":load a b.hs c")) PTodoPrec.
Proof.
  apply (C53_crashes_iff letters_none fresh).
  - intros t (w&l&E&[(x&R&->)|(_&c&k&q&x&R&A&Rd&L)]); injection E as <- <-.
    + assert (R' : @reads (lit ":load a b.hs c") (Command (lit ":load a b.hs c"))).
      { apply (rd_command _ (lit "load a b.hs c")). apply trim_spec. }
      pose proof (reads_unique _ _ _ R R') as X. discriminate.
    + apply relevant_iff in L. subst t. apply clean_ok. unfold relevant.
      destruct (match extension q with Some e => str_eqb e (lit "hs") | None => false end);
        destruct k as [|[|k]]; cbn in Rd; try discriminate; injection Rd as <-; reflexivity.
  - eexists. vm_compute. reflexivity.
Qed.

Print Assumptions C53_crashes_iff.
Print Assumptions C53_one_panic.
Print Assumptions C53_goes_on.
