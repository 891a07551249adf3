(** Every command line gets the response of the table. *)
From Coq Require Import List Arith NArith Bool String Lia.
From Verif Require ProofLexer2.
From Verif Require Import Prelim Chars Syntax Fixity Style Lexer Parser Printer Grapheme Messages Repl
  SpecGrapheme SpecLexer SpecParser SpecFixity SpecRepl ProofBytes ProofGrapheme ProofTable PropsGrapheme
  ProofRepl ProofRepl2 ProofRepl3 ProofRepl4 ProofRepl5 ProofRepl6 ProofRepl7 ProofRepl8 ProofRepl9 SpecOutput ProofOutput ProofOutput2.
Import ListNotations.
Local Open Scope string_scope.
Local Open Scope list_scope.

Section WithUcd.
Context {U : ucd}.

Lemma prelude_count r : snd (load_hs_prelude r) = 23.
Proof. reflexivity. Qed.
Lemma math_count r : snd (load_arithmetic r) = 8.
Proof. reflexivity. Qed.

Lemma read_files_ended w ps : forall k s a, read_files w k s ps <> (a, Ended).
Proof.
  induction ps as [|p ps IH]; intros k s0 a; cbn [read_files].
  - discriminate.
  - destruct (unquote p) as [q| |]; cbn [answer]; try discriminate.
    assert (R : forall a2 st2, read_file w k s0 q = (a2, st2) -> st2 <> Ended).
    { clear. unfold read_file. intros a2 st2. destruct (w_read w k q); [|intros X; injection X as _ <-; discriminate].
      destruct (feed_input _ _) as [(r&[y|y])| |]; cbn [answer]; try (intros X; injection X as _ <-; discriminate).
      destruct (show_error_with_path y q); cbn; intros X; injection X as _ <-; discriminate. }
    destruct (read_file w k s0 q) as (a1&st1) eqn:Rf. specialize (R _ _ eq_refl). destruct st1 as [s1| | |]; try congruence; try discriminate.
    destruct (read_files w (S k) s1 ps) as (a2&st2) eqn:R2. cbn. intros X. injection X as _ ->. eapply IH; eauto.
Qed.

(** The words that are names of commands. *)
Lemma unknown_name c p b : (forall n arg, is_word n = true -> (command c n arg <-> p = lit n /\ arg = trim b)) ->
  (forall n, is_word n = true -> (c = lit n <-> p = lit n /\ trim b = [])) ->
  (forall n, In n [":cd"; ":clear"; ":history"; ":info"; ":i"; ":load"; ":shell"] -> p <> lit n) ->
  (forall n, In n [":help"; ":h"; ":?"; ":reset"; ":r"; ":fixities"] -> ~ (p = lit n /\ trim b = [])) ->
  ~ quits c -> ~ known c.
Proof.
  intros K K' H1 H2 Q [(n&arg&I&C)|[I|X]]; [| |tauto].
  - apply K in C as (E&_); [eapply H1; eauto|].
    cbn in I. repeat (destruct I as [<-|I]; [reflexivity|]). destruct I.
  - apply in_map_iff in I as (n&<-&I). assert (W : is_word n = true).
    { cbn in I. repeat (destruct I as [<-|I]; [reflexivity|]). destruct I. }
    apply (H2 n I). apply (K' n W). reflexivity.
Qed.

Lemma quits_name c p b : c = p ++ b -> word p -> starts_white b -> quits c -> p = lit ":q" \/ p = lit ":quit".
Proof.
  intros E W B Q.
  assert (H : forall n r, is_word n = true -> starts_white r -> c = lit n ++ r -> p = lit n).
  { intros n r Wn Sr X. rewrite E in X. apply word_app_unique in X as (X&_); auto. now apply is_word_spec. }
  destruct Q as [Q|[Q|[Q|Q]]].
  - left. apply (H ":q" []); [reflexivity|exact I|now rewrite app_nil_r].
  - right. apply (H ":quit" []); [reflexivity|exact I|now rewrite app_nil_r].
  - left. apply (H ":q" (lit " --no-history")); [reflexivity|reflexivity|exact Q].
  - right. apply (H ":quit" (lit " --no-history")); [reflexivity|reflexivity|exact Q].
Qed.

Ltac name_case a p := destruct (str_eqb_spec (lit a) p) as [<-|?].

Lemma command_responds (HU : letters U) w s c acts st : settled (s_res s) -> trimmed c c -> starts 58 c ->
  read_command w s c = (acts, st) -> st = Ended \/ (exists s', st = Running s') ->
  (forall k q x t, asks_for c k q -> w_read w k q = inl x -> loaded_text q x t -> tidy t) ->
  responds show_lit w (s_hist s) (get_defined (r_fix (s_res s))) (get (r_fix (s_res s))) c acts.
Proof.
  intros (Er&Nd) T S1 Rd Hst Ty. destruct (command_shape c T S1) as (p&b&E&W&B&Z&K&K').
  pose proof (quits_name c p b E W B) as Qn.
  pose proof (unknown_name c p b K K') as Un.
  rewrite (run_command w s c p b) in Rd by auto. revert Rd. unfold dispatch.
  name_case ":cd" p.
  { clear Un Qn. unfold cmd_cd. pose proof (proj2 (K ":cd" _ eq_refl) (conj eq_refl eq_refl)) as C. destruct (trim b) as [|x y] eqn:Eb.
    - intros X; injection X as <- _. now apply rs_cd_nowhere.
    - intros X; apply (f_equal fst) in X; cbn [fst] in X; subst acts. destruct (w_chdir w (x :: y)) as [e|] eqn:Ew.
      + unfold errln. rewrite <- !app_assoc. apply rs_cd_failed; auto. discriminate.
      + apply rs_cd; auto. discriminate. }
  destruct ((str_eqb (lit ":help") p || str_eqb (lit ":h") p || str_eqb (lit ":?") p) && is_nil (trim b)) eqn:Eh.
  { apply andb_true_iff in Eh as (Eh&Eb). apply is_nil_spec in Eb. intros X; apply (f_equal fst) in X; cbn [fst] in X; subst acts.
    apply rs_help. apply in_map_iff. apply orb_true_iff in Eh as [Eh|Eh]; [apply orb_true_iff in Eh as [Eh|Eh]|].
    - name_case ":help" p; [|discriminate]. exists ":help". split; [symmetry; apply K'; auto|cbn; auto].
    - name_case ":h" p; [|discriminate]. exists ":h". split; [symmetry; apply K'; auto|cbn; auto].
    - name_case ":?" p; [|discriminate]. exists ":?". split; [symmetry; apply K'; auto|cbn; auto]. }
  destruct (str_eqb (lit ":q") p || str_eqb (lit ":quit") p) eqn:Eq.
  { assert (Q : p = lit ":q" \/ p = lit ":quit").
    { apply orb_true_iff in Eq as [Eq|Eq]; [name_case ":q" p|name_case ":quit" p]; auto; discriminate. }
    clear Eq Eh. unfold cmd_quit.
    destruct (str_eqb_spec c (lit ":quit")) as [Y|N1]; cbn [orb]; [intros X; injection X as <- _; apply rs_quit; auto|].
    destruct (str_eqb_spec c (lit ":q")) as [Y|N2]; [intros X; injection X as <- _; apply rs_quit; auto|].
    destruct (str_eqb_spec c (lit ":quit --no-history")) as [Y|N3]; cbn [orb]; [intros X; injection X as <- _; apply rs_quit_quietly; auto|].
    destruct (str_eqb_spec c (lit ":q --no-history")) as [Y|N4]; [intros X; injection X as <- _; apply rs_quit_quietly; auto|].
    intros X; apply (f_equal fst) in X; cbn [fst] in X; subst acts. unfold unknown_command, errln. rewrite <- !app_assoc. apply rs_unknown.
    apply Un.
    - intros m I. clear -Q I. cbn in I. repeat (destruct I as [<-|I]; [destruct Q as [->| ->]; discriminate|]). destruct I.
    - intros m I (X&_). clear -Q I X. cbn in I. repeat (destruct I as [<-|I]; [destruct Q as [->| ->]; discriminate|]). destruct I.
    - intros [X|[X|[X|X]]]; contradiction. }
  apply orb_false_iff in Eq as (Q1&Q2). name_case ":q" p; [discriminate|]. name_case ":quit" p; [discriminate|]. clear Q1 Q2.
  assert (Nq : ~ quits c) by (intros Q; destruct (Qn Q); subst; contradiction). clear Qn.
  name_case ":clear" p.
  { clear Un. pose proof (proj2 (K ":clear" _ eq_refl) (conj eq_refl eq_refl)) as C. unfold cmd_clear, clear.
    pose proof (names_are _ Nd) as Nm. pose proof (show_nat_decimal (List.length (keys (r_fix (s_res s))))) as Dn. rewrite keys_length in Dn.
    destruct (str_eqb_spec (trim b) (lit "--history")) as [X|X1].
    { rewrite X in C. intros Y; injection Y as <- _. now apply rs_clear_history. }
    destruct (str_eqb_spec (trim b) (lit "--fixities")) as [X|X2].
    { rewrite X in C. intros Y; apply (f_equal fst) in Y; cbn [fst] in Y; subst acts. unfold outln. rewrite <- !app_assoc.
      eapply rs_clear_fixities; eauto. now rewrite keys_length. }
    assert (Ss : In (trim b) (map lit ["--session"; "--history --fixities"; "--fixities --history"]) ->
      responds show_lit w (s_hist s) (get_defined (r_fix (s_res s))) (get (r_fix (s_res s))) c
        [AClearHistory; outln (show_nat (List.length (r_fix (s_res s))) ++ lit " fixities cleared, session history cleared")]).
    { intros I. unfold outln. rewrite <- !app_assoc. eapply rs_clear_session; eauto. now rewrite keys_length. }
    destruct (str_eqb_spec (trim b) (lit "--session")) as [X|X3]; cbn [orb].
    { intros Y; apply (f_equal fst) in Y; cbn [fst] in Y; subst acts. apply Ss. rewrite X. cbn [map In]. auto. }
    destruct (str_eqb_spec (trim b) (lit "--history --fixities")) as [X|X4]; cbn [orb].
    { intros Y; apply (f_equal fst) in Y; cbn [fst] in Y; subst acts. apply Ss. rewrite X. cbn [map In]. auto. }
    destruct (str_eqb_spec (trim b) (lit "--fixities --history")) as [X|X5]; cbn [orb].
    { intros Y; apply (f_equal fst) in Y; cbn [fst] in Y; subst acts. apply Ss. rewrite X. cbn [map In]. auto. }
    intros Y; apply (f_equal fst) in Y; cbn [fst] in Y; subst acts. unfold errln. rewrite <- !app_assoc. apply rs_clear_other; auto.
    cbn [map In]. intuition. }
  name_case ":history" p.
  { clear Un. pose proof (proj2 (K ":history" _ eq_refl) (conj eq_refl eq_refl)) as C. unfold cmd_history.
    destruct (str_eqb_spec (trim b) (lit "--clear")) as [X|X1].
    { rewrite X in C. intros Y; injection Y as <- _. now apply rs_history_clear. }
    destruct (str_eqb_spec (trim b) (lit "--clear --file")) as [X|X2].
    { rewrite X in C. intros Y; injection Y as <- _. now apply rs_history_clear_file. }
    destruct (starts_with (lit "--set") (trim b)) eqn:X.
    { apply starts_with_spec in X as (z&X). rewrite X in C |- *. rewrite after_app by reflexivity. rewrite answer_nil.
      pose proof (trim_spec z) as Tz.
      destruct (trim z) as [|y ys]; intros Y; apply (f_equal fst) in Y; cbn [fst] in Y; subst acts.
      - eapply rs_history_set_nothing; eauto.
      - unfold outln. rewrite <- app_assoc. eapply rs_history_set; eauto. discriminate. }
    destruct (is_prefix (is_str (lit "--save")) (trim b)) eqn:P.
    - apply C48_prefix_iff_first_word in P as (a&d&(E1&Wa&Wp&Sd)).
      assert (a = []).
      { destruct (trim_is_trimmed b) as (u&v&_&_&_&H&_). rewrite E1 in H. destruct a as [|e a]; auto.
        cbn in H. inversion Wa. congruence. }
      subst a. cbn [app] in E1. rewrite E1 in C |- *. destruct (Nat.eqb_spec (blen (lit "--save" ++ d)) 6) as [L|L].
      + intros Y; apply (f_equal fst) in Y; cbn [fst] in Y; subst acts.
        assert (H : blen d = 0) by (rewrite blen_app in L; cbn in L; lia). apply blen_zero in H. subst d. rewrite app_nil_r in C.
        unfold outln. rewrite <- app_assoc. now apply rs_history_save.
      + rewrite after_app by reflexivity. rewrite answer_nil. intros Y; apply (f_equal fst) in Y; cbn [fst] in Y; subst acts.
        unfold outln. rewrite <- app_assoc. apply rs_history_save_as with d; auto.
        * intros ->. apply L. reflexivity.
        * apply trim_spec.
    - intros Y; apply (f_equal fst) in Y; cbn [fst] in Y; subst acts. unfold errln. rewrite <- !app_assoc. apply rs_history_other; auto.
      + intros d D. rewrite D in X. assert (Y : starts_with (lit "--set") (lit "--set" ++ d) = true) by (apply starts_with_spec; eauto). congruence.
      + intros d Sd D.
        assert (Pt : is_prefix (is_str (lit "--save")) (trim b) = true).
        { apply C48_prefix_iff_first_word. exists [], d. rewrite D. repeat split; auto; [constructor|discriminate|repeat constructor]. }
        congruence. }
  destruct ((str_eqb (lit ":reset") p || str_eqb (lit ":r") p) && is_nil (trim b)) eqn:Er'.
  { apply andb_true_iff in Er' as (Eb&Ez). apply is_nil_spec in Ez. intros X; apply (f_equal fst) in X; cbn [fst] in X; subst acts.
    unfold outln. rewrite <- !app_assoc. eapply rs_reset.
    - apply orb_true_iff in Eb as [Eb|Eb].
      + name_case ":reset" p; [|discriminate]. left. apply K'; auto.
      + name_case ":r" p; [|discriminate]. right. apply K'; auto.
    - apply names_are, Nd.
    - rewrite keys_length. apply show_nat_decimal. }
  destruct ((str_eqb (lit ":info") p || str_eqb (lit ":i") p || str_eqb (lit ":fixities") p) && is_nil (trim b)) eqn:Ei.
  { apply andb_true_iff in Ei as (Eb&Ez). apply is_nil_spec in Ez. intros X; apply (f_equal fst) in X; cbn [fst] in X; subst acts.
    unfold print_fixities. eapply rs_list; [|apply table_is, Nd|apply table_listed]. apply in_map_iff.
    apply orb_true_iff in Eb as [Eb|Eb]; [apply orb_true_iff in Eb as [Eb|Eb]|].
    - name_case ":info" p; [|discriminate]. exists ":info". split; [symmetry; apply K'; auto|cbn; auto].
    - name_case ":i" p; [|discriminate]. exists ":i". split; [symmetry; apply K'; auto|cbn; auto].
    - name_case ":fixities" p; [|discriminate]. exists ":fixities". split; [symmetry; apply K'; auto|cbn; auto]. }
  destruct (str_eqb (lit ":info") p || str_eqb (lit ":i") p) eqn:Ej.
  { assert (Q : exists name, (name = ":info" \/ name = ":i") /\ p = lit name /\ is_word name = true).
    { apply orb_true_iff in Ej as [Ej|Ej]; [name_case ":info" p|name_case ":i" p]; try discriminate; eauto. }
    destruct Q as (name&Q&->&Wn). pose proof (proj2 (K name _ Wn) (conj eq_refl eq_refl)) as C.
    assert (Nb : trim b <> []).
    { intros X. rewrite X in Ei. cbn [is_nil] in Ei. rewrite andb_true_r in Ei. apply orb_false_iff in Ei as (Ei&_). congruence. }
    intros X; apply (f_equal fst) in X; cbn [fst] in X; subst acts. unfold info. cbv zeta.
    set (ws := split_whitespace _). set (os := map as_infix ws).
    assert (Wl : word_list (filter (fun c => negb (is_paren c)) (trim b)) ws) by (apply filter_around; now apply split_whitespace_iff).
    pose proof (operators_meant (filter (fun c => negb (is_paren c)) b)) as Om. fold ws in Om. fold os in Om.
    pose proof (picks (r_fix (s_res s)) os) as Pk. pose proof (entries_found (r_fix (s_res s)) os) as Ef.
    destruct (filter (fun o => negb (has (r_fix (s_res s)) o)) os) as [|o missing] eqn:Em.
    - eapply rs_info; eauto; [apply table_is, Nd|apply entries_listed].
    - rewrite commaed_shown. eapply rs_info_missing; eauto; [apply table_is, Nd|discriminate|apply entries_listed|apply operators_shown]. }
  name_case ":load" p.
  { clear Un. pose proof (proj2 (K ":load" _ eq_refl) (conj eq_refl eq_refl)) as C. unfold cmd_load.
    destruct (is_nil (trim b)) eqn:Y.
    { apply is_nil_spec in Y. rewrite Y in C. intros X; injection X as <- _. now apply rs_load_nothing. }
    destruct (str_eqb_spec (trim b) (lit "--prelude")) as [Y1|N1].
    { rewrite Y1 in C. pose proof (prelude_count (s_res s)) as Kn. destruct (load_hs_prelude (s_res s)) as (r&kn). cbn [snd] in Kn. subst kn.
      intros X; apply (f_equal fst) in X; cbn [fst] in X; subst acts. exact (rs_load_prelude _ _ _ _ _ _ C). }
    destruct (str_eqb_spec (trim b) (lit "--math")) as [Y2|N2].
    { rewrite Y2 in C. pose proof (math_count (s_res s)) as Kn. destruct (load_arithmetic (s_res s)) as (r&kn). cbn [snd] in Kn. subst kn.
      intros X; apply (f_equal fst) in X; cbn [fst] in X; subst acts. exact (rs_load_math _ _ _ _ _ _ C). }
    intros X. destruct Hst as [->|(s'&->)]; [elim (read_files_ended _ _ _ _ _ X)|].
    assert (Wl : word_list (trim b) (split_whitespace (trim b))) by now apply split_whitespace_iff.
    eapply rs_load; eauto.
    - intros Y'. rewrite Y' in Y. discriminate.
    - eapply loading_spec with (s := s); eauto; [|split; auto].
      intros i q0 q x t Nth Po Rd L. eapply Ty; eauto. exists (trim b), (split_whitespace (trim b)), q0. auto 10. }
  name_case ":shell" p.
  { clear Un. pose proof (proj2 (K ":shell" _ eq_refl) (conj eq_refl eq_refl)) as C. unfold cmd_shell. rewrite <- split_trim.
    assert (Wl : word_list (trim b) (split_whitespace (trim b))) by now apply split_whitespace_iff.
    destruct (split_whitespace (trim b)) as [|g gs] eqn:Y; intros X; apply (f_equal fst) in X; cbn [fst] in X; subst acts.
    - assert (H : trim b = []).
      { inversion Wl as [? Wt|]; subst. destruct (trim_is_trimmed b) as (u&v&_&_&_&H&_).
        destruct (trim b); auto. inversion Wt. congruence. }
      rewrite H in C. now apply rs_shell_nothing.
    - destruct (w_spawn w g gs) as [o|e] eqn:Ew; [eapply rs_shell; eauto|eapply rs_shell_failed; eauto]. }
  intros X; apply (f_equal fst) in X; cbn [fst] in X; subst acts. unfold unknown_command, errln. rewrite <- !app_assoc.
  apply rs_unknown. apply Un; auto.
  - intros m I X. apply orb_false_iff in Ej as (J1&J2). subst p. cbn in I.
    repeat (destruct I as [<-|I]; [first [contradiction|discriminate J1|discriminate J2]|]). destruct I.
  - intros m I (X&Xb). rewrite Xb in *. cbn [is_nil] in *. rewrite andb_true_r in *. subst p. clear -I Eh Er' Ei. cbn in I.
    repeat (destruct I as [<-|I]; [discriminate|]). destruct I.
Qed.
End WithUcd.
