(** What each command does. *)
From Coq Require Import List Arith NArith Bool String Lia.
From Verif Require Import Prelim Chars Syntax Fixity Style Lexer Parser Printer Grapheme Messages Repl
  SpecGrapheme SpecLexer SpecParser SpecFixity SpecRepl ProofBytes ProofTable ProofRewrite ProofResolve ProofResolve2
  ProofFixity ProofGrapheme PropsGrapheme ProofRepl ProofRepl2 ProofRepl3 ProofRepl4 ProofRepl5 ProofRepl6.
Import ListNotations.
Local Open Scope string_scope.
Local Open Scope list_scope.

Definition writes (a : action) : bool := match a with AOut _ | AErr _ => true | _ => false end.
Definition deeds (acts : list action) : list action := filter (fun a => negb (writes a)) acts.

Lemma deeds_app a b : deeds (a ++ b) = deeds a ++ deeds b.
Proof. apply filter_app. Qed.

Section WithUcd.
Context {U : ucd}.

Lemma read_file_deeds w k s q acts st : read_file w k s q = (acts, st) -> deeds acts = [ARead q].
Proof.
  unfold read_file. destruct (w_read w k q) as [x|e]; [|intros E; injection E as <- _; reflexivity].
  destruct (feed_input (s_res s) (relevant q x)) as [(r&[a|e])|p|]; cbn [answer]; try (intros E; injection E as <- _; reflexivity).
  destruct (show_error_with_path e q); cbn; intros E; injection E as <- _; reflexivity.
Qed.

Lemma read_files_deeds w ps : forall k s acts s', read_files w k s ps = (acts, Running s') ->
  exists qs, Forall2 path_of ps qs /\ deeds acts = map ARead qs.
Proof.
  induction ps as [|p ps IH]; intros k s acts s'; cbn [read_files].
  - intros E. injection E as <- _. exists []. split; auto.
  - destruct (unquote_total p) as (q&Q). rewrite Q, answer_nil. apply unquote_iff in Q.
    destruct (read_file w k s q) as (a1&st1) eqn:R. apply read_file_deeds in R. destruct st1 as [s1| | |]; try discriminate.
    destruct (read_files w (S k) s1 ps) as (a2&st2) eqn:R2. intros E. injection E as <- ->.
    apply IH in R2 as (qs&F&D). exists (q :: qs). split; [now constructor|]. now rewrite deeds_app, R, D.
Qed.

(** The reason for a word command's effect. *)
Lemma effect_inv h c p b as_ : (forall n arg, is_word n = true -> (command c n arg <-> p = lit n /\ arg = trim b)) ->
  effect h c as_ ->
  (p = lit ":cd" /\ trim b <> []) \/ (p = lit ":shell" /\ trim b <> []) \/
  (p = lit ":load" /\ trim b <> [] /\ trim b <> lit "--prelude" /\ trim b <> lit "--math") \/
  (p = lit ":clear" /\ In (trim b) [lit "--history"; lit "--session"; lit "--history --fixities"; lit "--fixities --history"]) \/
  (p = lit ":history" /\ (trim b = lit "--clear" \/ trim b = lit "--clear --file" \/ exists d, trim b = lit "--save" ++ d /\ starts_white d)) \/
  (c = lit ":q" \/ c = lit ":quit").
Proof.
  intros K0. assert (K : forall n arg, command c n arg -> is_word n = true -> p = lit n /\ arg = trim b) by (intros n arg C Wn; apply K0; auto).
  clear K0. intros [x Nx C|arg prog args C Wl|arg ps qs C N1 N2 N3 Wl F|Fg|C|C|d x C Nd Sd T|C].
  - destruct (K _ _ C eq_refl) as (->&->). auto.
  - destruct (K _ _ C eq_refl) as (->&->). right; left. split; auto. intros E. rewrite E in Wl.
    apply split_whitespace_iff in Wl. discriminate.
  - destruct (K _ _ C eq_refl) as (->&->). auto 10.
  - destruct Fg as [C|(o&C&I)].
    + destruct (K _ _ C eq_refl) as (->&<-). auto 10.
    + destruct (K _ _ C eq_refl) as (->&->). auto 10.
  - destruct (K _ _ C eq_refl) as (->&<-). auto 10.
  - destruct (K _ _ C eq_refl) as (->&<-). do 4 right; left. split; auto. right; right. exists []. split; [reflexivity|exact I].
  - destruct (K _ _ C eq_refl) as (->&<-). do 4 right; left. split; auto. right; right. eauto.
  - auto 10.
Qed.

Lemma split_trim b : split_whitespace (trim b) = split_whitespace b.
Proof.
  assert (H : forall l ws, word_list l ws -> forall a, white a -> word_list (a ++ l) ws).
  { intros l ws H a Wa. destruct H as [l W|l x p d ws (->&Wx&Wp&Sd) W].
    - constructor. apply Forall_app; auto.
    - apply (wl_cons _ (a ++ x) p d); [|eauto]. split; [apply app_assoc|]. split; auto. apply Forall_app; auto. }
  assert (G : forall l ws, word_list l ws -> forall z, white z -> word_list (l ++ z) ws).
  { induction 1 as [l W|l x p d ws (->&Wx&Wp&Sd) W IH]; intros z Wz.
    - constructor. apply Forall_app; auto.
    - apply (wl_cons _ x p (d ++ z)); [|apply IH; eauto]. split; [rewrite <- !app_assoc; reflexivity|]. repeat split; auto; try apply Wp.
      destruct d; auto. destruct z; cbn; auto. inversion Wz; auto. }
  destruct (trim_spec b) as (x&y&E&Wx&Wy&_). symmetry. apply split_whitespace_iff. rewrite E at 1.
  apply H; auto. apply G; auto. now apply split_whitespace_iff.
Qed.

Ltac str_case a p := destruct (str_eqb_spec (lit a) p) as [<-|?].

Lemma command_deeds w s c acts st : trimmed c c -> starts 58 c -> read_command w s c = (acts, st) ->
  st = Ended \/ (exists s', st = Running s') -> performs (s_hist s) c (deeds acts).
Proof.
  intros T S1 Rd Hst. destruct (command_shape c T S1) as (p&b&E&W&B&Z&K&K').
  rewrite (run_command w s c p b) in Rd by auto. revert Rd. unfold dispatch.
  pose proof (fun as' => effect_inv (s_hist s) c p b as' K) as Inv.
  assert (Kq : c = lit ":q" \/ c = lit ":quit" -> (p = lit ":q" \/ p = lit ":quit") /\ trim b = []).
  { intros [X|X]; apply K' in X as (->&->); auto. }
  assert (Stop : forall as', p <> lit ":cd" -> p <> lit ":shell" -> p <> lit ":load" -> p <> lit ":clear" -> p <> lit ":history" ->
    p <> lit ":q" -> p <> lit ":quit" -> ~ effect (s_hist s) c as').
  { intros as' H1 H2 H3 H4 H5 H6 H7 Ef. apply Inv in Ef. intuition. }
  str_case ":cd" p.
  { unfold cmd_cd. destruct (trim b) as [|x y] eqn:Eb.
    - intros X; injection X as <- _. right. split; auto. intros as' Ef. apply Inv in Ef.
      intuition discriminate.
    - intros X; injection X as <- _. left. replace (deeds _) with [AChdir (x :: y)] by (destruct (w_chdir w (x :: y)); reflexivity).
      apply ef_cd; [discriminate|]. apply K; auto. }
  destruct ((str_eqb (lit ":help") p || str_eqb (lit ":h") p || str_eqb (lit ":?") p) && is_nil (trim b)) eqn:Eh.
  { intros X; injection X as <- _. right. split; auto. intros as' Ef.
    assert (Q : p = lit ":help" \/ p = lit ":h" \/ p = lit ":?").
    { apply andb_true_iff in Eh as (Eh&_). apply orb_true_iff in Eh as [Eh|Eh]; [apply orb_true_iff in Eh as [Eh|Eh]|];
      [str_case ":help" p|str_case ":h" p|str_case ":?" p]; auto; discriminate. }
    revert Ef. apply Stop; destruct Q as [->|[->| ->]]; discriminate. }
  destruct (str_eqb (lit ":q") p || str_eqb (lit ":quit") p) eqn:Eq.
  { assert (Q : p = lit ":q" \/ p = lit ":quit").
    { apply orb_true_iff in Eq as [Eq|Eq]; [str_case ":q" p|str_case ":quit" p]; auto; discriminate. }
    clear Eq Eh. unfold cmd_quit.
    assert (Kn : c <> lit ":q" -> c <> lit ":quit" -> forall as', ~ effect (s_hist s) c as').
    { intros N1 N2 as' Ef. apply Inv in Ef. destruct Q as [->| ->]; intuition discriminate. }
    destruct (str_eqb_spec c (lit ":quit")) as [->|N1]; cbn [orb]; [intros X; injection X as <- _; left; apply ef_leave; auto|].
    destruct (str_eqb_spec c (lit ":q")) as [->|N2]; [intros X; injection X as <- _; left; apply ef_leave; auto|].
    destruct (_ || _); intros X; injection X as <- _; right; split; auto. }
  apply orb_false_iff in Eq as (Q1&Q2). str_case ":q" p; [discriminate|]. str_case ":quit" p; [discriminate|]. clear Q1 Q2.
  assert (Nq : c <> lit ":q" /\ c <> lit ":quit") by (split; intros X; apply K' in X as (->&_); auto).
  str_case ":clear" p.
  { unfold cmd_clear, clear.
    assert (Yes : forall o, trim b = o -> In o [lit "--history"; lit "--session"; lit "--history --fixities"; lit "--fixities --history"] ->
      performs (s_hist s) c [AClearHistory]).
    { intros o Eo I. left. apply ef_forget. right. exists o. split; auto. apply K; auto. }
    assert (No : ~ In (trim b) [lit "--history"; lit "--session"; lit "--history --fixities"; lit "--fixities --history"] ->
      performs (s_hist s) c []).
    { intros I. right. split; auto. intros as' Ef. apply Inv in Ef. intuition discriminate. }
    destruct (str_eqb_spec (trim b) (lit "--history")) as [X|X1]; [intros Y; injection Y as <- _; eapply Yes; eauto; cbn; tauto|].
    destruct (str_eqb_spec (trim b) (lit "--fixities")) as [X|X2];
      [intros Y; injection Y as <- _; apply No; rewrite X; cbn; intuition discriminate|].
    destruct (str_eqb_spec (trim b) (lit "--session")) as [X|X3]; [intros Y; injection Y as <- _; eapply Yes; eauto; cbn; tauto|].
    destruct (str_eqb_spec (trim b) (lit "--history --fixities")) as [X|X4]; [intros Y; injection Y as <- _; eapply Yes; eauto; cbn; tauto|].
    destruct (str_eqb_spec (trim b) (lit "--fixities --history")) as [X|X5]; [intros Y; injection Y as <- _; eapply Yes; eauto; cbn; tauto|].
    intros Y; injection Y as <- _. apply No. intros [X|[X|[X|[X|[]]]]]; symmetry in X; contradiction. }
  str_case ":history" p.
  { unfold cmd_history.
    assert (No : trim b <> lit "--clear" -> trim b <> lit "--clear --file" ->
      (forall d, trim b = lit "--save" ++ d -> starts_white d -> False) -> performs (s_hist s) c []).
    { intros X1 X2 X3. right. split; auto. intros as' Ef. apply Inv in Ef.
      destruct Ef as [(X&_)|[(X&_)|[(X&_)|[(X&_)|[(_&[X|[X|(d&X&Y)]])|X]]]]]; try discriminate; eauto. tauto. }
    destruct (str_eqb_spec (trim b) (lit "--clear")) as [X|X1].
    { intros Y; injection Y as <- _. left. apply ef_forget. left. apply K; auto. }
    destruct (str_eqb_spec (trim b) (lit "--clear --file")) as [X|X2].
    { intros Y; injection Y as <- _. left. apply ef_clear_file. apply K; auto. }
    destruct (starts_with (lit "--set") (trim b)) eqn:X.
    { apply starts_with_spec in X as (z&X). rewrite X, after_app by reflexivity. rewrite answer_nil.
      assert (performs (s_hist s) c []) by (apply No; auto; rewrite X; intros d D; discriminate).
      destruct (trim z); intros Y; injection Y as <- _; auto. }
    destruct (is_prefix (is_str (lit "--save")) (trim b)) eqn:P.
    - apply C48_prefix_iff_first_word in P as (a&d&(E1&Wa&Wp&Sd)).
      assert (a = []).
      { destruct (trim_is_trimmed b) as (u&v&_&_&_&H&_). rewrite E1 in H. destruct a as [|e a]; auto.
        cbn in H. inversion Wa. congruence. }
      subst a. cbn [app] in E1. rewrite E1. destruct (Nat.eqb_spec (blen (lit "--save" ++ d)) 6) as [L|L].
      + intros Y; injection Y as <- _. left. apply ef_save. apply K; auto. split; auto. rewrite E1.
        assert (blen d = 0) by (rewrite blen_app in L; cbn in L; lia). apply blen_zero in H. subst. reflexivity.
      + rewrite after_app by reflexivity. rewrite answer_nil. intros Y; injection Y as <- _. left.
        apply ef_save_as with d; auto.
        * apply K; auto.
        * intros ->. apply L. reflexivity.
        * apply trim_spec.
    - intros Y; injection Y as <- _. apply No; auto. intros d D Sd.
      assert (Pt : is_prefix (is_str (lit "--save")) (trim b) = true).
      { apply C48_prefix_iff_first_word. exists [], d. rewrite D. repeat split; auto; [constructor|discriminate|repeat constructor]. }
      congruence. }
  assert (Rest : p <> lit ":load" -> p <> lit ":shell" -> performs (s_hist s) c []).
  { intros N1 N2. right. split; auto. }
  assert (Few : forall l, (p = lit ":reset" \/ p = lit ":r" \/ p = lit ":info" \/ p = lit ":i" \/ p = lit ":fixities") -> l = [] -> performs (s_hist s) c l).
  { intros l Q ->. apply Rest; destruct Q as [->|[->|[->|[->| ->]]]]; discriminate. }
  destruct ((str_eqb (lit ":reset") p || str_eqb (lit ":r") p) && is_nil (trim b)) eqn:Er.
  { intros X; injection X as <- _. apply Few; [|reflexivity]. apply andb_true_iff in Er as (Er&_).
    apply orb_true_iff in Er as [Er|Er]; [str_case ":reset" p|str_case ":r" p]; auto; discriminate. }
  destruct ((str_eqb (lit ":info") p || str_eqb (lit ":i") p || str_eqb (lit ":fixities") p) && is_nil (trim b)) eqn:Ei.
  { intros X; injection X as <- _. apply Few; [|reflexivity]. apply andb_true_iff in Ei as (Ei&_).
    apply orb_true_iff in Ei as [Ei|Ei]; [apply orb_true_iff in Ei as [Ei|Ei]|];
      [str_case ":info" p|str_case ":i" p|str_case ":fixities" p]; auto 10; discriminate. }
  destruct (str_eqb (lit ":info") p || str_eqb (lit ":i") p) eqn:Ej.
  { intros X; injection X as <- _.
    apply Few.
    - apply orb_true_iff in Ej as [Ej|Ej]; [str_case ":info" p|str_case ":i" p]; auto 10; discriminate.
    - unfold info. match goal with |- context [match ?x with [] => [] | o :: os => _ end] => destruct x end; reflexivity. }
  str_case ":load" p.
  { unfold cmd_load.
    assert (No : trim b = [] \/ trim b = lit "--prelude" \/ trim b = lit "--math" -> performs (s_hist s) c []).
    { intros X. right. split; auto. intros as' Ef. apply Inv in Ef.
      intuition try discriminate. }
    destruct (is_nil (trim b)) eqn:Y; [apply is_nil_spec in Y; intros X; injection X as <- _; auto|].
    destruct (str_eqb_spec (trim b) (lit "--prelude")) as [Y1|N1].
    { destruct (load_hs_prelude (s_res s)). intros X; injection X as <- _; auto. }
    destruct (str_eqb_spec (trim b) (lit "--math")) as [Y2|N2].
    { destruct (load_arithmetic (s_res s)). intros X; injection X as <- _; auto. }
    intros X. destruct Hst as [->|(s'&->)].
    - exfalso. clear -X. revert X. generalize 0, s, acts. induction (split_whitespace (trim b)) as [|p ps IH]; intros k s0 a; cbn [read_files].
      + discriminate.
      + destruct (unquote p) as [q| |]; cbn [answer]; try discriminate.
        assert (R : forall a2 st2, read_file w k s0 q = (a2, st2) -> st2 <> Ended).
        { clear. unfold read_file. intros a2 st2. destruct (w_read w k q); [|intros X; injection X as _ <-; discriminate].
          destruct (feed_input _ _) as [(r&[y|y])| |]; cbn [answer]; try (intros X; injection X as _ <-; discriminate).
          destruct (show_error_with_path y q); cbn; intros X; injection X as _ <-; discriminate. }
        destruct (read_file w k s0 q) as (a1&st1) eqn:Rf. specialize (R _ _ eq_refl). destruct st1 as [s1| | |]; try congruence; try discriminate.
        destruct (read_files w (S k) s1 ps) as (a2&st2) eqn:R2. cbn. intros X. injection X as _ ->. eapply IH; eauto.
    - apply read_files_deeds in X as (qs&F&->). left. apply ef_load with (trim b) (split_whitespace (trim b)); auto.
      + apply K; auto.
      + intros Y'. rewrite Y' in Y. discriminate.
      + now apply split_whitespace_iff. }
  str_case ":shell" p.
  { unfold cmd_shell. rewrite <- split_trim. destruct (split_whitespace (trim b)) as [|g gs] eqn:Y; intros X; injection X as <- _.
    - right. split; auto. intros as' Ef. assert (trim b = []).
      { apply split_whitespace_iff in Y. inversion Y as [? Wt|]; subst. destruct (trim_is_trimmed b) as (u&v&_&_&_&H&_).
        destruct (trim b); auto. inversion Wt. congruence. }
      apply Inv in Ef. rewrite H in Ef. intuition discriminate.
    - left. replace (deeds _) with [ASpawn g gs] by (destruct (w_spawn w g gs); reflexivity).
      apply ef_shell with (trim b); [apply K; auto|now apply split_whitespace_iff]. }
  intros X; injection X as <- _. apply Rest; auto.
Qed.

(** The path of the history. *)
Lemma command_history w s c acts s' : trimmed c c -> starts 58 c -> read_command w s c = (acts, Running s') ->
  history_path (s_hist s) c (s_hist s').
Proof.
  intros T S1 Rd. destruct (command_shape c T S1) as (p&b&E&W&B&Z&K&K').
  assert (Kept : p <> lit ":history" -> history_path (s_hist s) c (s_hist s)).
  { intros N. apply hp_kept. intros d x C _. apply K in C as (->&_); [|reflexivity]. congruence. }
  destruct (list_eq_dec N.eq_dec p (lit ":history")) as [Ep|Np].
  - rewrite (run_command w s c p b) in Rd by auto. subst p. unfold dispatch in Rd.
    replace (str_eqb (lit ":cd") _) with false in Rd by reflexivity.
    replace ((_ || _ || _) && _) with false in Rd by reflexivity.
    replace (str_eqb (lit ":q") _ || _) with false in Rd by reflexivity.
    replace (str_eqb (lit ":clear") _) with false in Rd by reflexivity.
    replace (str_eqb (lit ":history") _) with true in Rd by reflexivity.
    unfold cmd_history in Rd.
    assert (No : (forall z, trim b <> lit "--set" ++ z) -> history_path (s_hist s) c (s_hist s)).
    { intros N. apply hp_kept. intros d x C _. apply K in C as (_&X); [|reflexivity]. elim (N d). auto. }
    destruct (str_eqb_spec (trim b) (lit "--clear")) as [X|X1];
      [injection Rd as _ <-; apply No; rewrite X; discriminate|].
    destruct (str_eqb_spec (trim b) (lit "--clear --file")) as [X|X2];
      [injection Rd as _ <-; apply No; rewrite X; discriminate|].
    destruct (starts_with (lit "--set") (trim b)) eqn:X.
    + apply starts_with_spec in X as (z&X). rewrite X, after_app, answer_nil in Rd by reflexivity.
      destruct (trim z) as [|u v] eqn:Tz; injection Rd as _ <-.
      * apply hp_kept. intros d x C Td. apply K in C as (_&Y); [|reflexivity]. rewrite X in Y.
        apply app_inv_head in Y. subst. rewrite <- Tz. symmetry. now apply trim_unique.
      * apply hp_set with z; [|rewrite <- Tz; apply trim_spec|discriminate]. apply K; auto.
    + assert (N : forall z, trim b <> lit "--set" ++ z) by (intros z Y; rewrite Y, starts_with_app in X; discriminate).
      specialize (No N).
      destruct (is_prefix _ _); [|injection Rd as _ <-; auto].
      destruct (Nat.eqb _ _); [injection Rd as _ <-; auto|].
      destruct (after 6 (trim b)); cbn in Rd; try discriminate. injection Rd as _ <-; auto.
  - assert (X : s_hist s' = s_hist s); [|rewrite X; auto].
    rewrite (run_command w s c p b) in Rd by auto. revert Rd. unfold dispatch.
    destruct (str_eqb_spec (lit ":history") p) as [|_]; [congruence|].
    assert (D : forall x y, s_hist y = s_hist s -> (x, Running y) = (acts, Running s') -> s_hist s' = s_hist s) by (intros x y Y X; injection X as _ <-; auto).
    unfold cmd_cd, cmd_quit, cmd_clear, cmd_load, cmd_shell, clear.
    repeat match goal with
    | |- context [if ?b then _ else _] => destruct b
    end; try (apply D; reflexivity); try discriminate.
    all: try (destruct (load_hs_prelude (s_res s)); apply D; reflexivity).
    all: try (destruct (load_arithmetic (s_res s)); apply D; reflexivity).
    all: try (destruct (trim b); apply D; reflexivity).
    all: try (destruct (split_whitespace b); apply D; reflexivity).
    all: intros X; apply read_files_running in X; apply X.
Qed.

End WithUcd.
