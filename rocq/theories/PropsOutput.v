(** What a session shows: C59 to C62. *)
From Coq Require Import List Arith NArith Bool String Lia.
From Verif Require Import Prelim Chars Syntax Fixity Style Lexer Parser Printer Grapheme Messages Repl
  SpecGrapheme SpecLexer SpecParser SpecFixity SpecStyle SpecPrinter SpecRepl ProofGrapheme ProofTable PropsLexer
  ProofRepl ProofRepl2 ProofRepl3 ProofRepl4 ProofRepl5 ProofRepl6 ProofRepl9 PropsRepl SpecOutput ProofOutput ProofOutput2 ProofOutput3.
Import ListNotations.
Local Open Scope string_scope.
Local Open Scope list_scope.

Section WithUcd.
Context {U : ucd}.

(** ** C59: the prompt *)

Lemma prompt_after_unique p e q1 q2 : prompt_after p e q1 -> prompt_after p e q2 -> q1 = q2.
Proof.
  set (mark := fun t : str => (starts 58 t \/ t = [], starts 123 t, ends 92 t, ends 125 t)).
  assert (So : forall l x, opening l x -> trim l <> [] /\ starts 123 (trim l) /\ ~ ends 92 (trim l) /\ ~ ends 125 (trim l)).
  { intros l x (n&T&N1&N2&N3). rewrite (trim_trimmed _ _ T). split; [discriminate|]. split; [eexists; reflexivity|].
    assert (A : forall c, c <> 123%N -> ~ ends c x -> ~ ends c (repeat 123%N (S n) ++ x)).
    { intros c Nc Ne En. destruct x as [|y x].
      - rewrite app_nil_r in En. destruct En as (z&Z). apply (f_equal (@rev N)) in Z. rewrite rev_repeat, rev_app_distr in Z. cbn in Z.
        injection Z as Z _. congruence.
      - apply Ne. eapply ends_app_inv; eauto. discriminate. }
    split; apply A; auto; discriminate. }
  assert (Sc : forall l, closing l -> trim l <> [] /\ starts 123 (trim l) /\ ends 125 (trim l)).
  { intros l (n&x&m&T). rewrite (trim_trimmed _ _ T). split; [discriminate|]. split; [eexists; reflexivity|].
    exists (repeat 123%N (S n) ++ x ++ repeat 125%N m). rewrite <- !app_assoc. do 2 f_equal. clear. induction m; cbn in *; congruence. }
  assert (Sp : forall l, plain_line l -> trim l <> [] /\ ~ starts 58 (trim l) /\ ~ starts 123 (trim l) /\ ~ ends 92 (trim l)).
  { intros l (x&T&N). rewrite (trim_trimmed _ _ T). exact N. }
  assert (Sb : forall l, backslashed l -> trim l <> [] /\ ~ starts 58 (trim l) /\ ends 92 (trim l)).
  { intros l (x&T&N). rewrite (trim_trimmed _ _ T). split; [destruct x; discriminate|]. split; [|eexists; reflexivity].
    intros (y&Y). destruct x as [|c x]; [discriminate|]. injection Y as -> _. apply N. eexists; reflexivity. }
  assert (Sa : forall l, aside l -> trim l = [] \/ starts 58 (trim l)).
  { intros l [W|(c&T)].
    - left. apply trim_trimmed. exists l, []. rewrite !app_nil_r. repeat split; auto; [constructor|cbn; auto..].
    - right. rewrite (trim_trimmed _ _ T). eexists; reflexivity. }
  assert (X1 : forall t, starts 58 t -> ~ starts 123 t) by (intros t (a&->) (b&B); discriminate).
  assert (X2 : forall t, ends 92 t -> ~ ends 125 t).
  { intros t (a&->) (b&B). apply app_inj_tail in B as (_&B). discriminate. }
  clear mark. intros H1 H2.
  destruct H1 as [w l x A|w l A|w l A|w l A|w l A|m]; inversion H2 as [w' l' x' B|w' l' B|w' l' B|w' l' B|w' l' B|m' B]; subst; auto;
    try apply So in A; try apply Sc in A; try apply Sp in A; try apply Sb in A; try apply Sa in A;
    try apply So in B; try apply Sc in B; try apply Sp in B; try apply Sb in B; try apply Sa in B;
    pose proof (X1 (trim l)); pose proof (X2 (trim l)); exfalso; tauto.
Qed.

(** The first prompt, and how each event changes the prompt. *)
Theorem C59_prompt : forall h, prompt_str (session_new h) = first_prompt /\
  forall s e acts s', step s e = (acts, Running s') ->
    prompt_after (prompt_str s) e (prompt_str s') /\
    forall q, prompt_after (prompt_str s) e q -> q = prompt_str s'.
Proof.
  intros h. split; [reflexivity|]. intros s e acts s' E. pose proof (prompt_step _ _ _ _ E) as P. split; auto.
  intros q Q. eapply prompt_after_unique; eauto.
Qed.

(** Histories of a certain kind; the boolean tells whether text is pending. *)
Inductive orderly : bool -> list event -> Prop :=
| or_nil b : orderly b []
| or_failed b m es : orderly b es -> orderly b (Failed m :: es)
| or_aside b w l es : aside l -> orderly b es -> orderly b (Line w l :: es)
| or_open b w l x es : opening l x -> x <> [] -> orderly true es -> orderly b (Line w l :: es)
| or_plain b w l es : plain_line l -> orderly false es -> orderly b (Line w l :: es)
| or_close w l es : closing l -> orderly false es -> orderly false (Line w l :: es).

(** The second prompt says that text is pending. *)
Theorem C59_pending_partial : forall h es acts s, orderly false es -> run (session_new h) es = (acts, Running s) ->
  (prompt_str s = second_prompt <-> s_buf s <> []) /\ (prompt_str s = first_prompt <-> s_buf s = []).
Proof.
  intros h es acts s O R.
  assert (G : forall b es, orderly b es -> forall s0 acts s, s_cont s0 = b -> (b = true <-> s_buf s0 <> []) ->
    run s0 es = (acts, Running s) -> s_cont s = true <-> s_buf s <> []).
  { clear. intros b es O. induction O as [b|b m es O IH|b w l es A O IH|b w l x es A Nx O IH|b w l es A O IH|w l es A O IH];
      intros s0 acts s Ec Eb R; cbn [run] in R.
    - injection R as _ <-. now rewrite Ec.
    - destruct (step s0 (Failed m)) as (a1&st1) eqn:St. cbn [step] in St. injection St as <- <-.
      destruct (run s0 es) as (a2&st2) eqn:R2. injection R as _ ->. eapply IH; eauto.
    - destruct (step s0 (Line w l)) as (a1&[s1| | |]) eqn:St; try discriminate.
      destruct (run s1 es) as (a2&st2) eqn:R2. injection R as _ ->.
      assert (Re : reads l Nothing \/ exists c, reads l (Command c)).
      { destruct A as [W|(c&T)]; [left; now apply rd_blank|right; eexists; apply rd_command; exact T]. }
      assert (K : s_cont s1 = s_cont s0 /\ (s_buf s1 = [] <-> s_buf s0 = [])).
      { cbn [step] in St. destruct Re as [Re|(c&Re)]; rewrite (line_reads _ _ _ _ Re) in St; cbn [react] in St.
        - injection St as _ <-. tauto.
        - destruct (s_buf s0) eqn:B; cbn [is_nil] in St; [|injection St as _ <-; rewrite B; split; [reflexivity|split; discriminate]].
          destruct (read_command_running w s0 c a1 s1) as (X&Y); auto. rewrite X, Y. tauto. }
      destruct K as (K1&K2). eapply IH; [| |exact R2]; [congruence|]. destruct b; intuition congruence.
    - destruct (step s0 (Line w l)) as (a1&[s1| | |]) eqn:St; try discriminate.
      destruct (run s1 es) as (a2&st2) eqn:R2. injection R as _ ->.
      assert (Re : reads l (Hold x)) by (destruct A as (n&T&N); eapply rd_open; tauto || (destruct N as (N1&N2&N3); eauto)).
      pose proof (C59_prompt [] ) as (_&P). destruct (P _ _ _ _ St) as (_&Q). specialize (Q _ (pa_open _ w l x A)).
      destruct (C51_line w s0 l _ Re) as (s'&E'&B'&_). rewrite St in E'. injection E' as -> <-.
      eapply IH; [| |exact R2].
      + rewrite prompt_of in Q. destruct (s_cont s1); [reflexivity|discriminate].
      + rewrite B'. split; auto. intros _ X. apply app_eq_nil in X as (_&X). contradiction.
    - destruct (step s0 (Line w l)) as (a1&[s1| | |]) eqn:St; try discriminate.
      destruct (run s1 es) as (a2&st2) eqn:R2. injection R as _ ->.
      assert (Re : exists x, reads l (Say x)) by (destruct A as (x&T&N1&N2&N3&N4); exists x; now apply rd_plain).
      destruct Re as (x&Re).
      pose proof (C59_prompt [] ) as (_&P). destruct (P _ _ _ _ St) as (_&Q). specialize (Q _ (pa_plain _ w l A)).
      destruct (C51_line w s0 l _ Re _ _ St) as (B'&_).
      eapply IH; [| |exact R2].
      + rewrite prompt_of in Q. destruct (s_cont s1); [discriminate|reflexivity].
      + rewrite B'. split; [discriminate|]. congruence.
    - destruct (step s0 (Line w l)) as (a1&[s1| | |]) eqn:St; try discriminate.
      destruct (run s1 es) as (a2&st2) eqn:R2. injection R as _ ->.
      pose proof (C59_prompt [] ) as (_&P). destruct (P _ _ _ _ St) as (_&Q). specialize (Q _ (pa_close _ w l A)).
      assert (Re : exists x, reads l (Say x)).
      { destruct (reads_total l) as (re&Re). pose proof (prompt_after_unique (prompt_str s0) (Line w l)) as Un.
        destruct A as (n&x&m&T). pose proof (trim_trimmed _ _ T) as Et.
        assert (En : ends 125 (trim l)).
        { rewrite Et. exists (repeat 123%N (S n) ++ x ++ repeat 125%N m). rewrite <- !app_assoc. do 2 f_equal. clear. induction m; cbn in *; congruence. }
        assert (N92 : forall y, trim l <> y ++ [92%N]).
        { intros y Y. rewrite Y in En. destruct En as (z&Z). apply app_inj_tail in Z as (_&Z). discriminate. }
        inversion Re as [l0 W|l0 c H|l0 y H|l0 y H|l0 k y H H1 H2 H3|l0 k y j H|l0 y H]; subst l0 re; eauto; exfalso.
        - assert (X : trim l = []).
          { apply trim_trimmed. exists l, []. rewrite !app_nil_r. repeat split; auto; [constructor|cbn; auto..]. }
          rewrite Et in X. discriminate.
        - pose proof (trim_trimmed _ _ H) as X. rewrite Et in X. discriminate.
        - pose proof (trim_trimmed _ _ H) as X. apply (N92 (lit "infix" ++ y ++ [32%N])). rewrite X. rewrite <- !app_assoc. reflexivity.
        - pose proof (trim_trimmed _ _ H) as X. apply (N92 y X).
        - rewrite (trim_trimmed _ _ H) in En. destruct y as [|d y].
          + rewrite app_nil_r in En. destruct En as (z&Z). apply (f_equal (@rev N)) in Z. rewrite rev_repeat, rev_app_distr in Z. discriminate.
          + apply H3. eapply ends_app_inv; eauto. discriminate. }
      destruct Re as (x&Re).
      destruct (C51_line w s0 l _ Re _ _ St) as (B'&_).
      eapply IH; [| |exact R2].
      + rewrite !prompt_of, Ec in Q. destruct (s_cont s1); [discriminate|reflexivity].
      + rewrite B'. split; [discriminate|]. congruence. }
  specialize (G false es O (session_new h) acts s eq_refl ltac:(cbn; split; [discriminate|congruence]) R).
  rewrite prompt_of. destruct (s_cont s) eqn:E.
  - split; split; auto; try (intros; discriminate); [intros _; now apply G|]. intros B. apply G in B; [contradiction|reflexivity].
  - assert (B : s_buf s = []) by (destruct (s_buf s); auto; assert (false = true) by (apply G; discriminate); discriminate).
    split; split; auto; try (intros; discriminate). congruence.
Qed.

(** Exactly when the prompt is right: after each event, in terms of whether it
    was right before. *)
Definition told (s : session) : Prop := prompt_str s = second_prompt <-> s_buf s <> [].

Lemma closing_says l : closing l -> exists x, reads l (Say x).
Proof.
  intros A. destruct (reads_total l) as (re&Re).
  destruct A as (n&x&m&T). pose proof (trim_trimmed _ _ T) as Et.
  assert (En : ends 125 (trim l)).
  { rewrite Et. exists (repeat 123%N (S n) ++ x ++ repeat 125%N m). rewrite <- !app_assoc. do 2 f_equal. clear. induction m; cbn in *; congruence. }
  assert (N92 : forall y, trim l <> y ++ [92%N]).
  { intros y Y. rewrite Y in En. destruct En as (z&Z). apply app_inj_tail in Z as (_&Z). discriminate. }
  inversion Re as [l0 W|l0 c H|l0 y H|l0 y H|l0 k y H H1 H2 H3|l0 k y j H|l0 y H]; subst l0 re; eauto; exfalso.
  - assert (X : trim l = []).
    { apply trim_trimmed. exists l, []. rewrite !app_nil_r. repeat split; auto; [constructor|cbn; auto..]. }
    rewrite Et in X. discriminate.
  - pose proof (trim_trimmed _ _ H) as X. rewrite Et in X. discriminate.
  - pose proof (trim_trimmed _ _ H) as X. apply (N92 (lit "infix" ++ y ++ [32%N])). rewrite X. rewrite <- !app_assoc. reflexivity.
  - pose proof (trim_trimmed _ _ H) as X. apply (N92 y X).
  - rewrite (trim_trimmed _ _ H) in En. destruct y as [|d y].
    + rewrite app_nil_r in En. destruct En as (z&Z). apply (f_equal (@rev N)) in Z. rewrite rev_repeat, rev_app_distr in Z. discriminate.
    + apply H3. eapply ends_app_inv; eauto. discriminate.
Qed.

Theorem C59_exact : forall s e acts s', step s e = (acts, Running s') ->
  match e with
  | Failed _ => told s' <-> told s
  | Line _ l =>
      (aside l -> (told s' <-> told s)) /\
      (plain_line l -> told s') /\
      (backslashed l -> ~ told s') /\
      (closing l -> (told s' <-> prompt_str s = first_prompt)) /\
      (forall x, opening l x -> (told s' <-> x <> [] \/ s_buf s <> [])) /\
      (aside l \/ plain_line l \/ backslashed l \/ closing l \/ exists x, opening l x)
  | Eof | Interrupted => False
  end.
Proof.
  intros s e acts s' E. assert (P : prompt_after (prompt_str s) e (prompt_str s') /\ forall q, prompt_after (prompt_str s) e q -> q = prompt_str s')
    by (eapply (proj2 (C59_prompt [])); eauto). destruct P as (P&Q).
  assert (NE : first_prompt <> second_prompt) by discriminate.
  destruct e as [w l| | |m]; try discriminate; [|injection E as _ <-; tauto].
  split; [|split; [|split; [|split; [|split]]]].
  - intros A.
    assert (Re : reads l Nothing \/ exists c, reads l (Command c)).
    { destruct A as [W|(c&T)]; [left; now apply rd_blank|right; eexists; apply rd_command; exact T]. }
    pose proof (Q _ (pa_aside _ w l A)) as Ep.
    assert (K : s_buf s' = [] <-> s_buf s = []).
    { cbn [step] in E. destruct Re as [Re|(c&Re)]; rewrite (line_reads _ _ _ _ Re) in E; cbn [react] in E.
      - injection E as _ <-. tauto.
      - destruct (s_buf s) eqn:B; cbn [is_nil] in E; [|injection E as _ <-; rewrite B; split; discriminate].
        destruct (read_command_running w s c acts s') as (X&Y); auto. rewrite X. tauto. }
    unfold told. rewrite <- Ep, K. tauto.
  - intros A. assert (Re : exists x, reads l (Say x)) by (destruct A as (x&T&N1&N2&N3&N4); exists x; now apply rd_plain). destruct Re as (x&Re).
    destruct (C51_line w s l _ Re _ _ E) as (B'&_). pose proof (Q _ (pa_plain _ w l A)) as Ep. unfold told. rewrite <- Ep, B'. split; [intros X; congruence|congruence].
  - intros A. pose proof (Q _ (pa_backslash _ w l A)) as Ep. unfold told. rewrite <- Ep. intros T.
    assert (Re : exists x, reads l (Hold x) /\ x <> []).
    { destruct (reads_total l) as (re&Re). destruct A as (x&Tr&N0). pose proof (trim_trimmed _ _ Tr) as Et.
      inversion Re as [l0 W|l0 c H|l0 y H|l0 y H|l0 k y H H1 H2 H3|l0 k y j H|l0 y H H1 H2 H3 H4]; subst l0 re.
      - exfalso. assert (X : trim l = []) by (apply trim_trimmed; exists l, []; rewrite !app_nil_r; repeat split; auto; [constructor|cbn; auto..]).
        rewrite Et in X. destruct x; discriminate.
      - exfalso. pose proof (trim_trimmed _ _ H) as X. rewrite Et in X. destruct x as [|d x]; [discriminate|]. injection X as -> _. apply N0. eexists. reflexivity.
      - eexists. split; [exact Re|discriminate].
      - eexists. split; [exact Re|]. destruct y; discriminate.
      - exfalso. pose proof (trim_trimmed _ _ H) as X. rewrite Et in X. destruct y as [|d y] using rev_ind.
        + rewrite app_nil_r in X. apply (f_equal (@rev N)) in X. rewrite rev_repeat, rev_app_distr in X. discriminate.
        + rewrite app_assoc in X. apply app_inj_tail in X as (_&<-). apply H2. eexists. reflexivity.
      - exfalso. pose proof (trim_trimmed _ _ H) as X. rewrite Et in X. apply (f_equal (@rev N)) in X. rewrite !rev_app_distr, rev_repeat in X. discriminate.
      - exfalso. pose proof (trim_trimmed _ _ H) as X. apply H4. exists x. congruence. }
    destruct Re as (x&Re&Nx). destruct (C51_line w s l _ Re) as (s1&E1&B1&_). rewrite E in E1. injection E1 as _ <-.
    apply NE, T. rewrite B1. intros X. apply app_eq_nil in X as (_&X). auto.
  - intros A. destruct (closing_says l A) as (x&Re). destruct (C51_line w s l _ Re _ _ E) as (B'&_). pose proof (Q _ (pa_close _ w l A)) as Ep.
    unfold told. rewrite <- Ep, B'. rewrite prompt_of. destruct (s_cont s); split; intros X; try (intuition congruence).
  - intros x A.
    assert (Re : reads l (Hold x)) by (destruct A as (n&T&N); eapply rd_open; tauto || (destruct N as (N1&N2&N3); eauto)).
    destruct (C51_line w s l _ Re) as (s1&E1&B1&_). rewrite E in E1. injection E1 as _ <-. pose proof (Q _ (pa_open _ w l x A)) as Ep.
    unfold told. rewrite <- Ep, B1. destruct (s_buf s) as [|c b]; cbn [app]; intuition (try congruence; try discriminate).
  - inversion P; subst; eauto 8.
Qed.

(** ** C60: the message about a rejected text *)

Theorem C60_message : letters U -> forall w s l x acts s', reads l (Say x) -> no_lfcr (s_buf s ++ x) ->
  (forall ds, ~ parses (s_buf s ++ x) ds) -> step s (Line w l) = (acts, Running s') ->
  exists m, acts = [AErr (error_prefix ++ m ++ [10%N])] /\ complaint show_lit (s_buf s ++ x) m.
Proof.
  intros HU w s l x acts s' R C N E. cbn [step] in E. rewrite (line_reads _ _ _ _ R) in E. cbn [react] in E.
  exact (read_buffer_complains HU (set_cont (set_buf s (s_buf s ++ x)) (next_cont s l)) _ _ C N E).
Qed.

(** ** C61: the responses to commands *)

Theorem C61_response : letters U -> forall w s l c acts st, reached s -> s_buf s = [] -> reads l (Command c) ->
  step s (Line w l) = (acts, st) -> st = Ended \/ (exists s', st = Running s') ->
  (forall t, event_text [] (Line w l) t -> tidy t) ->
  responds show_lit w (s_hist s) (defined s) (in_force s) c acts.
Proof.
  intros HU w s l c acts st Re B R E Hst Ty. cbn [step] in E. rewrite (line_reads _ _ _ _ R) in E. cbn [react] in E. rewrite B in E. cbn [is_nil] in E.
  assert (T : trimmed c c /\ starts 58 c).
  { inversion R as [|? c' T| | | | |]; subst. split; [|eexists; reflexivity]. rewrite <- (trim_trimmed _ _ T). apply trim_is_trimmed. }
  destruct T as (T&S1). eapply command_responds; eauto.
  - now apply reached_settled.
  - intros k q x t A Rd L. apply Ty. exists w, l. split; auto. right. split; auto. exists c, k, q, x. auto.
Qed.

(** A command line never stops the program in another way, except when a
    loaded text does. *)
Theorem C61_always : forall w s l c acts st, s_buf s = [] -> reads l (Command c) ->
  (forall arg, command c ":load" arg -> arg = [] \/ arg = lit "--prelude" \/ arg = lit "--math") ->
  step s (Line w l) = (acts, st) -> st = Ended /\ quits c \/ (exists s', st = Running s') /\ ~ quits c.
Proof.
  intros w s l c acts st B R NL E. cbn [step] in E. rewrite (line_reads _ _ _ _ R) in E. cbn [react] in E. rewrite B in E. cbn [is_nil] in E.
  assert (T : trimmed c c /\ starts 58 c).
  { inversion R as [|? c' T| | | | |]; subst. split; [|eexists; reflexivity]. rewrite <- (trim_trimmed _ _ T). apply trim_is_trimmed. }
  destruct T as (T&S1). destruct (command_shape c T S1) as (p&b&Ep&W&Sb&Z&K&K').
  pose proof (quits_name c p b Ep W Sb) as Qn.
  rewrite (run_command w s c p b) in E by auto. revert E. unfold dispatch.
  assert (Rest : p <> lit ":q" -> p <> lit ":quit" -> forall (a : list action) s', (a, Running s') = (acts, st) ->
    st = Ended /\ quits c \/ (exists s', st = Running s') /\ ~ quits c).
  { intros N1 N2 a s' X. injection X as _ <-. right. split; eauto. intros Q. destruct (Qn Q); contradiction. }
  destruct (str_eqb_spec (lit ":cd") p) as [<-|?].
  { unfold cmd_cd. destruct (trim b); apply Rest; discriminate. }
  destruct ((str_eqb (lit ":help") p || str_eqb (lit ":h") p || str_eqb (lit ":?") p) && is_nil (trim b)) eqn:Eh.
  { apply andb_true_iff in Eh as (Eh&_). apply Rest; intros ->; discriminate. }
  destruct (str_eqb (lit ":q") p || str_eqb (lit ":quit") p) eqn:Eq.
  { unfold cmd_quit, quits.
    destruct (str_eqb_spec c (lit ":quit")) as [Y|N1]; cbn [orb]; [intros X; injection X as _ <-; auto|].
    destruct (str_eqb_spec c (lit ":q")) as [Y|N2]; [intros X; injection X as _ <-; auto|].
    destruct (str_eqb_spec c (lit ":quit --no-history")) as [Y|N3]; cbn [orb]; [intros X; injection X as _ <-; auto 10|].
    destruct (str_eqb_spec c (lit ":q --no-history")) as [Y|N4]; [intros X; injection X as _ <-; auto 10|].
    intros X; injection X as _ <-. right. split; eauto. tauto. }
  apply orb_false_iff in Eq as (Q1&Q2).
  assert (M1 : p <> lit ":q") by (intros ->; discriminate). assert (M2 : p <> lit ":quit") by (intros ->; discriminate).
  specialize (Rest M1 M2).
  destruct (str_eqb_spec (lit ":clear") p) as [<-|?].
  { unfold cmd_clear, clear. repeat match goal with |- context [if ?x then _ else _] => destruct x end; apply Rest. }
  destruct (str_eqb_spec (lit ":history") p) as [<-|?].
  { unfold cmd_history. destruct (str_eqb (trim b) (lit "--clear")); [apply Rest|].
    destruct (str_eqb (trim b) (lit "--clear --file")); [apply Rest|].
    destruct (starts_with (lit "--set") (trim b)) eqn:X.
    { apply starts_with_spec in X as (z&X). rewrite X. rewrite after_app by reflexivity. rewrite answer_nil. destruct (trim z); apply Rest. }
    destruct (is_prefix (is_str (lit "--save")) (trim b)) eqn:P; [|apply Rest].
    apply PropsGrapheme.C48_prefix_iff_first_word in P as (a&d&(E1&Wa&Wp&Sd)).
    assert (a = []).
    { destruct (trim_is_trimmed b) as (u&v&_&_&_&H&_). rewrite E1 in H. destruct a as [|e a]; auto.
      cbn in H. inversion Wa. congruence. }
    subst a. cbn [app] in E1. rewrite E1. destruct (Nat.eqb _ _); [apply Rest|].
    rewrite after_app by reflexivity. rewrite answer_nil. apply Rest. }
  match goal with |- context [if ?x then _ else _] => destruct x end; [apply Rest|].
  match goal with |- context [if ?x then _ else _] => destruct x end; [apply Rest|].
  match goal with |- context [if ?x then _ else _] => destruct x end; [apply Rest|].
  destruct (str_eqb_spec (lit ":load") p) as [<-|?].
  { unfold cmd_load. destruct (NL (trim b)) as [X|[X|X]].
    - apply K; auto.
    - rewrite X. apply Rest.
    - rewrite X. cbn [is_nil]. destruct (load_hs_prelude _). apply Rest.
    - rewrite X. cbn [is_nil]. destruct (load_arithmetic _). apply Rest. }
  destruct (str_eqb_spec (lit ":shell") p) as [<-|?].
  { unfold cmd_shell. destruct (split_whitespace b); apply Rest. }
  apply Rest.
Qed.

(** ** C62: loading files *)

Theorem C62_loading : letters U -> forall w s l c arg ps acts s', reached s -> s_buf s = [] -> reads l (Command c) ->
  command c ":load" arg -> arg <> [] -> arg <> lit "--prelude" -> arg <> lit "--math" -> word_list arg ps ->
  step s (Line w l) = (acts, Running s') ->
  (forall t, event_text [] (Line w l) t -> tidy t) ->
  loading show_lit w 0 (in_force s) ps acts /\
  exists F, loads w 0 (in_force s) ps F /\ forall o, in_force s' o = F o.
Proof.
  intros HU w s l c arg ps acts s' Re B R C N0 N1 N2 Wl E Ty. cbn [step] in E. rewrite (line_reads _ _ _ _ R) in E. cbn [react] in E. rewrite B in E. cbn [is_nil] in E.
  assert (T : trimmed c c /\ starts 58 c).
  { inversion R as [|? c' T| | | | |]; subst. split; [|eexists; reflexivity]. rewrite <- (trim_trimmed _ _ T). apply trim_is_trimmed. }
  destruct T as (T&S1). rewrite (load_command w s c arg T S1 C) in E. unfold cmd_load in E.
  destruct (is_nil arg) eqn:Y; [apply is_nil_spec in Y; contradiction|].
  destruct (str_eqb_spec arg (lit "--prelude")); [contradiction|]. destruct (str_eqb_spec arg (lit "--math")); [contradiction|].
  rewrite (proj2 (split_whitespace_iff arg ps) Wl) in E.
  assert (Ty' : forall i p q x t, nth_error ps i = Some p -> path_of p q -> w_read w (0 + i) q = inl x -> loaded_text q x t -> tidy t).
  { intros i p q x t Nth Po Rd L. apply Ty. exists w, l. split; auto. right. split; auto. exists c, i, q, x. split; auto. split; auto.
    exists arg, ps, p. auto 10. }
  split.
  - eapply loading_spec with (s := s); eauto. now apply reached_settled.
  - eapply loads_evaluates with (s := s); eauto. now apply reached_settled.
Qed.

End WithUcd.

(** * Examples *)

(** C59 *)

Lemma opening_ok l n x : trimmed l (repeat 123%N (S n) ++ x) -> starts_with [123%N] x = false -> ends_with [92%N] x = false ->
  ends_with [125%N] x = false -> opening l x.
Proof. intros T A B C. exists n. split; auto. split; [now apply starts_false|]. split; now apply ends_false. Qed.
Example C59_ex : @run ucd_none fresh (typed ["{a +"; " "; ":q"]) =
    ([AErr (lit "cannot call a command in multiline mode!" ++ [10%N])], Running (after_ (typed ["{a +"]))) /\
  prompt_str (after_ (typed ["{a +"; " "; ":q"])) = second_prompt /\
  prompt_str (after_ (typed ["{a +"; " "; ":q"; "b}"; "{c}"])) = first_prompt /\
  orderly false (typed ["{a +"; " "; ":q"; "b}"; "{c}"]).
Proof.
  split; [vm_compute; reflexivity|]. split; [vm_compute; reflexivity|]. split; [vm_compute; reflexivity|].
  unfold typed. cbn [map]. apply (or_open _ _ _ (lit "a +")); [|discriminate|].
  { apply (opening_ok _ 0); try reflexivity. exact (ProofGrapheme.trim_spec (lit "{a +")). }
  apply or_aside; [left; repeat constructor|]. apply or_aside; [right; exists (lit "q"); exact (ProofGrapheme.trim_spec (lit ":q"))|].
  apply or_plain.
  { exists (lit "b}"). split; [exact (ProofGrapheme.trim_spec (lit "b}"))|]. split; [discriminate|].
    split; [now apply starts_false|]. split; [now apply starts_false|now apply ends_false]. }
  apply or_close; [|constructor]. exists 0, (lit "c"), 0. exact (ProofGrapheme.trim_spec (lit "{c}")).
Qed.

(** A line ended by a backslash leaves the first prompt though its text is
    pending; a line in braces, or an opening brace alone, leaves the second
    prompt though nothing is. *)
Theorem C59_pending_refuted :
  (let s := after_ (typed ["a + \"]) in @reached ucd_none s /\ s_buf s <> [] /\ prompt_str s = first_prompt) /\
  (let s := after_ (typed ["{a +"; "{b}"]) in @reached ucd_none s /\ s_buf s = [] /\ prompt_str s = second_prompt) /\
  (let s := after_ (typed ["{"]) in @reached ucd_none s /\ s_buf s = [] /\ prompt_str s = second_prompt).
Proof.
  split; [|split]; cbv zeta; (split; [apply after_reached; vm_compute; exact I|]); split; vm_compute; (reflexivity || discriminate).
Qed.

(** One line of each kind that the theorem tells apart, from a state with a
    truthful prompt or one without. *)
Example C59_ex_exact : let U := ucd_none in
  (told (after_ (typed ["{a +"])) /\ ~ told (after_ (typed ["{"]))) /\
  (~ told (after_ (typed ["a + \"])) /\ told (after_ (typed ["a + \"; "b"]))) /\
  (~ told (after_ (typed ["{a +"; "{b}"])) /\ told (after_ (typed ["{b}"]))) /\
  told (after_ (typed ["a + \"; "{"])).
Proof.
  cbv zeta. unfold told. repeat match goal with |- _ /\ _ => split end; vm_compute; intuition discriminate.
Qed.

(** C60 *)

Example C60_ex : let t := lit "a + (b" in reads t (Say t) /\ no_lfcr t /\ (forall ds, ~ @parses ucd_none t ds) /\
  run0 [Line nowhere t] = ([AErr (error_prefix ++ lit "expected `)`, but found `" ++ 0%N :: lit "` at [6]:1:7" ++ [10%N])], Running fresh).
Proof.
  cbv zeta. set (t := lit "a + (b"). split; [exact (reads_say t eq_refl)|].
  assert (C : no_lfcr t) by (apply clean_ok; reflexivity).
  split; auto. split; [apply parses_not; auto; vm_compute; exact I|]. vm_compute. reflexivity.
Qed.
(** The position is sometimes before the gap and sometimes after the token. *)
Example C60_ex_screen : screen (run0 (typed ["a = 1)"; "let a in b"; "x + ""abc"])) =
  [(false, lit "[Error]: unexpected token `)` found at [6]:1:7" ++ [10%N]);
   (false, lit "[Error]: unexpected token `a` found at [3]:1:4" ++ [10%N]);
   (false, lit "[Error]: unexpected token `unterminated string literal starting at [4]:1:5` found at [3]:1:4" ++ [10%N])].
Proof. vm_compute. reflexivity. Qed.

(** C61 *)

Example C61_ex_screen : screen (run0 (typed ["infixl 6 +, 'foo"; "infixr 5 *"; ":i (foo) ? *"; ":fixities"; ":frob"; ":reset"; ":i"])) =
  [(true, lit "infixl 6 'foo" ++ 10%N :: lit "infixr 5 *" ++ [10%N]); (true, lit "the following were not defined: ?");
   (true, lit "infixl 6 +, 'foo" ++ 10%N :: lit "infixr 5 *" ++ [10%N]);
   (false, lit "unknown command: `:frob`" ++ [10%N]); (true, lit "2 fixities removed" ++ [10%N]); (true, [10%N])].
Proof. vm_compute. reflexivity. Qed.

(** C61 and C62: the hypotheses hold, and the reports. *)
Definition ex62 : world := holding ["infixl 6 +"; "infixr 5 *, `foo`"; "a + b * c"].
Example C62_ex : exists arg ps, let l := lit ":load ""x.txt""" in
  @reached ucd_none two /\ s_buf two = [] /\ reads l (Command l) /\ command l ":load" arg /\
  arg <> [] /\ arg <> lit "--prelude" /\ arg <> lit "--math" /\ word_list arg ps /\
  (forall t, @event_text [] (Line ex62 l) t -> @tidy ucd_none t) /\
  screen (@run ucd_none two [Line ex62 l; Line nowhere l]) =
    [(true, lit "2 fixities read from `x.txt""`" ++ [10%N]);
     (true, lit "infixl 6 +" ++ 10%N :: lit "infixr 5 *, 'foo" ++ [10%N]);
     (false, lit "unable to read `x.txt""`" ++ [10%N]); (false, lit "entity not found" ++ [10%N])].
Proof.
  exists (lit """x.txt"""), [lit """x.txt"""]. cbv zeta. set (l := lit ":load ""x.txt""").
  assert (C : command l ":load" (lit """x.txt""")).
  { exists (lit " ""x.txt"""). split; [reflexivity|]. split; [reflexivity|]. exact (ProofGrapheme.trim_spec (lit " ""x.txt""")). }
  assert (R : reads l (Command l)) by exact (reads_cmd l eq_refl).
  assert (W : word_list (lit """x.txt""") [lit """x.txt"""]) by (apply split_whitespace_iff; vm_compute; reflexivity).
  destruct C52_ex_two as (A&B&_).
  split; [exact A|]. split; [exact B|]. split; [exact R|]. split; [exact C|]. split; [discriminate|]. split; [discriminate|]. split; [discriminate|].
  split; [exact W|]. split.
  - intros t (w&l'&E&[(x&Rx&_)|(_&c&k&q&x&Rc&(arg&ps&p&C'&_&_&W'&Nt&Po)&Rd&Lt)]).
    + injection E as <- <-. pose proof (reads_unique _ _ _ Rx R). discriminate.
    + injection E as <- <-. pose proof (reads_unique _ _ _ Rc R) as X. injection X as ->.
      pose proof (command_unique _ _ _ _ C C') as <-. apply split_whitespace_iff in W, W'. rewrite W in W'. subst ps.
      destruct k as [|[|k]]; [|discriminate Nt|discriminate Nt].
      apply (f_equal (fun o => match o with Some p => p | None => [] end)) in Nt. change (lit """x.txt""" = p) in Nt. subst p.
      apply unquote_iff in Po. apply (f_equal (fun o => match o with Ok p => p | _ => [] end)) in Po. change (lit "x.txt""" = q) in Po. subst q.
      apply relevant_iff in Lt. subst t. apply (f_equal (fun o => match o with inl p => p | _ => [] end)) in Rd.
      cbv beta iota delta [w_read ex62 holding] in Rd. subst x.
      apply tidy_check; [vm_compute; reflexivity|vm_compute; repeat constructor].
  - vm_compute. reflexivity.
Qed.

(** * Assumptions *)

Print Assumptions C59_prompt.
Print Assumptions C59_exact.
Print Assumptions C59_pending_partial.
Print Assumptions C59_pending_refuted.
Print Assumptions C60_message.
Print Assumptions C61_response.
Print Assumptions C61_always.
Print Assumptions C62_loading.
