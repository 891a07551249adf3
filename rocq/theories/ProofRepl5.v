(** Commands one by one, and the fixities in force over a session. *)
From Coq Require Import List Arith NArith Bool String Lia.
From Verif Require Import Prelim Chars Syntax Fixity Style Lexer Parser Printer Grapheme Messages Repl
  SpecGrapheme SpecLexer SpecParser SpecFixity SpecRepl ProofTable ProofRewrite ProofResolve ProofResolve2
  ProofFixity PropsFixity ProofGrapheme ProofRepl ProofRepl2 ProofRepl3 ProofRepl4.
Import ListNotations.
Local Open Scope string_scope.
Local Open Scope list_scope.

(** * Shapes of command lines *)

Lemma reads_command l c : reads l (Command c) -> trimmed c c /\ starts 58 c.
Proof.
  inversion 1 as [|l' c' T| | | | |]; subst. split; [|eexists; reflexivity].
  eapply trimmed_self; eauto.
Qed.

Lemma command_shape c : trimmed c c -> starts 58 c -> exists p b, c = p ++ b /\ word p /\ starts_white b /\
  (trim b = [] -> b = []) /\
  (forall n arg, is_word n = true -> (command c n arg <-> p = lit n /\ arg = trim b)) /\
  (forall n, is_word n = true -> (c = lit n <-> p = lit n /\ trim b = [])).
Proof.
  intros T (x&->). destruct (command_split _ T ltac:(discriminate)) as (p&b&E&W&B&Tb&Z).
  exists p, b. split; auto. split; auto. split; auto. split; auto. split.
  - intros n arg Wn. eapply command_iff; eauto.
  - intros n Wn. split.
    + intros X. rewrite E in X. rewrite <- (app_nil_r (lit n)) in X.
      apply word_app_unique in X as (->&->); auto; [now apply is_word_spec|exact I].
    + intros (->&Z'). rewrite E. rewrite (Z Z'), app_nil_r. reflexivity.
Qed.

Section WithUcd.
Context {U : ucd}.

Lemma run_command w s c p b : trimmed c c -> c = p ++ b -> word p -> starts_white b -> (trim b = [] -> b = []) ->
  read_command w s c = dispatch w s c p (trim b) b.
Proof. apply read_command_split. Qed.

(** The command line [c] with name [n]. *)
Lemma run_named w s c n arg : trimmed c c -> starts 58 c -> is_word n = true -> command c n arg ->
  exists b, c = lit n ++ b /\ trim b = arg /\ (arg = [] -> b = []) /\ starts_white b /\
    read_command w s c = dispatch w s c (lit n) arg b.
Proof.
  intros T S1 Wn C. destruct (command_shape c T S1) as (p&b&E&W&B&Z&K&_). destruct (proj1 (K _ _ Wn) C) as (E1&E2). clear K. subst p arg.
  exists b. repeat split; auto. now apply run_command.
Qed.

Lemma run_exact w s n : is_word n = true -> starts 58 (lit n) -> trimmed (lit n) (lit n) ->
  read_command w s (lit n) = dispatch w s (lit n) (lit n) [] [].
Proof.
  intros Wn S1 T. assert (C : command (lit n) n []).
  { exists []. rewrite app_nil_r. repeat split. exists [], []. repeat split; constructor. }
  destruct (run_named w s _ n [] T S1 Wn C) as (b&E&_&Z&_&->). now rewrite (Z eq_refl).
Qed.

(** * Which commands change the fixities *)

Ltac str_case a p := destruct (str_eqb_spec (lit a) p) as [<-|?].

Lemma frame_command w s c acts s' : trimmed c c -> starts 58 c -> ~ clears_fixities c -> ~ loads_something c ->
  read_command w s c = (acts, Running s') -> s_res s' = s_res s.
Proof.
  intros T S1 NC NL. destruct (command_shape c T S1) as (p&b&E&W&B&Z&K&K').
  rewrite (run_command w s c p b) by auto. unfold dispatch.
  assert (D : forall x, (x, Running s) = (acts, Running s') -> s_res s' = s_res s) by (intros x X; injection X as _ <-; auto).
  assert (NR : ((str_eqb (lit ":reset") p || str_eqb (lit ":r") p) && is_nil (trim b)) = false).
  { destruct ((str_eqb (lit ":reset") p || str_eqb (lit ":r") p) && is_nil (trim b)) eqn:X; auto. exfalso. apply NC.
    apply andb_true_iff in X as (X&Y). apply is_nil_spec in Y. apply orb_true_iff in X as [X|X].
    - str_case ":reset" p; [|discriminate]. left. apply K'; auto.
    - str_case ":r" p; [|discriminate]. right; left. apply K'; auto. }
  rewrite NR.
  str_case ":cd" p. { unfold cmd_cd. destruct (trim b); exact (D _). }
  destruct ((str_eqb (lit ":help") p || str_eqb (lit ":h") p || str_eqb (lit ":?") p) && is_nil (trim b)); [exact (D _)|].
  destruct (str_eqb (lit ":q") p || str_eqb (lit ":quit") p).
  { unfold cmd_quit. repeat match goal with |- context [if ?b then _ else _] => destruct b end; try exact (D _); discriminate. }
  str_case ":clear" p.
  { unfold cmd_clear. destruct (str_eqb (trim b) (lit "--history")); [exact (D _)|].
    destruct (str_eqb_spec (trim b) (lit "--fixities")) as [X|_].
    { elim NC. right; right; left. apply K; auto. }
    destruct (str_eqb_spec (trim b) (lit "--session")) as [X|_].
    { elim NC. do 3 right; left. apply K; auto. }
    destruct (str_eqb_spec (trim b) (lit "--history --fixities")) as [X|_].
    { elim NC. do 4 right; left. apply K; auto. }
    destruct (str_eqb_spec (trim b) (lit "--fixities --history")) as [X|_].
    { elim NC. do 5 right. apply K; auto. }
    exact (D _). }
  str_case ":history" p.
  { unfold cmd_history. repeat match goal with
    | |- context [if ?b then _ else _] => destruct b
    | |- context [answer [] (after ?n ?s) _] => destruct (after n s) as [z| |]; [rewrite !answer_nil|cbn; discriminate|cbn; discriminate]
    end; try exact (D _). destruct (trim z); [exact (D _)|]. intros X; injection X as _ <-; auto. }
  destruct ((str_eqb (lit ":info") p || str_eqb (lit ":i") p || str_eqb (lit ":fixities") p) && is_nil (trim b)); [exact (D _)|].
  destruct (str_eqb (lit ":info") p || str_eqb (lit ":i") p); [exact (D _)|].
  str_case ":load" p.
  { unfold cmd_load. destruct (is_nil (trim b)) eqn:X; [exact (D _)|]. exfalso. apply NL. exists (trim b). split; [|now apply K].
    intros Y. rewrite Y in X. discriminate. }
  str_case ":shell" p. { unfold cmd_shell. destruct (split_whitespace b); exact (D _). }
  intros X; injection X as _ <-; auto.
Qed.

(** The commands that clear. *)
Lemma clear_command w s c acts s' : trimmed c c -> starts 58 c -> clears_fixities c ->
  read_command w s c = (acts, Running s') -> s_res s' = mkResolver [] (r_errs (s_res s)).
Proof.
  intros T S1 H. destruct H as [->|[->|[H|[H|[H|H]]]]].
  - rewrite (run_exact w s ":reset") by (auto; reflexivity). intros X. injection X as _ <-. reflexivity.
  - rewrite (run_exact w s ":r") by (auto; reflexivity). intros X. injection X as _ <-. reflexivity.
  - destruct (run_named w s c ":clear" _ T S1 eq_refl H) as (b&_&_&_&_&->). intros X. injection X as _ <-. reflexivity.
  - destruct (run_named w s c ":clear" _ T S1 eq_refl H) as (b&_&_&_&_&->). intros X. injection X as _ <-. reflexivity.
  - destruct (run_named w s c ":clear" _ T S1 eq_refl H) as (b&_&_&_&_&->). intros X. injection X as _ <-. reflexivity.
  - destruct (run_named w s c ":clear" _ T S1 eq_refl H) as (b&_&_&_&_&->). intros X. injection X as _ <-. reflexivity.
Qed.

Lemma load_command w s c arg : trimmed c c -> starts 58 c -> command c ":load" arg ->
  read_command w s c = cmd_load w s arg.
Proof.
  intros T S1 H. destruct (run_named w s c ":load" _ T S1 eq_refl H) as (b&_&_&_&_&->). reflexivity.
Qed.

Lemma over_prelude r o : get (r_fix (fst (load_hs_prelude r))) o = over doc_prelude (get (r_fix r)) o.
Proof.
  rewrite C16_prelude_loaded. unfold over.
  assert (X : forall l, match assoc_str l (symbol o) with Some f => f | None => get (r_fix r) o end =
    match find (fun x => str_eqb (lit (fst x)) (symbol o)) l with Some (_, f) => f | None => get (r_fix r) o end).
  { induction l as [|(k,f) l IH]; cbn [assoc_str find fst]; auto. destruct (str_eqb (lit k) (symbol o)); auto. }
  apply X.
Qed.

Lemma over_math r o : get (r_fix (fst (load_arithmetic r))) o = over code_math (get (r_fix r)) o.
Proof.
  unfold load_arithmetic, load_entries, arithmetic_entries. cbn [fst r_fix fold_left].
  unfold get. rewrite !get_insert_many. unfold code_math, over.
  cbn [existsb find fst symbol std].
  repeat match goal with
  | |- context [str_eqb ?a ?b] => destruct (str_eqb_spec a b) as [E|?]; [rewrite <- ?E; vm_compute; reflexivity|]
  end. reflexivity.
Qed.

Lemma over_ext l F G : (forall o, F o = G o) -> forall o, over l F o = over l G o.
Proof. intros H o. unfold over. rewrite H. reflexivity. Qed.

(** * Evaluation *)

Lemma feed_evaluates (HU : letters U) r t r' res F : settled r -> tidy t -> (forall o, get (r_fix r) o = F o) ->
  feed_input r t = Ok (r', res) -> exists F', evaluates F t F' /\ forall o, get (r_fix r') o = F' o.
Proof.
  intros St (C&Nd) HF E. destruct (parses_dec HU t C) as [(ds&P)|P].
  - exists (declared F (infix_decls ds)). split; [now constructor|].
    destruct (feed_parsed HU r t ds St C P (Nd ds P)) as (r1&res1&E1&_&G&_). rewrite E in E1. injection E1 as <- _.
    intros o. rewrite G. now apply declared_ext.
  - exists F. split; [now constructor|].
    destruct (feed_unparsed HU r t C P) as [(e&l&_&E1)|(p&_&E1)]; rewrite E in E1; [injection E1 as -> _; auto|discriminate].
Qed.

Lemma loads_evaluates (HU : letters U) w ps : forall k s acts s' F,
  (forall i p q x t, nth_error ps i = Some p -> path_of p q -> w_read w (k + i) q = inl x -> loaded_text q x t -> tidy t) ->
  settled (s_res s) -> (forall o, get (r_fix (s_res s)) o = F o) ->
  read_files w k s ps = (acts, Running s') ->
  exists F', loads w k F ps F' /\ forall o, get (r_fix (s_res s')) o = F' o.
Proof.
  induction ps as [|p ps IH]; intros k s acts s' F Ty St HF; cbn [read_files].
  - intros E. injection E as _ <-. exists F. split; [constructor|auto].
  - destruct (unquote_total p) as (q&Q). rewrite Q, answer_nil. apply unquote_iff in Q.
    destruct (read_file w k s q) as (a1&st1) eqn:R. destruct st1 as [s1| | |]; try discriminate.
    destruct (read_files w (S k) s1 ps) as (a2&st2) eqn:R2. intros E. injection E as _ ->.
    pose proof (read_file_settled _ _ _ _ _ _ R St) as St1.
    assert (Ty' : forall i p q x t, nth_error ps i = Some p -> path_of p q -> w_read w (S k + i) q = inl x -> loaded_text q x t -> tidy t).
    { intros i p0 q0 x t N P0 Rd L. eapply (Ty (S i)); eauto. now rewrite <- plus_n_Sm. }
    unfold read_file in R. destruct (w_read w k q) as [x|err] eqn:Rd.
    + assert (T : tidy (relevant q x)).
      { eapply (Ty 0); eauto; [reflexivity|rewrite Nat.add_0_r; eauto|now apply relevant_iff]. }
      destruct (feed_input (s_res s) (relevant q x)) as [(r&res)|pp|] eqn:Fd; try discriminate.
      destruct (feed_evaluates HU _ _ _ _ F St T HF Fd) as (F1&Ev&G).
      assert (Es : s_res s1 = r).
      { cbn in R. destruct res as [a|e]; [injection R as _ <-; auto|].
        cbn in R. destruct (show_error_with_path e q); cbn in R; try discriminate. injection R as _ <-. auto. }
      destruct (IH (S k) s1 a2 s' F1) as (F'&L&G'); auto.
      { intros o. rewrite Es. auto. }
      exists F'. split; auto. eapply ld_read; eauto. now apply relevant_iff.
    + injection R as _ <-. destruct (IH (S k) s a2 s' F) as (F'&L&G'); auto.
      exists F'. split; auto. eapply ld_missing; eauto.
Qed.

Definition well_formed (i : item) : Prop :=
  match i with Invoke _ c => trimmed c c /\ starts 58 c | _ => True end.

Lemma act_evolves (HU : letters U) r h i acts s' F :
  well_formed i -> (forall t, evaluated [i] t -> tidy t) -> settled r -> (forall o, get (r_fix r) o = F o) ->
  act r h i = (acts, Running s') -> exists F', evolves F i F' /\ forall o, get (r_fix (s_res s')) o = F' o.
Proof.
  intros Wf Ty St HF. destruct i as [t|w c| |msg]; cbn [act].
  - intros E. apply read_buffer_running in E as (_&_&_&res&E). cbn [s_res s_buf set_buf] in E.
    destruct (feed_evaluates HU r t (s_res s') res F) as (F'&Ev&G); auto.
    { apply Ty. left. left. auto. }
    exists F'. split; [now constructor|auto].
  - destruct Wf as (T&S1). intros E.
    assert (Cd : clears_fixities c \/ ~ clears_fixities c).
    { destruct (command_shape c T S1) as (p&b&_&_&_&_&K&K'). unfold clears_fixities.
      rewrite (K' ":reset"), (K' ":r"), !K by reflexivity.
      assert (Dec : forall x y : str, x = y \/ x <> y) by (intros x y; destruct (str_eqb_spec x y); auto).
      assert (Or : forall P Q, P \/ ~ P -> Q \/ ~ Q -> (P \/ Q) \/ ~ (P \/ Q)) by (intros; tauto).
      assert (And : forall P Q, P \/ ~ P -> Q \/ ~ Q -> (P /\ Q) \/ ~ (P /\ Q)) by (intros; tauto).
      repeat apply Or; apply And; apply Dec. }
    destruct Cd as [Cl|NCl].
    { exists (fun _ => mkFix 9 ALeft). split; [now constructor|]. intros o.
      rewrite (clear_command _ _ _ _ _ T S1 Cl E). reflexivity. }
    assert (Ld : loads_something c \/ ~ loads_something c).
    { destruct (command_shape c T S1) as (p&b&_&_&_&_&K&_).
      destruct (str_eqb_spec p (lit ":load")) as [X|X], (str_eqb_spec (trim b) []) as [Y|Y].
      - right. intros (arg&N&C). apply K in C as (_&->); auto.
      - left. exists (trim b). split; auto. now apply K.
      - right. intros (arg&N&C). apply K in C as (?&_); auto.
      - right. intros (arg&N&C). apply K in C as (?&_); auto. }
    destruct Ld as [(arg&Na&C)|NL].
    + rewrite (load_command _ _ _ _ T S1 C) in E. unfold cmd_load in E.
      destruct (is_nil arg) eqn:X; [apply is_nil_spec in X; congruence|].
      destruct (str_eqb_spec arg (lit "--prelude")) as [->|Np].
      { exists (over doc_prelude F). split; [now apply vo_prelude|].
        destruct (load_hs_prelude r) as (r1&k) eqn:L. cbn [s_res] in E. rewrite L in E. injection E as _ <-. cbn [set_res s_res].
        intros o. pose proof (over_prelude r o) as O. rewrite L in O. cbn [fst] in O. rewrite O. now apply over_ext. }
      destruct (str_eqb_spec arg (lit "--math")) as [->|Nm].
      { exists (over code_math F). split; [now apply vo_math|].
        destruct (load_arithmetic r) as (r1&k) eqn:L. cbn [s_res] in E. rewrite L in E. injection E as _ <-. cbn [set_res s_res].
        intros o. pose proof (over_math r o) as O. rewrite L in O. cbn [fst] in O. rewrite O. now apply over_ext. }
      pose proof (proj1 (split_whitespace_iff arg _) eq_refl) as Wl.
      destruct (loads_evaluates HU w (split_whitespace arg) 0 (mkSession r [] false h) acts s' F) with (4 := E) as (F'&L&G).
      * intros i p q x t N P Rd Lt. apply Ty. right. exists w, c, i, q, x. split; [left; auto|].
        split; [|auto]. exists arg, (split_whitespace arg), p. repeat split; auto.
      * exact St.
      * exact HF.
      * exists F'. split; auto. eapply vo_files; eauto.
    + exists F. split; [now apply vo_other|]. intros o. rewrite (frame_command _ _ _ _ _ T S1 NCl NL E). apply HF.
  - intros E. injection E as _ <-. exists F. split; [constructor|exact HF].
  - intros E. injection E as _ <-. exists F. split; [constructor|exact HF].
Qed.

Lemma perform_evolves (HU : letters U) is : forall r h acts s' F,
  Forall well_formed is -> (forall t, evaluated is t -> tidy t) -> settled r -> (forall o, get (r_fix r) o = F o) ->
  perform r h is = (acts, Running s') -> exists F', evolution F is F' /\ forall o, get (r_fix (s_res s')) o = F' o.
Proof.
  induction is as [|i is IH]; intros r h acts s' F Wf Ty St HF; cbn [perform].
  - intros E. injection E as _ <-. exists F. split; [constructor|exact HF].
  - destruct (act r h i) as (a1&st1) eqn:A. destruct st1 as [s1| | |]; try discriminate.
    destruct (perform (s_res s1) (s_hist s1) is) as (a2&st2) eqn:P. intros E. injection E as _ ->.
    inversion Wf as [|? ? W1 W2]; subst.
    destruct (act_evolves HU r h i a1 s1 F) as (F1&Ev&G); auto.
    { intros t [[X|[]]|X]; apply Ty.
      - left. left. auto.
      - right. destruct X as (w&c&k&p&x&[X|[]]&Y). exists w, c, k, p, x. split; auto. left. auto. }
    destruct (IH (s_res s1) (s_hist s1) a2 s' F1) as (F'&En&G'); auto.
    { intros t [X|X]; apply Ty.
      - left. right. auto.
      - right. destruct X as (w&c&k&p&x&X&Y). exists w, c, k, p, x. split; auto. right. auto. }
    { eapply act_settled; eauto. }
    exists F'. split; auto. econstructor; eauto.
Qed.

Lemma grouped_well_formed b es is b' : grouped b es is b' -> Forall well_formed is.
Proof.
  induction 1; auto; constructor; cbn; auto. eapply reads_command; eauto.
Qed.

End WithUcd.
