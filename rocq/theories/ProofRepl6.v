(** How a session stops. *)
From Coq Require Import List Arith NArith Bool String Lia.
From Verif Require Import ProofLexer8.
From Verif Require Import Prelim Chars Syntax Fixity Style Lexer Parser Printer Grapheme Messages Repl
  SpecGrapheme SpecLexer SpecParser SpecFixity SpecRepl ProofTable ProofRewrite ProofResolve ProofResolve2
  ProofFixity ProofParser8 PropsParser PropsPrinter PropsGrapheme ProofGrapheme ProofRepl ProofRepl2 ProofRepl3 ProofRepl4 ProofRepl5.
Import ListNotations.
Local Open Scope string_scope.
Local Open Scope list_scope.

Definition stops_badly (st : status) : Prop :=
  match st with Crashed _ | Stuck => True | _ => False end.

(** * Messages *)

Section WithUcd.
Context {U : ucd}.

Lemma show_token_total t : (forall a b, t <> TError (EEmptyChar a b)) -> exists x, show_token t = Ok x.
Proof.
  destruct t; cbn; eauto. destruct e; cbn; eauto.
  - intros H. elim (H a b). reflexivity.
  - destruct (int_error_text e) as (x&y). eauto.
Qed.

Lemma wanted_not_error x : In x [TParenL; TParenR; TBrackL; TBrackR; TLambda; TArrow; TIn] ->
  forall a b, x <> TError (EEmptyChar a b).
Proof. intros I a b ->. cbn in I. intuition discriminate. Qed.

Lemma show_perror_total (e : perror) : (forall x a t, e = Expected x a t -> In x [TParenL; TParenR; TBrackL; TBrackR; TLambda; TArrow; TIn]) ->
  (exists a b, found e = TError (EEmptyChar a b) /\ show_perror e = Panic PTodoEmptyChar /\ show_perror_without_loc e = Panic PTodoEmptyChar) \/
  ((forall a b, found e <> TError (EEmptyChar a b)) /\ (exists x, show_perror e = Ok x) /\ exists x, show_perror_without_loc e = Ok x).
Proof.
  intros W.
  assert (D : (exists a b, found e = TError (EEmptyChar a b)) \/ forall a b, found e <> TError (EEmptyChar a b)).
  { destruct (found e); try (right; discriminate). destruct e0; try (right; discriminate). left. eauto. }
  assert (X : forall x at_ t, e = Expected x at_ t -> exists y, show_token x = Ok y).
  { intros x at_ t Ee. apply show_token_total, wanted_not_error. eauto. }
  destruct D as [(a&b&D)|D]; [left; exists a, b; split; auto|right; split; auto].
  - destruct e as [x at_ t|t at_]; cbn in *; subst t; cbn.
    + destruct (X _ _ _ eq_refl) as (y&E). rewrite E. cbn. auto.
    + auto.
  - destruct e as [x at_ t|t at_]; cbn in *.
    + destruct (X _ _ _ eq_refl) as (y&E). rewrite E. cbn.
      destruct (show_token_total t D) as (z&E2). rewrite E2. cbn. eauto.
    + destruct (show_token_total t D) as (z&E2). rewrite E2. cbn. eauto.
Qed.

(** * Why evaluating a text may stop the program *)

(** An empty character literal is the token found; or one of the two reasons of
    C34. *)
Definition fatal (t : str) (p : panic) : Prop :=
  (exists e l a b, parse t = PErr e l /\ found e = TError (EEmptyChar a b) /\ p = PTodoEmptyChar) \/ parse t = PPanic p.

Lemma fatal_dangerous (HU : letters U) t p : no_lfcr t -> fatal t p -> dangerous t p.
Proof.
  intros C [(e&l&a&b&P&F&->)|P].
  - destruct (C38_error_positions HU t e l C (or_introl P)) as [(F'&_)|(w&g&x&v&E&G&X&_)]; [congruence|].
    rewrite F in X. destruct X as [X|(y&Y&M)]; [apply lexeme_not_error in X as (_&X); elim (X _ eq_refl)|]. injection Y as <-. inversion M; subst.
    apply dg_empty with (w ++ g) v. rewrite <- app_assoc. reflexivity.
  - destruct (C34_panics HU t p C (or_introl P)) as [(->&w&r&E&O)|(->&w&k&g&d&v&E&I&G&D1&D2&D3&D4)].
    + eapply dg_name; eauto.
    + eapply dg_prec; eauto.
Qed.

Lemma feed_fatal (HU : letters U) r t : match feed_input r t with
  | Ok (_, inl a) => forall tb e, In e (a_exprs a) -> exists x, print_expr tb e = Ok x
  | Ok (_, inr e) =>
      (fatal t PTodoEmptyChar /\ show_error e = Panic PTodoEmptyChar /\ forall q, show_error_with_path e q = Panic PTodoEmptyChar)
      \/ (exists x, show_error e = Ok x) /\ forall q, exists x, show_error_with_path e q = Ok x
  | Panic p => fatal t p
  | NoFuel => False
  end.
Proof.
  unfold feed_input. destruct (parse t) as [a l|e l|p|] eqn:P.
  - destruct (resolve_ast_total (load_fixities r a) a) as (r1&a1&errs&R). rewrite R. cbn [obind].
    destruct errs as [|x errs].
    + intros tb e I. eapply C20_parsed_prints; eauto.
    + right. unfold show_error, show_error_with_path. destruct errs; cbn; eauto.
  - assert (W : forall x a t0, e = Expected x a t0 -> In x [TParenL; TParenR; TBrackL; TBrackR; TLambda; TArrow; TIn]).
    { intros x a t0 ->. destruct (C38_expected_token HU t x a t0 l) as (I&_); auto. }
    unfold show_error, show_error_with_path.
    destruct (show_perror_total e W) as [(a&b&F&E1&E2)|(_&(x&E1)&(y&E2))]; rewrite E1, E2; cbn; [left|right; eauto].
    split; auto. left. exists e, l, a, b. auto.
  - right. auto.
  - exact (proj1 (C34_parsing_terminates HU t) P).
Qed.

Lemma first_expr a e : fst (iter_next (iter_new a)) = Some (DExpr e) -> In e (a_exprs a).
Proof.
  unfold iter_next, iter_tick, iter_new, pop_front. cbn. destruct (a_kinds a) as [|[] ks]; cbn; try discriminate.
  - destruct (a_infxs a); discriminate.
  - destruct (a_exprs a); cbn; [discriminate|]. intros E. injection E as ->. auto.
Qed.

Lemma read_buffer_stops (HU : letters U) s acts st : read_buffer s = (acts, st) ->
  (exists s', st = Running s') \/ exists p, st = Crashed p /\ fatal (s_buf s) p /\ acts = [].
Proof.
  unfold read_buffer. cbn [s_res set_buf]. pose proof (feed_fatal HU (s_res s) (s_buf s)) as Fd.
  destruct (feed_input (s_res s) (s_buf s)) as [(r&[a|e])|p|]; cbn [answer].
  - destruct (fst (iter_next (iter_new a))) as [[d|e]|] eqn:I; cbn; try (intros E; injection E as _ <-; left; eauto; fail).
    apply first_expr in I. destruct (Fd (r_fix r) e I) as (x&->). cbn. intros E. injection E as _ <-. eauto.
  - destruct Fd as [(Ft&->&_)|((x&->)&_)]; cbn; intros E; injection E as <- <-; eauto.
  - intros E. injection E as <- <-. eauto.
  - destruct Fd.
Qed.

Lemma read_file_stops (HU : letters U) w k s q acts st : read_file w k s q = (acts, st) ->
  (exists s', st = Running s') \/ exists p x, st = Crashed p /\ w_read w k q = inl x /\ fatal (relevant q x) p.
Proof.
  unfold read_file. destruct (w_read w k q) as [x|err]; [|intros E; injection E as _ <-; eauto].
  pose proof (feed_fatal HU (s_res s) (relevant q x)) as Fd.
  destruct (feed_input (s_res s) (relevant q x)) as [(r&[a|e])|p|]; cbn [answer].
  - intros E. injection E as _ <-. eauto.
  - destruct Fd as [(Ft&_&Sh)|(_&Sh)].
    + rewrite Sh. cbn. intros E. injection E as _ <-. eauto 10.
    + destruct (Sh q) as (y&->). cbn. intros E. injection E as _ <-. eauto.
  - intros E. injection E as _ <-. eauto 10.
  - destruct Fd.
Qed.

Lemma read_files_stops (HU : letters U) w ps : forall k s acts st, read_files w k s ps = (acts, st) ->
  (exists s', st = Running s') \/ exists p i a q x, st = Crashed p /\ nth_error ps i = Some a /\ path_of a q /\
    w_read w (k + i) q = inl x /\ fatal (relevant q x) p.
Proof.
  induction ps as [|a ps IH]; intros k s acts st; cbn [read_files].
  - intros E. injection E as _ <-. eauto.
  - destruct (unquote_total a) as (q&Q). rewrite Q, answer_nil. apply unquote_iff in Q.
    destruct (read_file w k s q) as (a1&st1) eqn:R. apply (read_file_stops HU) in R as [(s1&->)|(p&x&->&Rd&Ft)].
    + destruct (read_files w (S k) s1 ps) as (a2&st2) eqn:R2. intros E. injection E as _ <-.
      apply IH in R2 as [H|(p&i&a'&q'&x&->&N&P&Rd&Ft)]; [auto|]. right. exists p, (S i), a', q', x.
      rewrite <- plus_n_Sm. auto.
    + intros E. injection E as _ <-. right. exists p, 0, a, q, x. rewrite Nat.add_0_r. auto.
Qed.

(** * Commands *)

Lemma trim_is_trimmed b : trimmed (trim b) (trim b).
Proof. eapply trimmed_self, trim_spec. Qed.

Lemma history_runs s b : exists acts s', cmd_history s (trim b) = (acts, Running s').
Proof.
  unfold cmd_history. destruct (str_eqb _ _); [eauto|]. destruct (str_eqb _ _); [eauto|].
  destruct (starts_with (lit "--set") (trim b)) eqn:E.
  - apply starts_with_spec in E as (x&->). rewrite after_app by reflexivity. rewrite answer_nil. destruct (trim x); eauto.
  - destruct (is_prefix (is_str (lit "--save")) (trim b)) eqn:P; [|eauto].
    apply C48_prefix_iff_first_word in P as (a&d&(E1&Wa&Wp&Sd)).
    assert (a = []).
    { destruct (trim_is_trimmed b) as (x&y&_&_&_&H&_). rewrite E1 in H. destruct a as [|c a]; auto.
      cbn in H. inversion Wa. congruence. }
    subst a. cbn [app] in E1. rewrite E1. destruct (Nat.eqb _ 6); [eauto|]. rewrite after_app by reflexivity. rewrite answer_nil. eauto.
Qed.

Lemma read_command_stops (HU : letters U) w s c acts st : trimmed c c -> starts 58 c -> read_command w s c = (acts, st) ->
  (exists s', st = Running s') \/
  (st = Ended /\ acts = [ASaveHistory (s_hist s); outln (lit "exiting Pemdas REPL")] /\ (c = lit ":q" \/ c = lit ":quit")) \/
  (st = Ended /\ acts = [outln (lit "exiting Pemdas REPL")] /\ (c = lit ":q --no-history" \/ c = lit ":quit --no-history")) \/
  exists p k q x t, st = Crashed p /\ asks_for c k q /\ w_read w k q = inl x /\ loaded_text q x t /\ fatal t p.
Proof.
  intros T S1. destruct (command_shape c T S1) as (p&b&E&W&B&Z&K&K').
  rewrite (run_command w s c p b) by auto. unfold dispatch.
  assert (D : forall x s', (x, Running s') = (acts, st) -> exists s', st = Running s') by (intros x s' X; injection X as _ <-; eauto).
  destruct (str_eqb (lit ":cd") p). { unfold cmd_cd. destruct (trim b); intros X; left; exact (D _ _ X). }
  destruct ((str_eqb (lit ":help") p || str_eqb (lit ":h") p || str_eqb (lit ":?") p) && is_nil (trim b)); [intros X; left; exact (D _ _ X)|].
  destruct (str_eqb (lit ":q") p || str_eqb (lit ":quit") p).
  { unfold cmd_quit.
    destruct (str_eqb_spec c (lit ":quit")) as [->|_]; cbn [orb]; [intros X; injection X as <- <-; auto 10|].
    destruct (str_eqb_spec c (lit ":q")) as [->|_]; [intros X; injection X as <- <-; auto 10|].
    destruct (str_eqb_spec c (lit ":quit --no-history")) as [->|_]; cbn [orb]; [intros X; injection X as <- <-; auto 10|].
    destruct (str_eqb_spec c (lit ":q --no-history")) as [->|_]; [intros X; injection X as <- <-; auto 10|].
    intros X; left; exact (D _ _ X). }
  destruct (str_eqb (lit ":clear") p).
  { unfold cmd_clear, clear. intros X; left. revert X. repeat match goal with |- context [if ?b then _ else _] => destruct b end; exact (D _ _). }
  destruct (str_eqb (lit ":history") p).
  { destruct (history_runs s b) as (a&s'&->). intros X; left; exact (D _ _ X). }
  destruct ((str_eqb (lit ":reset") p || str_eqb (lit ":r") p) && is_nil (trim b)); [intros X; left; exact (D _ _ X)|].
  destruct ((str_eqb (lit ":info") p || str_eqb (lit ":i") p || str_eqb (lit ":fixities") p) && is_nil (trim b)); [intros X; left; exact (D _ _ X)|].
  destruct (str_eqb (lit ":info") p || str_eqb (lit ":i") p); [intros X; left; exact (D _ _ X)|].
  destruct (str_eqb_spec (lit ":load") p) as [Ep|_].
  { unfold cmd_load. destruct (is_nil (trim b)); [intros X; left; exact (D _ _ X)|].
    destruct (str_eqb_spec (trim b) (lit "--prelude")) as [_|Np]; [destruct (load_hs_prelude (s_res s)); intros X; left; exact (D _ _ X)|].
    destruct (str_eqb_spec (trim b) (lit "--math")) as [_|Nm]; [destruct (load_arithmetic (s_res s)); intros X; left; exact (D _ _ X)|].
    intros X. apply (read_files_stops HU) in X as [X|(pp&i&a&q&x&->&N&P&Rd&Ft)]; [auto|].
    do 3 right. exists pp, i, q, x, (relevant q x). split; auto. split; [|split; auto; split; auto; now apply relevant_iff].
    exists (trim b), (split_whitespace (trim b)), a. repeat split; auto.
    - apply K; auto.
    - now apply split_whitespace_iff. }
  destruct (str_eqb (lit ":shell") p). { unfold cmd_shell. destruct (split_whitespace b); intros X; left; exact (D _ _ X). }
  intros X; left; exact (D _ _ X).
Qed.

Lemma quit_command w s c : c = lit ":q" \/ c = lit ":quit" ->
  read_command w s c = ([ASaveHistory (s_hist s); outln (lit "exiting Pemdas REPL")], Ended).
Proof. intros [->| ->]; reflexivity. Qed.
Lemma quit_command_quietly w s c : c = lit ":q --no-history" \/ c = lit ":quit --no-history" ->
  read_command w s c = ([outln (lit "exiting Pemdas REPL")], Ended).
Proof. intros [->| ->]; reflexivity. Qed.

Lemma step_stops (HU : letters U) s e acts st : step s e = (acts, st) ->
  (exists s', st = Running s') \/
  (st = Ended /\ acts = [] /\ (e = Eof \/ e = Interrupted)) \/
  (st = Ended /\ exists w l c, e = Line w l /\ reads l (Command c) /\ s_buf s = [] /\
     ((acts = [ASaveHistory (s_hist s); outln (lit "exiting Pemdas REPL")] /\ (c = lit ":q" \/ c = lit ":quit")) \/
      (acts = [outln (lit "exiting Pemdas REPL")] /\ (c = lit ":q --no-history" \/ c = lit ":quit --no-history")))) \/
  exists p t, st = Crashed p /\ event_text (s_buf s) e t /\ fatal t p.
Proof.
  destruct e as [w l| | |msg]; cbn [step].
  - destruct (reads_total l) as (re&R). rewrite (line_reads w s l re R). destruct re as [|c|t|t]; cbn [react].
    + intros E. injection E as _ <-. eauto.
    + destruct (is_nil (s_buf s)) eqn:Bn; [|intros E; injection E as _ <-; eauto].
      apply is_nil_spec in Bn. destruct (reads_command _ _ R) as (T&S1). intros E.
      apply (read_command_stops HU w s c acts st T S1) in E as [E|[(->&->&E)|[(->&->&E)|(p&k&q&x&t&->&A&Rd&L&Ft)]]].
      * auto.
      * right; right; left. split; auto. exists w, l, c. auto 10.
      * right; right; left. split; auto. exists w, l, c. auto 10.
      * do 3 right. exists p, t. split; auto. split; auto. exists w, l. split; auto. right. split; auto. exists c, k, q, x. auto.
    + intros E. injection E as _ <-. eauto.
    + intros E. apply (read_buffer_stops HU) in E as [E|(p&->&Ft&_)]; [auto|].
      do 3 right. exists p, (s_buf s ++ t). split; auto. split; auto. exists w, l. split; auto. left. eauto.
  - intros E. injection E as <- <-. auto 10.
  - intros E. injection E as <- <-. auto 10.
  - intros E. injection E as _ <-. eauto.
Qed.

(** Runs and their last steps. *)
Lemma run_app s es1 es2 : run s (es1 ++ es2) =
  match run s es1 with
  | (acts, Running s') => let (more, st) := run s' es2 in (acts ++ more, st)
  | (acts, st) => (acts, st)
  end.
Proof.
  revert s. induction es1 as [|e es1 IH]; intros s; cbn [app run].
  - destruct (run s es2); reflexivity.
  - destruct (step s e) as (a1&st1). destruct st1 as [s1| | |]; auto. rewrite IH.
    destruct (run s1 es1) as (a2&st2). destruct st2 as [s2| | |]; auto.
    destruct (run s2 es2) as (a3&st3). now rewrite app_assoc.
Qed.

Lemma run_last es : forall s acts st, run s es = (acts, st) ->
  (exists s', st = Running s') \/
  exists before e rest a1 s1 a2, es = before ++ e :: rest /\ run s before = (a1, Running s1) /\
    step s1 e = (a2, st) /\ acts = a1 ++ a2.
Proof.
  induction es as [|e es IH]; intros s acts st; cbn [run].
  - intros E. injection E as _ <-. eauto.
  - destruct (step s e) as (a1&st1) eqn:S1. destruct st1 as [s1| |p|].
    + destruct (run s1 es) as (a2&st2) eqn:R. intros E. injection E as <- <-.
      destruct (IH _ _ _ R) as [H|(b&x&r&b1&s2&b2&->&R1&S2&->)]; auto.
      right. exists (e :: b), x, r, (a1 ++ b1), s2, b2. repeat split; auto.
      * cbn [run]. rewrite S1, R1. reflexivity.
      * now rewrite app_assoc.
    + intros E. injection E as <- <-. right. exists [], e, es, [], s, a1. auto.
    + intros E. injection E as <- <-. right. exists [], e, es, [], s, a1. auto.
    + intros E. injection E as <- <-. right. exists [], e, es, [], s, a1. auto.
Qed.

Lemma perform_app r h is1 is2 : perform r h (is1 ++ is2) =
  match perform r h is1 with
  | (acts, Running s') => let (more, st) := perform (s_res s') (s_hist s') is2 in (acts ++ more, st)
  | (acts, st) => (acts, st)
  end.
Proof.
  revert r h. induction is1 as [|i is1 IH]; intros r h; cbn [app perform].
  - cbn [s_res s_hist]. destruct (perform r h is2); reflexivity.
  - destruct (act r h i) as (a1&st1). destruct st1 as [s1| | |]; auto. rewrite IH.
    destruct (perform (s_res s1) (s_hist s1) is1) as (a2&st2). destruct st2 as [s2| | |]; auto.
    destruct (perform (s_res s2) (s_hist s2) is2) as (a3&st3). now rewrite app_assoc.
Qed.

End WithUcd.
