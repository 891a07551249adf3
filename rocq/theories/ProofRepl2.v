(** Commands, invariants of the session, and what evaluating a text does. *)
From Coq Require Import List Arith NArith Bool String Lia.
From Verif Require Import Prelim Chars Syntax Fixity Style Lexer Parser Printer Grapheme Messages Repl
  SpecGrapheme SpecLexer SpecParser SpecFixity SpecRepl ProofBytes ProofTable ProofRewrite ProofResolve ProofResolve2
  ProofFixity ProofGrapheme ProofRepl.
Import ListNotations.
Local Open Scope string_scope.
Local Open Scope list_scope.

(** * Command lines *)

(** A trimmed, nonempty command line is its first word and the trimmed rest. *)
Lemma command_split c : trimmed c c -> c <> [] -> exists p b, c = p ++ b /\ word p /\ starts_white b
  /\ trimmed b (trim b) /\ (trim b = [] -> b = []).
Proof.
  intros T Ne. destruct T as (a&z&Ec&Wa&Wz&H1&H2).
  destruct (take_word_spec c) as (b&Eb&Wb&Sb). exists (take_word c), b. split; auto.
  assert (Wp : word (take_word c)).
  { split; auto. destruct c as [|d c]; [congruence|]. cbn. rewrite H1. discriminate. }
  split; auto. split; auto. split; [apply trim_spec|].
  intros E. apply starts_white_trim in E; auto. destruct b as [|d b]; auto. exfalso.
  rewrite Eb in H2. rewrite rev_app_distr in H2.
  assert (W : white (rev (d :: b))) by (apply white_rev; auto).
  destruct (rev (d :: b)) as [|x y] eqn:R.
  - apply (f_equal (@rev N)) in R. rewrite rev_involutive in R. discriminate.
  - cbn [app] in H2. inversion W. congruence.
Qed.

Definition is_word (n : string) : bool :=
  match lit n with [] => false | s => forallb (fun c => negb (is_white c)) s end.

Lemma is_word_spec n : is_word n = true -> word (lit n).
Proof.
  unfold is_word, word. destruct (lit n) as [|c s]; [discriminate|]. intros H. split; [discriminate|].
  rewrite forallb_forall in H. apply Forall_forall. intros x I. specialize (H x I). now apply negb_true_iff in H.
Qed.

Lemma word_app_unique p b q d : word p -> word q -> starts_white b -> starts_white d ->
  p ++ b = q ++ d -> p = q /\ b = d.
Proof.
  intros (_&P) (_&Q) B D E.
  assert (T : p = q) by (rewrite <- (take_word_app p b P B), E; apply take_word_app; auto).
  subst. split; auto. now apply app_inv_head in E.
Qed.

Lemma is_str_eqb a b : is_str a b = str_eqb a b.
Proof. reflexivity. Qed.

Lemma named_split n p b : word p -> starts_white b ->
  is_prefix (is_str (lit n)) (p ++ b) = str_eqb (lit n) p.
Proof.
  intros W B. unfold is_prefix.
  rewrite (proj2 (first_word_some (p ++ b) p)); [reflexivity|].
  exists [], b. repeat split; auto; try constructor; apply W.
Qed.

Lemma exact_split n p b : is_word n = true -> word p -> starts_white b ->
  str_eqb (p ++ b) (lit n) = str_eqb (lit n) p && is_nil b.
Proof.
  intros Wn W B. apply is_word_spec in Wn. apply eq_true_iff_eq. rewrite andb_true_iff, is_nil_spec.
  destruct (str_eqb_spec (p ++ b) (lit n)) as [E|E].
  - rewrite <- (app_nil_r (lit n)) in E. apply word_app_unique in E as (->&->); cbn; auto.
    split; auto. intros _. split; auto. apply str_eqb_refl.
  - split; [discriminate|]. intros (H&->). destruct (str_eqb_spec (lit n) p) as [<-|]; [|discriminate].
    elim E. apply app_nil_r.
Qed.

Lemma command_iff c n arg p b : is_word n = true -> word p -> starts_white b -> c = p ++ b ->
  command c n arg <-> p = lit n /\ arg = trim b.
Proof.
  intros Wn W B ->. apply is_word_spec in Wn. split.
  - intros (d&E&D&T). apply word_app_unique in E as (->&->); auto. split; auto.
    symmetry. now apply trim_unique.
  - intros (->& ->). exists b. split; auto. split; auto. apply trim_spec.
Qed.

Section WithUcd.
Context {U : ucd}.

(** The command chosen, by first word [p] and trimmed rest [arg]. *)
Definition dispatch (w : world) (s : session) (c p arg : str) (b : str) : list action * status :=
  let at_ (n : string) := str_eqb (lit n) p in
  let alone := is_nil arg in
  if at_ ":cd" then cmd_cd w s arg
  else if (at_ ":help" || at_ ":h" || at_ ":?") && alone then ([outln help_msg], Running s)
  else if at_ ":q" || at_ ":quit" then cmd_quit s c
  else if at_ ":clear" then cmd_clear s arg
  else if at_ ":history" then cmd_history s arg
  else if (at_ ":reset" || at_ ":r") && alone then
    ([outln (show_nat (List.length (r_fix (s_res s)) - 1) ++ lit " fixities removed")],
     Running (set_res s (mkResolver [] (r_errs (s_res s)))))
  else if (at_ ":info" || at_ ":i" || at_ ":fixities") && alone then
    ([AOut (print_fixities (r_fix (s_res s)))], Running s)
  else if at_ ":info" || at_ ":i" then (info (r_fix (s_res s)) b, Running s)
  else if at_ ":load" then cmd_load w s arg
  else if at_ ":shell" then cmd_shell w s b
  else ([unknown_command c], Running (set_buf s [])).

Lemma answer_nil {A} (x : A) k : answer [] (Ok x) k = k x.
Proof. cbn. destruct (k x). reflexivity. Qed.

Lemma trim_self c : trimmed c c -> trim c = c.
Proof. apply trim_unique. Qed.

Lemma read_command_split w s c p b : trimmed c c -> c = p ++ b -> word p -> starts_white b ->
  (trim b = [] -> b = []) ->
  read_command w s c = dispatch w s c p (trim b) b.
Proof.
  intros T E W B Z. unfold read_command. rewrite (trim_self c T). cbv zeta.
  subst c.
  assert (A : forall n, is_word n = true -> str_eqb (p ++ b) (lit n) = str_eqb (lit n) p && is_nil (trim b)).
  { intros n Wn. rewrite exact_split by auto. f_equal. apply eq_true_iff_eq. rewrite !is_nil_spec.
    split; auto. intros ->. reflexivity. }
  rewrite !named_split, !A by (auto; reflexivity). unfold dispatch.
  destruct (str_eqb_spec (lit ":cd") p) as [<-|_]; [now rewrite after_app, answer_nil by reflexivity|].
  rewrite <- !andb_orb_distrib_l.
  destruct ((str_eqb (lit ":help") p || str_eqb (lit ":h") p || str_eqb (lit ":?") p) && is_nil (trim b)); [reflexivity|].
  destruct (str_eqb (lit ":q") p || str_eqb (lit ":quit") p); [reflexivity|].
  destruct (str_eqb_spec (lit ":clear") p) as [<-|_]; [now rewrite after_app, answer_nil by reflexivity|].
  destruct (str_eqb_spec (lit ":history") p) as [<-|_]; [now rewrite after_app, answer_nil by reflexivity|].
  destruct ((str_eqb (lit ":reset") p || str_eqb (lit ":r") p) && is_nil (trim b)); [reflexivity|].
  destruct ((str_eqb (lit ":info") p || str_eqb (lit ":i") p || str_eqb (lit ":fixities") p) && is_nil (trim b)); [reflexivity|].
  destruct (str_eqb_spec (lit ":info") p) as [<-|_]; [now rewrite after_app, answer_nil by reflexivity|].
  destruct (str_eqb_spec (lit ":i") p) as [<-|_]; [now rewrite after_app, answer_nil by reflexivity|].
  cbn [orb].
  destruct (str_eqb_spec (lit ":load") p) as [<-|_]; [now rewrite after_app, answer_nil by reflexivity|].
  destruct (str_eqb_spec (lit ":shell") p) as [<-|_]; [now rewrite after_app, answer_nil by reflexivity|].
  reflexivity.
Qed.

(** * The prompt plays no role *)

Definition plain (st : status) : status :=
  match st with Running s => Running (set_cont s false) | st => st end.
Definition plainly (x : list action * status) : list action * status := (fst x, plain (snd x)).

Lemma read_buffer_plain s c : plainly (read_buffer (set_cont s c)) = plainly (read_buffer s).
Proof.
  unfold read_buffer. cbn. destruct (feed_input (s_res s) (s_buf s)) as [[r [a|e]]|p|]; try reflexivity.
  - cbn. destruct (fst (iter_next (iter_new a))) as [[]|]; try reflexivity.
    cbn. destruct (print_expr (r_fix r) e); reflexivity.
  - cbn. destruct (show_error e); reflexivity.
Qed.

Lemma read_file_plain w k s c p : plainly (read_file w k (set_cont s c) p) = plainly (read_file w k s p).
Proof.
  unfold read_file. destruct (w_read w k p) as [s0|s0]; [|reflexivity]. cbn.
  destruct (feed_input (s_res s) (relevant p s0)) as [[r [a|e]]|q|]; try reflexivity.
  cbn. destruct (show_error_with_path e p); reflexivity.
Qed.

Lemma plainly_inv x a st : plainly x = (a, st) -> fst x = a /\ plain (snd x) = st.
Proof. destruct x as (a0&st0). unfold plainly. cbn. intros E. injection E. auto. Qed.

Lemma read_files_plain w ps : forall k s c, plainly (read_files w k (set_cont s c) ps) = plainly (read_files w k s ps).
Proof.
  induction ps as [|p ps IH]; intros k s c; cbn [read_files]; [reflexivity|].
  destruct (unquote p) as [q|q|]; try reflexivity. rewrite !answer_nil.
  pose proof (read_file_plain w k s c q) as R.
  destruct (read_file w k (set_cont s c) q) as (a1&st1), (read_file w k s q) as (a2&st2).
  unfold plainly in R. cbn in R. injection R as -> R.
  destruct st1 as [s1| |p1|], st2 as [s2| |p2|]; cbn in R; try discriminate; try reflexivity; try (injection R as ->; reflexivity).
  assert (X : plainly (read_files w (S k) s1 ps) = plainly (read_files w (S k) s2 ps)).
  { rewrite <- (IH (S k) s1 false), <- (IH (S k) s2 false). injection R as R1 R2 R3.
    unfold set_cont. rewrite R1, R2, R3. reflexivity. }
  destruct (read_files w (S k) s1 ps), (read_files w (S k) s2 ps). unfold plainly in *. cbn in *. injection X as -> ->. reflexivity.
Qed.

Lemma read_command_plain w s c x : plainly (read_command w (set_cont s c) x) = plainly (read_command w s x).
Proof.
  unfold read_command. cbv zeta.
  repeat match goal with
  | |- context [if ?b then _ else _] => destruct b
  | |- context [answer [] (after ?n ?s) _] => destruct (after n s) as [y| |]; [rewrite !answer_nil|reflexivity|reflexivity]
  end; try reflexivity.
  - unfold cmd_cd. destruct (trim y); reflexivity.
  - unfold cmd_quit. repeat match goal with |- context [if ?b then _ else _] => destruct b end; reflexivity.
  - unfold cmd_clear. repeat match goal with |- context [if ?b then _ else _] => destruct b end; reflexivity.
  - unfold cmd_history. repeat match goal with
    | |- context [if ?b then _ else _] => destruct b
    | |- context [answer [] (after ?n ?s) _] => destruct (after n s) as [z| |]; [rewrite !answer_nil|reflexivity|reflexivity]
    end; try reflexivity. destruct (trim z); reflexivity.
  - unfold cmd_load. repeat match goal with |- context [if ?b then _ else _] => destruct b end; try reflexivity.
    apply read_files_plain.
  - unfold cmd_shell. destruct (split_whitespace y); reflexivity.
Qed.

(** * Evaluations and commands *)

(** One item, with no text kept. *)
Definition act (r : resolver) (h : str) (i : item) : list action * status :=
  let s := mkSession r [] false h in
  match i with
  | Evaluate t => read_buffer (set_buf s t)
  | Invoke w c => read_command w s c
  | Refuse => ([errln (lit "cannot call a command in multiline mode!")], Running s)
  | Notice msg => ([errln (lit "Error: " ++ msg)], Running s)
  end.

Fixpoint perform (r : resolver) (h : str) (is : list item) : list action * status :=
  match is with
  | [] => ([], Running (mkSession r [] false h))
  | i :: is' =>
      let (acts, st) := act r h i in
      match st with
      | Running s => let (more, st') := perform (s_res s) (s_hist s) is' in (acts ++ more, st')
      | _ => (acts, st)
      end
  end.

Lemma read_buffer_running s acts s' : read_buffer s = (acts, Running s') ->
  s_buf s' = [] /\ s_cont s' = s_cont s /\ s_hist s' = s_hist s /\
  exists res, feed_input (s_res s) (s_buf s) = Ok (s_res s', res).
Proof.
  unfold read_buffer. cbn. destruct (feed_input (s_res s) (s_buf s)) as [[r [a|e]]|p|]; cbn; try discriminate.
  - destruct (fst (iter_next (iter_new a))) as [[]|]; cbn; try destruct (print_expr (r_fix r) e); cbn;
      try discriminate; intros E; injection E as _ <-; cbn; eauto 10.
  - destruct (show_error e); cbn; try discriminate. intros E; injection E as _ <-; cbn; eauto 10.
Qed.

Lemma read_file_running w k s p acts s' : read_file w k s p = (acts, Running s') ->
  s_buf s' = s_buf s /\ s_cont s' = s_cont s /\ s_hist s' = s_hist s.
Proof.
  unfold read_file. destruct (w_read w k p).
  - cbn. destruct (feed_input (s_res s) _) as [[r [a|e]]|q|]; cbn; try discriminate.
    + intros E; injection E as _ <-; cbn; auto.
    + destruct (show_error_with_path e p); cbn; try discriminate. intros E; injection E as _ <-; cbn; auto.
  - intros E; injection E as _ <-; auto.
Qed.

Lemma read_files_running w ps : forall k s acts s', read_files w k s ps = (acts, Running s') ->
  s_buf s' = s_buf s /\ s_cont s' = s_cont s /\ s_hist s' = s_hist s.
Proof.
  induction ps as [|p ps IH]; intros k s acts s'; cbn [read_files].
  - intros E; injection E as _ <-; auto.
  - destruct (unquote p) as [q|q|]; cbn; try discriminate.
    destruct (read_file w k s q) as (a1&st1) eqn:R. destruct st1 as [s1| | |]; try discriminate.
    destruct (read_files w (S k) s1 ps) as (a2&st2) eqn:R2. intros E; injection E as _ ->.
    apply read_file_running in R as (Q1&Q2&Q3). apply IH in R2 as (R1&R3&R4). repeat split; congruence.
Qed.

Lemma read_command_running w s c acts s' : read_command w s c = (acts, Running s') -> s_buf s = [] ->
  s_buf s' = [] /\ s_cont s' = s_cont s.
Proof.
  unfold read_command. cbv zeta. intros E B. revert E.
  assert (D : forall x, (x, Running s) = (acts, Running s') -> s_buf s' = [] /\ s_cont s' = s_cont s).
  { intros x E. injection E as _ <-. auto. }
  repeat match goal with
  | |- context [if ?b then _ else _] => destruct b
  | |- context [answer [] (after ?n ?s) _] => destruct (after n s) as [y| |]; [rewrite !answer_nil|cbn; discriminate|cbn; discriminate]
  end; cbn; eauto; try (intros E; injection E as _ <-; cbn; auto; fail).
  - unfold cmd_cd. destruct (trim y); eauto.
  - unfold cmd_quit. repeat match goal with |- context [if ?b then _ else _] => destruct b end; eauto; discriminate.
  - unfold cmd_clear. repeat match goal with |- context [if ?b then _ else _] => destruct b end; cbn; eauto;
      intros E; injection E as _ <-; cbn; auto.
  - unfold cmd_history. repeat match goal with
    | |- context [if ?b then _ else _] => destruct b
    | |- context [answer [] (after ?n ?s) _] => destruct (after n s) as [z| |]; [rewrite !answer_nil|cbn; discriminate|cbn; discriminate]
    end; eauto. destruct (trim z); eauto. intros E; injection E as _ <-; cbn; auto.
  - unfold cmd_load. repeat match goal with |- context [if ?b then _ else _] => destruct b end; cbn; eauto;
      try (intros E; injection E as _ <-; cbn; auto; fail).
    intros E. apply read_files_running in E as (->&->&_). auto.
  - unfold cmd_shell. destruct (split_whitespace y); eauto.
Qed.

Definition agrees (b' : str) (st st' : status) : Prop :=
  match st, st' with
  | Running x, Running y => s_res x = s_res y /\ s_hist x = s_hist y /\ s_buf x = b'
  | Running _, _ | _, Running _ => False
  | _, _ => st = st'
  end.

(** A step that settles an item, seen from both sides. *)
Lemma settle acts st acts' st' : plainly (acts, st) = plainly (acts', st') ->
  acts = acts' /\ match st with
                  | Running x => exists y, st' = Running y /\ s_res x = s_res y /\ s_hist x = s_hist y
                  | _ => st' = st
                  end.
Proof.
  unfold plainly. cbn. intros E. injection E as -> E. split; auto.
  destruct st as [x| | |], st' as [y| | |]; cbn in E; try discriminate; auto.
  - injection E as H1 H2 H3. exists y. auto.
Qed.

Lemma run_grouped b es is b' : grouped b es is b' -> forall s acts st, s_buf s = b ->
  run s es = (acts, st) ->
  exists st', perform (s_res s) (s_hist s) is = (acts, st') /\ agrees b' st st'.
Proof.
  induction 1 as [b|b msg es is b' G IH|b w l es is b' R G IH|b w l t es is b' R G IH
                 |b w l t es is b' R G IH|w l c es is b' R G IH|b w l c es is b' Nb R G IH];
    intros s acts st B; cbn [run perform step].
  - intros E. injection E as <- <-. eexists. split; [reflexivity|]. cbn. auto.
  - cbn [act]. destruct (run s es) as (a2&st2) eqn:R. intros E. injection E as <- <-.
    destruct (IH s a2 st2 B R) as (st'&P&A). cbn [s_res s_hist]. rewrite P. eauto.
  - rewrite (line_reads w s l _ R). cbn [react]. destruct (run s es) as (a2&st2) eqn:E. intros X. injection X as <- <-.
    apply (IH s); auto.
  - rewrite (line_reads w s l _ R). cbn [react].
    destruct (run (set_cont (set_buf s (s_buf s ++ t)) (next_cont s l)) es) as (a2&st2) eqn:E. intros X. injection X as <- <-.
    apply (IH (set_cont (set_buf s (s_buf s ++ t)) (next_cont s l))); auto. cbn. now rewrite B.
  - rewrite (line_reads w s l _ R). cbn [react act]. intros E.
    pose proof (read_buffer_plain (set_buf s (s_buf s ++ t)) (next_cont s l)) as P1.
    pose proof (read_buffer_plain (set_buf s (s_buf s ++ t)) false) as P2.
    change (set_cont (set_buf s (s_buf s ++ t)) false) with (set_buf (mkSession (s_res s) [] false (s_hist s)) (s_buf s ++ t)) in P2.
    rewrite B in *. rewrite <- P1 in P2. clear P1.
    destruct (read_buffer (set_cont (set_buf s (b ++ t)) (next_cont s l))) as (a1&st1) eqn:E1.
    destruct (read_buffer (set_buf (mkSession (s_res s) [] false (s_hist s)) (b ++ t))) as (a1'&st1') eqn:E2.
    apply eq_sym, settle in P2 as (<-&Q).
    destruct st1 as [x| |p|].
    + destruct Q as (y&->&Q1&Q2). destruct (run x es) as (a2&st2) eqn:E3. injection E as <- <-.
      destruct (IH x a2 st2) as (st'&P&A); auto.
      { apply read_buffer_running in E1. apply E1. }
      rewrite Q1, Q2 in P. rewrite P. eauto.
    + subst. injection E as <- <-. eexists. split; [reflexivity|]. reflexivity.
    + subst. injection E as <- <-. eexists. split; [reflexivity|]. reflexivity.
    + subst. injection E as <- <-. eexists. split; [reflexivity|]. reflexivity.
  - rewrite (line_reads w s l _ R). cbn [react act]. rewrite B. cbn [is_nil]. intros E.
    pose proof (read_command_plain w s false c) as P2.
    replace (set_cont s false) with (mkSession (s_res s) [] false (s_hist s)) in P2 by (unfold set_cont; now rewrite B).
    destruct (read_command w s c) as (a1&st1) eqn:E1.
    destruct (read_command w (mkSession (s_res s) [] false (s_hist s)) c) as (a1'&st1') eqn:E2.
    apply eq_sym, settle in P2 as (<-&Q).
    destruct st1 as [x| |p|].
    + destruct Q as (y&->&Q1&Q2). destruct (run x es) as (a2&st2) eqn:E3. injection E as <- <-.
      destruct (IH x a2 st2) as (st'&P&A); auto.
      { eapply read_command_running; eauto. }
      rewrite Q1, Q2 in P. rewrite P. eauto.
    + subst. injection E as <- <-. eexists. split; [reflexivity|]. reflexivity.
    + subst. injection E as <- <-. eexists. split; [reflexivity|]. reflexivity.
    + subst. injection E as <- <-. eexists. split; [reflexivity|]. reflexivity.
  - rewrite (line_reads w s l _ R). cbn [react act]. rewrite B. destruct b as [|b0 b1]; [congruence|]. cbn [is_nil].
    destruct (run s es) as (a2&st2) eqn:E. intros X. injection X as <- <-.
    destruct (IH s a2 st2 B E) as (st'&P&A). cbn [s_res s_hist]. rewrite P. eauto.
Qed.

End WithUcd.
