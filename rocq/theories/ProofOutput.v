(** Prompts and messages. *)
From Coq Require Import List Arith NArith Bool String Lia.
From Verif Require ProofLexer2.
From Verif Require Import ProofLexer8.
From Verif Require Import Prelim Chars Syntax Fixity Style Lexer Parser Printer Grapheme Messages Repl
  SpecGrapheme SpecLexer SpecParser SpecFixity SpecStyle SpecPrinter SpecRepl ProofTable ProofResolve2 ProofParser8 PropsParser
  ProofRepl ProofRepl2 ProofRepl3 ProofRepl5 ProofRepl6 ProofRepl9 SpecOutput.
Import ListNotations.
Local Open Scope string_scope.
Local Open Scope list_scope.

Section WithUcd.
Context {U : ucd}.

(** * Prompts *)

Lemma prompt_of s : prompt_str s = if s_cont s then second_prompt else first_prompt.
Proof. reflexivity. Qed.

Lemma prompt_line w s l acts s' : read_line w s l = (acts, Running s') ->
  prompt_after (prompt_str s) (Line w l) (prompt_str s').
Proof.
  intros E. destruct (reads_total l) as (re&R). rewrite (line_reads w s l re R) in E.
  assert (Eh : (exists t, re = Hold t \/ re = Say t) -> s_cont s' = next_cont s l).
  { intros (t&[->| ->]); cbn [react] in E.
    - injection E as _ <-. reflexivity.
    - apply read_buffer_running in E as (_&->&_). reflexivity. }
  assert (Ec : (re = Nothing \/ exists c, re = Command c) -> s_cont s' = s_cont s).
  { intros [->|(c&->)]; cbn [react] in E; [injection E as _ <-; reflexivity|].
    destruct (s_buf s) eqn:B; cbn [is_nil] in E; [|injection E as _ <-; reflexivity].
    apply read_command_running in E as (_&->); auto. }
  rewrite !prompt_of. unfold next_cont in Eh.
  destruct R as [l W|l c H|l x H|l x H N1 N2|l n x H N1 N2 N3|l n x m H N1 N2|l x H N0 N1 N2 N3].
  - rewrite Ec by auto. apply pa_aside. left. exact W.
  - rewrite Ec by eauto. apply pa_aside. right. eauto.
  - rewrite Eh by eauto. rewrite (trim_trimmed _ _ H). replace (starts_with [123%N] _) with false by reflexivity. cbn [andb].
    apply pa_backslash. exists (lit "infix" ++ x ++ [32%N]). split.
    + rewrite <- !app_assoc. exact H.
    + intros (y&Y). discriminate.
  - rewrite Eh by eauto. rewrite (trim_trimmed _ _ H). rewrite (proj1 (ends_iff 92 (x ++ [92%N])) ltac:(exists x; reflexivity)).
    rewrite andb_false_r. apply pa_backslash. exists x. split; auto.
  - rewrite Eh by eauto. rewrite (trim_trimmed _ _ H). replace (starts_with [123%N] (repeat 123%N (S n) ++ _)) with true by reflexivity.
    assert (A : forall c, c <> 123%N -> ~ ends c x -> ends_with [c] (repeat 123%N (S n) ++ x) = false).
    { intros c Nc Ne. apply ends_false. intros En. destruct x as [|y x].
      - rewrite app_nil_r in En. destruct En as (z&Z). apply (f_equal (@rev N)) in Z. rewrite rev_repeat, rev_app_distr in Z. cbn in Z.
        injection Z as Z _. congruence.
      - apply Ne. eapply ends_app_inv; eauto. discriminate. }
    rewrite (A 92%N ltac:(discriminate) N2), (A 125%N ltac:(discriminate) N3). cbn [andb negb].
    apply pa_open with x. exists n. auto.
  - rewrite Eh by eauto. rewrite (trim_trimmed _ _ H). replace (starts_with [123%N] (repeat 123%N (S n) ++ _)) with true by reflexivity.
    assert (En : ends 125 (repeat 123%N (S n) ++ x ++ repeat 125%N (S m))).
    { exists (repeat 123%N (S n) ++ x ++ repeat 125%N m). rewrite <- !app_assoc. do 2 f_equal. clear. induction m; cbn in *; congruence. }
    rewrite (proj1 (ends_iff _ _) En). rewrite (proj1 (ends_false 92 _)) by (apply (not_ends_other 125); [discriminate|auto]).
    cbn [andb negb]. apply pa_close. exists n, x, m. exact H.
  - rewrite Eh by eauto. rewrite (trim_trimmed _ _ H). rewrite (proj1 (starts_false 123 x) N2). cbn [andb].
    apply pa_plain. exists x. auto.
Qed.

Lemma prompt_step s e acts s' : step s e = (acts, Running s') -> prompt_after (prompt_str s) e (prompt_str s').
Proof.
  destruct e as [w l| | |m]; cbn [step]; try discriminate.
  - apply prompt_line.
  - intros E. injection E as _ <-. constructor.
Qed.

(** * Messages *)

Lemma position_shown a : position_text a (show_loc a).
Proof.
  exists (show_nat (l_pos a)), (show_nat (l_line a)), (show_nat (l_col a)). repeat (split; [apply show_nat_decimal|]). reflexivity.
Qed.

Lemma mistake_shown w s x v m : mistake w s x v -> show_lexerror x = Ok m -> mistake_text x m.
Proof.
  intros M. destruct M; cbn [show_lexerror show_cperror int_error_text]; intros E; try discriminate;
    apply (f_equal (fun o => match o with Ok m => m | _ => [] end)) in E; cbv beta iota in E; subst m.
  all: try (constructor; apply position_shown).
  all: try (constructor; apply show_nat_decimal).
  all: try constructor; cbn [code_point_text]; auto.
  exists (show_N (value 16 h)). split; [|reflexivity].
  pose proof (show_nat_decimal (N.to_nat (value 16 h))) as D. unfold show_nat in D. rewrite N2Nat.id in D. exact D.
Qed.

Lemma lexeme_shown s t v m : lexeme s t v -> show_token t = Ok m -> named_in show_lit t s m.
Proof.
  intros L E. destruct L as [c t v I|s t v I|c u s v|s v|b s v|c v|e d v|u p h x v|c u s v|c u s v|c d v|s t v I|u s v];
    cbn [show_token] in E; try (injection E as <-; constructor; fail).
  - assert (X : as_written t /\ m = [c]); [|destruct X as (X&->); constructor; exact X].
    cbn in I. repeat (destruct I as [I|I]; [injection I as <- <-; cbn in E; injection E as <-; split; [exact Logic.I|reflexivity]|]). destruct I.
  - assert (X : as_written t /\ m = s); [|destruct X as (X&->); constructor; exact X].
    cbn in I. repeat (destruct I as [I|I]; [injection I as <- <-; cbn in E; injection E as <-; split; [exact Logic.I|reflexivity]|]). destruct I.
  - injection E as <-. constructor. exact Logic.I.
  - assert (X : as_written t /\ m = s); [|destruct X as (X&->); constructor; exact X].
    cbn in I. repeat (destruct I as [I|I]; [injection I as <- <-; cbn in E; injection E as <-; split; [exact Logic.I|reflexivity]|]). destruct I.
  - injection E as <-. constructor. exact Logic.I.
Qed.

(** The end of the text is where it is said to be. *)
Lemma error_stands (HU : letters U) src e l : no_lfcr src -> parse src = PErr e l ->
  exists w g s v, stands src w g s v (found e) /\ (error_loc e = loc_of w \/ error_loc e = loc_of (w ++ g ++ s)).
Proof.
  intros C E. destruct (C38_error_positions HU src e l C (or_introl E)) as [(F&w&g&->&G&L)|(w&g&s&v&->&G&K&L)].
  - exists w, g, [], []. rewrite F. split; [|auto]. split; [now rewrite !app_nil_r|]. split; [exact G|auto].
  - exists w, g, s, v. split; [|auto]. split; [reflexivity|]. split; [exact G|tauto].
Qed.

Lemma stands_shown src w g s v t m : stands src w g s v t -> show_token t = Ok m -> named_in show_lit t s m.
Proof.
  intros (_&_&[L|[(x&->&M)|(->&->&->)]]) E.
  - eapply lexeme_shown; eauto.
  - cbn [show_token] in E. apply na_mistake. eapply mistake_shown; eauto.
  - cbn in E. injection E as <-. constructor.
Qed.

Lemma wanted_shown x : In x [TParenL; TParenR; TBrackL; TBrackR; TLambda; TArrow; TIn] ->
  exists n, In (x, n) wanted /\ show_token x = Ok (lit n).
Proof.
  intros I. cbn in I.
  repeat (destruct I as [I|I]; [subst x; eexists; split; [unfold wanted; cbn; eauto 12|reflexivity]|]). destruct I.
Qed.

Lemma blames_shown (HU : letters U) src e l b : no_lfcr src -> parse src = PErr e l -> show_perror_without_loc e = Ok b ->
  blames show_lit src b (error_loc e) /\
  exists m, show_perror e = Ok m /\
    (m = b ++ lit " found at " ++ show_loc (error_loc e) /\ (exists x, b = lit "unexpected" ++ x)
     \/ m = b ++ lit " at " ++ show_loc (error_loc e) /\ (exists x, b = lit "expected" ++ x)).
Proof.
  intros C P Eb. destruct (error_stands HU src e l C P) as (w&g&s&v&S1&L).
  destruct e as [x a t|t a]; cbn [show_perror show_perror_without_loc error_loc found] in *.
  - destruct (C38_expected_token HU src x a t l (or_introl P)) as (I&N). destruct (wanted_shown x I) as (n&In_&Ex).
    rewrite Ex in Eb |- *. cbn [obind] in Eb |- *. destruct (show_token t) as [y| |] eqn:Et; try discriminate. cbn [obind] in Eb |- *.
    apply (f_equal (fun o => match o with Ok m => m | _ => [] end)) in Eb. cbv beta iota in Eb. subst b.
    pose proof (stands_shown _ _ _ _ _ _ _ S1 Et) as Nm. split; [eapply bl_expected; eauto|].
    eexists. split; [reflexivity|]. right. split; [now rewrite <- !app_assoc|]. exists (lit " `" ++ lit n ++ lit "`, but found `" ++ y ++ lit "`"). reflexivity.
  - destruct (show_token t) as [y| |] eqn:Et; try discriminate. cbn [obind] in Eb |- *.
    apply (f_equal (fun o => match o with Ok m => m | _ => [] end)) in Eb. cbv beta iota in Eb. subst b.
    pose proof (stands_shown _ _ _ _ _ _ _ S1 Et) as Nm. split; [eapply bl_unexpected; eauto|].
    eexists. split; [reflexivity|]. left. split; [now rewrite <- !app_assoc|]. exists (lit " token `" ++ y ++ lit "`"). reflexivity.
Qed.

Lemma read_buffer_complains (HU : letters U) s acts s' : no_lfcr (s_buf s) -> (forall ds, ~ parses (s_buf s) ds) ->
  read_buffer s = (acts, Running s') -> exists m, acts = [AErr (error_prefix ++ m ++ [10%N])] /\ complaint show_lit (s_buf s) m.
Proof.
  intros C N. unfold read_buffer. cbn [s_res set_buf].
  destruct (feed_unparsed HU (s_res s) (s_buf s) C N) as [(e&l&P&E)|(p&_&E)]; rewrite E; cbn [answer]; [|discriminate].
  destruct (show_error (ErrParser e)) as [m|p|] eqn:Em; cbn [answer]; try discriminate. intros X. injection X as <- _.
  unfold show_error in Em.
  destruct (show_perror e) as [y| |] eqn:Ep; try discriminate. cbn [obind] in Em.
  assert (B : exists b, show_perror_without_loc e = Ok b).
  { destruct e; cbn [show_perror show_perror_without_loc] in *; destruct (show_token _); cbn [obind] in *; eauto; try discriminate.
    destruct (show_token _); cbn [obind] in *; eauto; discriminate. }
  destruct B as (b&Eb). destruct (blames_shown HU _ _ _ _ C P Eb) as (Bl&y'&Ey&K). rewrite Ep in Ey. injection Ey as <-.
  exists y. split.
  - apply (f_equal (fun o => match o with Ok m => m | _ => [] end)) in Em. cbv beta iota in Em. subst m. unfold errln. rewrite <- app_assoc. reflexivity.
  - exists (error_loc e), b, (show_loc (error_loc e)). split; [exact Bl|]. split; [apply position_shown|exact K].
Qed.
End WithUcd.
