(** Strings, lines and the line discipline of the session. *)
From Coq Require Import List Arith NArith Bool String Lia.
From Verif Require Import Prelim Chars Syntax Fixity Style Lexer Parser Printer Grapheme Messages Repl
  SpecGrapheme SpecLexer SpecParser SpecFixity SpecRepl ProofBytes ProofTable ProofGrapheme.
Import ListNotations.
Local Open Scope string_scope.
Local Open Scope list_scope.

Lemma starts_with_spec p s : starts_with p s = true <-> exists x, s = p ++ x.
Proof.
  revert s. induction p as [|c p IH]; intros s; cbn [starts_with app].
  - split; eauto.
  - destruct s as [|d s].
    + split; [discriminate|]. intros (x&E). discriminate.
    + rewrite andb_true_iff, IH, N.eqb_eq. split.
      * intros (->&x&->). eauto.
      * intros (x&E). injection E as -> ->. eauto.
Qed.

Lemma starts_with_app p x : starts_with p (p ++ x) = true.
Proof. apply starts_with_spec. eauto. Qed.

Lemma ends_with_spec p s : ends_with p s = true <-> exists x, s = x ++ p.
Proof.
  unfold ends_with. rewrite starts_with_spec. split; intros (x&E).
  - exists (rev x). rewrite <- (rev_involutive s), E, rev_app_distr, rev_involutive. reflexivity.
  - exists (rev x). rewrite E. apply rev_app_distr.
Qed.

Lemma starts_iff c s : starts c s <-> starts_with [c] s = true.
Proof. rewrite starts_with_spec. split; intros (x&->); exists x; reflexivity. Qed.
Lemma ends_iff c s : ends c s <-> ends_with [c] s = true.
Proof. rewrite ends_with_spec. reflexivity. Qed.

Lemma starts_false c s : ~ starts c s <-> starts_with [c] s = false.
Proof. rewrite starts_iff. destruct (starts_with [c] s); split; congruence. Qed.
Lemma ends_false c s : ~ ends c s <-> ends_with [c] s = false.
Proof. rewrite ends_iff. destruct (ends_with [c] s); split; congruence. Qed.

Lemma trim_start_matches_app c n r : ~ starts c r -> trim_start_matches c (repeat c n ++ r) = r.
Proof.
  intros H. induction n as [|n IH]; cbn [repeat app trim_start_matches].
  - destruct r as [|d r]; auto. cbn [trim_start_matches]. destruct (N.eqb_spec d c); auto.
    subst. elim H. exists r. reflexivity.
  - rewrite N.eqb_refl. exact IH.
Qed.

Lemma trim_start_matches_spec c s : exists n, s = repeat c n ++ trim_start_matches c s
  /\ ~ starts c (trim_start_matches c s).
Proof.
  induction s as [|d s IH]; cbn [trim_start_matches].
  - exists 0. split; auto. intros (x&E). discriminate.
  - destruct (N.eqb_spec d c) as [->|Ne].
    + destruct IH as (n&E&N). exists (S n). split; auto. cbn [repeat app]. congruence.
    + exists 0. split; auto. intros (x&E). congruence.
Qed.

Lemma rev_repeat {A} (c : A) n : rev (repeat c n) = repeat c n.
Proof.
  induction n as [|n IH]; cbn [repeat rev]; auto. rewrite IH. clear.
  induction n; cbn; congruence.
Qed.

Lemma starts_rev c s : starts c (rev s) <-> ends c s.
Proof.
  split; intros (x&E).
  - exists (rev x). rewrite <- (rev_involutive s), E. reflexivity.
  - exists (rev x). rewrite E, rev_app_distr. reflexivity.
Qed.

Lemma trim_end_matches_app c n r : ~ ends c r -> trim_end_matches c (r ++ repeat c n) = r.
Proof.
  intros H. unfold trim_end_matches. rewrite rev_app_distr, rev_repeat, trim_start_matches_app.
  - apply rev_involutive.
  - now rewrite starts_rev.
Qed.

Lemma trim_end_matches_spec c s : exists n, s = trim_end_matches c s ++ repeat c n
  /\ ~ ends c (trim_end_matches c s).
Proof.
  destruct (trim_start_matches_spec c (rev s)) as (n&E&N). exists n. unfold trim_end_matches. split.
  - rewrite <- (rev_involutive s), E at 1. rewrite rev_app_distr, rev_repeat. reflexivity.
  - now rewrite <- starts_rev, rev_involutive.
Qed.

Lemma after_app p b n : blen p = n -> after n (p ++ b) = Ok b.
Proof. intros <-. unfold after. now rewrite skip_bytes_app. Qed.

Lemma without_last_app x p n : blen p = n -> without_last n (x ++ p) = Ok x.
Proof.
  intros <-. unfold without_last. rewrite blen_app, Nat.add_sub.
  pose proof (slice_app [] x p) as E. cbn [app blen Nat.add] in E. now rewrite E.
Qed.

Lemma is_nil_spec s : is_nil s = true <-> s = [].
Proof. destruct s; cbn; split; congruence. Qed.

(** * Trimmed lines *)

Lemma trim_trimmed l x : trimmed l x -> trim l = x.
Proof. apply trim_unique. Qed.

Lemma trimmed_self l x : trimmed l x -> trimmed x x.
Proof.
  intros (a&b&_&_&_&H1&H2). exists [], []. rewrite app_nil_r. cbn. repeat split; auto; constructor.
Qed.

Lemma trimmed_nil l : trimmed l [] <-> white l.
Proof.
  split.
  - intros (a&b&->&A&B&_). apply Forall_app. auto.
  - intros W. exists l, []. rewrite !app_nil_r. repeat split; auto; constructor.
Qed.

Lemma infix_keyword_starts s :
  (starts_with (lit "infix") s || starts_with (lit "infixl") s || starts_with (lit "infixr") s)
  = starts_with (lit "infix") s.
Proof.
  destruct (starts_with (lit "infix") s) eqn:E; auto.
  destruct (starts_with (lit "infixl") s) eqn:E1.
  { apply starts_with_spec in E1 as (x&->). discriminate. }
  destruct (starts_with (lit "infixr") s) eqn:E2; auto.
  apply starts_with_spec in E2 as (x&->). discriminate.
Qed.

(** A text that starts with [infix] and ends with a space and a backslash. *)
Lemma infix_overlap s : starts_with (lit "infix") s = true -> ends_with [32; 92]%N s = true ->
  exists x, s = lit "infix" ++ x ++ [32; 92]%N.
Proof.
  intros H1 H2. apply starts_with_spec in H1 as (x&->). apply ends_with_spec in H2 as (y&E).
  destruct (exists_last (l := x)) as (x1&c&->).
  { intros ->. rewrite app_nil_r in E. apply (f_equal (@rev N)) in E. rewrite rev_app_distr in E. discriminate. }
  rewrite app_assoc in E. change [32; 92]%N with ([32] ++ [92])%N in E. rewrite app_assoc in E.
  apply app_inj_tail in E as (E&->).
  destruct (exists_last (l := x1)) as (x2&c&->).
  { intros ->. rewrite app_nil_r in E. apply (f_equal (@rev N)) in E. rewrite rev_app_distr in E. discriminate. }
  rewrite app_assoc in E. apply app_inj_tail in E as (E&->).
  exists x2. now rewrite <- !app_assoc.
Qed.

Lemma not_starts_other c d s : c <> d -> starts c s -> ~ starts d s.
Proof. intros N (x&->) (y&E). congruence. Qed.
Lemma not_ends_other c d s : c <> d -> ends c s -> ~ ends d s.
Proof. intros N (x&->) (y&E). apply app_inj_tail in E as (_&E). auto. Qed.
Lemma ends_app c a s : ends c s -> ends c (a ++ s).
Proof. intros (x&->). exists (a ++ x). now rewrite app_assoc. Qed.
Lemma ends_app_inv c a s : s <> [] -> ends c (a ++ s) -> ends c s.
Proof.
  intros N (x&E). destruct (exists_last N) as (s'&d&->). rewrite app_assoc in E.
  apply app_inj_tail in E as (_&->). exists s'. reflexivity.
Qed.

Section WithUcd.
Context {U : ucd}.

(** What the loop does with a line, in the terms of SpecRepl.v. *)
Definition react (w : world) (s : session) (re : reaction) (cont : bool) : list action * status :=
  match re with
  | Nothing => ([], Running s)
  | Command c =>
      if is_nil (s_buf s) then read_command w s c
      else ([errln (lit "cannot call a command in multiline mode!")], Running s)
  | Hold t => ([], Running (set_cont (set_buf s (s_buf s ++ t)) cont))
  | Say t => read_buffer (set_cont (set_buf s (s_buf s ++ t)) cont)
  end.

Ltac tr H := rewrite (trim_trimmed _ _ H), ?(trim_trimmed _ _ (trimmed_self _ _ H)).

Lemma set_cont_id s b : set_cont (set_buf s b) (s_cont s) = set_buf s b.
Proof. reflexivity. Qed.

Lemma lit_start (x y : str) : match lit "infix" ++ x with [] => False | c :: _ => c = 105%N end.
Proof. reflexivity. Qed.

(** Which prompt is shown next. *)
Definition next_cont (s : session) (l : str) : bool :=
  if starts_with [123]%N (trim l) && negb (ends_with [92]%N (trim l))
  then (if ends_with [125]%N (trim l) then s_cont s else true)
  else false.

Lemma line_reads w s l re : reads l re -> read_line w s l = react w s re (next_cont s l).
Proof.
  intros R. unfold read_line, next_cont. destruct R as [l W|l c H|l x H|l x H N1 N2|l n x H N1 N2 N3|l n x m H N1 N2|l x H N0 N1 N2 N3].
  - apply trimmed_nil in W. tr W. reflexivity.
  - tr H. cbn [is_nil]. rewrite (proj1 (starts_iff _ _)) by (exists c; reflexivity). reflexivity.
  - tr H. replace (is_nil _) with false by reflexivity.
    replace (starts_with [58%N] _) with false by reflexivity.
    rewrite infix_keyword_starts, starts_with_app.
    rewrite (proj2 (ends_with_spec [32; 92]%N _)) by (exists (lit "infix" ++ x); now rewrite app_assoc).
    cbn [andb]. rewrite app_assoc, without_last_app by reflexivity. cbn [answer app].
    unfold react. replace (starts_with [123%N] _) with false by reflexivity. cbn [andb].
    now rewrite <- !app_assoc.
  - tr H. replace (is_nil _) with false by (destruct x; reflexivity).
    replace (starts_with [58%N] _) with false
      by (symmetry; apply starts_false; intros (z&E); destruct x; [discriminate|]; injection E as -> _;
          apply N1; exists x; reflexivity).
    rewrite infix_keyword_starts.
    assert (Hx : ends_with [92%N] (x ++ [92%N]) = true) by (apply ends_iff; exists x; reflexivity).
    destruct (starts_with (lit "infix") (x ++ [92%N]) && ends_with [32; 92]%N (x ++ [92%N])) eqn:E.
    + apply andb_true_iff in E as (E1&E2). destruct (infix_overlap _ E1 E2) as (y&E).
      exfalso. apply (N2 y). change [32; 92]%N with ([32] ++ [92])%N in E. rewrite !app_assoc in E.
      apply app_inj_tail in E as (E&_). now rewrite E, <- app_assoc.
    + rewrite Hx, without_last_app by reflexivity. cbn [answer app]. rewrite andb_false_r. reflexivity.
  - tr H. cbn [repeat app] in *. cbn [is_nil].
    replace (starts_with [58%N] _) with false by reflexivity.
    rewrite infix_keyword_starts. replace (starts_with (lit "infix") _) with false by reflexivity. cbn [andb].
    replace (starts_with [123%N] (123%N :: repeat 123%N n ++ x)) with true by reflexivity.
    change (123%N :: repeat 123%N n ++ x) with (repeat 123%N (S n) ++ x).
    rewrite trim_start_matches_app by auto.
    assert (E92 : ends_with [92%N] (repeat 123%N (S n) ++ x) = false).
    { apply ends_false. intros E. destruct x as [|d x].
      - rewrite app_nil_r in E. apply starts_rev in E. rewrite rev_repeat in E. destruct E as (z&E). discriminate.
      - apply N2. eapply ends_app_inv; eauto. discriminate. }
    rewrite E92. rewrite (proj1 (ends_false 125 x)) by auto. cbn [negb andb].
    assert (E125 : ends_with [125%N] (repeat 123%N (S n) ++ x) = false).
    { apply ends_false. intros E. destruct x as [|d x].
      - rewrite app_nil_r in E. apply starts_rev in E. rewrite rev_repeat in E. destruct E as (z&E). discriminate.
      - apply N3. eapply ends_app_inv; eauto. discriminate. }
    rewrite E125. reflexivity.
  - tr H. cbn [repeat app] in *. cbn [is_nil].
    replace (starts_with [58%N] _) with false by reflexivity.
    rewrite infix_keyword_starts. replace (starts_with (lit "infix") _) with false by reflexivity. cbn [andb].
    replace (starts_with [123%N] (123%N :: _)) with true by reflexivity.
    change (125%N :: repeat 125%N m) with (repeat 125%N (S m)).
    change (123%N :: repeat 123%N n ++ x ++ repeat 125%N (S m)) with (repeat 123%N (S n) ++ x ++ repeat 125%N (S m)).
    assert (E : ends 125 (x ++ repeat 125%N (S m))).
    { apply ends_app. apply starts_rev. rewrite rev_repeat. exists (repeat 125%N m). reflexivity. }
    rewrite trim_start_matches_app.
    2:{ intros (z&Z). destruct x; [discriminate|]. injection Z as -> _. apply N1. exists x. reflexivity. }
    rewrite (proj1 (ends_false 92 _)) by (apply ends_app with (a := repeat 123%N (S n)) in E; eapply not_ends_other; eauto; discriminate).
    rewrite (proj1 (ends_iff 125 _) E). rewrite (proj1 (ends_iff 125 _) (ends_app _ _ _ E)). cbn [negb andb].
    rewrite trim_end_matches_app by auto. reflexivity.
  - tr H. replace (is_nil x) with false by (destruct x; [congruence|reflexivity]).
    rewrite (proj1 (starts_false 58 x)), (proj1 (starts_false 123 x)), (proj1 (ends_false 92 x)) by auto.
    replace (ends_with [32; 92]%N x) with false; [rewrite andb_false_r; reflexivity|].
    symmetry. apply not_true_iff_false. intros E. apply ends_with_spec in E as (z&->). apply N3.
    exists (z ++ [32%N]). now rewrite <- app_assoc.
Qed.

Lemma reads_total l : exists re, reads l re.
Proof.
  pose proof (trim_spec l) as H. set (s := trim l) in *. clearbody s.
  destruct s as [|c0 s0] eqn:Es; [exists Nothing; constructor; apply trimmed_nil; auto|].
  rewrite <- Es in *. assert (Ne : s <> []) by congruence. clear Es c0 s0.
  destruct (starts_with [58%N] s) eqn:E1.
  { apply starts_iff in E1 as (x&->). eexists. apply rd_command. eauto. }
  apply starts_false in E1. destruct (ends_with [92%N] s) eqn:E2.
  { apply ends_iff in E2 as (x&->).
    destruct (starts_with (lit "infix") (x ++ [92%N]) && ends_with [32; 92]%N (x ++ [92%N])) eqn:E.
    - apply andb_true_iff in E as (A&B). destruct (infix_overlap _ A B) as (y&E). rewrite E in H.
      eexists. apply rd_infix. eauto.
    - eexists. apply rd_backslash; eauto.
      + intros (z&->). apply E1. exists (z ++ [92%N]). reflexivity.
      + intros y ->. rewrite <- !app_assoc in E. rewrite starts_with_app in E.
        rewrite (proj2 (ends_with_spec _ _)) in E; [discriminate|]. exists (lit "infix" ++ y).
        now rewrite <- !app_assoc. }
  apply ends_false in E2. destruct (starts_with [123%N] s) eqn:E3.
  - destruct (trim_start_matches_spec 123 s) as (n&En&N). set (x := trim_start_matches 123 s) in *. clearbody x.
    destruct n as [|n].
    { cbn [repeat app] in En. subst x. apply starts_iff in E3. contradiction. }
    subst s. destruct (ends_with [125%N] x) eqn:E4.
    + destruct (trim_end_matches_spec 125 x) as (m&Em&M). set (y := trim_end_matches 125 x) in *. clearbody y.
      destruct m as [|m].
      { cbn [repeat] in Em. rewrite app_nil_r in Em. subst x. apply ends_iff in E4. contradiction. }
      subst x. eexists. eapply rd_close; eauto.
      intros (z&->). apply N. exists (z ++ repeat 125%N (S m)). reflexivity.
    + apply ends_false in E4. eexists. eapply rd_open; eauto.
      intros E. apply E2, ends_app, E.
  - apply starts_false in E3. eexists. apply rd_plain; eauto.
Qed.

Lemma reads_unique l a b : reads l a -> reads l b -> a = b.
Proof.
  intros A B.
  assert (K : forall re, reads l re -> re =
    let s := trim l in
    if is_nil s then Nothing
    else if starts_with [58]%N s then Command s
    else if starts_with (lit "infix") s && ends_with [32; 92]%N s
         then Hold (match without_last 2 s with Ok x => x | _ => [] end ++ [10%N])
    else if ends_with [92]%N s then Hold (match without_last 1 s with Ok x => x | _ => [] end ++ [10; 32]%N)
    else if starts_with [123]%N s then
      let t := trim_start_matches 123 s in
      if ends_with [125]%N t then Say (trim_end_matches 125 t) else Hold t
    else Say s); [|rewrite (K _ A), (K _ B); reflexivity].
  clear. intros re R. destruct R as [l W|l c H|l x H|l x H N1 N2|l n x H N1 N2 N3|l n x m H N1 N2|l x H N0 N1 N2 N3].
  - apply trimmed_nil in W. tr W. reflexivity.
  - tr H. reflexivity.
  - tr H. cbv zeta. rewrite starts_with_app.
    rewrite (proj2 (ends_with_spec [32; 92]%N _)) by (exists (lit "infix" ++ x); now rewrite app_assoc).
    replace (is_nil _) with false by reflexivity. replace (starts_with [58%N] _) with false by reflexivity.
    cbn [andb]. pose proof (without_last_app (lit "infix" ++ x) [32; 92]%N 2 eq_refl) as E.
    rewrite <- app_assoc in E. rewrite E. now rewrite <- app_assoc.
  - tr H. cbv zeta. replace (is_nil _) with false by (destruct x; reflexivity).
    replace (starts_with [58%N] _) with false
      by (symmetry; apply starts_false; intros (z&E); destruct x; [discriminate|]; injection E as -> _;
          apply N1; exists x; reflexivity).
    assert (Hx : ends_with [92%N] (x ++ [92%N]) = true) by (apply ends_iff; exists x; reflexivity).
    destruct (starts_with (lit "infix") (x ++ [92%N]) && ends_with [32; 92]%N (x ++ [92%N])) eqn:E.
    + apply andb_true_iff in E as (E1&E2). destruct (infix_overlap _ E1 E2) as (y&E).
      exfalso. apply (N2 y). change [32; 92]%N with ([32] ++ [92])%N in E. rewrite !app_assoc in E.
      apply app_inj_tail in E as (E&_). now rewrite E, <- app_assoc.
    + rewrite Hx, without_last_app by reflexivity. reflexivity.
  - tr H. cbv zeta. rewrite trim_start_matches_app by auto.
    replace (is_nil _) with false by reflexivity. replace (starts_with [58%N] _) with false by reflexivity.
    replace (starts_with (lit "infix") _) with false by reflexivity. cbn [andb].
    replace (starts_with [123%N] _) with true by reflexivity.
    assert (E92 : ends_with [92%N] (repeat 123%N (S n) ++ x) = false).
    { apply ends_false. intros E. destruct x as [|d x].
      - rewrite app_nil_r in E. apply starts_rev in E. rewrite rev_repeat in E. destruct E as (z&E). discriminate.
      - apply N2. eapply ends_app_inv; eauto. discriminate. }
    rewrite E92. rewrite (proj1 (ends_false 125 x)) by auto. reflexivity.
  - tr H. cbv zeta.
    assert (E : ends 125 (x ++ repeat 125%N (S m))).
    { apply ends_app. apply starts_rev. rewrite rev_repeat. exists (repeat 125%N m). reflexivity. }
    rewrite trim_start_matches_app.
    2:{ intros (z&Z). destruct x; [discriminate|]. injection Z as -> _. apply N1. exists x. reflexivity. }
    replace (is_nil _) with false by reflexivity. replace (starts_with [58%N] _) with false by reflexivity.
    replace (starts_with (lit "infix") _) with false by reflexivity. cbn [andb].
    replace (starts_with [123%N] _) with true by reflexivity.
    rewrite (proj1 (ends_false 92 _)) by (apply ends_app with (a := repeat 123%N (S n)) in E; eapply not_ends_other; eauto; discriminate).
    rewrite (proj1 (ends_iff 125 _) E). rewrite trim_end_matches_app by auto. reflexivity.
  - tr H. cbv zeta. replace (is_nil x) with false by (destruct x; [congruence|reflexivity]).
    rewrite (proj1 (starts_false 58 x)), (proj1 (starts_false 123 x)), (proj1 (ends_false 92 x)) by auto.
    replace (ends_with [32; 92]%N x) with false; [rewrite andb_false_r; reflexivity|].
    symmetry. apply not_true_iff_false. intros E. apply ends_with_spec in E as (z&->). apply N3.
    exists (z ++ [32%N]). now rewrite <- app_assoc.
Qed.

Lemma grouped_total es : forall b, (forall e, In e es -> e <> Eof /\ e <> Interrupted) ->
  exists is b', grouped b es is b'.
Proof.
  induction es as [|e es IH]; intros b H.
  - exists [], b. constructor.
  - assert (H' : forall e, In e es -> e <> Eof /\ e <> Interrupted) by (intros; apply H; now right).
    destruct e as [w l| | |msg].
    + destruct (reads_total l) as (re&R). destruct re as [|c|t|t].
      * destruct (IH b H') as (is&b'&G). eauto using grouped.
      * destruct b as [|x b].
        -- destruct (IH [] H') as (is&b'&G). eauto using grouped.
        -- destruct (IH (x :: b) H') as (is&b'&G). exists (Refuse :: is), b'. eapply gr_refuse; eauto. discriminate.
      * destruct (IH (b ++ t) H') as (is&b'&G). eauto using grouped.
      * destruct (IH [] H') as (is&b'&G). eauto using grouped.
    + destruct (H Eof (or_introl eq_refl)). congruence.
    + destruct (H Interrupted (or_introl eq_refl)). congruence.
    + destruct (IH b H') as (is&b'&G). eauto using grouped.
Qed.

End WithUcd.
