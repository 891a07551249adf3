(** What comes next in a text, and the outcome of parsing: C72 and C73. *)
From Coq Require Import List Arith NArith Bool Lia String.
From Verif Require Import Prelim Chars Syntax Lexer SpecLexer SpecLexRun Parser SpecParser SpecViable SpecOutcome.
From Verif Require Import ProofLexer ProofLexer2 ProofLexer7 ProofLexer8 ProofLexer9 ProofParser7 ProofParser8 ProofParser11 ProofParser15 ProofParser16 PropsLexer.
Import ListNotations.

Section WithUcd.
Context {U : ucd}.

(** ** C72 *)

(** In every text something comes next: the end, a token, a mistake or a name
    the lexer does not know. *)
Theorem C72_something_comes : letters U -> forall w r, no_lfcr r -> exists g s i v, comes w r g s i v.
Proof. apply comes_total. Qed.

(** Only one thing, written in one way. *)
Theorem C72_one_thing_comes : letters U -> forall w r g s i v g' s' i' v', no_lfcr r ->
  comes w r g s i v -> comes w r g' s' i' v' -> g = g' /\ s = s' /\ i = i' /\ v = v'.
Proof. apply comes_unique. Qed.

(** That is what the lexer says. *)
Theorem C72_next : letters U -> forall l w r g s i v, before l r -> lx_src l = w ++ r -> comes w r g s i v ->
  match i with
  | IOddName => lx_next l = Panic PIdentStart
  | IEnd => exists l', lx_next l = Ok (None, l') /\ before l' []
  | IToken t => exists l' a, lx_next l = Ok (Some (t, (a, loc_of (w ++ g ++ s))), l') /\ before l' v /\
      lx_src l' = lx_src l /\ (a = loc_of (w ++ g) \/ exists x, t = TLit (LStr x))
  | IMistake e => exists l' a, lx_next l = Ok (Some (TError e, (a, loc_of (w ++ g ++ s))), l') /\ before l' v /\
      lx_src l' = lx_src l
  end.
Proof.
  intros HU l w r g s i v B Es C. apply before_at in B as (w'&El&N).
  assert (w' = w). { rewrite El in Es. cbn [lexer_at lx_src] in Es. apply app_inv_tail in Es. auto. } subst w'.
  pose proof (comes_told HU _ _ _ _ _ _ (lx_curr l) (lx_prev l) (no_lfcr_app_r _ _ N) C) as T. rewrite <- El in T.
  pose proof (comes_text _ _ _ _ _ _ C) as Er.
  assert (N' : no_lfcr ((w ++ g ++ s) ++ v)) by (rewrite Er in N; rewrite <- !app_assoc; auto).
  assert (Q : lx_src l = (w ++ g ++ s) ++ v) by (rewrite Es, Er, <- !app_assoc; auto).
  destruct i as [|t|e|]; cbn [told] in T.
  - eexists. unfold lx_next. rewrite T. cbn [obind]. split; [reflexivity|].
    apply at_before. rewrite app_nil_r. inversion C; subst. cbn [app] in N. rewrite app_nil_r in N. auto.
  - destruct T as (q&T&H). pose proof (proj1 (comes_plain _ _ _ _ _ _ C)) as Nt. eexists _, q. split.
    + rewrite (next_ok _ _ _ T Nt). reflexivity.
    + split; [apply at_before; auto|]. split; [rewrite Q; reflexivity|auto].
  - destruct T as (q&T). eexists _, q. split.
    + rewrite (next_ok _ _ _ T) by discriminate. reflexivity.
    + split; [apply at_before; auto|]. rewrite Q. reflexivity.
  - unfold lx_next. rewrite T. reflexivity.
Qed.

(** ** C73 *)

(** A text gets at most one verdict. *)
Theorem C73_one_verdict : letters U -> forall src x y, no_lfcr src -> judged src x -> judged src y -> x = y.
Proof. intros HU. apply (judged_unique HU). Qed.

(** And one, unless it ends in a unicode escape. *)
Theorem C73_some_verdict : letters U -> forall src, no_lfcr src -> ~ escape_end src -> exists x, judged src x.
Proof.
  intros HU src N H. destruct (parse_verdict HU src) as (x&E). exists x. apply parse_judged; auto.
Qed.

(** The parser accepts, blames and crashes accordingly. *)
Theorem C73_accepts : letters U -> forall src a, no_lfcr src -> (exists l, parse src = POk a l) <-> judged src (Accepts a).
Proof.
  intros HU src a N. split.
  - intros (l&E). apply (parse_judged HU); auto; [rewrite E; auto|left; discriminate].
  - intros J. apply (judged_parse HU) in J; auto; [|right; discriminate].
    destruct (parse src); try discriminate. injection J as ->. eauto.
Qed.

Theorem C73_crashes : letters U -> forall src p, no_lfcr src -> parse src = PPanic p <-> judged src (Dies p).
Proof.
  intros HU src p N. split.
  - intros E. apply (parse_judged HU); auto; [rewrite E; auto|left; discriminate].
  - intros J. apply (judged_parse HU) in J; auto; [|right; discriminate].
    destruct (parse src); try discriminate. injection J as ->. auto.
Qed.

Theorem C73_mistakes : letters U -> forall src x, no_lfcr src ->
  (exists e l, parse src = PErr e l /\ found e = TError x) <-> judged src (Blames (TError x)).
Proof.
  intros HU src x N. split.
  - intros (e&l&E&F). rewrite <- F. apply (parse_judged HU); auto; [rewrite E; auto|]. left. rewrite F. discriminate.
  - intros J. apply (judged_parse HU) in J; auto; [|right; intros t E; injection E as <-; eauto].
    destruct (parse src) as [|e l| |]; try discriminate. injection J as F. eauto.
Qed.

Theorem C73_blames : letters U -> forall src t, no_lfcr src -> ~ escape_end src ->
  (exists e l, parse src = PErr e l /\ found e = t) <-> judged src (Blames t).
Proof.
  intros HU src t N H. split.
  - intros (e&l&E&<-). apply (parse_judged HU); auto. rewrite E; auto.
  - intros J. apply (judged_parse HU) in J; auto. destruct (parse src) as [|e l| |]; try discriminate. injection J as F. eauto.
Qed.

(** A text that ends in a unicode escape may also be blamed for a token. *)
Theorem C73_blames_token : letters U -> forall src t, no_lfcr src -> t <> TEof ->
  (exists e l, parse src = PErr e l /\ found e = t) -> judged src (Blames t).
Proof. intros HU src t N Nt (e&l&E&<-). apply (parse_judged HU); auto; [rewrite E; auto|left; congruence]. Qed.

(** A mistake of the lexer is found only where the text before it can be
    completed to a program; likewise a crash. *)
Theorem C73_completable : letters U -> forall src, no_lfcr src ->
  (exists p, parse src = PPanic p) \/ (exists e l x, parse src = PErr e l /\ found e = TError x) ->
  exists w r g s i v, src = w ++ r /\ comes w r g s i v /\ completable w.
Proof.
  intros HU src N H.
  assert (K : exists ts w r g s i v, leads [] src ts w r /\ comes w r g s i v /\ begins w ts).
  { destruct H as [(p&E)|(e&l&x&E&F)].
    - apply (C73_crashes HU) in E; auto. apply (judged_at) in E as (ts&w&r&g&s&i&v&R&C&B&_); auto. eauto 10.
    - assert (J : judged src (Blames (TError x))) by (apply (C73_mistakes HU); eauto).
      apply (judged_at) in J as (ts&w&r&g&s&i&v&R&C&B&_); auto. eauto 10. }
  destruct K as (ts&w&r&g&s&i&v&R&C&B). exists w, r, g, s, i, v. split; [apply run_text in R; auto|]. split; auto.
  apply (begins_parse HU) in B as (z&a&l&_&E). exists z, a, l. auto.
Qed.

End WithUcd.

(** * Cases *)

Example C72_token_ex : @comes ucd_none [] (lit " ~{a}~ +b") (lit " ~{a}~ ") (lit "+") (IToken (TAffix (lit "+") false)) (lit "b").
Proof.
  change (lit " ~{a}~ +b") with (lit " ~{a}~ " ++ lit "+" ++ lit "b"). apply co_token.
  - apply gap_white; [reflexivity|]. apply (gap_block (lit "a}~") [32%N] []).
    + repeat constructor; discriminate.
    + cbn. lia.
    + discriminate.
    + constructor.
  - apply (le_op (lit "+") []); try discriminate; try reflexivity; try (repeat constructor; fail).
    cbv. intuition discriminate.
Qed.
Example C72_mistake_ex : @comes ucd_none [] (lit " ''") [32%N] (lit "''") (IMistake (EEmptyChar (mkLoc 1 2 1) (mkLoc 1 2 1))) [].
Proof. apply (co_mistake [] [32%N] (lit "''") _ []); [repeat constructor|]. apply mi_empty. Qed.

Definition judge (s : str) : option verdict := verdict_of (@parse ucd_none s).

(** A precedence that is too large; a name in capitals; a lexical mistake; a
    closing bracket; the end. *)
Example C73_prec_ex : judge (lit "a; infixl 12 +") = Some (Dies PTodoPrec).
Proof. reflexivity. Qed.
Example C73_prec_judged : @judged ucd_none (lit "a; infixl 12 +") (Dies PTodoPrec).
Proof. apply (C73_crashes letters_none); [apply no_cr_clean; reflexivity|reflexivity]. Qed.
Example C73_name_ex : judge (lit "f (x + Just)") = Some (Dies PIdentStart).
Proof. reflexivity. Qed.
(** Not reached: the bracket is blamed first. *)
Example C73_name_not_reached : judge (lit "f ) Just") = Some (Blames TParenR).
Proof. reflexivity. Qed.
Example C73_mistake_ex : judge (lit "f ''") = Some (Blames (TError (EEmptyChar (mkLoc 1 3 2) (mkLoc 1 3 2)))).
Proof. reflexivity. Qed.
Example C73_end_ex : judge (lit "(f") = Some (Blames TEof).
Proof. reflexivity. Qed.
(** Ending in a unicode escape: the end is blamed, though no text after it can
    leave that character as it is. *)
Example C73_escape_ex : judge (lit "('\u41'") = Some (Blames TEof) /\ escape_end (lit "('\u41'").
Proof. split; [reflexivity|]. exists (lit "("), 117%N, [], (lit "41"). repeat split; auto; [discriminate|repeat constructor]. Qed.

Print Assumptions C72_something_comes.
Print Assumptions C72_one_thing_comes.
Print Assumptions C72_next.
Print Assumptions C73_one_verdict.
Print Assumptions C73_some_verdict.
Print Assumptions C73_accepts.
Print Assumptions C73_crashes.
Print Assumptions C73_mistakes.
Print Assumptions C73_blames.
Print Assumptions C73_blames_token.
Print Assumptions C73_completable.
