(** The texts of the README's declarations. *)
From Coq Require Import List Arith NArith Bool String Lia.
From Verif Require Import Prelim Chars Syntax Fixity SpecFixity Lexer SpecLexer SpecLexRun Parser SpecParser SpecReadme.
From Verif Require Import ProofLexer ProofLexer2 ProofLexer4 ProofLexer6 ProofLexer7 ProofLexer8 ProofTable ProofFixity.
From Verif Require Import ProofParser7 ProofParser8 ProofParser9 ProofTyped.
Import ListNotations.

Lemma mem_sub a b c : forallb (mem b) a = true -> mem a c = true -> mem b c = true.
Proof.
  intros F M. unfold mem in M. apply existsb_exists in M as (x&I&E). apply N.eqb_eq in E as <-.
  rewrite forallb_forall in F. auto.
Qed.
Lemma opchar_op c : opchar c = true -> op_char c = true.
Proof. apply mem_sub. reflexivity. Qed.
Lemma trail_script c : trail c = true -> script c = true.
Proof. unfold trail. intros H. apply orb_true_iff in H as [H|H]; revert H; apply mem_sub; reflexivity. Qed.
Lemma script_op c : script c = true -> op_char c = false.
Proof.
  unfold script, mem. intros H. apply existsb_exists in H as (x&I&E). apply N.eqb_eq in E as ->.
  cbn in I. repeat (destruct I as [<-|I]; [reflexivity|]). destruct I.
Qed.

Lemma all_sub (f g : chr -> bool) s : (forall c, f c = true -> g c = true) -> all f s -> all g s.
Proof. intros H. apply Forall_impl. auto. Qed.

Section WithUcd.
Context {U : ucd}.
Context (HU : letters U).

Lemma name_word c : name_char c = true -> word_char c = true.
Proof.
  unfold name_char. intros H. apply orb_true_iff in H as [H|H]; [apply orb_true_iff in H as [H|H]|].
  - apply (word_start_char HU). unfold word_start. rewrite orb_comm, orb_assoc, (orb_comm _ (N.eqb c 95)).
    apply orb_true_iff in H as [H|H]; rewrite H; rewrite ?orb_true_r; auto.
  - unfold word_char, is_alnum, is_numeric. unfold digit, mem in H. apply existsb_exists in H as (x&I&E). apply N.eqb_eq in E as ->.
    cbn in I. repeat (destruct I as [<-|I]; [reflexivity|]). destruct I.
  - unfold word_char. rewrite H. now rewrite orb_true_r.
Qed.

Lemma ident_start c : is_lower c = true \/ c = 95%N \/ is_upper c = true -> word_start c = true.
Proof. unfold word_start. intros [->|[->| ->]]; rewrite ?orb_true_r; auto. Qed.

Lemma resplit u t : all word_char u -> all script t ->
  exists u' t', u ++ t = u' ++ t' /\ all word_char u' /\ all script t' /\ stops word_char t'.
Proof.
  intros Wu. revert u Wu. induction t as [|c t IH]; intros u Wu St.
  - exists u, []. repeat split; auto.
  - inversion St; subst. destruct (word_char c) eqn:W.
    + destruct (IH (u ++ [c])) as (u'&t'&E&A&B&C); auto. { apply Forall_app. auto. }
      exists u', t'. rewrite <- app_assoc in E. auto.
    + exists u, (c :: t). repeat split; auto.
Qed.

Lemma gap_whites w v : all is_white w -> gap w v.
Proof. induction 1; constructor; auto. Qed.

Lemma white_stops f w v : (forall c, is_white c = true -> f c = false) -> stops f v -> all is_white w -> stops f (w ++ v).
Proof. intros F S A. destruct A; cbn; auto. Qed.

Lemma white_op c : is_white c = true -> op_char c = false.
Proof. intros W. destruct (op_char c) eqn:E; auto. apply op_white in E. congruence. Qed.
Lemma white_script c : is_white c = true -> script c = false.
Proof. intros W. destruct (script c) eqn:E; auto. apply script_white in E. congruence. Qed.
Lemma white_word c : is_white c = true -> word_char c = false.
Proof.
  intros W. destruct (word_char c) eqn:E; auto. exfalso. unfold word_char in E.
  apply orb_true_iff in E as [E|E]; [apply orb_true_iff in E as [E|E]|].
  - unfold is_alnum, is_alpha, is_numeric in E. destruct (N.ltb_spec c 128) as [Hc|Hc].
    + assert (I : exists m, c = N.of_nat m /\ m < 128) by (exists (N.to_nat c); lia). destruct I as (m&->&Lm).
      do 128 (destruct m as [|m]; [vm_compute in W, E; congruence|]). lia.
    + destruct (HU c) as (_&X&_). rewrite X in W; [discriminate|]. apply orb_true_iff in E. auto.
  - apply N.eqb_eq in E as ->. discriminate.
  - apply N.eqb_eq in E as ->. discriminate.
Qed.

(** The token of an operator as the README has it. *)
Definition reserved_op (o : infix) : bool :=
  match o with Standard s => str_eqb s (lit "\") || str_eqb s (lit "->") | Promoted _ => false end.
Definition token_of (o : infix) : token :=
  match o with
  | Promoted s => TAffix s true
  | Standard s =>
      if str_eqb s (lit "\") then TLambda else if str_eqb s (lit "->") then TArrow
      else if str_eqb s (lit "-") then TDash else if str_eqb s (lit "@") then TAt else TAffix s false
  end.

Lemma last_script (u t : str) x : t <> [] -> all script t -> u ++ t = x -> all op_char x -> False.
Proof.
  intros N S <- A. destruct t as [|c t]; [congruence|]. inversion S; subst. apply script_op in H1.
  apply Forall_app in A as (_&A). inversion A; subst. congruence.
Qed.

Lemma infix_token o s v : infix_text o s -> stops op_char v -> stops script v -> stops (N.eqb 123) v -> lexeme s (token_of o) v.
Proof.
  intros [s' (c&u&t&->&C&A&T)|u t N A N2 T] So Ss Sb.
  - cbn [token_of]. destruct (resplit u t) as (u'&t'&E&A'&T'&St).
    { eapply all_sub; [apply name_word|exact A]. } { eapply all_sub; [apply trail_script|exact T]. }
    rewrite E. cbn [app]. rewrite <- app_assoc. apply le_backquoted; auto. now apply ident_start.
  - apply (all_sub _ _ _ opchar_op) in A. apply (all_sub _ _ _ trail_script) in T. cbn [token_of].
    destruct (str_eqb_spec (u ++ t) (lit "\")) as [->|D1]; [apply le_symbol; cbn; auto|].
    destruct (str_eqb_spec (u ++ t) (lit "->")) as [->|D2]; [apply le_symbol; cbn; auto|].
    destruct (str_eqb_spec (u ++ t) (lit "-")) as [->|D3]; [apply le_symbol; cbn; auto|].
    destruct (str_eqb_spec (u ++ t) (lit "@")) as [->|D4]; [apply le_symbol; cbn; auto|].
    apply le_op; auto.
    + destruct T as [|x t X T]; auto. cbn. now apply script_op.
    + cbn. intuition.
    + intros E. destruct t as [|x t]; [rewrite app_nil_r in E; auto|].
      apply (last_script u (x :: t) _ ltac:(discriminate) T E). repeat constructor.
Qed.

Lemma opless w v : all is_white w -> stops op_char v -> stops script v -> stops (N.eqb 123) v ->
  stops op_char (w ++ v) /\ stops script (w ++ v) /\ stops (N.eqb 123) (w ++ v).
Proof.
  intros W A B C. repeat split; apply white_stops; auto; [apply white_op|apply white_script|].
  intros c Wc. destruct (N.eqb_spec 123 c) as [<-|]; auto.
Qed.

(** The tokens of a list of operators. *)
Inductive op_tokens : list ptok -> list infix -> Prop :=
| ot_one o k : op_tokens [(token_of o, k)] [o]
| ot_more o k k' ts os : op_tokens ts os -> op_tokens ((token_of o, k) :: (TComma, k') :: ts) (o :: os).

Lemma infixes_tokens os r : infixes_text os r -> forall w0 g, all is_white g -> exists ts, ctokens w0 (g ++ r) ts /\ op_tokens ts os.
Proof.
  induction 1 as [o s H|o s w w' os r H W W' R IH]; intros w0 g G.
  - exists [(token_of o, col_of (w0 ++ g ++ s))]. split; [|apply ot_one]. replace (g ++ s) with (g ++ s ++ []) at 1 by now rewrite app_nil_r. apply (ct_cons w0 g s (token_of o) []).
    + apply gap_whites; auto.
    + apply infix_token; cbn; auto.
    + apply ct_end. constructor.
  - destruct (IH (((w0 ++ g ++ s) ++ w ++ [44%N])) w' W') as (ts&T&O). eexists. split; [|apply ot_more; exact O].
    apply (ct_cons w0 g s (token_of o)).
    + apply gap_whites; auto.
    + destruct (opless w (44%N :: w' ++ r) W eq_refl eq_refl eq_refl) as (A&B&C). apply infix_token; auto.
    + apply (ct_cons _ w [44%N] TComma (w' ++ r)); [apply gap_whites; auto|apply le_punct; cbn; tauto|exact T].
Qed.

Lemma op_tokens_operators ts os : op_tokens ts os -> existsb reserved_op os = false -> operators ts os [].
Proof.
  assert (K : forall o, reserved_op o = false -> operator (token_of o) o).
  { intros [s|s]; cbn [token_of reserved_op]; [|constructor]. intros R. apply orb_false_iff in R as (->&->).
    destruct (str_eqb_spec s (lit "-")) as [->|]; [constructor|]. destruct (str_eqb_spec s (lit "@")) as [->|]; constructor. }
  induction 1 as [o k|o k k' ts os H IH]; cbn; intros R.
  - rewrite orb_false_r in R. apply os_one; auto.
  - apply orb_false_iff in R as (R1&R2). apply os_cons; auto.
Qed.

Lemma operators_op_tokens ts os os' r : op_tokens ts os -> operators ts os' r -> existsb reserved_op os = false /\ os' = os.
Proof.
  assert (K : forall o i, operator (token_of o) i -> reserved_op o = false /\ i = o).
  { intros [s|s] i; cbn [token_of reserved_op].
    - destruct (str_eqb_spec s (lit "\")); [intros X; inversion X|]. destruct (str_eqb_spec s (lit "->")); [intros X; inversion X|].
      destruct (str_eqb_spec s (lit "-")) as [->|]; [intros X; inversion X; auto|].
      destruct (str_eqb_spec s (lit "@")) as [->|]; intros X; inversion X; auto.
    - intros X. inversion X; auto. }
  intros H. revert os' r. induction H as [o k|o k k' ts os H IH]; intros os' r P; inversion P; subst.
  - match goal with X : operator _ _ |- _ => apply K in X as (R0&->) end. cbn. rewrite orb_false_r. auto.
  - match goal with X : operator _ _ |- _ => apply K in X as (R0&->) end. cbn [existsb]. rewrite R0.
    match goal with X : operators ts _ _ |- _ => apply IH in X as (->&->) end. auto.
Qed.

Lemma op_tokens_first ts os : op_tokens ts os -> next_is is_affix ts = match os with o :: _ => is_affix (token_of o) | [] => false end.
Proof. intros H. destruct H; reflexivity. Qed.

Lemma prec_token n p v : prec_of true n p -> stops digit v -> lexeme p (TLit (LInt n)) v.
Proof.
  intros H St. inversion H as [k L|]; subst. destruct (digit_token (N.of_nat k)) as (_&D); [lia|].
  assert (E : firstn 1 (skipn k (lit "0123456789")) = [(48 + N.of_nat k)%N])
    by (clear - L; do 10 (destruct k as [|k]; [reflexivity|]); lia).
  rewrite E. auto.
Qed.
Lemma prec_small g n p : prec_of g n p -> (n <= 9)%N.
Proof. intros [k L|]; lia. Qed.

Lemma infixes_start os r : infixes_text os r -> stops digit r.
Proof.
  assert (K : forall o s v, infix_text o s -> stops digit (s ++ v)).
  { intros o s v [s' _|u t N A _ _]; [reflexivity|]. destruct A as [|c u C A]; [congruence|]. cbn.
    destruct (digit c) eqn:D; auto. exfalso. unfold digit, mem in D. apply existsb_exists in D as (x&I&E). apply N.eqb_eq in E as ->.
    cbn in I. repeat (destruct I as [<-|I]; [discriminate C|]). destruct I. }
  intros [o s H|o s w w' os' r' H _ _ _]; [rewrite <- (app_nil_r s)|]; apply (K o); auto.
Qed.

Definition word_of (a : assoc) : token := match a with ALeft => TInfixL | ARight => TInfixR | ANeither => TInfix end.

(** The tokens of a declaration: with a number, or without. *)
Lemma fixity_tokens g d s : fixity_text g d s -> exists k ts, op_tokens ts (d_infixes d) /\ (fx_prec (d_fixity d) <= 9)%N /\
  let a := word_of (fx_assoc (d_fixity d)) in
  if g then exists k', ctokens [] s ((a, k) :: (TLit (LInt (fx_prec (d_fixity d))), k') :: ts)
  else fx_prec (d_fixity d) = 9%N /\ ctokens [] s ((a, k) :: ts).
Proof.
  intros [g' a n p w w' os r P Nw W W' R]. cbn [d_infixes d_fixity fx_assoc fx_prec].
  assert (Lx : forall v, stops word_char v -> stops script v -> lexeme (assoc_text a) (word_of a) v)
    by (intros v A B; destruct a; apply le_reserved; auto; cbn; tauto).
  assert (Lw : forall v, stops word_char (w ++ v) /\ stops script (w ++ v)).
  { intros v. destruct W as [|c w C W]; [congruence|]. split; cbn; [apply white_word|apply white_script]; auto. }
  destruct g'; cbv zeta.
  - destruct (infixes_tokens os r R ((assoc_text a) ++ w ++ p) w' W') as (ts&T&O).
    eexists _, ts. split; [exact O|]. split; [eapply prec_small; eauto|]. eexists.
    apply (ct_cons [] [] (assoc_text a) (word_of a) (w ++ p ++ w' ++ r)); [constructor|apply Lx; apply Lw|].
    apply (ct_cons _ w p (TLit (LInt n)) (w' ++ r)); [apply gap_whites; auto| |exact T].
    apply prec_token; auto. apply white_stops; auto; [|eapply infixes_start; eauto].
    intros c C. destruct (digit c) eqn:D; auto. exfalso. unfold digit, mem in D. apply existsb_exists in D as (x&I&E). apply N.eqb_eq in E as ->.
    cbn in I. repeat (destruct I as [<-|I]; [discriminate C|]). destruct I.
  - inversion P; subst. destruct (infixes_tokens os r R (assoc_text a) (w ++ w')) as (ts&T&O). { apply Forall_app. auto. }
    eexists _, ts. split; [exact O|]. split; [lia|]. split; auto.
    cbn [app]. apply (ct_cons [] [] (assoc_text a) (word_of a) (w ++ w' ++ r)); [constructor|apply Lx; apply Lw|]. rewrite <- app_assoc in T. exact T.
Qed.

Lemma no_semi_ops ts os x : op_tokens ts os -> In x ts -> fst x <> TSemi.
Proof.
  assert (K : forall o, token_of o <> TSemi).
  { intros [s|s]; cbn [token_of]; [|discriminate]. repeat match goal with |- context [if ?b then _ else _] => destruct b; try discriminate end. }
  induction 1 as [o k|o k k' ts os H IH]; cbn; intros I; repeat (destruct I as [<-|I]; [cbn; apply K || discriminate|]); auto.
Qed.

Lemma no_number ts os x k us : op_tokens ts os -> ts = (TLit x, k) :: us -> False.
Proof.
  assert (K : forall o, token_of o <> TLit x).
  { intros [s|s]; cbn [token_of]; [|discriminate]. repeat match goal with |- context [if ?b then _ else _] => destruct b; try discriminate end. }
  intros [o k'|o k' k2 ts' os' _] E; injection E as E _ _; eapply K; eauto.
Qed.

(** A program with one declaration and nothing else. *)
Lemma one_declaration lay ts d : program lay ts [DInfix d] -> (forall x, In x ts -> fst x <> TSemi) -> declares ts d [].
Proof.
  intros P N. inversion P as [|ts1 d1 k us ds1 D P1|ts1 d1 us ds1 D N1 P1]; subst.
  - exfalso. apply (N (TSemi, k)); [|reflexivity]. apply in_or_app. right. now left.
  - inversion P1; subst. { rewrite app_nil_r. inversion D; auto. }
Qed.

Lemma pushed_one ds d : fold_left ast_push ds ast_empty = ast_push ast_empty (DInfix d) -> ds = [DInfix d].
Proof.
  intros E. pose proof (f_equal a_infxs E) as E1. pose proof (f_equal a_exprs E) as E2.
  rewrite ast_of_infxs in E1. rewrite ast_of_exprs in E2. cbn in E1, E2.
  destruct ds as [|[i|e] ds]; cbn in *; try discriminate. injection E1 as -> E1.
  destruct ds as [|[i'|e'] ds]; cbn in *; try discriminate. reflexivity.
Qed.

(** Whether the program reads such a text as the declaration. *)
Definition readable_decl (g : bool) (d : infix_decl) : bool :=
  negb (existsb reserved_op (d_infixes d)) && (g || match d_infixes d with o :: _ => is_affix (token_of o) | [] => false end).

Lemma pushed_expr ds e : fold_left ast_push ds ast_empty = ast_push ast_empty (DExpr e) -> ds = [DExpr e].
Proof.
  intros E. pose proof (f_equal a_infxs E) as E1. pose proof (f_equal a_exprs E) as E2.
  rewrite ast_of_infxs in E1. rewrite ast_of_exprs in E2. cbn in E1, E2.
  destruct ds as [|[i|e1] ds]; cbn in *; try discriminate. injection E2 as -> E2.
  destruct ds as [|[i'|e'] ds]; cbn in *; try discriminate. reflexivity.
Qed.

Lemma fixity_parse g d s : fixity_text g d s -> no_lfcr s ->
  ((exists l, parse s = POk (ast_push ast_empty (DInfix d)) l) <-> readable_decl g d = true).
Proof.
  intros F N. rewrite (parse_iff HU) by auto. destruct (fixity_tokens g d s F) as (k&ts&O&P9&T). unfold readable_decl.
  destruct d as [os0 [n0 a0]]. cbn [d_infixes d_fixity fx_assoc fx_prec] in *.
  assert (A : associativity (word_of a0) a0) by (destruct a0; constructor).
  split.
  - intros (cts&ds&T'&P&E). symmetry in E. apply pushed_one in E as ->. apply andb_true_iff. rewrite negb_true_iff.
    destruct g; cbv zeta in T.
    + destruct T as (k'&T). assert (cts = (word_of a0, k) :: (TLit (LInt n0), k') :: ts) as ->.
      { apply (sees_source HU) in T, T'; auto. eapply sees_unique; eauto. }
      apply one_declaration in P; [|intros x [<-|[<-|I]]; [destruct a0; discriminate|discriminate|eapply no_semi_ops; eauto]].
      split; auto. inversion P; subst.
      * eapply operators_op_tokens; eauto.
      * discriminate.
    + destruct T as (P0&T). assert (cts = (word_of a0, k) :: ts) as ->.
      { apply (sees_source HU) in T, T'; auto. eapply sees_unique; eauto. }
      apply one_declaration in P; [|intros x [<-|I]; [destruct a0; discriminate|eapply no_semi_ops; eauto]].
      rewrite <- (op_tokens_first _ _ O). inversion P; subst.
      * exfalso. eapply no_number; eauto.
      * split; auto. eapply operators_op_tokens; eauto.
  - intros R. apply andb_true_iff in R as (R1&R2). apply negb_true_iff in R1. pose proof (op_tokens_operators _ _ O R1) as Op.
        destruct g; cbv zeta in T.
    + destruct T as (k'&T). eexists _, [DInfix _]. split; [exact T|]. split; [|reflexivity].
      rewrite <- (app_nil_r (_ :: _)). apply pr_plain; [|reflexivity|constructor]. apply do_infix, de_prec; auto.
    + destruct T as (->&T). eexists _, [DInfix _]. split; [exact T|]. split; [|reflexivity].
      rewrite <- (app_nil_r (_ :: _)). apply pr_plain; [|reflexivity|constructor]. apply do_infix, de_default; auto.
      rewrite (op_tokens_first _ _ O). exact R2.
Qed.

End WithUcd.
