(** What the lexer yields does not depend on what was consumed before, except
    for positions; and facts about arbitrary sources. *)
From Coq Require Import List Arith NArith Bool Lia String.
From Verif Require Import Prelim Chars Syntax Lexer SpecLexer SpecLexRun ProofBytes ProofLexer.
Import ListNotations.

Lemma skip_bytes_shift w x n : skip_bytes (blen w + n) (w ++ x) = skip_bytes n x.
Proof.
  induction w as [|c w IH]; auto. cbn [blen app]. pose proof (len_utf8_pos c).
  rewrite skip_bytes_cons by lia. destruct (Nat.leb_spec (len_utf8 c) (len_utf8 c + blen w + n)); [|lia].
  replace (len_utf8 c + blen w + n - len_utf8 c) with (blen w + n) by lia. auto.
Qed.

Lemma slice_shift w x a b : slice (w ++ x) (blen w + a) (blen w + b) = slice x a b.
Proof.
  unfold slice. replace (Nat.leb (blen w + a) (blen w + b)) with (Nat.leb a b).
  - destruct (Nat.leb_spec a b); auto. rewrite skip_bytes_shift.
    replace (blen w + b - (blen w + a)) with (b - a) by lia. auto.
  - destruct (Nat.leb_spec a b); destruct (Nat.leb_spec (blen w + a) (blen w + b)); auto; lia.
Qed.

Section Simulation.
Context {U : ucd}.
Variables w w' x : str.

Definition sim (l l' : lexer) : Prop :=
  lx_src l = w ++ x /\ lx_src l' = w' ++ x /\ lx_rest l = lx_rest l' /\
  exists n, lx_pos l = blen w + n /\ lx_pos l' = blen w' + n.

Definition osim (o o' : outcome (token * lexer)) : Prop :=
  match o, o' with
  | Ok (t, l), Ok (t', l') => erase t = erase t' /\ sim l l'
  | Panic p, Panic p' => p = p'
  | NoFuel, NoFuel => True
  | _, _ => False
  end.

Lemma sim_rest l l' : sim l l' -> lx_rest l' = lx_rest l.
Proof. intros (_&_&H&_). auto. Qed.
Lemma sim_peek l l' : sim l l' -> peek_char l' = peek_char l.
Proof. intros H. unfold peek_char. rewrite (sim_rest _ _ H). auto. Qed.
Lemma sim_current l l' : sim l l' -> current_char l' = current_char l.
Proof. intros H. unfold current_char. rewrite (sim_peek _ _ H). auto. Qed.
Lemma sim_on_char f l l' : sim l l' -> on_char f l' = on_char f l.
Proof. intros H. unfold on_char. rewrite (sim_peek _ _ H). auto. Qed.
Lemma sim_on c l l' : sim l l' -> on c l' = on c l.
Proof. apply sim_on_char. Qed.

Lemma sim_set_prev p p' l l' : sim l l' -> sim (set_prev p l) (set_prev p' l').
Proof. auto. Qed.

Lemma sim_bump l l' : sim l l' -> sim (bump_char l) (bump_char l').
Proof.
  destruct l as [s r k a b n p], l' as [s' r' k' a' b' n' p']. intros (H1&H2&H3&m&H4&H5).
  cbn [lx_src lx_rest lx_pos] in *. subst s s' r' n n'. destruct r as [|c r].
  - repeat split; auto. exists m. auto.
  - cbn [bump_char]. destruct (N.eqb c 10); repeat split; auto; exists (m + len_utf8 c); cbn [lx_pos]; lia.
Qed.

Lemma sim_eat_n f : forall n l l', sim l l' -> sim (eat_n n f l) (eat_n n f l').
Proof.
  induction n as [|n IH]; intros l l' H; auto. cbn [eat_n]. rewrite (sim_on_char f _ _ H).
  destruct (on_char f l); auto. apply IH, sim_bump, H.
Qed.
Lemma sim_eat_while f l l' : sim l l' -> sim (eat_while f l) (eat_while f l').
Proof. intros H. unfold eat_while. rewrite (sim_rest _ _ H). apply sim_eat_n, H. Qed.
Lemma sim_trailing f l l' : sim l l' -> sim (eat_with_trailing f l) (eat_with_trailing f l').
Proof. intros H. unfold eat_with_trailing. do 2 apply sim_eat_while. auto. Qed.
Lemma sim_whitespace l l' : sim l l' -> sim (eat_whitespace l) (eat_whitespace l').
Proof. intros H. unfold eat_whitespace. cbv zeta. apply sim_set_prev, sim_eat_while, H. Qed.

Lemma sim_slice l l' a a' b b' : sim l l' -> sim a a' -> sim b b' ->
  src_slice l' (lx_pos a') (lx_pos b') = src_slice l (lx_pos a) (lx_pos b).
Proof.
  intros (E1&E2&_) (_&_&_&n&Ea&Ea') (_&_&_&m&Eb&Eb'). unfold src_slice.
  rewrite E1, E2, Ea, Ea', Eb, Eb', !slice_shift. auto.
Qed.

Lemma osim_slice l l' a a' b b' k k' : sim l l' -> sim a a' -> sim b b' ->
  (forall s, osim (k s) (k' s)) ->
  osim (obind (src_slice l (lx_pos a) (lx_pos b)) k) (obind (src_slice l' (lx_pos a') (lx_pos b')) k').
Proof.
  intros H A B K. rewrite (sim_slice _ _ _ _ _ _ H A B).
  destruct (src_slice l (lx_pos a) (lx_pos b)); simpl; auto.
Qed.

Lemma sim_comment : forall f d e e' l l', sim l l' ->
  match comment_loop f d e l, comment_loop f d e' l' with
  | Ok (b, _, r), Ok (b', _, r') => b = b' /\ sim r r'
  | Panic p, Panic p' => p = p'
  | NoFuel, NoFuel => True
  | _, _ => False
  end.
Proof.
  induction f as [|f IH]; intros d e e' l l' H; destruct d as [|d]; cbn [comment_loop]; auto;
    rewrite (sim_peek _ _ H); destruct (peek_char l) as [c|]; auto.
  cbv zeta. pose proof (sim_bump _ _ H) as B. pose proof (sim_bump _ _ B) as B2.
  rewrite !(fun c => sim_on c _ _ B).
  destruct (N.eqb c 126); [destruct (on 123 (bump_char l)); apply IH; auto|].
  destruct (N.eqb c 125); [destruct (on 126 (bump_char l)); apply IH; auto|].
  apply IH; auto.
Qed.

Lemma sim_block_comment l l' : sim l l' ->
  match block_comment l, block_comment l' with
  | Ok (None, r), Ok (None, r') => sim r r'
  | Ok (Some e, r), Ok (Some e', r') => erase (TError e) = erase (TError e') /\ sim r r'
  | Panic p, Panic p' => p = p'
  | NoFuel, NoFuel => True
  | _, _ => False
  end.
Proof.
  intros H. unfold block_comment. rewrite (sim_rest _ _ H).
  pose proof (sim_comment (List.length (lx_rest l)) 1 (lx_prev l) (lx_prev l') l l' H) as C.
  destruct (comment_loop _ _ _ l) as [[[b ?] r]| |], (comment_loop _ _ _ l') as [[[b' ?] r']| |];
    try contradiction; cbn [obind]; auto.
  destruct C as (<-&C). destruct b; [split; auto|]. apply sim_bump, C.
Qed.

Lemma sim_string : forall f buf e l l', sim l l' ->
  match string_loop f buf e l, string_loop f buf e l' with
  | Ok (b, s, r), Ok (b', s', r') => b = b' /\ s = s' /\ sim r r'
  | Panic p, Panic p' => p = p'
  | NoFuel, NoFuel => True
  | _, _ => False
  end.
Proof.
  induction f as [|f IH]; intros buf e l l' H; cbn [string_loop]; rewrite (sim_peek _ _ H);
    destruct (peek_char l) as [c|]; auto.
  cbv zeta. pose proof (sim_bump _ _ H) as B. destruct e.
  - destruct (is_escapable c); [apply IH; auto|]. destruct (N.eqb c 10); [|apply IH; auto].
    apply IH, sim_whitespace, B.
  - destruct (N.eqb c 34); [auto|]. destruct (N.eqb c 92); apply IH; auto.
Qed.

Lemma sim_lex_string l l' : sim l l' -> osim (lex_string l) (lex_string l').
Proof.
  intros H. unfold lex_string. cbv zeta. pose proof (sim_bump _ _ H) as B. rewrite (sim_rest _ _ B).
  pose proof (sim_string (List.length (lx_rest (bump_char l))) [] false _ _ B) as C.
  destruct (string_loop _ _ _ (bump_char l)) as [[[b s] r]| |],
    (string_loop _ _ _ (bump_char l')) as [[[b' s'] r']| |]; try contradiction; cbn [obind]; auto.
  destruct C as (<-&<-&C). destruct b; split; auto.
Qed.

Lemma sim_number l l' : sim l l' -> osim (lex_number l) (lex_number l').
Proof.
  intros H. unfold lex_number. cbv zeta. pose proof (sim_eat_while ascii_digit _ _ H) as B.
  apply osim_slice; auto. intros s. destruct (parse_uint _ _ s); split; auto.
Qed.

Lemma sim_unicode st st' l l' : sim l l' -> osim (lex_unicode st l) (lex_unicode st' l').
Proof.
  intros H. unfold lex_unicode. cbv zeta. rewrite (sim_on 43 _ _ H).
  assert (H1 : sim (if on 43 l then bump_char l else l) (if on 43 l then bump_char l' else l')).
  { destruct (on 43 l); auto. apply sim_bump, H. }
  revert H1. generalize (if on 43 l then bump_char l else l), (if on 43 l then bump_char l' else l').
  clear l l' H. intros l l' H. rewrite (sim_current _ _ H). destruct (is_hex (current_char l)).
  2:{ split; auto. apply sim_eat_while, H. }
  pose proof (sim_eat_while is_hex _ _ H) as H2. rewrite (sim_on 39 _ _ H2).
  destruct (on 39 (eat_while is_hex l)).
  2:{ split; auto. apply sim_eat_while, H2. }
  pose proof (sim_bump _ _ H2) as H3. pose proof (sim_bump _ _ H3) as H4.
  assert (E1 : Nat.eqb (lx_pos l') (lx_pos (eat_while is_hex l')) = Nat.eqb (lx_pos l) (lx_pos (eat_while is_hex l))).
  { destruct H as (_&_&_&n&->&->), H2 as (_&_&_&m&->&->).
    destruct (Nat.eqb_spec (blen w + n) (blen w + m)), (Nat.eqb_spec (blen w' + n) (blen w' + m)); auto; lia. }
  assert (E2 : Nat.leb (lx_pos (eat_while is_hex l') - lx_pos l') 6 = Nat.leb (lx_pos (eat_while is_hex l) - lx_pos l) 6).
  { destruct H as (_&_&_&n&->&->), H2 as (_&_&_&m&->&->). f_equal. lia. }
  rewrite E1, E2. destruct (Nat.eqb (lx_pos l) (lx_pos (eat_while is_hex l))). { split; auto. }
  destruct (Nat.leb (lx_pos (eat_while is_hex l) - lx_pos l) 6).
  - apply osim_slice; auto. intros s. destruct (parse_uint 16 u32_limit s); [|reflexivity].
    destruct (char_from_u32 n); split; auto.
  - apply osim_slice; auto. intros s. split; auto.
Qed.

Lemma sim_char_escape st st' l l' : sim l l' -> osim (lex_char_escape st l) (lex_char_escape st' l').
Proof.
  intros H. unfold lex_char_escape. rewrite (sim_peek _ _ H). destruct (peek_char l) as [c|].
  2:{ split; auto. }
  pose proof (sim_bump _ _ H) as B. destruct (N.eqb c 117 || N.eqb c 85). { apply sim_unicode, B. }
  destruct (is_escapable c).
  - cbv zeta. rewrite (sim_on 39 _ _ B). destruct (on 39 (bump_char l)); split; auto.
    + apply sim_bump, B.
    + apply sim_bump, sim_eat_while, B.
  - cbv zeta. split; auto. apply sim_bump, sim_eat_while, H.
Qed.

Lemma sim_char l l' : sim l l' -> osim (lex_char l) (lex_char l').
Proof.
  intros H. unfold lex_char. cbv zeta. pose proof (sim_bump _ _ H) as B. rewrite (sim_current _ _ B).
  set (c := current_char (bump_char l)). pose proof (sim_bump _ _ B) as B2.
  destruct (N.eqb c 39). { split; auto. }
  destruct (N.eqb c 92). { apply sim_char_escape; auto. }
  destruct (N.eqb c 0). { split; auto. }
  rewrite (sim_on 39 _ _ B2). pose proof (sim_bump _ _ B2) as B3.
  destruct (on 39 (bump_char (bump_char l))). { split; auto. }
  rewrite (sim_on_char is_white _ _ B2). destruct (on_char is_white (bump_char (bump_char l))).
  { apply osim_slice; auto. intros s. split; auto. }
  destruct (is_ident_start c).
  { pose proof (sim_trailing is_ident_char _ _ B2). apply osim_slice; auto. intros s. split; auto. }
  split; auto. apply sim_eat_while, B2.
Qed.

Lemma sim_ident c l l' : sim l l' -> osim (lex_ident c l) (lex_ident c l').
Proof.
  intros H. unfold lex_ident. cbv zeta. pose proof (sim_trailing is_ident_char _ _ H) as T.
  apply osim_slice; auto. intros s.
  repeat (match goal with |- context [if ?b then _ else _] => destruct b end; [split; auto|]).
  destruct (identifier c s); simpl; auto.
Qed.

Lemma sim_backquote l l' : sim l l' -> osim (lex_backquote l) (lex_backquote l').
Proof.
  intros H. unfold lex_backquote. cbv zeta. pose proof (sim_bump _ _ H) as B.
  rewrite (sim_on_char is_ident_start _ _ B). destruct (on_char is_ident_start (bump_char l)).
  - unfold promoted_operator. cbv zeta.
    pose proof (sim_trailing is_ident_char _ _ (sim_bump _ _ B)) as T.
    apply osim_slice; auto. intros s. rewrite (sim_on 96 _ _ T).
    destruct (on 96 _); split; auto. apply sim_bump, T.
  - pose proof (sim_eat_while (fun c => negb (N.eqb c 96)) _ _ B) as T. rewrite (sim_on 96 _ _ T).
    destruct (on 96 _).
    + apply osim_slice; auto; [apply sim_bump, T|]. intros s. split; auto. apply sim_bump, T.
    + apply osim_slice; auto. intros s. split; auto.
Qed.

Lemma sim_operator lex lex' l l' : (forall a a', sim a a' -> osim (lex a) (lex' a')) ->
  sim l l' -> osim (operator lex l) (operator lex' l').
Proof.
  intros L H. unfold operator. cbv zeta. pose proof (sim_trailing is_infix_char _ _ H) as T.
  apply osim_slice; auto. intros s. rewrite (sim_on 123 _ _ T).
  destruct (str_eqb s (lit "~")).
  { destruct (on 123 _); [|split; auto]. pose proof (sim_block_comment _ _ (sim_bump _ _ T)) as C.
    destruct (block_comment (bump_char (eat_with_trailing is_infix_char l))) as [[[e|] r]| |],
     (block_comment (bump_char (eat_with_trailing is_infix_char l'))) as [[[e'|] r']| |];
     try contradiction; cbn [obind]; auto. }
  destruct (str_eqb s (lit "~~")). { apply L. apply sim_eat_while, T. }
  repeat (match goal with |- context [if ?b then _ else _] => destruct b end; [split; auto|]).
  split; auto.
Qed.

Lemma sim_lex_f : forall n l l', sim l l' -> osim (lex_f n l) (lex_f n l').
Proof.
  induction n as [|n IH]; intros l l' H; [exact I|]. cbn [lex_f]. cbv zeta.
  apply sim_whitespace in H. apply (sim_set_prev (curr_loc (eat_whitespace l)) (curr_loc (eat_whitespace l'))) in H.
  revert H. generalize (set_prev (curr_loc (eat_whitespace l)) (eat_whitespace l)),
    (set_prev (curr_loc (eat_whitespace l')) (eat_whitespace l')). clear l l'. intros l l' H.
  rewrite (sim_peek _ _ H). pose proof (sim_bump _ _ H) as B.
  destruct (peek_char l) as [c|]; [|split; auto].
  destruct (N.eqb c 59). { split; auto. }
  destruct (N.eqb c 39). { apply sim_char, H. }
  destruct (N.eqb c 34). { apply sim_lex_string, H. }
  destruct (ascii_digit c). { apply sim_number, H. }
  destruct (N.eqb c 96). { apply sim_backquote, H. }
  destruct (is_ident_start c). { apply sim_ident, H. }
  do 7 (destruct (N.eqb c _); [split; auto|]).
  destruct (is_infix_char c). { apply sim_operator; auto. }
  split; auto.
Qed.

Lemma sim_lex l l' : sim l l' -> osim (lex l) (lex l').
Proof. intros H. unfold lex. rewrite (sim_rest _ _ H). apply sim_lex_f, H. Qed.

Lemma sim_scan : forall l ts r, scan l ts r -> forall l', sim l l' ->
  exists ts' r', scan l' ts' r' /\ map (fun x => erase (fst x)) ts' = map (fun x => erase (fst x)) ts /\ sim r r'.
Proof.
  induction 1 as [l|l x0 l1 ts l2 E S IH]; intros l' H.
  - exists [], l'. repeat split; try constructor; apply H.
  - unfold lx_next in E. pose proof (sim_lex _ _ H) as O.
    destruct (lex l) as [[t a]| |] eqn:El; cbn [obind] in E; try discriminate.
    destruct (lex l') as [[t' a']| |] eqn:El'; try contradiction. destruct O as (Et&O).
    assert (Nt : t <> TEof). { intros ->. discriminate. }
    assert (x0 = (t, (lx_prev a, curr_loc a)) /\ l1 = a) as (->&->).
    { destruct t; try congruence; injection E as <- <-; auto. }
    destruct (IH a' O) as (ts'&r'&S'&Em&R).
    exists ((t', (lx_prev a', curr_loc a')) :: ts'), r'. split; [|split; auto].
    + econstructor; [|exact S']. unfold lx_next. rewrite El'. cbn [obind].
      destruct t'; auto. destruct t; try discriminate Et. congruence.
    + cbn [map fst]. rewrite Et, Em. auto.
Qed.

End Simulation.

Section WithUcd.
Context {U : ucd}.

(** * [prev_loc] before the call is irrelevant *)

Lemma bump_set_prev p l : bump_char (set_prev p l) = set_prev p (bump_char l).
Proof. destruct l as [s [|c r] k a b n q]; auto. cbn. destruct (N.eqb c 10); auto. Qed.
Lemma eat_n_set_prev f p : forall n l, eat_n n f (set_prev p l) = set_prev p (eat_n n f l).
Proof.
  induction n as [|n IH]; intros l; auto. cbn [eat_n].
  change (on_char f (set_prev p l)) with (on_char f l). destruct (on_char f l); auto.
  rewrite bump_set_prev. apply IH.
Qed.
Lemma eat_while_set_prev f p l : eat_while f (set_prev p l) = set_prev p (eat_while f l).
Proof. apply eat_n_set_prev. Qed.
Lemma whitespace_set_prev p l : eat_whitespace (set_prev p l) = eat_whitespace l.
Proof. unfold eat_whitespace. cbv zeta. rewrite eat_while_set_prev. reflexivity. Qed.
Lemma lex_f_set_prev p n l : lex_f n (set_prev p l) = lex_f n l.
Proof. destruct n; auto. cbn [lex_f]. rewrite whitespace_set_prev. auto. Qed.
Lemma lex_set_prev p l : lex (set_prev p l) = lex l.
Proof. apply lex_f_set_prev. Qed.

(** * Spans *)

Lemma lexed_goes l t l' : lexed l t l' -> goes l l'.
Proof.
  unfold lexed. destruct t; try apply moves_goes; try tauto. destruct e; try apply moves_goes; tauto.
Qed.

Lemma lex_span : letters U -> forall l t l' w, lex l = Ok (t, l') -> at_ l w ->
  exists a b, lx_rest l = a ++ b ++ lx_rest l' /\ at_ l' (w ++ a ++ b) /\
    cut (w ++ a) (b ++ lx_rest l') /\ lx_prev l' = loc_of (strip (w ++ a)).
Proof.
  intros HU l t l' w E A. rewrite <- (lex_set_prev (curr_loc l)) in E.
  pose proof (lex_terminates HU (set_prev (curr_loc l) l)) as F. rewrite E in F. cbn [fine] in F.
  apply lexed_goes in F as (u&(_&_&R&Hat&P)). cbn [set_prev lx_rest lx_prev] in R, P.
  destruct P as [P|P].
  - exists [], u. cbn [app]. split; auto. split; [apply Hat, A|]. rewrite app_nil_r.
    split; [rewrite <- R; apply A|]. rewrite P. apply A.
  - destruct (P w A) as (a&b&->&C&Ep). exists a, b. rewrite <- app_assoc in R.
    split; auto.
Qed.

(** * The unknown-character error *)

Definition unknown_char (c : chr) : Prop := forall m l, lx_rest l <> [] -> peek_char l = Some c ->
  lex_f (S m) l = Ok (TError EUnknown, set_prev (curr_loc l) l).

Lemma eat_while_none f l : on_char f l = false -> eat_while f l = l.
Proof. unfold eat_while. intros H. destruct (List.length (lx_rest l)); auto. cbn [eat_n]. rewrite H. auto. Qed.

Lemma set_prev_same l : set_prev (lx_prev l) l = l.
Proof. destruct l; auto. Qed.

Ltac not_unknown H :=
  exfalso; revert H; clear; intros H;
  unfold lex_char, lex_char_escape, lex_unicode, lex_backquote, promoted_operator,
    lex_ident, identifier, src_slice in H; cbv zeta in H;
  repeat (match type of H with
          | context [if ?b then _ else _] => destruct b
          | context [match ?x with _ => _ end] => destruct x
          end; cbn [obind] in H; try discriminate H).

Lemma lex_f_unknown : forall n l l', lex_f n l = Ok (TError EUnknown, l') ->
  lx_prev l' = curr_loc l' /\ forall m, lex_f (S m) l' = Ok (TError EUnknown, l').
Proof.
  induction n as [|n IH]; intros l l' H; [discriminate|]. cbn [lex_f] in H. cbv zeta in H.
  assert (Wh : on_char is_white (eat_whitespace l) = false).
  { unfold eat_whitespace. cbv zeta. apply (eat_while_stops is_white l). }
  set (l1 := set_prev (curr_loc (eat_whitespace l)) (eat_whitespace l)) in H.
  assert (P : lx_prev l1 = curr_loc l1) by reflexivity.
  assert (W1 : on_char is_white l1 = false) by exact Wh. clearbody l1.
  destruct (peek_char l1) as [c|] eqn:Pk; [|discriminate H].
  destruct (N.eqb c 59) eqn:E1; [discriminate H|].
  destruct (N.eqb c 39) eqn:E2; [not_unknown H|].
  destruct (N.eqb c 34) eqn:E3.
  { exfalso; revert H; clear; intros H. unfold lex_string in H.
    destruct (string_loop _ _ _ _) as [[[[|] ?] ?]| |]; discriminate. }
  destruct (ascii_digit c) eqn:E4.
  { exfalso; revert H; clear; intros H. unfold lex_number, src_slice in H.
    destruct (slice _ _ _); [|discriminate]. cbn [obind] in H. destruct (parse_uint _ _ _); discriminate. }
  destruct (N.eqb c 96) eqn:E5; [not_unknown H|].
  destruct (is_ident_start c) eqn:E6; [not_unknown H|].
  destruct (N.eqb c 40) eqn:E7; [discriminate H|].
  destruct (N.eqb c 41) eqn:E8; [discriminate H|].
  destruct (N.eqb c 91) eqn:E9; [discriminate H|].
  destruct (N.eqb c 93) eqn:E10; [discriminate H|].
  destruct (N.eqb c 123) eqn:E11; [discriminate H|].
  destruct (N.eqb c 125) eqn:E12; [discriminate H|].
  destruct (N.eqb c 44) eqn:E13; [discriminate H|].
  destruct (is_infix_char c) eqn:E14.
  - unfold operator, src_slice in H. cbv zeta in H. destruct (slice _ _ _) as [s|]; [|discriminate H].
    cbn [obind] in H. destruct (str_eqb s (lit "~")).
    + destruct (on 123 _); [|discriminate H].
      destruct (block_comment _) as [[[e|] r]| |] eqn:Eb; cbn [obind] in H; try discriminate H.
      * injection H as -> ->. exfalso. unfold block_comment in Eb.
        destruct (comment_loop _ _ _ _) as [[[[|] ?] ?]| |]; discriminate.
      * eapply IH; eauto.
    + destruct (str_eqb s (lit "~~")). { eapply IH; eauto. }
      repeat (match type of H with context [if ?b then _ else _] => destruct b end; try discriminate H).
  - injection H as <-. split; auto. intros m. cbn [lex_f]. cbv zeta.
    assert (Ew : eat_whitespace l1 = l1).
    { unfold eat_whitespace. cbv zeta. rewrite eat_while_none by auto. rewrite <- P. apply set_prev_same. }
    rewrite Ew, <- P, set_prev_same, Pk, E1, E2, E3, E4, E5, E6, E7, E8, E9, E10, E11, E12, E13, E14. auto.
Qed.

Lemma lex_unknown l l' : lex l = Ok (TError EUnknown, l') ->
  lx_prev l' = curr_loc l' /\ lex l' = Ok (TError EUnknown, l').
Proof. intros H. apply lex_f_unknown in H as (P&H). split; auto. apply H. Qed.

(** * Where the lexer stands *)

Lemma at_new src : exists w, at_ (lexer_new src) w /\ lx_src (lexer_new src) = src.
Proof.
  unfold lexer_new. set (l := mkLexer src src None 1 1 0 loc_default).
  assert (A : at_ l []).
  { split; auto. split; auto. intros (a&E). destruct a; discriminate. }
  destruct (eat_whitespace_goes l) as (u&F). destruct F as (S&_&_&F&_). exists u. split; [apply (F []), A|exact S].
Qed.

Lemma at_goes l l' w : goes l l' -> at_ l w -> exists w', at_ l' w' /\ lx_src l' = lx_src l.
Proof. intros (u&S&_&_&F&_) A. exists (w ++ u). auto. Qed.

Lemma lex_goes : letters U -> forall l t l', lex l = Ok (t, l') -> goes l l'.
Proof.
  intros HU l t l' E. pose proof (lex_terminates HU l) as F. rewrite E in F.
  eapply lexed_goes; eauto.
Qed.

Lemma next_lex l x l' : lx_next l = Ok (x, l') -> exists t, lex l = Ok (t, l') /\
  (t = TEof /\ x = None \/ t <> TEof /\ x = Some (t, (lx_prev l', curr_loc l'))).
Proof.
  unfold lx_next. destruct (lex l) as [[t r]| |]; cbn [obind]; try discriminate. intros E.
  exists t. destruct t; injection E as <- <-; split; auto; right; split; auto; discriminate.
Qed.

Lemma at_reachable : letters U -> forall src l, reachable src l -> exists w, at_ l w /\ lx_src l = src.
Proof.
  intros HU src l. induction 1 as [|l x l' R (w&A&S) E|l x l' R (w&A&S) E|l R (w&A&S)].
  - apply at_new.
  - apply next_lex in E as (t&E&_). apply lex_goes in E; auto.
    destruct (at_goes _ _ _ E A) as (w'&A'&S'). exists w'. split; auto. congruence.
  - unfold lx_peek in E. destruct (lx_curr l). { injection E as <- <-. eauto. }
    destruct (lex l) as [[t r]| |] eqn:El; cbn [obind] in E; try discriminate.
    apply lex_goes in El; auto. destruct (at_goes _ _ _ El A) as (w'&A'&S'). exists w'.
    assert (l' = r \/ exists k, l' = set_curr k r) as [->|(k&->)]
      by (destruct t; injection E as _ <-; eauto).
    + split; auto. congruence.
    + split; [exact A'|]. cbn [lx_src set_curr]. congruence.
  - exists w. unfold lx_bump. destruct (lx_curr l); auto.
Qed.

End WithUcd.
