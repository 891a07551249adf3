(** The lexer on every source: termination, progress, positions. *)
From Coq Require Import List Arith NArith Bool Lia String.
From Verif Require Import Prelim Chars Syntax Lexer SpecLexer ProofBytes.
Import ListNotations.

(** * Positions *)

Lemma take_while_app_stop f a c b : f c = false -> take_while f (a ++ c :: b) = take_while f a.
Proof.
  intros H. induction a as [|d a IH]; simpl.
  - rewrite H. auto.
  - destruct (f d); auto. f_equal. auto.
Qed.

Lemma line_of_snoc w c : line_of (w ++ [c]) = line_of w + (if N.eqb c 10 then 1 else 0).
Proof.
  unfold line_of. rewrite count_occ_app. cbn [count_occ]. destruct (N.eq_dec c 10) as [->|n].
  - rewrite Nat.add_assoc. reflexivity.
  - apply N.eqb_neq in n. rewrite n. rewrite Nat.add_assoc. reflexivity.
Qed.

Lemma col_of_snoc w c : col_of (w ++ [c]) = if N.eqb c 10 then 1 else col_of w + 1.
Proof.
  unfold col_of. rewrite rev_app_distr. simpl. unfold not_lf at 1.
  destruct (N.eqb c 10); simpl; lia.
Qed.

Lemma blen_snoc w c : blen (w ++ [c]) = blen w + len_utf8 c.
Proof. rewrite blen_app. simpl. lia. Qed.

(** [w] does not end in a newline or [v] does not start with a carriage
    return. *)
Definition ends_lf (w : str) : Prop := exists a, w = a ++ [10%N].
Definition cut (w v : str) : Prop := ends_lf w -> stops (N.eqb 13) v.

Lemma strip_pair s : strip (10%N :: 13%N :: s) = 10%N :: strip s.
Proof. reflexivity. Qed.
Lemma strip_single c s : ~ (c = 10%N /\ exists s', s = 13%N :: s') -> strip (c :: s) = c :: strip s.
Proof.
  intros H. destruct s as [|d s]; [reflexivity|].
  destruct (N.eqb_spec c 10) as [->|n1].
  - destruct (N.eqb_spec d 13) as [->|n2].
    + destruct H. split; auto. eauto.
    + cbn [strip]. apply N.eqb_neq in n2. rewrite n2. reflexivity.
  - cbn [strip]. apply N.eqb_neq in n1. rewrite n1. reflexivity.
Qed.

Lemma strip_app : forall n a b, List.length a <= n -> cut a b -> strip (a ++ b) = strip a ++ strip b.
Proof.
  induction n as [|n IH]; intros a b L C; destruct a as [|c a]; simpl in L; auto; try lia.
  assert (Ca : cut a b).
  { intros (x&->). apply C. exists (c :: x). reflexivity. }
  destruct (N.eq_dec c 10) as [->|n1].
  - destruct a as [|d a].
    + simpl app. destruct b as [|d b]; [reflexivity|].
      assert (stops (N.eqb 13) (d :: b)) as S by (apply C; exists []; auto).
      rewrite strip_single; [reflexivity|]. intros (_&s'&E). injection E as -> _. discriminate S.
    + destruct (N.eq_dec d 13) as [->|n2].
      * cbn [app]. rewrite !strip_pair. cbn [app]. f_equal. apply IH. { simpl in L. lia. }
        intros (x&->). apply C. exists (10 :: 13 :: x)%N. reflexivity.
      * cbn [app]. rewrite !(strip_single 10).
        -- cbn [app]. f_equal. apply (IH (d :: a) b); auto. lia.
        -- intros (_&s'&E). congruence.
        -- intros (_&s'&E). congruence.
  - cbn [app]. rewrite !(strip_single c) by (intros (->&_); auto).
    cbn [app]. f_equal. apply IH; auto. lia.
Qed.

Lemma strip_clean : forall s, no_lfcr s -> strip s = s.
Proof.
  induction s as [|c s IH]; intros H; auto.
  rewrite strip_single.
  - f_equal. apply IH. intros a b ->. apply (H (c :: a) b). reflexivity.
  - intros (->&s'&->). apply (H [] s'). reflexivity.
Qed.

Lemma no_lfcr_app_l a b : no_lfcr (a ++ b) -> no_lfcr a.
Proof. intros H x y ->. apply (H x (y ++ b)). rewrite <- !app_assoc. reflexivity. Qed.
Lemma no_lfcr_app_r a b : no_lfcr (a ++ b) -> no_lfcr b.
Proof. intros H x y ->. apply (H (a ++ x) y). rewrite <- !app_assoc. reflexivity. Qed.

(** * The state invariant *)

(** The lexer has consumed [w]. *)
Definition at_ (l : lexer) (w : str) : Prop :=
  lx_src l = w ++ lx_rest l /\ curr_loc l = loc_of (strip w) /\ cut w (lx_rest l).

(** [l'] comes after [l]: it has consumed [u] more; its last recorded location
    is that of [l] or one passed since. *)
Definition from (l l' : lexer) (u : str) : Prop :=
  lx_src l' = lx_src l /\ lx_curr l' = lx_curr l /\ lx_rest l = u ++ lx_rest l' /\
  (forall w, at_ l w -> at_ l' (w ++ u)) /\
  (lx_prev l' = lx_prev l \/
   forall w, at_ l w -> exists a b, u = a ++ b /\ cut (w ++ a) (b ++ lx_rest l') /\
                                    lx_prev l' = loc_of (strip (w ++ a))).

Lemma from_refl l : from l l [].
Proof. repeat split; auto; intros; rewrite app_nil_r; apply H. Qed.

Lemma from_trans l1 l2 l3 u v : from l1 l2 u -> from l2 l3 v -> from l1 l3 (u ++ v).
Proof.
  intros (S1&C1&R1&A1&P1) (S2&C2&R2&A2&P2).
  assert (A: forall w, at_ l1 w -> at_ l3 (w ++ u ++ v)).
  { intros w H. rewrite app_assoc. auto. }
  split; [congruence|]. split; [congruence|].
  split. { rewrite R1, R2, app_assoc. auto. }
  split; [auto|].
  destruct P2 as [P2|P2].
  - destruct P1 as [P1|P1].
    + left. congruence.
    + right. intros w H. destruct (P1 w H) as (a&b&->&Cu&Ep).
      exists a, (b ++ v). rewrite !app_assoc. split; auto. split.
      * rewrite R2 in Cu. rewrite <- app_assoc. exact Cu.
      * congruence.
  - right. intros w H. destruct (P2 (w ++ u) (A1 w H)) as (a&b&->&Cu&Ep).
    exists (u ++ a), b. rewrite !app_assoc in *. auto.
Qed.

Lemma from_length l l' u : from l l' u -> List.length (lx_rest l) = List.length u + List.length (lx_rest l').
Proof. intros (_&_&->&_). apply app_length. Qed.

Lemma from_set_prev l : from l (set_prev (curr_loc l) l) [].
Proof.
  split; auto. split; auto. split; auto. split.
  - intros w H. rewrite app_nil_r. exact H.
  - right. intros w (H1&H2&H3). exists [], []. rewrite !app_nil_r. split; [auto|].
    split; [exact H3|exact H2].
Qed.

(** What one [bump_char] consumes. *)
Lemma from_bump l c v : lx_rest l = c :: v -> exists u, from l (bump_char l) (c :: u).
Proof.
  destruct l as [src rest curr line col pos prev]. simpl. intros ->. cbn [bump_char].
  destruct (N.eqb_spec c 10) as [->|nc].
  - destruct v as [|d v].
    + exists []. repeat split; simpl; auto; try apply H.
      * destruct H as (H1&H2&H3). simpl in *. rewrite H1, <- app_assoc. reflexivity.
      * destruct H as (H1&H2&H3). simpl in *. unfold curr_loc in *. simpl in *.
        rewrite (strip_app (List.length w)) by (auto; intros E; reflexivity).
        injection H2 as -> -> ->. unfold loc_of. simpl strip.
        rewrite line_of_snoc, col_of_snoc, blen_snoc. reflexivity.
    + destruct (N.eqb_spec d 13) as [->|nd].
      * exists [13%N]. repeat split; simpl; auto.
        -- destruct H as (H1&H2&H3). simpl in *. rewrite H1, <- app_assoc. reflexivity.
        -- destruct H as (H1&H2&H3). simpl in *. unfold curr_loc in *. simpl in *.
           rewrite (strip_app (List.length w)) by (auto; intros E; reflexivity).
           rewrite strip_pair.
           injection H2 as -> -> ->. unfold loc_of. simpl strip.
           rewrite line_of_snoc, col_of_snoc, blen_snoc. reflexivity.
        -- intros (x&E). exfalso. change [10; 13]%N with ([10] ++ [13])%N in E.
           rewrite app_assoc in E. apply app_inj_tail in E as (_&E). discriminate E.
      * exists []. repeat split; simpl; auto.
        -- destruct H as (H1&H2&H3). simpl in *. rewrite H1, <- app_assoc. reflexivity.
        -- destruct H as (H1&H2&H3). simpl in *. unfold curr_loc in *. simpl in *.
           rewrite (strip_app (List.length w)) by (auto; intros E; reflexivity).
           injection H2 as -> -> ->. unfold loc_of. simpl strip.
           rewrite line_of_snoc, col_of_snoc, blen_snoc. reflexivity.
        -- intros _. cbn [stops]. apply N.eqb_neq. auto.
  - exists []. repeat split; simpl; auto.
    + destruct H as (H1&H2&H3). simpl in *. rewrite H1, <- app_assoc. reflexivity.
    + destruct H as (H1&H2&H3). simpl in *. unfold curr_loc in *. simpl in *.
      rewrite (strip_app (List.length w)).
      * injection H2 as -> -> ->. unfold loc_of. simpl strip.
        rewrite line_of_snoc, col_of_snoc, blen_snoc. apply N.eqb_neq in nc. rewrite nc.
        f_equal. lia.
      * auto.
      * intros E. apply H3 in E. simpl in *. auto.
    + intros (x&E). apply app_inj_tail in E as (_&E). congruence.
Qed.

(** [goes l l']: [l'] is reached from [l]; [moves l l']: having consumed
    something. *)
Definition goes (l l' : lexer) : Prop := exists u, from l l' u.
Definition moves (l l' : lexer) : Prop := exists c u, from l l' (c :: u).

Lemma goes_refl l : goes l l.
Proof. exists []. apply from_refl. Qed.
Lemma goes_trans l1 l2 l3 : goes l1 l2 -> goes l2 l3 -> goes l1 l3.
Proof. intros (u&A) (v&B). exists (u ++ v). eapply from_trans; eauto. Qed.
Lemma moves_goes l l' : moves l l' -> goes l l'.
Proof. intros (c&u&H). exists (c :: u). auto. Qed.
Lemma moves_trans l1 l2 l3 : moves l1 l2 -> goes l2 l3 -> moves l1 l3.
Proof. intros (c&u&A) (v&B). exists c, (u ++ v). apply (from_trans _ _ _ _ _ A B). Qed.
Lemma goes_moves l1 l2 l3 : goes l1 l2 -> moves l2 l3 -> moves l1 l3.
Proof.
  intros (u&A) (c&v&B). pose proof (from_trans _ _ _ _ _ A B) as H.
  destruct u as [|d u]; [exists c, v; auto|exists d, (u ++ c :: v); auto].
Qed.
Lemma goes_len l l' : goes l l' -> List.length (lx_rest l') <= List.length (lx_rest l).
Proof. intros (u&H). apply from_length in H. lia. Qed.
Lemma moves_len l l' : moves l l' -> List.length (lx_rest l') < List.length (lx_rest l).
Proof. intros (c&u&H). apply from_length in H. simpl in H. lia. Qed.

Lemma bump_moves l c : peek_char l = Some c -> moves l (bump_char l).
Proof.
  unfold peek_char. destruct (lx_rest l) as [|d v] eqn:E; intros H; inversion H; subst.
  destruct (from_bump l c v E) as (u&F). exists c, u. auto.
Qed.
Lemma bump_goes l : goes l (bump_char l).
Proof.
  destruct (peek_char l) as [c|] eqn:E.
  - apply moves_goes. eapply bump_moves; eauto.
  - destruct l as [s r k a b p q]. unfold peek_char in E. simpl in E.
    destruct r; [|discriminate]. apply goes_refl.
Qed.
Lemma on_char_peek f l : on_char f l = true -> exists c, peek_char l = Some c /\ f c = true.
Proof. unfold on_char. destruct (peek_char l); intros; [eauto|discriminate]. Qed.

Lemma eat_n_goes f : forall n l, goes l (eat_n n f l).
Proof.
  induction n as [|n IH]; intros l; simpl; [apply goes_refl|].
  destruct (on_char f l); [|apply goes_refl].
  eapply goes_trans; [apply bump_goes|apply IH].
Qed.
Lemma eat_while_goes f l : goes l (eat_while f l).
Proof. apply eat_n_goes. Qed.
Lemma eat_while_moves f l : on_char f l = true -> moves l (eat_while f l).
Proof.
  intros H. destruct (on_char_peek _ _ H) as (c&E&_). unfold eat_while.
  destruct (lx_rest l) as [|d v] eqn:R. { unfold peek_char in E. rewrite R in E. discriminate. }
  cbn [List.length eat_n]. rewrite H. eapply moves_trans; [eapply bump_moves; eauto|apply eat_n_goes].
Qed.

(** The loop of [eat_while] ends where its condition fails. *)
Lemma eat_n_stops f : forall n l, List.length (lx_rest l) <= n -> on_char f (eat_n n f l) = false.
Proof.
  induction n as [|n IH]; intros l L; cbn [eat_n].
  - unfold on_char, peek_char. destruct (lx_rest l); [auto|simpl in L; lia].
  - destruct (on_char f l) eqn:E; auto.
    apply on_char_peek in E as (c&E&_). apply IH.
    apply bump_moves, moves_len in E. lia.
Qed.
Lemma eat_while_stops f l : on_char f (eat_while f l) = false.
Proof. apply eat_n_stops. auto. Qed.

Lemma set_prev_goes l : goes l (set_prev (curr_loc l) l).
Proof. exists []. apply from_set_prev. Qed.
Lemma eat_whitespace_goes l : goes l (eat_whitespace l).
Proof. eapply goes_trans; [apply eat_while_goes|apply set_prev_goes]. Qed.
Lemma trailing_goes f l : goes l (eat_with_trailing f l).
Proof. eapply goes_trans; apply eat_while_goes. Qed.
Lemma trailing_moves f l : on_char f l = true -> moves l (eat_with_trailing f l).
Proof. intros H. apply moves_trans with (eat_while f l); [apply eat_while_moves; auto|apply eat_while_goes]. Qed.

(** * Every function goes forward, and runs out of no fuel *)

Definition fine (P : token -> lexer -> Prop) (r : outcome (token * lexer)) : Prop :=
  match r with
  | Ok (t, l') => P t l'
  | Panic _ => True
  | NoFuel => False
  end.

Lemma fine_slice P l a b k : (forall s, fine P (k s)) -> fine P (obind (src_slice l a b) k).
Proof. intros H. unfold src_slice. destruct (slice (lx_src l) a b); simpl; auto. Qed.

Create HintDb lx.
#[export] Hint Resolve goes_refl bump_goes eat_while_goes trailing_goes eat_whitespace_goes
  moves_goes : lx.
#[export] Hint Extern 2 (goes _ _) =>
  (eapply goes_trans; [|solve [apply bump_goes | apply eat_while_goes | apply trailing_goes]]) : lx.

Lemma comment_loop_fine : forall n d e l, List.length (lx_rest l) <= n ->
  exists b e' l', comment_loop n d e l = Ok (b, e', l') /\ goes l l'.
Proof.
  induction n as [|n IH]; intros d e l L; destruct d as [|d]; cbn [comment_loop].
  - do 3 eexists. split; eauto with lx.
  - unfold peek_char. destruct (lx_rest l); [|simpl in L; lia]. do 3 eexists. split; eauto with lx.
  - do 3 eexists. split; eauto with lx.
  - destruct (peek_char l) as [c|] eqn:E; [|do 3 eexists; split; eauto with lx].
    pose proof (bump_moves _ _ E) as M. pose proof (moves_len _ _ M) as ML.
    assert (G : forall d e l', goes (bump_char l) l' ->
      exists b e' l'', comment_loop n d e l' = Ok (b, e', l'') /\ goes l l'').
    { intros d' e' l' G. pose proof (goes_len _ _ G).
      destruct (IH d' e' l') as (b&e2&l2&E2&G2); [lia|].
      exists b, e2, l2. split; auto.
      eapply goes_trans; [apply bump_goes|]. eapply goes_trans; eauto. }
    destruct (N.eqb c 126).
    { destruct (on 123%N (bump_char l)); apply G; eauto with lx. }
    destruct (N.eqb c 125).
    { destruct (on 126%N (bump_char l)); apply G; eauto with lx. }
    apply G. eauto with lx.
Qed.

Lemma block_comment_fine l :
  exists e l', block_comment l = Ok (e, l') /\ goes l l'.
Proof.
  unfold block_comment.
  destruct (comment_loop_fine (List.length (lx_rest l)) 1 (lx_prev l) l) as (b&e&l1&E&G); auto.
  rewrite E. cbn [obind]. destruct b; do 2 eexists; split; eauto with lx.
Qed.

Lemma string_loop_fine : forall n buf b l, List.length (lx_rest l) <= n ->
  exists t s l', string_loop n buf b l = Ok (t, s, l') /\ goes l l'.
Proof.
  induction n as [|n IH]; intros buf b l L; cbn [string_loop].
  - unfold peek_char. destruct (lx_rest l); [|simpl in L; lia]. do 3 eexists. split; eauto with lx.
  - destruct (peek_char l) as [c|] eqn:E; [|do 3 eexists; split; eauto with lx].
    pose proof (bump_moves _ _ E) as M. pose proof (moves_len _ _ M) as ML.
    assert (G : forall buf b l', goes (bump_char l) l' ->
      exists t s l'', string_loop n buf b l' = Ok (t, s, l'') /\ goes l l'').
    { intros d' e' l' G. pose proof (goes_len _ _ G).
      destruct (IH d' e' l') as (t&e2&l2&E2&G2); [lia|].
      exists t, e2, l2. split; auto.
      eapply goes_trans; [apply bump_goes|]. eapply goes_trans; eauto. }
    cbv zeta. destruct b.
    + destruct (is_escapable c); [apply G; eauto with lx|].
      destruct (N.eqb c 10); apply G; eauto with lx.
    + destruct (N.eqb c 34). { do 3 eexists. split; eauto with lx. }
      destruct (N.eqb c 92); apply G; eauto with lx.
Qed.

Definition fwd (l : lexer) : token -> lexer -> Prop := fun t l' => moves l l' /\ t <> TEof.

Lemma lex_string_fine l : peek_char l = Some 34%N -> fine (fwd l) (lex_string l).
Proof.
  intros E. unfold lex_string.
  destruct (string_loop_fine (List.length (lx_rest (bump_char l))) [] false (bump_char l))
    as (t&s&l'&E'&G); auto.
  rewrite E'. cbn [obind]. apply bump_moves in E.
  destruct t; split; try discriminate; eapply moves_trans; eauto.
Qed.

Lemma lex_unicode_fine st l : fine (fun t l' => goes l l' /\ t <> TEof) (lex_unicode st l).
Proof.
  unfold lex_unicode. set (l1 := if on 43%N l then bump_char l else l).
  assert (G1 : goes l l1) by (unfold l1; destruct (on 43%N l); eauto with lx). clearbody l1.
  destruct (is_hex (current_char l1)).
  - cbv zeta. destruct (on 39%N (eat_while is_hex l1)).
    + destruct (Nat.eqb _ _). { split; [eauto 6 with lx|discriminate]. }
      destruct (Nat.leb _ _).
      * apply fine_slice. intros s. destruct (parse_uint 16 u32_limit s); [|exact I].
        destruct (char_from_u32 n); split; try discriminate; eauto 6 with lx.
      * apply fine_slice. intros s. split; [eauto 6 with lx|discriminate].
    + split; [eauto 6 with lx|discriminate].
  - split; [eauto 6 with lx|discriminate].
Qed.

Lemma fine_impl (P Q : token -> lexer -> Prop) r :
  (forall t l, P t l -> Q t l) -> fine P r -> fine Q r.
Proof. intros H. destruct r as [[t l]| |]; simpl; auto. Qed.

Lemma lex_char_escape_fine st l : fine (fun t l' => goes l l' /\ t <> TEof) (lex_char_escape st l).
Proof.
  unfold lex_char_escape. destruct (peek_char l) as [c|]; [|split; [eauto with lx|discriminate]].
  destruct (N.eqb c 117 || N.eqb c 85).
  - eapply fine_impl; [|apply lex_unicode_fine]. intros t l' (G&T). split; auto.
    eapply goes_trans; [apply bump_goes|auto].
  - destruct (is_escapable c).
    + cbv zeta. destruct (on 39%N (bump_char l)); split; try discriminate; eauto 6 with lx.
    + split; [eauto 6 with lx|discriminate].
Qed.

Section WithUcd.
Context {U : ucd}.

Lemma lex_char_fine l : peek_char l = Some 39%N -> fine (fwd l) (lex_char l).
Proof.
  intros E. apply bump_moves in E. unfold lex_char. cbv zeta.
  assert (G : forall l', goes (bump_char l) l' -> moves l l').
  { intros l' G. eapply moves_trans; eauto. }
  destruct (N.eqb _ 39). { split; [apply G; eauto with lx|discriminate]. }
  destruct (N.eqb _ 92).
  { eapply fine_impl; [|apply lex_char_escape_fine]. intros t l' (G'&T). split; auto.
    apply G. eapply goes_trans; [apply bump_goes|auto]. }
  destruct (N.eqb _ 0). { split; [apply G; eauto with lx|discriminate]. }
  destruct (on 39%N _). { split; [apply G; eauto with lx|discriminate]. }
  destruct (on_char is_white _).
  { apply fine_slice. intros s. split; [apply G; eauto with lx|discriminate]. }
  destruct (is_ident_start _).
  { apply fine_slice. intros s. split; [apply G; eauto with lx|discriminate]. }
  split; [apply G; eauto with lx|discriminate].
Qed.

Lemma lex_number_fine l : on_char ascii_digit l = true -> fine (fwd l) (lex_number l).
Proof.
  intros H. apply eat_while_moves in H. unfold lex_number. cbv zeta. apply fine_slice. intros s.
  split; auto. destruct (parse_uint _ _ _); discriminate.
Qed.

Lemma promoted_fine l c : peek_char l = Some c -> fine (fwd l) (promoted_operator l).
Proof.
  intros E. apply bump_moves in E. unfold promoted_operator. cbv zeta. apply fine_slice. intros s.
  destruct (on 96%N _); split; try discriminate; eapply moves_trans; eauto with lx.
Qed.

Lemma lex_backquote_fine l : peek_char l = Some 96%N -> fine (fwd l) (lex_backquote l).
Proof.
  intros E. apply bump_moves in E. unfold lex_backquote. cbv zeta.
  destruct (on_char is_ident_start (bump_char l)) eqn:O.
  - apply on_char_peek in O as (c&O&_). eapply fine_impl; [|eapply promoted_fine; eauto].
    intros t l' (M&T). split; auto. eapply moves_trans; eauto with lx.
  - apply fine_slice. intros s. split; [|discriminate].
    eapply moves_trans; eauto. destruct (on 96%N _); eauto with lx.
Qed.

(** Identifier characters include the identifier's first one. *)
Lemma ident_start_char : letters U -> forall c, is_ident_start c = true -> is_ident_char c = true.
Proof.
  intros HU c. unfold is_ident_start, is_ident_char, has_case, is_alnum, is_alpha, is_upper, is_lower.
  destruct (N.eqb c 95); [intros _; rewrite !orb_true_r; auto|]. cbn [orb].
  destruct (N.ltb c 128).
  - intros H. rewrite orb_comm in H. rewrite H. auto.
  - intros H. destruct (HU c) as (E&_). rewrite E; auto. apply orb_prop in H. tauto.
Qed.

Lemma lex_ident_fine c l : on_char is_ident_char l = true -> fine (fwd l) (lex_ident c l).
Proof.
  intros H. apply trailing_moves in H. unfold lex_ident. cbv zeta. apply fine_slice. intros s.
  repeat (match goal with |- context [if ?b then _ else _] => destruct b end;
          [split; [auto|discriminate]|]).
  unfold identifier. destruct (is_lower c); [|exact I]. cbn [obind]. split; auto.
  destruct (is_upper c); discriminate.
Qed.

(** Every token but end-of-input and the unknown-character error moves on. *)
Definition lexed (l : lexer) (t : token) (l' : lexer) : Prop :=
  match t with
  | TEof => goes l l' /\ lx_rest l' = []
  | TError EUnknown => goes l l' /\ lx_rest l' <> []
  | _ => moves l l'
  end.

Lemma lexed_moves l t l' : moves l l' -> lexed l t l' \/ t = TEof \/ t = TError EUnknown.
Proof. intros M. destruct t; simpl; auto. destruct e; auto. Qed.

Lemma operator_fine lex l :
  on_char is_infix_char l = true ->
  (forall l', moves l l' -> fine (lexed l') (lex l')) ->
  fine (lexed l) (operator lex l).
Proof.
  intros H IH. apply trailing_moves in H. unfold operator. cbv zeta. apply fine_slice. intros s.
  assert (G : forall l', goes (eat_with_trailing is_infix_char l) l' -> fine (lexed l) (lex l')).
  { intros l' G. pose proof (moves_trans _ _ _ H G) as M.
    eapply fine_impl; [|apply IH; exact M]. intros t l2 L. unfold lexed in *.
    assert (moves l' l2 -> moves l l2) by (intros; eapply moves_trans; [exact M|apply moves_goes; auto]).
    assert (goes l' l2 -> goes l l2) by (intros; eapply goes_trans; [apply moves_goes; exact M|auto]).
    destruct t; auto; try (destruct e; auto); intuition. }
  destruct (str_eqb s (lit "~")).
  { destruct (on 123%N _).
    - destruct (block_comment_fine (bump_char (eat_with_trailing is_infix_char l))) as (e&l'&E&Gl).
      rewrite E. cbn [obind]. destruct e as [e|].
      + assert (M : moves l l').
        { eapply moves_trans; [exact H|]. eapply goes_trans; [apply bump_goes|auto]. }
        assert (e <> EUnknown).
        { unfold block_comment in E.
          destruct (comment_loop _ _ _ _) as [[[[|] ?] ?]| |]; inversion E; discriminate. }
        cbn [fine]. destruct e; auto. congruence.
      + apply G. eapply goes_trans; [apply bump_goes|auto].
    - exact H. }
  destruct (str_eqb s (lit "~~")). { apply G. apply eat_while_goes. }
  repeat (match goal with |- context [if ?b then _ else _] => destruct b end; [exact H|]).
  exact H.
Qed.

Lemma lex_fine : letters U -> forall n l, List.length (lx_rest l) < n -> fine (lexed l) (lex_f n l).
Proof.
  intros HU. induction n as [|n IH]; intros l L; [lia|]. cbn [lex_f]. cbv zeta.
  set (l1 := set_prev _ _).
  assert (G1 : goes l l1).
  { eapply goes_trans; [apply eat_whitespace_goes|apply set_prev_goes]. }
  clearbody l1. pose proof (goes_len _ _ G1) as L1.
  destruct (peek_char l1) as [c|] eqn:E.
  2:{ split; auto. unfold peek_char in E. destruct (lx_rest l1); [auto|discriminate]. }
  pose proof (bump_moves _ _ E) as M.
  assert (F : forall r, fine (fwd l1) r ->
     (forall t l', r = Ok (t, l') -> t <> TError EUnknown) -> fine (lexed l) r).
  { intros [[t l']| |]; auto. intros (M'&T) N. specialize (N t l' eq_refl).
    pose proof (goes_moves _ _ _ G1 M') as M2. simpl. destruct t; auto; try congruence.
    destruct e; auto. congruence. }
  assert (Hon : forall f, f c = true -> on_char f l1 = true).
  { intros f Hf. unfold on_char. rewrite E. auto. }
  assert (S : moves l (bump_char l1)) by (eapply goes_moves; eauto).
  destruct (N.eqb_spec c 59). { exact S. }
  destruct (N.eqb_spec c 39) as [->|].
  { apply F; [apply lex_char_fine; auto|]. intros t l' H. clear -H.
    unfold lex_char, lex_char_escape, lex_unicode, src_slice in H. cbv zeta in H.
    repeat (match type of H with
            | context [if ?b then _ else _] => destruct b
            | context [match ?x with _ => _ end] => destruct x
            end; cbn [obind] in H; try discriminate H);
    injection H as <- _; discriminate. }
  destruct (N.eqb_spec c 34) as [->|].
  { apply F; [apply lex_string_fine; auto|]. intros t l' H. clear -H.
    unfold lex_string in H. destruct (string_loop _ _ _ _) as [[[[|] ?] ?]| |]; inversion H; discriminate. }
  destruct (ascii_digit c) eqn:D.
  { apply F; [apply lex_number_fine; auto|]. intros t l' H. clear -H.
    unfold lex_number, src_slice in H. destruct (slice _ _ _); [|discriminate H]. cbn [obind] in H.
    injection H as <- _. destruct (parse_uint _ _ _); discriminate. }
  destruct (N.eqb_spec c 96) as [->|].
  { apply F; [apply lex_backquote_fine; auto|]. intros t l' H. clear -H.
    unfold lex_backquote, promoted_operator, src_slice in H. cbv zeta in H.
    repeat (match type of H with
            | context [if ?b then _ else _] => destruct b
            | context [match ?x with _ => _ end] => destruct x
            end; cbn [obind] in H; try discriminate H);
    injection H as <- _; discriminate. }
  destruct (is_ident_start c) eqn:Is.
  { apply F; [apply lex_ident_fine; apply Hon; apply ident_start_char; auto|]. intros t l' H. clear -H.
    unfold lex_ident, identifier, src_slice in H. cbv zeta in H.
    repeat (match type of H with
            | context [if ?b then _ else _] => destruct b
            | context [match ?x with _ => _ end] => destruct x
            end; cbn [obind] in H; try discriminate H);
    injection H as <- _; discriminate. }
  do 7 (destruct (N.eqb c _); [exact S|]).
  destruct (is_infix_char c) eqn:Ic.
  - assert (X : fine (lexed l1) (operator (lex_f n) l1)).
    { apply operator_fine; auto. intros l' M'. apply IH. pose proof (moves_len _ _ M'). lia. }
    revert X. apply fine_impl. intros t l' X. unfold lexed in *.
    assert (moves l1 l' -> moves l l') by (intros; eapply goes_moves; eauto).
    assert (goes l1 l' -> goes l l') by (intros; eapply goes_trans; eauto).
    destruct t; auto; try (destruct e; auto); intuition.
  - split; auto. unfold peek_char in E. destruct (lx_rest l1); [discriminate|congruence].
Qed.

Lemma lex_terminates : letters U -> forall l, fine (lexed l) (lex l).
Proof. intros HU l. apply lex_fine; auto. Qed.

End WithUcd.
