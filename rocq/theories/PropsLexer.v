(** The lexer: C23 to C33 and C56. *)
From Coq Require Import List Arith NArith Bool Lia String.
From Verif Require Import Prelim Chars Syntax Lexer SpecLexer SpecLexRun ProofBytes ProofLexer ProofLexer2
  ProofLexer3 ProofLexer4 ProofLexer5 ProofLexer6 ProofLexer7 ProofLexer8.
Import ListNotations.

(** For the examples: the empty table of non-ASCII characters. *)
Lemma letters_none : letters ucd_none.
Proof. intros c. cbn. repeat split; intuition discriminate. Qed.

Definition toks (src : str) (n : nat) : list token :=
  (fix go n l := match n with
                 | 0 => []
                 | S n => match @lx_next ucd_none l with
                          | Ok (Some (t, _), l') => t :: go n l'
                          | _ => []
                          end
                 end) n (@lexer_new src).

Section WithUcd.
Context {U : ucd}.

(** ** C23 *)

(** Every call returns (or panics); every token but end-of-input and the
    unknown-character error consumes a character. *)
Theorem C23_lexing_terminates : letters U -> forall l,
  match lx_next l with
  | NoFuel => False
  | Panic _ => True
  | Ok (None, l') => lx_rest l' = []
  | Ok (Some (TError EUnknown, _), l') =>
      lx_rest l' <> [] /\ List.length (lx_rest l') <= List.length (lx_rest l)
  | Ok (Some _, l') => List.length (lx_rest l') < List.length (lx_rest l)
  end.
Proof.
  intros HU l. pose proof (lex_terminates HU l) as F. unfold lx_next.
  destruct (lex l) as [[t l']| |]; auto. cbn [obind fine] in *. unfold lexed in F.
  destruct t; try (apply moves_len; exact F); try (apply F).
  destruct e; try (apply moves_len; exact F). destruct F as (G&N). split; auto. apply goes_len, G.
Qed.

(** Hence a run without unknown characters has at most as many tokens as the
    source has characters. *)
Theorem C23_token_count : letters U -> forall l ts l', scan l ts l' ->
  (forall sp, ~ In (TError EUnknown, sp) ts) ->
  List.length ts + List.length (lx_rest l') <= List.length (lx_rest l).
Proof.
  intros HU. induction 1 as [l|l x l1 ts l2 E S IH]; intros N; cbn [List.length]; [lia|].
  assert (H : List.length (lx_rest l1) < List.length (lx_rest l)).
  { pose proof (C23_lexing_terminates HU l) as F. rewrite E in F. destruct x as [t sp].
    destruct t; auto. destruct e; auto. exfalso. apply (N sp). left. auto. }
  specialize (IH (fun sp I => N sp (or_intror I))). lia.
Qed.

(** The unknown-character error repeats, with the same span, forever. *)
Theorem C23_unknown_forever : forall l sp l',
  lx_next l = Ok (Some (TError EUnknown, sp), l') ->
  lx_next l' = Ok (Some (TError EUnknown, sp), l') /\ fst sp = snd sp.
Proof.
  intros l sp l' E. apply next_lex in E as (t&E&[(_&H)|(_&H)]); [discriminate|].
  injection H as <- ->. destruct (lex_unknown _ _ E) as (P&E'). split; [|cbn; congruence].
  apply next_ok; auto. discriminate.
Qed.

(** ** C24 *)

(** Whatever the parser has done so far, the position is the true one. *)
Theorem C24_positions : letters U -> forall src l, reachable src l -> no_lfcr src ->
  exists w, src = w ++ lx_rest l /\ curr_loc l = loc_of w.
Proof.
  intros HU src l R N. destruct (at_reachable HU src l R) as (w&A&S). rewrite <- S in N.
  exists w. split. { rewrite <- S. apply A. }
  apply at_clean in A as (E&N'); auto. rewrite E. reflexivity.
Qed.

(** For arbitrary sources: the position is that of the text without the
    carriage returns that directly follow a newline. *)
Theorem C24_positions_any_source : letters U -> forall src l, reachable src l ->
  exists w, src = w ++ lx_rest l /\ curr_loc l = loc_of (strip w).
Proof.
  intros HU src l R. destruct (at_reachable HU src l R) as (w&(A&B&_)&S). exists w. split; congruence.
Qed.

(** The only possible panic of the lexer on such sources is that of an
    identifier starting with an uppercase letter or underscore. *)
Theorem C24_panics : letters U -> forall src l p, reachable src l -> no_lfcr src ->
  lex l = Panic p ->
  p = PIdentStart /\ exists g r, lx_rest l = g ++ r /\ gap g r /\ odd_name r.
Proof.
  intros HU src l p R N E. destruct (at_reachable HU src l R) as (w&A&S). rewrite <- S in N.
  apply at_clean in A as (El&N'); auto. rewrite El in E.
  pose proof (lex_text HU w (lx_rest l) (lx_curr l) (lx_prev l) (no_lfcr_app_r _ _ N')) as L. rewrite E in L.
  destruct L as (g&z&Er&G&[(->&Eo)|[(s&t'&v&q&->&Eo&_)|[(s&e&v&q&->&Eo&_)|(Eo&O)]]]); try discriminate.
  injection Eo as ->. eauto 6.
Qed.

(** With a newline directly followed by a carriage return, positions are short
    by a byte: tokens are cut wrongly, or the lexer panics. *)
Theorem C24_newline_return_wrong :
  (exists l, @lx_next ucd_none (lexer_new ([10; 13]%N ++ lit "ab"))
     = Ok (Some (TLower (13%N :: lit "a"), (mkLoc 2 1 1, mkLoc 2 3 3)), l)) /\
  @lx_next ucd_none (lexer_new ([10; 13; 12288]%N ++ lit "ab")) = Panic PSlice.
Proof. split; [vm_compute; eauto|reflexivity]. Qed.

(** ** C25 *)

(** The spans of a run lie one after the other in the source, and names and
    operators are the text of their spans. *)
Theorem C25_spans_and_texts : letters U -> forall src ts l, scan (lexer_new src) ts l -> no_lfcr src ->
  exists w, covers spells [] ts w /\ src = w ++ lx_rest l /\ curr_loc l = loc_of w.
Proof.
  intros HU src ts l S N. destruct (new_at src N) as (ws&v&k&p&->&A&Sv&E). rewrite E in S.
  destruct (scan_covers HU _ _ _ S ws) as (w'&C&Es&Aw&Ss).
  { apply at_lexer_at. auto. } { exact N. }
  exists w'. split; [|split; [exact Es|]].
  - inversion C; subst.
    + apply (cv_nil spells [] (ws ++ g)).
    + rewrite !(app_assoc ws) in *. apply (cv_cons spells [] (ws ++ g)); auto.
  - apply at_clean in Aw as (El&_); [|rewrite Ss; exact N]. rewrite El. reflexivity.
Qed.

(** In particular slicing the source at the span of a name or plain operator
    gives the name. *)
Theorem C25_slice_is_name : letters U -> forall src ts l, scan (lexer_new src) ts l -> no_lfcr src ->
  forall t a b, In (t, (a, b)) ts ->
  match t with
  | TLower s | TUpper s | TAffix s false => slice src (l_pos a) (l_pos b) = Some s
  | TAffix s true => exists q, slice src (l_pos a) (l_pos b) = Some q /\
                               (q = 96%N :: s ++ [96%N] \/ q = 39%N :: s)
  | _ => True
  end.
Proof.
  intros HU src ts l S N t a b I.
  destruct (C25_spans_and_texts HU src ts l S N) as (w&C&E&_). clear S.
  assert (H : exists x s z, src = x ++ s ++ z /\ a = loc_of x /\ b = loc_of (x ++ s) /\ spells t s).
  { rewrite E. clear E. generalize (lx_rest l). clear -C I. induction C as [w g|w g s t' ts w' Sp C IH]; intros z.
    - destruct I.
    - destruct I as [I|I]; [|apply IH; auto]. injection I as -> <- <-.
      assert (P : exists y, w' = (w ++ g ++ s) ++ y).
      { clear -C. induction C as [w0 g0|w0 g0 s0 t0 ts0 w0' _ _ (y&->)]; [eauto|].
        exists (g0 ++ s0 ++ y). rewrite <- !app_assoc. auto. }
      destruct P as (y&->). exists (w ++ g), s, (y ++ z). rewrite <- !app_assoc. auto. }
  destruct H as (x&s&z&->&->&->&Sp). cbn [loc_of l_pos]. rewrite blen_app, slice_app.
  destruct t; auto; cbn [spells] in Sp; try congruence. destruct promoted; [eauto|congruence].
Qed.

(** ** C26 *)

(** Of every name, plain operator and number in a run: how far it extends. *)
Definition longest (t : token) (s v : str) : Prop :=
  match t with
  | TLower _ | TUpper _ => exists u z, s = u ++ z /\ u <> [] /\ all word_char u /\ all script z /\
                              stops word_char (z ++ v) /\ stops script v
  | TAffix _ false | TDash | TArrow | TAt | TLambda =>
      exists u z, s = u ++ z /\ u <> [] /\ all op_char u /\ all script z /\ stops op_char (z ++ v) /\ stops script v
  | TLit (LInt _) => s <> [] /\ all digit s /\ stops digit v
  | _ => True
  end.

Lemma lexeme_longest s t v : lexeme s t v -> longest t s v.
Proof.
  destruct 1 as
    [c t v I|s t v I Sw Ss|c u s v Lc Uc A B Sw Ss NR|s v Ns A Sd Lt|b s v C|c v N1 N2 N3|e d v I
    |x pl h y v Hx Hp Hh A Lh Sc Ly Ny|c u s v Wc A Sw B|c u s v Wc A B Sw Ss Sq Sb|c d v N1 N2 N3 Wd
    |s t v I So Ss|u s v Nu A B So Ss NS N2 N1]; cbn [longest]; auto.
  - cbn in I. repeat (destruct I as [I|I]; [injection I as <- <-; exact Logic.I|]). destruct I.
  - cbn in I. repeat (destruct I as [I|I]; [injection I as <- <-; exact Logic.I|]). destruct I.
  - exists (c :: u), s. repeat split; auto. discriminate.
  - cbn in I. repeat (destruct I as [I|I]; [injection I as <- <-; cbn [longest]|]).
    all: try (eexists _, []; rewrite app_nil_r; repeat split; auto; [discriminate|repeat constructor|constructor]).
    destruct I.
  - exists u, s. auto 10.
Qed.

Theorem C26_longest_match : letters U -> forall src ts l, scan (lexer_new src) ts l -> no_lfcr src ->
  forall t a b, In (t, (a, b)) ts -> (forall e, t <> TError e) ->
  exists x s v, src = x ++ s ++ v /\ b = loc_of (x ++ s) /\ longest t s v.
Proof.
  intros HU src ts l S N t a b I NE. destruct (at_new src) as (w&A&Es).
  rewrite <- Es in N. destruct (scan_tokens HU _ _ _ S w A N t a b I) as (x&s&v&E&Eb&[(L&_)|(e&->&_)]).
  - exists x, s, v. rewrite <- Es. split; auto. split; auto. apply lexeme_longest, L.
  - congruence.
Qed.

(** ** C27 *)
Theorem C27_reserved_never_names : letters U -> forall src ts l, scan (lexer_new src) ts l -> no_lfcr src ->
  forall t sp, In (t, sp) ts ->
  match t with
  | TLower s | TUpper s => ~ In s [lit "_"; lit "infixl"; lit "infixr"; lit "infix"; lit "let"; lit "in"]
  | TAffix s false => ~ In s [lit "~~"; lit "\"; lit "-"; lit "->"; lit "@"]
  | _ => True
  end.
Proof.
  intros HU src ts l S N t (a,b) I. destruct (at_new src) as (w&A&Es).
  rewrite <- Es in N. destruct (scan_tokens HU _ _ _ S w A N t a b I) as (x&s&v&E&Eb&[(L&_)|(e&->&_)]); [|exact Logic.I].
  clear -L. destruct L; auto;
    repeat match goal with I : In (_, _) _ |- _ => cbn in I; repeat (destruct I as [I|I]; [injection I as <- <-; exact Logic.I|]); destruct I end.
  intros [I|I]; [congruence|]. apply H4. cbn [symbols map fst]. exact I.
Qed.

(** ** C28 *)
Theorem C28_integers : letters U -> forall l d v, before l (d ++ v) ->
  d <> [] -> all digit d -> stops digit v ->
  exists l', before l' v /\
    lx_next l = Ok (Some (if (value 10 d <? 2 ^ 64)%N then TLit (LInt (value 10 d))
                          else TError (EInvalidInt (curr_loc l) IPosOverflow),
                          (curr_loc l, curr_loc l')), l').
Proof.
  intros HU l d v B Nd A S. apply before_at in B as (w&El&N). pose proof (no_lfcr_app_r _ _ N) as Nr.
  assert (E : lex l = Ok (if (value 10 d <? 2 ^ 64)%N then TLit (LInt (value 10 d))
                          else TError (EInvalidInt (loc_of w) IPosOverflow),
                          lexer_at (w ++ d) v (lx_curr l) (loc_of w))).
  { rewrite El. unfold lex. destruct d as [|c d]; [congruence|]. pose proof (Forall_inv A) as Dc. cbn [app] in *.
    rewrite lex_f_step by (auto using digit_white). rewrite digit_dispatch by auto.
    change (c :: d ++ v) with ((c :: d) ++ v) in *. rewrite number_eq by auto. reflexivity. }
  assert (Ec : curr_loc l = loc_of w) by (rewrite El; reflexivity). rewrite Ec.
  eexists. split; [apply at_before; rewrite <- app_assoc; exact N|].
  rewrite (next_ok _ _ _ E); [reflexivity|]. destruct (_ <? _)%N; discriminate.
Qed.

(** [value] is the decimal value: appending a digit. *)
Theorem C28_value : forall d c, (value 10 [] = 0 /\ value 10 (d ++ [c]) = 10 * value 10 d + digit_value c)%N.
Proof. intros d c. split; auto. unfold value. rewrite fold_left_app. cbn [fold_left]. lia. Qed.

(** ** C29 *)
Theorem C29_strings : letters U -> forall l b s v, before l (34%N :: b ++ 34%N :: v) -> contents b s ->
  exists l' a, before l' v /\ lx_next l = Ok (Some (TLit (LStr s), (a, curr_loc l')), l').
Proof.
  intros HU l b s v B C. apply before_at in B as (w&El&N).
  destruct (lex_token HU [] (34%N :: b ++ [34%N]) (TLit (LStr s)) v w (lx_curr l) (lx_prev l)) as (q&E&_).
  { constructor. } { apply le_string, C. }
  { cbn [app]. rewrite <- app_assoc. eapply no_lfcr_app_r; eauto. }
  cbn [app] in E. rewrite <- app_assoc in E. cbn [app] in E. rewrite <- El in E.
  eexists _, _. split; [|apply next_ok; [exact E|discriminate]].
  apply at_before. rewrite <- app_assoc. cbn [app]. rewrite <- app_assoc. exact N.
Qed.

(** A string without an end is an error that extends to the end of the source. *)
Theorem C29_unterminated : letters U -> forall l b, before l (34%N :: b) -> unclosed b ->
  exists l' sp, before l' [] /\ lx_next l = Ok (Some (TError (EUnterminatedString (curr_loc l)), sp), l').
Proof.
  intros HU l b B C. apply before_at in B as (w&El&N). pose proof (no_lfcr_app_r _ _ N) as Nr.
  assert (Ec : curr_loc l = loc_of w) by (rewrite El; reflexivity). rewrite Ec.
  assert (E : exists q, lex l = Ok (TError (EUnterminatedString (loc_of w)), lexer_at (w ++ 34%N :: b) [] (lx_curr l) q)).
  { rewrite El. unfold lex. rewrite lex_f_step by auto. unfold dispatch. cbn [N.eqb Pos.eqb]. unfold lex_string.
    rewrite bump_at by auto. rewrite rest_at, prev_at. apply clean_cons in Nr.
    destruct (string_total (lx_curr l) (List.length b) b (w ++ [34%N]) (loc_of w) [] (List.length b)) as
      [(b1&s&v&->&C1)|(_&s&q&E)]; auto.
    { exfalso. eapply C; eauto. }
    exists q. cbv zeta. rewrite E. cbn [obind]. rewrite <- app_assoc. reflexivity. }
  destruct E as (q&E). eexists _, _. split; [|apply next_ok; [exact E|discriminate]].
  apply at_before. rewrite app_nil_r. exact N.
Qed.

(** Every text after an opening quote falls under one of the two theorems, and
    what a string denotes is determined by the text. *)
Theorem C29_total : forall r : str, no_lfcr r ->
  (exists b s v, r = b ++ 34%N :: v /\ contents b s) \/ unclosed r.
Proof.
  intros r N. destruct (string_total None (List.length r) r [] loc_default [] (List.length r)) as [H|(H&_)]; auto.
Qed.
Theorem C29_deterministic : letters U -> forall b s v b' s' v', no_lfcr (b ++ 34%N :: v) ->
  b ++ 34%N :: v = b' ++ 34%N :: v' -> contents b s -> contents b' s' -> b = b' /\ s = s' /\ v = v'.
Proof.
  intros HU b s v b' s' v' N E C C'.
  destruct (string_complete None b s C v (S (List.length b + List.length b')) [] loc_default [] N) as (p1&E1); [lia|].
  rewrite E in N, E1.
  destruct (string_complete None b' s' C' v' (S (List.length b + List.length b')) [] loc_default [] N) as (p2&E2); [lia|].
  rewrite E1 in E2. cbn [app] in E2. unfold lexer_at in E2. injection E2 as -> _ -> _ _ _ _. 
  apply app_inv_tail in E. auto.
Qed.

(** ** C30 *)

(** For every source, even those with carriage returns, as long as the white
    space itself does not end in a newline before one. *)
Theorem C30_leading_white_space : forall ws src ts l,
  all is_white ws -> no_lfcr ws -> (forall a b, ws = a ++ [10%N] -> src <> 13%N :: b) ->
  scan (lexer_new src) ts l ->
  exists ts' l', scan (lexer_new (ws ++ src)) ts' l' /\
    map (fun x => erase (fst x)) ts' = map (fun x => erase (fst x)) ts /\ lx_rest l' = lx_rest l.
Proof.
  intros ws src ts l A N Cu S.
  assert (H : sim [] ws src (lexer_new src) (lexer_new (ws ++ src))).
  { unfold lexer_new at 2, eat_whitespace. cbv zeta.
    assert (E : eat_while is_white (mkLexer (ws ++ src) (ws ++ src) None 1 1 0 loc_default) =
      eat_while is_white (mkLexer (ws ++ src) src None (line_of ws) (col_of ws) (blen ws) loc_default)).
    { clear S ts l. unfold eat_while. cbn [lx_rest].
      enough (G : forall u w, all is_white u -> no_lfcr (w ++ u) -> (forall a b, u = a ++ [10%N] -> src <> 13%N :: b) ->
        eat_n (List.length (u ++ src)) is_white (mkLexer (ws ++ src) (u ++ src) None (line_of w) (col_of w) (blen w) loc_default)
        = eat_n (List.length src) is_white (mkLexer (ws ++ src) src None (line_of (w ++ u)) (col_of (w ++ u)) (blen (w ++ u)) loc_default)).
      { apply (G ws []); auto. }
      induction u as [|c u IH]; intros w Au Nu Cu'. { rewrite app_nil_r. auto. }
      pose proof (Forall_inv Au) as Hc. apply Forall_inv_tail in Au.
      cbn [app List.length eat_n]. unfold on_char, peek_char. cbn [lx_rest]. rewrite Hc.
      assert (Eb : bump_char (mkLexer (ws ++ src) (c :: u ++ src) None (line_of w) (col_of w) (blen w) loc_default)
        = mkLexer (ws ++ src) (u ++ src) None (line_of (w ++ [c])) (col_of (w ++ [c])) (blen (w ++ [c])) loc_default).
      { cbn [bump_char]. rewrite line_of_snoc, col_of_snoc, blen_snoc. destruct (N.eqb_spec c 10) as [->|]; [|f_equal; lia].
        f_equal. destruct (u ++ src) as [|d r] eqn:E; auto. destruct (N.eqb_spec d 13) as [->|]; auto. exfalso.
        destruct u as [|d' u].
        - cbn [app] in E. apply (Cu' [] r); auto.
        - injection E as -> E. apply (Nu w u). auto. }
      rewrite Eb. replace (w ++ c :: u) with ((w ++ [c]) ++ u) by (rewrite <- app_assoc; auto).
      apply IH; auto.
      - rewrite <- app_assoc. auto.
      - intros a b ->. apply (Cu' (c :: a)). auto. }
    rewrite E. unfold lexer_new, eat_whitespace. cbv zeta. apply sim_set_prev, sim_eat_while.
    split; [reflexivity|]. split; [reflexivity|]. split; [reflexivity|]. exists 0. cbn. lia. }
  destruct (sim_scan [] ws src _ _ _ S _ H) as (ts'&l'&S'&E&R). exists ts', l'. split; auto. split; auto. exact (sim_rest _ _ _ _ _ R).
Qed.

(** The same at any point of a run: white space before the next token is
    skipped. *)
Theorem C30_white_space_skipped : letters U -> forall l ws v, before l (ws ++ v) -> all is_white ws ->
  exists l', before l' v /\ lx_src l' = lx_src l /\ lx_next l = lx_next l'.
Proof.
  intros HU l ws v B A. destruct (next_gap HU l ws v B) as (l'&B'&S&_&E); eauto.
  rewrite <- (app_nil_r ws). apply gap_whites; auto. constructor.
Qed.

(** ** C31 *)

(** A line comment. *)
Theorem C31_line_comment : letters U -> forall l b v,
  before l (lit "~~" ++ b ++ v) -> all not_lf b -> stops not_lf v ->
  stops op_char (b ++ v) -> stops script (b ++ v) ->
  exists l', before l' v /\ lx_src l' = lx_src l /\ lx_next l = lx_next l'.
Proof.
  intros HU l b v B A S So Ss. destruct (next_gap HU l (126%N :: 126%N :: b) v) as (l'&B'&S'&_&E); eauto.
  rewrite <- (app_nil_r b). apply gap_line; auto. constructor.
Qed.

(** A block comment that is followed by white space or nothing. *)
Theorem C31_block_comment_partial : letters U -> forall l b v,
  before l (lit "~{" ++ b ++ v) -> closes 1 b -> v = [] \/ (exists c v', v = c :: v' /\ is_white c = true) ->
  exists l', before l' v /\ lx_src l' = lx_src l /\ lx_next l = lx_next l'.
Proof.
  intros HU l b v B C [->|(c&v'&->&W)].
  - destruct (next_gap HU l (126%N :: 123%N :: b) []) as (l'&B'&S'&_&E); eauto.
    rewrite <- (app_nil_r b). apply (gap_block b []); auto. constructor.
  - destruct (next_gap HU l (126%N :: 123%N :: b ++ [c]) v') as (l'&B'&S'&_&E).
    { cbn [app]. rewrite <- app_assoc. exact B. }
    { apply (gap_block b [c] [] v'); auto. discriminate. constructor. }
    (* the state between the comment and the white space *)
    apply before_at in B as (w&El&N).
    exists (lexer_at (w ++ lit "~{" ++ b) (c :: v') (lx_curr l) (lx_prev l)). split.
    { apply at_before. rewrite <- !app_assoc. exact N. }
    split. { rewrite El. cbn [lx_src lexer_at]. rewrite <- !app_assoc. reflexivity. }
    unfold lx_next. rewrite El at 1. f_equal.
    assert (Nr : no_lfcr (c :: v')). { do 3 apply no_lfcr_app_r in N. auto. }
    change (lit "~{" ++ b ++ c :: v') with (126%N :: 123%N :: b ++ c :: v').
    replace (126%N :: 123%N :: b ++ c :: v') with ((126%N :: 123%N :: b ++ [c]) ++ v')
      by (cbn [app]; rewrite <- app_assoc; auto).
    rewrite lex_gap; auto.
    + change (c :: v') with ([c] ++ v'). rewrite (lex_gap HU [c] v'); auto.
      * rewrite <- !app_assoc. reflexivity.
      * apply gap_white; auto. constructor.
    + apply (gap_block b [c] [] v'); auto. discriminate. constructor.
    + cbn [app]. rewrite <- app_assoc. apply no_lfcr_app_r in N. exact N.
Qed.

(** What happens in general: the character after the closing mark is lost. *)
Theorem C31_block_comment_takes_next : letters U -> forall l b x v,
  before l (lit "~{" ++ b ++ x :: v) -> closes 1 b ->
  exists l', before l' v /\ lx_src l' = lx_src l /\ lx_next l = lx_next l'.
Proof.
  intros HU l b x v B C. destruct (next_gap HU l (126%N :: 123%N :: b ++ [x]) v) as (l'&B'&S'&_&E); eauto.
  { cbn [app]. rewrite <- app_assoc. exact B. }
  apply (gap_block b [x] [] v); auto. discriminate. constructor.
Qed.

(** So lexing does not resume with the very next character. *)
Theorem C31_block_comment_refuted :
  closes 1 (lit "c}~") /\ toks (lit "~{c}~ab") 9 = [TLower (lit "b")].
Proof. split; [|reflexivity]. repeat constructor; discriminate. Qed.

(** An unterminated block comment is an error that extends to the end. *)
Theorem C31_unterminated : letters U -> forall l b, before l (lit "~{" ++ b) -> unclosed_comment b ->
  exists l' sp, before l' [] /\
    lx_next l = Ok (Some (TError (EUnterminatedComment (curr_loc l) (curr_loc l)), sp), l').
Proof.
  intros HU l b B C. apply before_at in B as (w&El&N). pose proof (no_lfcr_app_r _ _ N) as Nr.
  assert (Ec : curr_loc l = loc_of w) by (rewrite El; reflexivity). rewrite Ec.
  assert (E : lex l = Ok (TError (EUnterminatedComment (loc_of w) (loc_of w)), lexer_at (w ++ lit "~{" ++ b) [] (lx_curr l) (loc_of w))).
  { rewrite El. cbn [lx_curr lexer_at]. unfold lex. change (lit "~{" ++ b) with (126%N :: 123%N :: b) in *.
    rewrite lex_f_step by auto. rewrite op_dispatch by auto.
    rewrite (operator_eq _ w [126%N] [] (123%N :: b)); auto; try (repeat constructor; fail).
    unfold op_token. change (str_eqb ([126%N] ++ []) (lit "~")) with true. cbv iota. rewrite eqb_on.
    change (123 =? 123)%N with true. cbv iota. cbn [app].
    apply clean_cons in Nr. rewrite bump_at by auto. apply clean_cons in Nr. unfold block_comment. rewrite rest_at, prev_at.
    destruct (comment_total (lx_curr l) (loc_of w) (List.length b) b 1 ((w ++ [126%N]) ++ [123%N]) (List.length b)) as
      [(b1&v&->&C1)|(_&E)]; auto.
    { exfalso. eapply C; eauto. }
    rewrite E. cbn [obind]. rewrite <- !app_assoc. reflexivity. }
  eexists _, _. split; [|apply next_ok; [exact E|discriminate]].
  apply at_before. rewrite app_nil_r. exact N.
Qed.

(** Every text after an opening mark falls under one of these theorems. *)
Theorem C31_total : forall r : str, no_lfcr r ->
  (exists b v, r = b ++ v /\ closes 1 b) \/ unclosed_comment r.
Proof.
  intros r N. destruct (comment_total None loc_default (List.length r) r 1 [] (List.length r)) as [H|(H&_)]; auto.
Qed.

(** ** C32 *)
Theorem C32_plain_character : letters U -> forall l c v, before l (39%N :: c :: 39%N :: v) ->
  c <> 39%N -> c <> 92%N -> c <> 0%N ->
  exists l', before l' v /\ lx_next l = Ok (Some (TLit (LChar c), (curr_loc l, curr_loc l')), l').
Proof.
  intros HU l c v B N1 N2 N3.
  destruct (next_lexeme HU l [39%N; c; 39%N] (TLit (LChar c)) v B) as (l'&a&B'&E&_&[->|(x&X)]).
  - apply le_char; auto.
  - eauto.
  - discriminate.
Qed.

Theorem C32_escape : letters U -> forall l e d v, before l (39%N :: 92%N :: e :: 39%N :: v) ->
  In (e, d) [(116, 9); (110, 10); (114, 13); (34, 34); (39, 39); (92, 92); (98, 8); (102, 12)]%N ->
  exists l', before l' v /\ lx_next l = Ok (Some (TLit (LChar d), (curr_loc l, curr_loc l')), l').
Proof.
  intros HU l e d v B I.
  destruct (next_lexeme HU l [39%N; 92%N; e; 39%N] (TLit (LChar d)) v B) as (l'&a&B'&E&_&[->|(x&X)]).
  - apply le_escape; auto.
  - eauto.
  - discriminate.
Qed.

(** A unicode escape denotes its scalar value, or is an error.  Missing: that
    the token ends at the closing quote; it does only at the end of the source
    (see below). *)
Theorem C32_unicode_partial : letters U -> forall l u p h x v,
  before l (39%N :: 92%N :: u :: p ++ h ++ 39%N :: x ++ v) ->
  u = 117%N \/ u = 85%N -> p = [] \/ p = [43%N] -> h <> [] -> all hexdigit h -> List.length h <= 6 ->
  List.length x = 1 \/ x = [] /\ v = [] ->
  exists l' t a, before l' v /\ lx_next l = Ok (Some (t, (a, curr_loc l')), l') /\
    ((scalar (value 16 h) -> t = TLit (LChar (value 16 h))) /\
     (~ scalar (value 16 h) -> exists at_, t = TError (EInvalidUnicode at_ (CpNotInCharRange h (value 16 h))))).
Proof.
  intros HU l u p h x v B Hu Hp Nh A L Hx. apply before_at in B as (w&El&N). pose proof (no_lfcr_app_r _ _ N) as Nr.
  assert (E : exists t, lex l = Ok (t, lexer_at (w ++ 39%N :: 92%N :: u :: p ++ h ++ 39%N :: x) v (lx_curr l) (loc_of w)) /\
    t <> TEof /\
    ((scalar (value 16 h) -> t = TLit (LChar (value 16 h))) /\
     (~ scalar (value 16 h) -> exists at_, t = TError (EInvalidUnicode at_ (CpNotInCharRange h (value 16 h)))))).
  { rewrite El. cbn [lx_curr lexer_at]. unfold lex. rewrite lex_f_step by auto. unfold dispatch. cbn [N.eqb Pos.eqb].
    unfold lex_char. cbv zeta. rewrite bump_at by auto. apply clean_cons in Nr. rewrite current_at.
    cbn [N.eqb Pos.eqb]. rewrite bump_at by auto. apply clean_cons in Nr. unfold lex_char_escape.
    rewrite peek_at. replace ((u =? 117)%N || (u =? 85)%N) with true.
    2:{ destruct Hu as [-> | ->]; reflexivity. }
    rewrite bump_at by auto. apply clean_cons in Nr. rewrite unicode_closed_eq by auto.
    assert (Eb : forall W, bump_char (lexer_at W (x ++ v) (lx_curr l) (loc_of w)) = lexer_at (W ++ x) v (lx_curr l) (loc_of w)).
    { intros W. destruct Hx as [Hx|(->&->)].
      - destruct x as [|y0 [|y1 x]]; try discriminate. cbn [app] in *. rewrite bump_at; auto.
        do 2 apply no_lfcr_app_r in Nr. apply clean_cons in Nr. auto.
      - cbn [app]. rewrite bump_at_nil, app_nil_r. auto. }
    rewrite Eb. repeat (rewrite <- !app_assoc; cbn [app]). eexists. split; [reflexivity|].
    destruct (char_from_u32_scalar (value 16 h)) as [(S&->)|(S&->)].
    - split; [discriminate|]. split; [auto|contradiction].
    - split; [discriminate|]. split; [contradiction|eauto]. }
  destruct E as (t&E&Nt&H). eexists _, t, _. split; [|split; [apply next_ok; eauto|exact H]].
  apply at_before. repeat (rewrite <- !app_assoc; cbn [app]). exact N.
Qed.

(** The token does not end at the closing quote: the next character is lost. *)
Theorem C32_unicode_end_refuted : toks ([39; 92; 117]%N ++ lit "41'ab") 9 = [TLit (LChar 65); TLower (lit "b")].
Proof. reflexivity. Qed.

(** ** C33 *)

(** An identifier, as a text: identifier characters then sub/superscripts. *)
Definition ident_text (i : str) (u z : str) : Prop :=
  exists c, i = c :: u ++ z /\ word_start c = true /\ all word_char u /\ all script z /\ stops word_char z.

Theorem C33_both_spellings : letters U -> forall i u z v, ident_text i u z ->
  u ++ z <> [] -> (forall r, u <> 39%N :: r) -> stops word_char (z ++ v) -> stops script v ->
  forall l1 l2 v', before l1 (39%N :: i ++ v) -> before l2 (96%N :: i ++ 96%N :: v') ->
  exists l1' l2', before l1' v /\ before l2' v' /\
    lx_next l1 = Ok (Some (TAffix i true, (curr_loc l1, curr_loc l1')), l1') /\
    lx_next l2 = Ok (Some (TAffix i true, (curr_loc l2, curr_loc l2')), l2').
Proof.
  intros HU i u z v (c&->&W&A&B&Sz) Ne Nq Sw Ss l1 l2 v' B1 B2.
  destruct (next_lexeme HU l1 (39%N :: c :: u ++ z) (TAffix (c :: u ++ z) true) v B1) as (l1'&a1&B1'&E1&_&[->|(x&X)]).
  { apply le_quoted; auto.
    - destruct u as [|d u]; cbn [app stops].
      + destruct z as [|d z]; [cbn in Ne; congruence|]. cbn [app stops]. pose proof (Forall_inv B) as Hd.
        destruct (N.eqb_spec 39 d) as [<-|]; auto; discriminate Hd.
      + destruct (N.eqb_spec 39 d) as [<-|]; auto. exfalso. apply (Nq u). auto.
    - destruct u as [|d u]; cbn [app stops].
      + destruct z as [|d z]; [cbn in Ne; congruence|]. cbn [app stops]. pose proof (Forall_inv B) as Hd.
        unfold script, mem in Hd. cbn [existsb] in Hd. rewrite !orb_true_iff, !N.eqb_eq in Hd.
        repeat (destruct Hd as [->|Hd]; [reflexivity|]). discriminate.
      + apply Forall_inv in A. cbn beta in A. unfold word_char, is_alnum in A.
        destruct (is_white d) eqn:Wd; auto. exfalso.
        destruct (N.ltb_spec d 128) as [Ld|Ld].
        * assert (Hd : (d <= 32)%N).
          { unfold is_white, between in Wd. rewrite !orb_true_iff, !andb_true_iff, !N.leb_le, !N.eqb_eq in Wd. lia. }
          apply N.ltb_lt in Ld. unfold is_alpha, is_numeric in A. rewrite Ld in A.
          unfold ascii_lower, ascii_upper, ascii_digit, between in A.
          rewrite !orb_true_iff, !andb_true_iff, !N.leb_le, !N.eqb_eq in A. lia.
        * destruct (HU d) as (_&H&_). rewrite H in Wd; [discriminate|].
          unfold is_alpha, is_numeric in A. apply N.ltb_ge in Ld. rewrite Ld in A. apply N.ltb_ge in Ld.
          rewrite !orb_true_iff, !N.eqb_eq in A. destruct A as [[A|A]|A]; auto; lia. }
  2:{ discriminate. }
  destruct (next_lexeme HU l2 (96%N :: c :: u ++ z ++ [96%N]) (TAffix (c :: u ++ z) true) v') as (l2'&a2&B2'&E2&_&[->|(x&X)]).
  { cbn [app] in *. rewrite <- !app_assoc in *. exact B2. }
  { apply le_backquoted; auto. }
  2:{ discriminate. }
  exists l1', l2'. auto.
Qed.

(** With an apostrophe as second character it is read as a character literal. *)
Theorem C33_apostrophe_second : letters U -> forall l c v, before l (39%N :: c :: 39%N :: v) ->
  word_start c = true ->
  exists l', before l' v /\ lx_next l = Ok (Some (TLit (LChar c), (curr_loc l, curr_loc l')), l').
Proof.
  intros HU l c v B W. apply C32_plain_character; auto; intros ->; discriminate W.
Qed.

(** ** C56 *)

(** On sources without newline-return pairs, the lexer yields exactly the
    tokens of the lexical grammar. *)
Theorem C56_lexer_is_grammar : letters U -> forall src ts, no_lfcr src ->
  (tokens src ts <->
   exists xs l, scan (lexer_new src) xs l /\ (exists l', lx_next l = Ok (None, l')) /\
     map fst xs = ts /\ forall e, ~ In (TError e) ts).
Proof.
  intros HU src ts N. destruct (new_at src N) as (ws&v&k&p&->&A&Sv&E). rewrite E. split.
  - intros T. apply tokens_white_inv in T; auto.
    destruct (grammar_scan HU v ts T ws k p N) as (xs&l&S&M&F). exists xs, l. split; auto. split; eauto. split; auto.
    clear -T. induction T as [|g s t v ts G L T IH]; intros e I; [destruct I|].
    destruct I as [->|I]; [|eapply IH; eauto]. apply lexeme_not_error in L as (_&L). apply (L e). auto.
  - intros (xs&l&S&F&<-&NE). apply tokens_white; auto.
    apply (scan_grammar HU _ _ _ S ws); auto. apply at_lexer_at. auto.
Qed.

(** The lexical grammar is unambiguous. *)
Theorem C56_grammar_unambiguous : letters U -> forall src ts ts', no_lfcr src ->
  tokens src ts -> tokens src ts' -> ts = ts'.
Proof.
  intros HU src ts ts' N T T'. apply C56_lexer_is_grammar in T as (xs&l&S&F&<-&_); auto.
  apply C56_lexer_is_grammar in T' as (xs'&l'&S'&F'&<-&_); auto.
  destruct (scan_det _ _ _ S _ _ S' F F') as (->&_). auto.
Qed.

(** Every token or error the lexer yields is one of the grammar, at a place
    where it starts, and errors report the position of the mistake. *)
Theorem C56_every_token : letters U -> forall src ts l, scan (lexer_new src) ts l -> no_lfcr src ->
  forall t a b, In (t, (a, b)) ts -> exists x s v,
    src = x ++ s ++ v /\ b = loc_of (x ++ s) /\
    ((lexeme s t v /\ (a = loc_of x \/ exists y, t = TLit (LStr y))) \/
     exists e, t = TError e /\ mistake x s e v).
Proof.
  intros HU src ts l S N t a b I. destruct (at_new src) as (w&A&Es). rewrite <- Es in N.
  destruct (scan_tokens HU _ _ _ S w A N t a b I) as (x&s&v&H). exists x, s, v. rewrite Es in H. auto.
Qed.

End WithUcd.

(** ** Examples: the hypotheses are met by ordinary sources *)

Definition prog : str := lit "infixl 6 + ;; ~{ ~{n}~ }~ let f = \x -> x `foo` 'a' in f (12, ""a\n"") ~~ end".

Lemma no_cr_clean (s : str) : existsb (N.eqb 13) s = false -> no_lfcr s.
Proof. intros H a b ->. rewrite !existsb_app in H. apply orb_false_elim in H as (_&H). discriminate H. Qed.
Example prog_clean : no_lfcr prog.
Proof. apply no_cr_clean. reflexivity. Qed.
Example prog_tokens : toks prog 50 =
  [TInfixL; TLit (LInt 6); TAffix (lit "+") false; TSemi; TSemi; TLet; TLower (lit "f");
   TAffix (lit "=") false; TLambda; TLower (lit "x"); TArrow; TLower (lit "x"); TAffix (lit "foo") true;
   TLit (LChar 97); TIn; TLower (lit "f"); TParenL; TLit (LInt 12); TComma; TLit (LStr [97; 10]%N); TParenR].
Proof. vm_compute. reflexivity. Qed.

(** A state standing before a given text. *)
Example before_new : forall s : str, no_lfcr s -> stops is_white s -> @before (lexer_new s) s.
Proof.
  intros s N S. exists []. destruct (new_at s N) as (ws&v&k&p&E&A&Sv&El).
  destruct ws as [|c ws].
  - cbn [app] in E. subst v. rewrite El. auto.
  - subst s. cbn in S. apply Forall_inv in A. congruence.
Qed.

Example C23_unknown_ex : exists l, @lx_next ucd_none (lexer_new [8364%N]) =
  Ok (Some (TError EUnknown, (mkLoc 1 1 0, mkLoc 1 1 0)), l).
Proof. vm_compute. eauto. Qed.
Example C28_ex : @lx_next ucd_none (lexer_new (lit "18446744073709551616")) =
  Ok (Some (TError (EInvalidInt (mkLoc 1 1 0) IPosOverflow), (mkLoc 1 1 0, mkLoc 1 21 20)),
      lexer_at (lit "18446744073709551616") [] None (mkLoc 1 1 0)).
Proof. vm_compute. reflexivity. Qed.
Example C28_ex_ok : toks (lit "00018446744073709551615)") 3 = [TLit (LInt 18446744073709551615); TParenR].
Proof. vm_compute. reflexivity. Qed.
(** A string with an escape, a continuation and an escaped ordinary character. *)
Example C29_ex : contents (lit "a\tb\" ++ [10; 32]%N ++ lit "c\q") (lit "a" ++ [9]%N ++ lit "bcq").
Proof.
  apply co_char; try discriminate. apply (co_escape 116 9); [cbn; auto|].
  apply co_char; try discriminate. apply (co_continue [32%N]); [repeat constructor|reflexivity|].
  apply co_char; try discriminate. apply co_other; try discriminate. 2:{ constructor. }
  intros (d&I). cbn in I. repeat (destruct I as [I|I]; [discriminate I|]). destruct I.
Qed.
Example C29_unclosed_ex : unclosed (lit "ab\""c").
Proof.
  apply unclosed_cons; try discriminate. apply unclosed_cons; try discriminate.
  apply unclosed_escape; try discriminate. apply unclosed_cons; try discriminate.
  intros b1 s b2 E. destruct b1; discriminate E.
Qed.
Example C31_closes_ex : closes 1 (lit " a ~{b}~ c}~").
Proof. repeat (first [apply cl_open|apply cl_close|apply cl_done|apply cl_other; try discriminate]). Qed.
Example C31_unclosed_ex : toks (lit "~{ ~{ }~ a") 3 = [TError (EUnterminatedComment (mkLoc 1 1 0) (mkLoc 1 1 0))].
Proof. reflexivity. Qed.
Example C33_ex : @ident_text ucd_none (lit "mod1" ++ [8322]%N) (lit "od1") [8322%N].
Proof. exists 109%N. repeat split; try reflexivity; repeat constructor. Qed.
Example C33_tokens : toks (lit "a 'mod1 b `mod1` c") 9 =
  [TLower (lit "a"); TAffix (lit "mod1") true; TLower (lit "b"); TAffix (lit "mod1") true; TLower (lit "c")].
Proof. reflexivity. Qed.

Print Assumptions C23_lexing_terminates.
Print Assumptions C23_token_count.
Print Assumptions C23_unknown_forever.
Print Assumptions C24_positions.
Print Assumptions C24_positions_any_source.
Print Assumptions C24_panics.
Print Assumptions C24_newline_return_wrong.
Print Assumptions C25_spans_and_texts.
Print Assumptions C25_slice_is_name.
Print Assumptions C26_longest_match.
Print Assumptions C27_reserved_never_names.
Print Assumptions C28_integers.
Print Assumptions C28_value.
Print Assumptions C29_strings.
Print Assumptions C29_unterminated.
Print Assumptions C29_total.
Print Assumptions C29_deterministic.
Print Assumptions C30_leading_white_space.
Print Assumptions C30_white_space_skipped.
Print Assumptions C31_line_comment.
Print Assumptions C31_block_comment_partial.
Print Assumptions C31_block_comment_takes_next.
Print Assumptions C31_block_comment_refuted.
Print Assumptions C31_unterminated.
Print Assumptions C31_total.
Print Assumptions C32_plain_character.
Print Assumptions C32_escape.
Print Assumptions C32_unicode_partial.
Print Assumptions C32_unicode_end_refuted.
Print Assumptions C33_both_spellings.
Print Assumptions C33_apostrophe_second.
Print Assumptions C56_lexer_is_grammar.
Print Assumptions C56_grammar_unambiguous.
Print Assumptions C56_every_token.
