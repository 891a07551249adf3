(** Errors and completions of texts. *)
From Coq Require Import List Arith NArith Bool String Lia.
From Verif Require Import Prelim Chars Syntax Lexer SpecLexer SpecLexRun Parser SpecParser SpecViable.
From Verif Require Import ProofBytes ProofLexer ProofLexer2 ProofLexer6 ProofLexer7 ProofLexer8.
From Verif Require Import ProofParser ProofParser2 ProofParser3 ProofParser6 ProofParser7 ProofParser8 ProofParser10 ProofParser11.
From Verif Require Import ProofParser12 ProofParser13 ProofParser14.
Import ListNotations.

Section WithUcd.
Context {U : ucd}.
Context (HU : letters U).

(** * Spelling a completion *)

Definition spell (t : token) : str :=
  match t with
  | TUnderscore => lit "_"
  | TLit _ => lit "1"
  | TAffix _ _ => lit "+"
  | TParenR => lit ")"
  | TBrackR => lit "]"
  | TArrow => lit "->"
  | TIn => lit "in"
  | TComma => lit ","
  | TInfixL => lit "infixl"
  | _ => []
  end.
Definition spells (cs : list token) : str := flat_map (fun t => spell t ++ [32%N]) cs.

Lemma spell_lexeme t v : In t vocabulary -> lexeme (spell t) t (32%N :: v).
Proof.
  intros I. cbv [vocabulary In] in I.
  repeat (destruct I as [<-|I]); [| | | | | | | | |destruct I].
  - apply le_reserved; [left; reflexivity|reflexivity|reflexivity].
  - apply (le_int (lit "1")); [discriminate|repeat constructor|reflexivity|reflexivity].
  - apply (le_op (lit "+") []); try discriminate; try reflexivity; try (repeat constructor; fail). cbv. intuition discriminate.
  - apply le_punct. cbv. auto 10.
  - apply le_punct. cbv. auto 10.
  - apply le_symbol; [cbv; auto|reflexivity|reflexivity].
  - apply le_reserved; [cbv; auto 10|reflexivity|reflexivity].
  - apply le_punct. cbv. auto 10.
  - apply le_reserved; [cbv; auto 10|reflexivity|reflexivity].
Qed.

Definition not_cr (s : str) : Prop := Forall (fun c => c <> 13%N) s.

Lemma spells_cr cs : vocab cs -> not_cr (spells cs).
Proof.
  intros V. induction V as [|t cs I V IH]; [constructor|]. cbn [spells flat_map]. apply Forall_app. split; auto.
  apply Forall_app. split; [|repeat constructor; discriminate].
  cbv [vocabulary In] in I. repeat (destruct I as [<-|I]); [| | | | | | | | |destruct I];
    cbv [spell]; repeat constructor; discriminate.
Qed.

Lemma clean_then w z : no_lfcr w -> not_cr z -> no_lfcr (w ++ z).
Proof.
  intros N C a b E. assert (X : exists x, w = a ++ [10; 13]%N ++ x \/ In 13%N z).
  { clear N C. revert a E. induction w as [|c w IH]; intros a E.
    - exists []. right. cbn [app] in E. subst z. apply in_or_app. right. cbn. auto.
    - destruct a as [|d a]; cbn [app] in E.
      + injection E as -> E. destruct w as [|d w]; cbn [app] in E.
        * exists []. right. subst z. cbn. auto.
        * injection E as -> E. exists w. left. reflexivity.
      + injection E as -> E. destruct (IH a E) as (x&[->|I]); exists x; auto. }
  destruct X as (x&[X|I]); [eapply N; eauto|]. unfold not_cr in C. rewrite Forall_forall in C. apply C in I. congruence.
Qed.

Lemma spells_tokens cs : vocab cs -> forall w g, (forall v, gap g v) -> exists c, map fst c = cs /\ ctokens w (g ++ spells cs) c.
Proof.
  intros V. induction V as [|t cs I V IH]; intros w g G.
  - exists []. split; auto. cbn [spells flat_map]. rewrite app_nil_r. constructor. auto.
  - destruct (IH (w ++ g ++ spell t) [32%N]) as (c&E&T). { intros v. repeat constructor. }
    exists ((t, col_of (w ++ g ++ spell t)) :: c). split; [cbn; congruence|].
    cbn [spells flat_map]. rewrite <- app_assoc. apply ct_cons; auto. apply spell_lexeme; auto.
Qed.

(** * Room after a token *)

Lemma stops_space f (s v : str) x : f 32%N = false -> stops f (s ++ v) -> stops f (s ++ 32%N :: x).
Proof. destruct s; cbn; auto. Qed.

Lemma alnum_tilde : is_alnum 126%N = false.
Proof. reflexivity. Qed.

Lemma room s t v : lexeme s t v -> v <> [] \/ ~ escape_end s ->
  exists z, not_cr z /\ (forall x, lexeme s t (z ++ x)) /\ forall x, gap z x.
Proof.
  intros L H.
  assert (Sp : (forall x, lexeme s t (32%N :: x)) -> exists z, not_cr z /\ (forall x, lexeme s t (z ++ x)) /\ forall x, gap z x).
  { intros X. exists [32%N]. split; [repeat constructor; discriminate|]. split; auto. intros x. repeat constructor. }
  destruct L.
  - apply Sp. intros y. apply le_punct; auto.
  - apply Sp. intros y. apply le_reserved; auto; reflexivity.
  - apply Sp. intros y. apply le_name; auto; [|reflexivity]. eapply stops_space; eauto. 
  - apply Sp. intros y. apply le_int; auto. reflexivity.
  - apply Sp. intros y. apply le_string; auto.
  - apply Sp. intros y. apply le_char; auto.
  - apply Sp. intros y. apply le_escape; auto.
  - apply Sp. intros y. apply le_unicode; auto. intros Ex. exfalso. destruct H as [H|H]; auto. apply H. subst x.
    exists [], u, p, h. repeat split; auto.
  - apply Sp. intros y. apply le_backquoted; auto.
  - exists (lit "~{}~ "). split; [repeat constructor; discriminate|]. split.
    + intros y. assert (T : forall f (a b : str), f 126%N = false -> stops f (a ++ b) -> stops f (a ++ lit "~{}~ " ++ y)) by (intros f [|? ?] b; cbn; auto).
      apply le_quoted; auto; try reflexivity; try (eapply T; eauto; reflexivity); rewrite app_assoc in *; eapply T; eauto; reflexivity.
    + intros x. apply (gap_block (lit "}~") [32%N] [] x); [|cbn; lia|discriminate|constructor].
      apply cl_close. constructor.
  - apply Sp. intros y. apply le_quoted_white; auto.
  - apply Sp. intros y. apply le_symbol; auto; reflexivity.
  - apply Sp. intros y. apply le_op; auto; try reflexivity. eapply stops_space; eauto.
Qed.

Lemma run_last w r ts w0 r0 : run w r ts w0 r0 -> ts = [] /\ w0 = w /\ r0 = r \/
  exists ts' t w1 g s, ts = ts' ++ [(t, col_of (w1 ++ g ++ s))] /\ run w r ts' w1 (g ++ s ++ r0) /\ gap g (s ++ r0) /\
    lexeme s t r0 /\ w0 = w1 ++ g ++ s.
Proof.
  induction 1 as [w r|w g s t v ts w' r' G L R IH]; auto. right.
  destruct IH as [(->&->&->)|(ts'&t'&w1&g'&s'&->&R'&G'&L'&->)].
  - exists [], t, w, g, s. split; auto. split; [apply ru_nil|auto].
  - eexists (_ :: ts'), t', w1, g', s'. split; [reflexivity|]. split; auto. apply ru_cons; auto.
Qed.

(** The last token may be followed by other text. *)
Lemma run_with r ts w g s t v v' : run [] r ts w (g ++ s ++ v) -> gap g (s ++ v) -> lexeme s t v -> lexeme s t v' ->
  run [] ((w ++ g ++ s) ++ v') (ts ++ [(t, col_of (w ++ g ++ s))]) (w ++ g ++ s) v'.
Proof.
  intros R G L L'.
  assert (Ef : first (s ++ v) = first (s ++ v')) by (destruct s; [destruct (lexeme_nonempty HU _ _ _ L eq_refl)|auto]).
  destruct (run_swap _ _ _ _ _ R) as (y&Ey&_&Sw). cbn [app] in Ey. subst y. rewrite <- !app_assoc.
  apply run_snoc; auto; [apply Sw, first_app; auto|eapply gap_first; eauto].
Qed.

(** * Completing a text *)

Lemma complete ts w g : viable ts -> (forall v, gap g v) -> no_lfcr w -> not_cr g ->
  (forall v, run [] (w ++ g ++ v) ts w (g ++ v)) -> exists z a l, parse (w ++ g ++ z) = POk a l.
Proof.
  intros (cs&ds&V&P) G N Cg R. destruct (spells_tokens cs V w g G) as (c&E&T).
  exists (spells cs), (fold_left ast_push ds ast_empty). apply (parse_iff HU).
  - apply clean_then; auto. apply Forall_app. split; auto. apply spells_cr; auto.
  - exists (ts ++ c), ds. split; [|auto]. eapply ctokens_run; eauto.
Qed.

Lemma viable_nil : viable [].
Proof. exists [], []. split; [constructor|]. intros c E. rewrite (app_nil_map _ E). constructor. Qed.

(** Text after which some token was read, with room for more. *)
Lemma complete_at src ts w r : run [] src ts w r -> viable ts -> no_lfcr src -> r <> [] \/ ~ escape_end w ->
  exists z a l, parse (w ++ z) = POk a l.
Proof.
  intros R V N H. pose proof (run_text _ _ _ _ _ R) as Et. cbn [app] in Et.
  assert (Nw : no_lfcr w) by (eapply no_lfcr_app_l; rewrite <- Et; eauto).
  destruct (run_last _ _ _ _ _ R) as [(->&->&->)|(ts'&t&w1&g&s&->&R'&G&L&->)].
  - destruct (complete [] [] []) as (z&a&l&E); eauto; [constructor|constructor|intros v; apply ru_nil].
  - destruct (room s t r L) as (z0&C0&L0&G0).
    { destruct H as [H|H]; auto. right. intros (x&u&p&h&H1&H2&H3&H4&->). apply H. exists (w1 ++ g ++ x), u, p, h.
      repeat split; auto. rewrite <- !app_assoc. auto. }
    destruct (complete _ _ z0 V G0 Nw C0) as (z&a&l&E); eauto.
    intros v. eapply run_with; eauto.
Qed.

Lemma gap_more g : gap g [] -> forall v, gap (g ++ [10%N]) v.
Proof.
  intros G. remember [] as v0 eqn:E0. induction G as [v|c g v W G IH|b g v B S1 S2 S3 G IH|b x g v C L X G IH]; intros v1; subst.
  - cbn [app]. repeat constructor.
  - cbn [app]. constructor; auto.
  - specialize (IH eq_refl v1). cbn [app]. rewrite <- app_assoc. rewrite app_nil_r in *. apply gap_line; auto.
    + destruct g; cbn in *; auto.
    + destruct b, g; cbn in *; auto.
    + destruct b, g; cbn in *; auto.
  - specialize (IH eq_refl v1). cbn [app]. rewrite app_nil_r in *. destruct x as [|c x].
    + rewrite (X eq_refl) in *. cbn [app]. rewrite app_nil_r. change (b ++ [10%N]) with (b ++ [10%N] ++ []).
      apply gap_block; [auto|cbn; auto|discriminate|constructor].
    + rewrite <- !app_assoc. apply gap_block; auto. discriminate.
Qed.

(** A whole text, up to the end. *)
Lemma complete_end src ts w g : run [] src ts w g -> gap g [] -> viable ts -> no_lfcr src -> ~ escape_end src ->
  exists z a l, parse (src ++ z) = POk a l.
Proof.
  intros R G V N H. pose proof (run_text _ _ _ _ _ R) as Et. cbn [app] in Et. subst src. destruct g as [|c g].
  - rewrite app_nil_r in *. eapply complete_at; eauto.
  - destruct (run_swap _ _ _ _ _ R) as (y&Ey&_&Sw). cbn [app] in Ey. subst y.
    destruct (V) as (cs&ds&Vc&P). destruct (spells_tokens cs Vc w ((c :: g) ++ [10%N]) (gap_more _ G)) as (k&E&T).
    exists (10%N :: spells cs), (fold_left ast_push ds ast_empty). apply (parse_iff HU).
    + apply clean_then; auto. constructor; [discriminate|]. apply spells_cr; auto.
    + exists (ts ++ k), ds. split; [|auto]. eapply ctokens_run; [|exact T].
      rewrite <- !app_assoc. cbn [app]. apply Sw. auto.
Qed.

(** * Errors are final *)

Lemma error_final src ts w g s v e l : run [] src ts w (g ++ s ++ v) -> gap g (s ++ v) -> lexeme s (found e) v ->
  parse src = PErr e l -> lx_curr l = Some (found e) -> lx_rest l = v -> no_lfcr src ->
  forall v', no_lfcr (w ++ g ++ s ++ v') -> lexeme s (found e) v' -> exists l', parse (w ++ g ++ s ++ v') = PErr e l' /\
    lx_curr l' = Some (found e) /\ curr_loc l' = curr_loc l.
Proof.
  intros R G L E C Er N v' N' L'. pose proof (run_text _ _ _ _ _ R) as Et. cbn [app] in Et. subst src.
  destruct (near_source HU _ _ _ _ _ _ _ R G L L' N N') as (n&K).
  destruct (alike_parse HU _ _ (calm_new (w ++ g ++ s ++ v))) as (_&A). specialize (A _ _ (ex_intro _ n K)).
  unfold parse in *. rewrite E in A. cbn [agree] in A. destruct A as [A|(l2&A&m&Cl)].
  - unfold left_. rewrite C, Er, (lexeme_plain _ _ _ L). auto.
  - pose proof (good_parse HU _ _ (dr_new (w ++ g ++ s ++ v'))) as F. rewrite A in F. destruct F.
  - exists l2. split; auto. rewrite <- C. destruct m; destruct Cl as (C1&C2&_); auto.
Qed.

(** * What was read before an error can be completed *)

Lemma path_sees src o l ts : path src o l -> sees (lexer_new src) ts -> exists r, sees l r.
Proof.
  intros P S0. induction P as [|o l t l1 P (r&IH) E|o l t P (r&IH) C Sn W]; eauto.
  - exists r. apply (peek_sees HU _ _ _ E), IH.
  - destruct r as [|(t1,k) r]; cbn [sees] in IH.
    + destruct IH as (l1&X). unfold lx_peek in X. rewrite C in X. discriminate.
    + destruct IH as (l1&X&_&_&S1). unfold lx_peek in X. rewrite C in X. injection X as <- <-. eauto.
Qed.

Lemma path_bytes src o l : no_lfcr src -> path src o l -> lx_pos l + blen (lx_rest l) = blen src.
Proof.
  intros N P. destruct (path_stood HU src o l N P) as (ts&w&(r&R&H)&_). pose proof (run_text _ _ _ _ _ R) as Et. cbn [app] in Et.
  subst src. destruct (lx_curr l).
  - destruct H as (g&s&v&p&->&->&_). cbn [lexer_at lx_pos lx_rest]. rewrite <- blen_app, <- !app_assoc. auto.
  - destruct H as (g&v&p&->&->&_). cbn [lexer_at lx_pos lx_rest]. rewrite <- blen_app, <- !app_assoc. auto.
Qed.

Lemma fail_path src e l : parse src = PErr e l -> exists o, path src o l.
Proof.
  intros E. destruct (alike_parse HU _ _ (calm_new src)) as (T&_). unfold parse in E. rewrite E in T. destruct T as ((o&P&_)&_). eauto.
Qed.

Lemma run_ctokens r ts w v : run [] r ts w v -> ctokens [] w ts.
Proof.
  intros R. destruct (run_last _ _ _ _ _ R) as [(->&->&->)|(ts'&t&w1&g&s&->&R'&G&L&->)]; [repeat constructor|].
  pose proof (run_with _ _ _ _ _ _ _ [] R' G L (lexeme_last _ _ _ L)) as R1. rewrite app_nil_r in R1.
  rewrite <- (app_nil_r (ts' ++ _)). eapply ctokens_run; eauto. repeat constructor.
Qed.

(** The tokens before the one blamed. *)
Lemma error_viable src ts w r e l : run [] src ts w r -> no_lfcr src -> parse src = PErr e l ->
  ((found e = TEof /\ gap r [] /\ sees l []) \/
   exists g s v, r = g ++ s ++ v /\ gap g (s ++ v) /\ lx_curr l = Some (found e) /\ lx_rest l = v /\ lexeme s (found e) v) ->
  viable ts.
Proof.
  intros R N E H. pose proof (run_text _ _ _ _ _ R) as Et. cbn [app] in Et. subst src.
  destruct H as [(F&G&S1)|(g&s&v&->&G&C&Er&L)].
  - destruct (parse_fail HU _ _ _ _ E S1) as (pre&S0&V). rewrite app_nil_r in S0.
    assert (T : ctokens [] (w ++ r) ts). { rewrite <- (app_nil_r ts). eapply ctokens_run; eauto. constructor. auto. }
    apply (sees_source HU) in T; auto. rewrite (sees_unique _ _ _ T S0). auto.
  - (* the same error when the token is the last *)
    assert (N1 : no_lfcr (w ++ g ++ s)) by (eapply no_lfcr_app_l; rewrite <- !app_assoc; eauto).
    pose proof (lexeme_last _ _ _ L) as L1.
    destruct (error_final _ _ _ _ _ _ _ _ R G L E C Er N [] ltac:(rewrite app_nil_r; auto) L1) as (l1&E1&C1&Lc). rewrite app_nil_r in E1.
    pose proof (run_with _ _ _ _ _ _ _ [] R G L L1) as R1. pose proof (run_ctokens _ _ _ _ R1) as T.
    apply (sees_source HU) in T; auto.
    destruct (fail_path _ _ _ E1) as (o1&P1). destruct (fail_path _ _ _ E) as (o0&P0). destruct (path_sees _ _ _ _ P1 T) as (r1&S1).
    assert (Rl : lx_rest l1 = []).
    { pose proof (path_bytes _ _ _ N1 P1) as B1. pose proof (path_bytes _ _ _ N P0) as B.
      assert (lx_pos l1 = lx_pos l) by (unfold curr_loc in Lc; congruence).
      rewrite Er in B. rewrite !blen_app in *. apply blen_nil. lia. }
    assert (exists k, r1 = [(found e, k)]) as (k&->).
    { destruct r1 as [|(t,k) r1]; cbn [sees] in S1.
      - destruct S1 as (l2&X). unfold lx_peek in X. rewrite C1 in X. discriminate.
      - destruct S1 as (l2&X&_&_&S2). unfold lx_peek in X. rewrite C1 in X. injection X as <- <-. exists k.
        assert (X : exists l3, lx_peek (snd (lx_bump l1)) = Ok (None, l3)).
        { unfold lx_bump. rewrite C1. cbn [snd]. unfold lx_peek. cbn [set_curr lx_curr].
          destruct (lex_at_end (set_curr None l1) Rl) as (l3&El&_). rewrite El. cbn [obind]. eauto. }
        destruct X as (l3&X). destruct r1 as [|(t1,k1) r1]; auto. cbn [sees] in S2. destruct S2 as (l4&X'&_). congruence. }
    destruct (parse_fail HU _ _ _ _ E1 S1) as (pre&S0&V). pose proof (sees_unique _ _ _ T S0) as Eq.
    apply app_inj_tail in Eq as (->&_). auto.
Qed.

(** * All together *)

(** The text read so far, up to a token that cannot come next or up to its end. *)
Lemma error_text src e l : no_lfcr src -> parse src = PErr e l ->
  (found e = TEof /\ (~ escape_end src -> completable src)) \/
  (exists x, found e = TError x) \/
  exists w g s v, src = w ++ g ++ s ++ v /\ gap g (s ++ v) /\ lexeme s (found e) v /\
    ((exists b c, g = b ++ c /\ error_loc e = loc_of (w ++ b)) \/ error_loc e = loc_of (w ++ g ++ s)) /\
    completable w /\
    forall v', no_lfcr (w ++ g ++ s ++ v') -> lexeme s (found e) v' -> exists l', parse (w ++ g ++ s ++ v') = PErr e l'.
Proof.
  intros N E. destruct (fail_stood HU src p_parse e l N (alike_parse HU src) E) as (ts&w&r&R&_&_&H).
  pose proof (run_text _ _ _ _ _ R) as Et. cbn [app] in Et.
  destruct H as [(F&G&S&_)|(g&s&v&->&G&C&Er&[L|(x&F&_)]&Lo)]; [left| |eauto].
  - split; auto. intros X. eapply complete_end; eauto. eapply error_viable; eauto.
  - right. right. exists w, g, s, v. split; auto. split; auto. split; auto. split; auto. split.
    + eapply complete_at; eauto.
      * eapply error_viable; eauto. right. exists g, s, v. auto.
      * left. intros X. apply app_eq_nil in X as (_&X). apply app_eq_nil in X as (->&_). destruct (lexeme_nonempty HU _ _ _ L eq_refl).
    + intros v' N' L'. destruct (error_final _ _ _ _ _ _ _ _ R G L E C Er N v' N' L') as (l'&E'&_). eauto.
Qed.

End WithUcd.
