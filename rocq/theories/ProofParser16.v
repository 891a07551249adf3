(** The outcome of parsing, from the text alone. *)
From Coq Require Import List Arith NArith Bool String Lia.
From Verif Require Import Prelim Chars Syntax Lexer SpecLexer SpecLexRun Parser SpecParser SpecViable SpecOutcome.
From Verif Require Import ProofBytes ProofLexer ProofLexer2 ProofLexer6 ProofLexer7 ProofLexer8 ProofLexer9.
From Verif Require Import ProofParser ProofParser2 ProofParser3 ProofParser6 ProofParser7 ProofParser8 ProofParser10 ProofParser11.
From Verif Require Import ProofParser12 ProofParser13 ProofParser14 ProofParser15.
Import ListNotations.

(** * Precedences in programs *)

(** No fixity keyword is followed by a number above 9 or by nothing; [p]: a
    keyword comes before. *)
Fixpoint proper (p : bool) (ts : list ptok) : bool :=
  match ts with
  | [] => negb p
  | (t, _) :: ts' => negb (p && over t) && proper (word t) ts'
  end.

Lemma proper_app ts us : forall p, proper p ts = true -> proper false us = true -> proper p (ts ++ us) = true.
Proof.
  induction ts as [|(t,k) ts IH]; intros p A B; cbn [app proper] in *.
  - destruct p; [discriminate|auto].
  - apply andb_prop in A as (A1&A2). rewrite A1. cbn [andb]. apply IH; auto.
Qed.
Lemma proper_cons t k ts : word t = false -> proper false ts = true -> proper false ((t, k) :: ts) = true.
Proof. intros W A. cbn [proper andb negb]. rewrite W. auto. Qed.

Lemma operator_plain t i : operator t i -> word t = false /\ over t = false.
Proof. destruct 1; auto. Qed.

Lemma operators_proper ts is r : operators ts is r -> forall p, proper p ts = true.
Proof.
  induction 1 as [t k i r O X|t k i k' ts is r O H IH]; intros p; destruct (operator_plain _ _ O) as (W&V);
    cbn [proper word over]; rewrite W, V, andb_false_r; cbn [negb andb]; auto.
Qed.

Lemma assoc_word t a : associativity t a -> word t = true /\ over t = false.
Proof. destruct 1; auto. Qed.

Lemma declares_proper ts d r : declares ts d r -> proper false ts = true.
Proof.
  destruct 1 as [t a k n k' ts is r A L O|t a k ts is r A X O]; destruct (assoc_word _ _ A) as (W&_).
  - cbn [proper over word andb negb]. rewrite W. apply N.ltb_ge in L. rewrite L. cbn [andb negb].
    eapply operators_proper; eauto.
  - cbn [proper andb negb]. rewrite W. eapply operators_proper; eauto.
Qed.

Ltac propers := repeat first
  [ assumption | reflexivity | apply proper_cons; [reflexivity|] | apply proper_app | progress cbn [app] ].

Lemma pats_proper k ts ps r : pats k ts ps r -> proper false ts = true.
Proof. induction 1; propers. Qed.

Lemma commas_proper cs : Forall (fun x : ptok => fst x = TComma) cs -> proper false cs = true.
Proof. induction 1 as [|(t,k) cs E F IH]; auto. cbn in E. subst t. propers. Qed.

Lemma exprs_proper lay q ts es r : exprs lay q ts es r -> proper false ts = true.
Proof.
  induction 1; try (propers; fail).
  - apply proper_app; auto. apply proper_cons; auto. destruct (operator_plain _ _ H0). auto.
  - apply pats_proper in H. propers.
  - propers. apply commas_proper; auto.
  - apply declares_proper in H. propers.
Qed.

Lemma program_proper lay ts ds : program lay ts ds -> proper false ts = true.
Proof.
  assert (D : forall ts d r, decl_of lay ts d r -> proper false ts = true).
  { intros us d r [us' d' r' H|t k us' e r' H]; [eapply declares_proper; eauto|eapply exprs_proper; eauto]. }
  induction 1 as [|us d k vs ds H P IH|us d vs ds H X P IH]; auto; apply D in H; propers.
Qed.

(** So no program contains a precedence that is too large. *)
Lemma proper_bad a : forall p kw k t k' b, proper p (a ++ (kw, k) :: (t, k') :: b) = true -> word kw = true -> over t = true -> False.
Proof.
  induction a as [|(x,kx) a IH]; intros p kw k t k' b H W V; cbn [app proper] in H; apply andb_prop in H as (_&H).
  - cbn [proper] in H. rewrite W, V in H. discriminate.
  - eapply IH; eauto.
Qed.

Section WithUcd.
Context {U : ucd}.
Context (HU : letters U).

(** * Reading step by step *)

Lemma leads_trans w r ts w1 r1 us w2 r2 : leads w r ts w1 r1 -> leads w1 r1 us w2 r2 -> leads w r (ts ++ us) w2 r2.
Proof. induction 1; intros H'; auto. cbn [app]. apply ru_cons; auto. Qed.

Lemma leads_app ts us w r w2 r2 : leads w r (ts ++ us) w2 r2 -> exists w1 r1, leads w r ts w1 r1 /\ leads w1 r1 us w2 r2.
Proof.
  revert w r. induction ts as [|x ts IH]; intros w r H; cbn [app] in H.
  - exists w, r. split; auto. apply ru_nil.
  - inversion H as [|g s t v ts' w' r' G L R]; subst. destruct (IH _ _ R) as (w1&r1&A&B). exists w1, r1. split; auto. apply ru_cons; auto.
Qed.

Lemma leads_clean w r ts w1 r1 : leads w r ts w1 r1 -> no_lfcr r -> no_lfcr r1.
Proof. induction 1; intros N; auto. apply IHleads. do 2 apply no_lfcr_app_r in N. auto. Qed.

Lemma leads_compare w r ts w1 r1 : leads w r ts w1 r1 -> forall us w2 r2, leads w r us w2 r2 -> no_lfcr r ->
  (exists xs, us = ts ++ xs /\ leads w1 r1 xs w2 r2) \/ (exists xs, ts = us ++ xs /\ leads w2 r2 xs w1 r1).
Proof.
  induction 1 as [w r|w g s t v ts w1 r1 G L H IH]; intros us w2 r2 R N; [left; exists us; auto|].
  remember (g ++ s ++ v) as z eqn:Ez. destruct R as [z|g' s' t' v' us w2 r2 G' L' R].
  - right. eexists. split; [reflexivity|]. subst z. apply ru_cons; auto.
  - pose proof (co_token w g s t v G L) as C. pose proof (co_token w g' s' t' v' G' L') as C'. rewrite <- Ez in C.
    destruct (comes_unique HU _ _ _ _ _ _ _ _ _ _ N C C') as (<-&<-&X&<-). injection X as <-.
    destruct (IH _ _ _ R) as [(xs&->&X)|(xs&->&X)]; [do 2 apply no_lfcr_app_r in N; auto|left|right]; exists xs; auto.
Qed.

Lemma leads_same w r ts w1 r1 w2 r2 : leads w r ts w1 r1 -> leads w r ts w2 r2 -> no_lfcr r -> w1 = w2 /\ r1 = r2.
Proof.
  intros A B N. destruct (leads_compare _ _ _ _ _ A _ _ _ B N) as [(xs&E&X)|(xs&E&X)];
    rewrite <- (app_nil_r ts) in E at 1; apply app_inv_head in E; subst xs; inversion X; auto.
Qed.

(** The text may end after the last token. *)
Lemma leads_stop w r us w2 v : leads w r us w2 v -> exists y, w2 = w ++ y /\ r = y ++ v /\ leads w y us w2 [].
Proof.
  induction 1 as [w r|w g s t v us w2 v2 G L H (y&->&->&IH)].
  - exists []. rewrite app_nil_r. repeat split; auto. apply ru_nil.
  - exists (g ++ s ++ y). rewrite <- !app_assoc. split; auto. split; auto. apply ru_cons; auto.
    + eapply gap_first; eauto. destruct s; [destruct (lexeme_nonempty HU _ _ _ L eq_refl)|auto].
    + destruct y as [|c y]; [eapply lexeme_last; eauto|eapply lexeme_first; eauto].
    + rewrite <- !app_assoc in IH. auto.
Qed.
Lemma leads_stop2 w r ts w1 r1 us w2 v : leads w r ts w1 r1 -> leads w1 r1 us w2 v ->
  exists x y, w2 = w ++ x /\ w2 = w1 ++ y /\ leads w x ts w1 y /\ leads w1 y us w2 [].
Proof.
  intros A B. destruct (leads_stop _ _ _ _ _ (leads_trans _ _ _ _ _ _ _ _ A B)) as (x&->&->&H).
  apply leads_app in H as (w1'&y'&A'&B').
  destruct (leads_stop _ _ _ _ _ B) as (y&E&->&B2).
  exists x, y. split; auto. split; auto.
  assert (Ha : leads w x ts w1 y).
  { destruct (run_swap _ _ _ _ _ A) as (z&->&Ex&Sw).
    assert (x = z ++ y). { rewrite <- app_assoc in E. apply app_inv_head in E. auto. } subst x.
    destruct y as [|c y]; [|apply Sw; auto].
    rewrite app_nil_r. destruct (leads_stop _ _ _ _ _ A) as (y&Ey&_&X). apply app_inv_head in Ey. subst y. auto. }
  split; auto.
Qed.

(** Two texts that begin alike. *)
Lemma leads_alike src ts w1 r1 us w2 r2 src' w1' r1' r2' : no_lfcr src ->
  leads [] src ts w1 r1 -> leads w1 r1 us w2 r2 ->
  leads [] src' ts w1' r1' -> leads w1' r1' us w2 r2' -> w1 = w1'.
Proof.
  intros N A B A' B'. destruct (leads_stop2 _ _ _ _ _ _ _ _ A B) as (x&y&Ex&_&X&_).
  destruct (leads_stop2 _ _ _ _ _ _ _ _ A' B') as (x'&y'&Ex'&_&X'&_). cbn [app] in *. subst x x'.
  refine (proj1 (leads_same _ _ _ _ _ _ _ X X' _)).
  pose proof (run_text _ _ _ _ _ (leads_trans _ _ _ _ _ _ _ _ A B)) as E. cbn [app] in E. rewrite E in N. eapply no_lfcr_app_l; eauto.
Qed.

(** The last token is then written alike. *)
Lemma last_alike src ts w g s t v v' : no_lfcr src -> leads [] src ts w (g ++ s ++ v) -> gap g (s ++ v) -> lexeme s t v ->
  leads [] ((w ++ g ++ s) ++ v') (ts ++ [(t, col_of (w ++ g ++ s))]) (w ++ g ++ s) v' -> lexeme s t v'.
Proof.
  intros N A G L H. set (c := col_of (w ++ g ++ s)) in *.
  assert (B : leads w (g ++ s ++ v) [(t, c)] (w ++ g ++ s) v) by (apply ru_cons; auto; apply ru_nil).
  apply leads_app in H as (w'&r'&A'&B').
  pose proof (leads_alike _ _ _ _ _ _ _ _ _ _ _ N A B A' B') as <-.
  destruct (leads_stop _ _ _ _ _ B) as (y&Ey&_&S1). apply app_inv_head in Ey. subst y.
  inversion B' as [|g1 s1 t1 v1 ts1 w1 r1 G1 L1 R1]; subst. inversion R1; subst.
  assert (E : g1 ++ s1 = g ++ s). { match goal with X : w ++ g1 ++ s1 = w ++ g ++ s |- _ => apply app_inv_head in X; auto end. }
  assert (Es : s1 = s).
  { assert (g = g1).
    { eapply (gap_unique g (s ++ []) (gap_first _ _ G (s ++ []) _) g1 (s1 ++ []) (gap_first _ _ G1 (s1 ++ []) _)).
      - eapply lexeme_solid; eauto. eapply lexeme_last; eauto.
      - eapply lexeme_solid; eauto. eapply lexeme_last; eauto.
      - rewrite !app_nil_r. auto. }
    subst g1. apply app_inv_head in E. auto. }
  subst s1. auto.
  Unshelve.
  - destruct s; [destruct (lexeme_nonempty HU _ _ _ L eq_refl)|auto].
  - destruct s1; [destruct (lexeme_nonempty HU _ _ _ L1 eq_refl)|auto].
Qed.

(** * Beginnings of programs *)

Lemma begins_prefix src ts w1 r1 us w2 r2 : no_lfcr src -> leads [] src ts w1 r1 -> leads w1 r1 us w2 r2 ->
  begins w2 (ts ++ us) -> begins w1 ts.
Proof.
  intros N A B (v&vs&ds&Nv&H&T&P). pose proof H as H0. apply leads_app in H as (w1'&r1'&A'&B').
  pose proof (leads_alike _ _ _ _ _ _ _ _ _ _ _ N A B A' B') as <-.
  pose proof (run_text _ _ _ _ _ A') as E. cbn [app] in E.
  exists r1', (us ++ vs), ds. rewrite <- E. split; auto. split; auto. split; [eapply ctokens_run; eauto|rewrite app_assoc; auto].
Qed.

Lemma begins_fits w ts a kw k t k' b : begins w ts -> ts = a ++ (kw, k) :: (t, k') :: b -> word kw = true -> over t = true -> False.
Proof.
  intros (v&us&ds&_&_&_&P) -> W V. apply program_proper in P. rewrite <- app_assoc in P. cbn [app] in P.
  eapply proper_bad; eauto.
Qed.

Lemma bad_prec_iff ts t : bad_prec ts t <-> exists us k kw, ts = us ++ [(kw, k)] /\ word kw = true /\ over t = true.
Proof.
  split.
  - intros (us&k&kw&a&n&->&A&->&L). exists us, k, kw. split; auto. destruct (assoc_word _ _ A). split; auto. cbn. apply N.ltb_lt. auto.
  - intros (us&k&kw&->&W&V).
    assert (exists n, t = TLit (LInt n) /\ (9 < n)%N) as (n&->&Ln).
    { unfold over in V. destruct t; try discriminate V.
      match type of V with context [match ?l with _ => _ end] => destruct l; try discriminate V end.
      eexists. split; [reflexivity|]. apply N.ltb_lt. exact V. }
    exists us, k, kw. destruct kw; try discriminate W; eexists _, n; (split; [reflexivity|split; [constructor|auto]]).
Qed.

Lemma viable_begins src ts w r : leads [] src ts w r -> viable ts -> no_lfcr src -> r <> [] \/ ~ escape_end w -> begins w ts.
Proof.
  intros R (cs&ds&V&P) N H. pose proof (run_text _ _ _ _ _ R) as Et. cbn [app] in Et.
  assert (Nw : no_lfcr w) by (eapply no_lfcr_app_l; rewrite <- Et; eauto).
  assert (X : exists z, not_cr z /\ (forall v, gap z v) /\ forall v, leads [] (w ++ z ++ v) ts w (z ++ v)).
  { destruct (run_last _ _ _ _ _ R) as [(->&->&->)|(ts'&t&w1&g&s&->&R'&G&L&->)].
    - exists []. split; [constructor|]. split; [constructor|]. intros v. apply ru_nil.
    - destruct (room s t r L) as (z0&C0&L0&G0).
      { destruct H as [H|H]; auto. right. intros (x&u&p&h&H1&H2&H3&H4&->). apply H. exists (w1 ++ g ++ x), u, p, h.
        repeat split; auto. rewrite <- !app_assoc. auto. }
      exists z0. split; auto. split; auto. intros v. eapply run_with; eauto. }
  destruct X as (z&Cz&Gz&Rz). destruct (spells_tokens cs V w z Gz) as (c&E&T).
  exists (z ++ spells cs), c, ds. split; [|auto].
  apply clean_then; auto. apply Forall_app. split; auto. apply spells_cr; auto.
Qed.

Lemma begins_parse w ts : begins w ts -> exists v a l, leads [] (w ++ v) ts w v /\ parse (w ++ v) = POk a l.
Proof.
  intros (v&us&ds&N&R&T&P). exists v, (fold_left ast_push ds ast_empty).
  destruct (proj2 (parse_iff HU (w ++ v) (fold_left ast_push ds ast_empty) N)) as (l&E).
  - exists (ts ++ us), ds. split; auto. eapply ctokens_run; eauto.
  - exists l. auto.
Qed.

(** A token that is blamed does not begin any program. *)
Lemma blamed_no_begin src ts w g s v e l : no_lfcr src -> leads [] src ts w (g ++ s ++ v) -> gap g (s ++ v) ->
  lexeme s (found e) v -> parse src = PErr e l -> lx_curr l = Some (found e) -> lx_rest l = v ->
  ~ begins (w ++ g ++ s) (ts ++ [(found e, col_of (w ++ g ++ s))]).
Proof.
  intros N R G L E C Er B. destruct B as (v'&us&ds&N'&R'&T&P).
  pose proof (last_alike _ _ _ _ _ _ _ _ N R G L R') as L'.
  assert (N2 : no_lfcr (w ++ g ++ s ++ v')) by (rewrite <- !app_assoc in N'; auto).
  destruct (error_final HU _ _ _ _ _ _ _ _ R G L E C Er N v' N2 L') as (l'&E'&_).
  destruct (proj2 (parse_iff HU ((w ++ g ++ s) ++ v') (fold_left ast_push ds ast_empty) N')) as (l2&E2).
  - exists ((ts ++ [(found e, col_of (w ++ g ++ s))]) ++ us), ds. split; auto. eapply ctokens_run; eauto.
  - rewrite <- !app_assoc in E2. congruence.
Qed.

(** * Crashes *)

Lemma panic_stood src p : no_lfcr src -> parse src = PPanic p ->
  exists ts w r, leads [] src ts w r /\ tidy ts /\
    ((p = PIdentStart /\ exists g s v, comes w r g s IOddName v) \/
     (p = PTodoPrec /\ exists g s t v, comes w r g s (IToken t) v /\ bad_prec ts t)).
Proof.
  intros N E. destruct (alike_parse HU _ _ (calm_new src)) as (T&_). unfold parse in E. rewrite E in T. cbn [tame] in T.
  destruct T as (o&l&P&H). destruct (path_stood HU src o l N P) as (ts&w&(r&R&St)&En&Ti). exists ts, w, r. split; auto. split; auto.
  pose proof (run_text _ _ _ _ _ R) as Et. cbn [app] in Et.
  destruct H as [H|(->&t&Wo&Ov&C)].
  - left. unfold peek, lx_peek in H. destruct (lx_curr l) as [t|] eqn:C; [discriminate|].
    destruct St as (g&v&q&->&->&Hg). rewrite Et in N. rewrite app_assoc in N. apply no_lfcr_app_r in N.
    pose proof (lex_text HU (w ++ g) v None q N) as X.
    destruct (lex (lexer_at (w ++ g) v None q)) as [[t' l']|p'|]; cbn [obind] in H; try discriminate.
    { destruct t'; discriminate. }
    injection H as ->.
    destruct X as (g'&z&->&G&[(->&Eo)|[(s&t'&v'&q'&->&Eo&_)|[(s&e&v'&q'&->&Eo&_)|(Eo&O)]]]); try discriminate.
    injection Eo as ->. split; auto. exists (g ++ g'), [], z. rewrite app_assoc. apply co_odd; auto.
    destruct Hg as [(A&_)|[->|(Ev&_)]]; auto; [apply gap_whites; auto|].
    apply app_eq_nil in Ev as (_&->). destruct O as (c&z&X&_). discriminate.
  - right. split; auto. rewrite C in St. destruct St as (g&s&v&q&->&->&G&[L|(x&->&_)]); [|discriminate Ov].
    exists g, s, t, v. split; [apply co_token; auto|]. apply bad_prec_iff.
    destruct o as [kw|]; [|discriminate Wo]. destruct En as (us&k&->). exists us, k, kw. auto.
Qed.

(** * Before a mistake or a crash *)

Lemma sees_end src ts w r : no_lfcr src -> leads [] src ts w r -> gap r [] -> ctokens [] src ts.
Proof. intros N R G. rewrite <- (app_nil_r ts). eapply ctokens_run; eauto. constructor. auto. Qed.

(** Two ways to read a text to its end or to something else. *)
Lemma leads_to_end src ts w r us w' r' : no_lfcr src -> leads [] src ts w r -> gap r [] -> leads [] src us w' r' ->
  exists xs, ts = us ++ xs /\ leads w' r' xs w r.
Proof.
  intros N R G R'. destruct (leads_compare _ _ _ _ _ R' _ _ _ R N) as [H|(xs&->&H)]; auto.
  pose proof (leads_clean _ _ _ _ _ R N) as Nr. pose proof (co_end w r G) as C0.
  destruct H as [r0|g s t v xs w' r' G1 L1 H].
  - exists []. rewrite !app_nil_r. split; auto. apply ru_nil.
  - exfalso. pose proof (co_token w g s t v G1 L1) as C1.
    destruct (comes_unique HU _ _ _ _ _ _ _ _ _ _ Nr C0 C1) as (_&_&X&_). discriminate.
Qed.

Lemma begins_before src ts w r : no_lfcr src -> leads [] src ts w r -> r <> [] -> tidy ts ->
  (forall e l, parse src = PErr e l -> exists x, found e = TError x) -> begins w ts.
Proof.
  intros N R Nr Ti H. pose proof (run_text _ _ _ _ _ R) as Et. cbn [app] in Et.
  assert (Nw : no_lfcr w) by (eapply no_lfcr_app_l; rewrite <- Et; eauto).
  destruct (run_last _ _ _ _ _ R) as [(->&->&->)|(ts'&t&w1&g&s&Ets&R'&G&L&Ew)].
  { eapply viable_begins; eauto. apply viable_nil. }
  destruct (room s t r L (or_introl Nr)) as (z&Cz&Lz&Gz).
  set (src' := w ++ z).
  assert (N' : no_lfcr src') by (apply clean_then; auto).
  assert (Rz : leads [] src' ts w z).
  { unfold src'. specialize (Lz []). rewrite app_nil_r in Lz. subst w ts. eapply run_with; eauto. }
  assert (T : ctokens [] src' ts) by (eapply sees_end; eauto).
  (* no token in [ts] is blamed *)
  assert (Tok : forall us w2 g2 s2 f v2 xs, leads [] src' us w2 (g2 ++ s2 ++ v2) -> gap g2 (s2 ++ v2) -> lexeme s2 f v2 ->
            ts = us ++ xs -> leads w2 (g2 ++ s2 ++ v2) xs w z ->
            exists ys, xs = (f, col_of (w2 ++ g2 ++ s2)) :: ys /\ leads (w2 ++ g2 ++ s2) v2 ys w z).
  { intros us w2 g2 s2 f v2 xs A G2 L2 E B. pose proof (leads_clean _ _ _ _ _ A N') as N2.
    remember (g2 ++ s2 ++ v2) as r2 eqn:E2. destruct B as [r2|g3 s3 f3 v3 ys w3 r3 G3 L3 B].
    - pose proof (co_token w2 g2 s2 f v2 G2 L2) as C1. pose proof (co_end w2 r2 (Gz [])) as C2. rewrite <- E2 in C1.
      destruct (comes_unique HU _ _ _ _ _ _ _ _ _ _ N2 C1 C2) as (_&_&X&_). discriminate.
    - pose proof (co_token w2 g2 s2 f v2 G2 L2) as C1. pose proof (co_token w2 g3 s3 f3 v3 G3 L3) as C2. rewrite <- E2 in C1.
      destruct (comes_unique HU _ _ _ _ _ _ _ _ _ _ N2 C1 C2) as (<-&<-&X&<-). injection X as <-. eauto. }
  destruct (parse src') as [a l|e l|p|] eqn:E.
  - destruct (proj1 (parse_iff HU src' a N')) as (us&ds&T'&P&_); [eauto|].
    assert (us = ts) as ->. { apply (sees_source HU) in T, T'; auto. eapply sees_unique; eauto. }
    exists z, [], ds. split; auto. split; auto. split; [constructor; auto|rewrite app_nil_r; auto].
  - destruct (fail_stood HU src' p_parse e l N' (alike_parse HU src') E) as (us&w2&r2&R2&_&_&X).
    destruct (leads_to_end _ _ _ _ _ _ _ N' Rz (Gz []) R2) as (xs&Ex&B).
    destruct X as [(F&G2&S2&_)|(g2&s2&v2&->&G2&C2&Er&[L2|(x&F&M)]&_)].
    + assert (viable us) as V by (eapply error_viable; eauto).
      destruct (leads_to_end _ _ _ _ _ _ _ N' R2 G2 Rz) as (ys&Ey&B').
      assert (us = ts) as ->.
      { rewrite Ey in Ex. rewrite <- app_assoc in Ex. rewrite <- (app_nil_r ts) in Ex at 1. apply app_inv_head in Ex.
        symmetry in Ex. apply app_eq_nil in Ex as (->&_). rewrite app_nil_r in Ey. auto. }
      apply (viable_begins src ts w r); auto.
    + exfalso. destruct (Tok _ _ _ _ _ _ _ R2 G2 L2 Ex B) as (ys&->&B').
      rewrite Ex in R. change (us ++ (found e, col_of (w2 ++ g2 ++ s2)) :: ys) with (us ++ [(found e, col_of (w2 ++ g2 ++ s2))] ++ ys) in R.
      rewrite app_assoc in R. apply leads_app in R as (w3&r3&R3&R4).
      assert (B2 : leads [] src' (us ++ [(found e, col_of (w2 ++ g2 ++ s2))]) (w2 ++ g2 ++ s2) v2) by (apply run_snoc; auto).
      pose proof (leads_alike _ _ _ _ _ _ _ _ _ _ _ N' B2 B' R3 R4) as <-.
      pose proof (run_text _ _ _ _ _ R3) as E3. cbn [app] in E3. rewrite E3 in *.
      pose proof (last_alike _ _ _ _ _ _ _ _ N' R2 G2 L2 R3) as L3.
      rewrite <- !app_assoc in N, H.
      destruct (error_final HU _ _ _ _ _ _ _ _ R2 G2 L2 E C2 Er N' r3 N L3) as (l'&E'&_).
      destruct (H _ _ E') as (x&X). destruct (lexeme_not_error _ _ _ L3) as (_&Y). exact (Y _ X).
    + exfalso. pose proof (leads_clean _ _ _ _ _ R2 N') as N2. pose proof (co_mistake w2 g2 s2 x v2 G2 M) as C1.
      remember (g2 ++ s2 ++ v2) as r2 eqn:E2. destruct B as [r2|g3 s3 f3 v3 ys w3 r3 G3 L3 B].
      * destruct (comes_unique HU _ _ _ _ _ _ _ _ _ _ N2 C1 (co_end w2 r2 (Gz []))) as (_&_&X&_). discriminate.
      * destruct (comes_unique HU _ _ _ _ _ _ _ _ _ _ N2 C1 (co_token w2 g3 s3 f3 v3 G3 L3)) as (_&_&X&_). discriminate.
  - exfalso. destruct (panic_stood _ _ N' E) as (us&w2&r2&R2&_&X).
    destruct (leads_to_end _ _ _ _ _ _ _ N' Rz (Gz []) R2) as (xs&Ex&B).
    pose proof (leads_clean _ _ _ _ _ R2 N') as N2.
    destruct X as [(->&g2&s2&v2&C1)|(->&g2&s2&f&v2&C1&Bp)].
    + destruct B as [r2|g3 s3 f3 v3 ys w3 r3 G3 L3 B].
      * destruct (comes_unique HU _ _ _ _ _ _ _ _ _ _ N2 C1 (co_end w2 r2 (Gz []))) as (_&_&X&_). discriminate.
      * destruct (comes_unique HU _ _ _ _ _ _ _ _ _ _ N2 C1 (co_token w2 g3 s3 f3 v3 G3 L3)) as (_&_&X&_). discriminate.
    + inversion C1; subst r2 g2 s2 v2.
      match goal with G2 : gap _ _, L2 : lexeme _ f _ |- _ => destruct (Tok _ _ _ _ _ _ _ R2 G2 L2 Ex B) as (ys&->&_) end.
      apply bad_prec_iff in Bp as (us'&k&kw&->&W&V). rewrite <- app_assoc in Ex. cbn [app] in Ex.
      pose proof (Ti _ _ _ _ _ _ Ex) as X. rewrite W, V in X. discriminate.
  - pose proof (good_parse HU src' _ (dr_new src')) as F. unfold parse in E. rewrite E in F. destruct F.
Qed.

(** * The verdict *)

Definition verdict_of (r : parsed ast) : option verdict :=
  match r with
  | POk a _ => Some (Accepts a)
  | PErr e _ => Some (Blames (found e))
  | PPanic p => Some (Dies p)
  | PFuel => None
  end.

(** What the parser says follows from the text. *)
Lemma parse_judged src x : no_lfcr src -> verdict_of (parse src) = Some x -> x <> Blames TEof \/ ~ escape_end src -> judged src x.
Proof.
  intros N E H. destruct (parse src) as [a l|e l|p|] eqn:Ep; cbn [verdict_of] in E; [| | |discriminate]; injection E as <-.
  - destruct (proj1 (parse_iff HU src a N)) as (ts&ds&T&P&->); [eauto|]. econstructor; eauto.
  - destruct (fail_stood HU src p_parse e l N (alike_parse HU src) Ep) as (ts&w&r&R&(o&En&Wo)&Ti&X).
    pose proof (run_text _ _ _ _ _ R) as Et. cbn [app] in Et.
    assert (Hv : viable ts -> found e = TEof \/ r <> [] -> begins w ts).
    { intros V Hr. eapply viable_begins; eauto. destruct Hr as [Hr|Hr]; auto. destruct H as [H|H]; [congruence|].
      destruct r; [|left; discriminate]. right. rewrite app_nil_r in Et. congruence. }
    destruct X as [(F&G&S&_)|(g&s&v&->&G&C&Er&[L|(x&F&M)]&_)].
    + rewrite F. eapply ju_end; eauto.
      * apply Hv; auto. eapply error_viable; eauto.
      * intros ds P. destruct (proj2 (parse_iff HU src (fold_left ast_push ds ast_empty) N)) as (l'&E'); [|congruence].
        exists ts, ds. split; auto. eapply sees_end; eauto.
    + eapply ju_token; eauto.
      * apply co_token; auto.
      * apply Hv; [eapply error_viable; eauto; right; eexists _, _, _; eauto 10|]. right. intros X. apply app_eq_nil in X as (_&X).
        apply app_eq_nil in X as (->&_). destruct (lexeme_nonempty HU _ _ _ L eq_refl).
      * eapply blamed_no_begin; eauto.
      * intros Bp. apply bad_prec_iff in Bp as (us&k&kw&->&W&V). destruct o as [t|].
        -- destruct En as (us'&k'&En). apply app_inj_tail in En as (_&En). injection En as -> _. cbn [worded] in Wo. rewrite W in Wo.
           cbn [andb] in Wo. unfold over in V. unfold is_int in Wo. destruct (found e); try discriminate V.
           match type of V with context [match ?l with _ => _ end] => destruct l; discriminate end.
        -- cbn [ProofParser11.ends] in En. destruct us; discriminate.
    + rewrite F. eapply ju_mistake; eauto; [apply co_mistake; eauto|]. eapply begins_before; eauto.
      * intros X. apply app_eq_nil in X as (->&X). apply app_eq_nil in X as (->&->). inversion M. congruence.
      * intros e' l' E'. rewrite Ep in E'. injection E' as <- _. eauto.
  - destruct (panic_stood _ _ N Ep) as (ts&w&r&R&Ti&X).
    assert (B : r <> [] -> begins w ts). { intros Nr. eapply begins_before; eauto. intros e' l' E'. congruence. }
    destruct X as [(->&g&s&v&C)|(->&g&s&t&v&C&Bp)].
    + eapply ju_name; eauto. apply B. inversion C; subst. intros X. apply app_eq_nil in X as (_&->).
      match goal with O : odd_name [] |- _ => destruct O as (c&z&X&_); discriminate end.
    + eapply ju_prec; eauto. apply B. inversion C; subst. intros X. apply app_eq_nil in X as (_&X). apply app_eq_nil in X as (->&_).
      match goal with L : lexeme [] _ _ |- _ => destruct (lexeme_nonempty HU _ _ _ L eq_refl) end.
Qed.

(** * One verdict *)

Lemma ctokens_leads w r ts : ctokens w r ts -> exists w' g, leads w r ts w' g /\ gap g [].
Proof.
  induction 1 as [w g G|w g s t v ts G L T (w'&g'&R&G')].
  - exists w, g. split; auto. apply ru_nil.
  - exists w', g'. split; auto. apply ru_cons; auto.
Qed.

Definition says (src : str) (ts : list ptok) (w g s : str) (i : item) (x : verdict) : Prop :=
  match i with
  | IEnd => (exists ds, program Nat.ltb ts ds /\ x = Accepts (fold_left ast_push ds ast_empty)) \/
            ((forall ds, ~ program Nat.ltb ts ds) /\ x = Blames TEof)
  | IToken t => ~ begins (w ++ g ++ s) (ts ++ [(t, col_of (w ++ g ++ s))]) /\
            (bad_prec ts t /\ x = Dies PTodoPrec \/ ~ bad_prec ts t /\ x = Blames t)
  | IMistake e => x = Blames (TError e)
  | IOddName => x = Dies PIdentStart
  end.

Lemma judged_at src x : no_lfcr src -> judged src x ->
  exists ts w r g s i v, leads [] src ts w r /\ comes w r g s i v /\ begins w ts /\ says src ts w g s i x.
Proof.
  intros N J. destruct J as [ts ds T P|ts w r R G B P|ts w r g s t v R C B B' Np|ts w r g s t v R C B Bp|ts w r g s e v R C B|ts w r g s v R C B].
  - destruct (ctokens_leads _ _ _ T) as (w&g&R&G). exists ts, w, g, g, [], IEnd, []. split; auto. split; [constructor; auto|].
    split; [|left; eauto]. pose proof (run_text _ _ _ _ _ R) as E. cbn [app] in E. subst src.
    exists g, [], ds. split; auto. split; auto. split; [constructor; auto|rewrite app_nil_r; auto].
  - exists ts, w, r, r, [], IEnd, []. split; auto. split; [constructor; auto|]. split; auto. right. auto.
  - exists ts, w, r, g, s, (IToken t), v. split; auto. split; auto. split; auto. split; [auto|right; auto].
  - exists ts, w, r, g, s, (IToken t), v. split; auto. split; auto. split; auto. split; [|left; auto]. intros B2.
    apply bad_prec_iff in Bp as (us&k&kw&->&W&V). eapply begins_fits; eauto. rewrite <- app_assoc. reflexivity.
  - exists ts, w, r, g, s, (IMistake e), v. cbn [says]. auto.
  - exists ts, w, r, g, s, IOddName, v. cbn [says]. auto.
Qed.

(** Reading does not go on past such a point. *)
Lemma says_last src ts w r g s i v x xs w' r' : no_lfcr src -> leads [] src ts w r -> comes w r g s i v -> says src ts w g s i x ->
  leads w r xs w' r' -> begins w' (ts ++ xs) -> xs = [] /\ w' = w /\ r' = r.
Proof.
  intros N R C Sa L B. pose proof (leads_clean _ _ _ _ _ R N) as Nr. pose proof L as L0.
  destruct L as [r|g1 s1 t v1 xs w' r' G1 L1 L]; auto. exfalso.
  destruct (comes_unique HU _ _ _ _ _ _ _ _ _ _ Nr C (co_token w g1 s1 t v1 G1 L1)) as (->&->&->&->).
  destruct Sa as (Nb&_). apply Nb.
  change ((t, col_of (w ++ g1 ++ s1)) :: xs) with ([(t, col_of (w ++ g1 ++ s1))] ++ xs) in B. rewrite app_assoc in B.
  eapply begins_prefix; [exact N| |exact L|exact B]. apply run_snoc; auto.
Qed.

Lemma judged_unique src x y : no_lfcr src -> judged src x -> judged src y -> x = y.
Proof.
  intros N X Y. apply judged_at in X as (ts&w&r&g&s&i&v&R&C&B&X); auto.
  apply judged_at in Y as (ts'&w'&r'&g'&s'&i'&v'&R'&C'&B'&Y); auto.
  assert (E : ts = ts' /\ w = w' /\ r = r').
  { destruct (leads_compare _ _ _ _ _ R _ _ _ R' N) as [(xs&->&L)|(xs&->&L)].
    - destruct (says_last _ _ _ _ _ _ _ _ _ _ _ _ N R C X L B') as (->&->&->). rewrite app_nil_r. auto.
    - destruct (says_last _ _ _ _ _ _ _ _ _ _ _ _ N R' C' Y L B) as (->&->&->). rewrite app_nil_r. auto. }
  destruct E as (<-&<-&<-). pose proof (leads_clean _ _ _ _ _ R N) as Nr.
  destruct (comes_unique HU _ _ _ _ _ _ _ _ _ _ Nr C C') as (<-&<-&<-&<-). destruct i as [|t|e|]; cbn [says] in X, Y.
  - destruct X as [(ds&P&->)|(Np&->)], Y as [(ds'&P'&->)|(Np'&->)]; auto;
      [|destruct (Np' _ P)|destruct (Np _ P')].
    assert (T : ctokens [] src ts). { inversion C; subst. eapply sees_end; eauto. }
    destruct (proj2 (parse_iff HU src (fold_left ast_push ds ast_empty) N)) as (l&E); eauto.
    destruct (proj2 (parse_iff HU src (fold_left ast_push ds' ast_empty) N)) as (l'&E'); eauto. congruence.
  - destruct X as (_&[(P&->)|(P&->)]), Y as (_&[(P'&->)|(P'&->)]); auto; contradiction.
  - congruence.
  - congruence.
Qed.

Lemma parse_verdict src : exists x, verdict_of (parse src) = Some x.
Proof.
  destruct (parse src) as [a l|e l|p|] eqn:E; cbn [verdict_of]; eauto.
  pose proof (good_parse HU src _ (dr_new src)) as F. unfold parse in E. rewrite E in F. destruct F.
Qed.

Lemma judged_parse src x : no_lfcr src -> judged src x ->
  ~ escape_end src \/ (forall t, x = Blames t -> exists e, t = TError e) -> verdict_of (parse src) = Some x.
Proof.
  intros N J H. destruct (parse_verdict src) as (y&E). rewrite E. f_equal.
  assert (Y : y <> Blames TEof \/ ~ escape_end src -> y = x).
  { intros Hy. eapply judged_unique; eauto. apply parse_judged; auto. }
  destruct H as [H|H]; [auto|].
  assert (D : y <> Blames TEof \/ y = Blames TEof).
  { destruct y as [a|t|p]; [left; discriminate| |left; discriminate]. destruct t; auto; left; discriminate. }
  destruct D as [D| ->]; auto. exfalso. clear Y.
  destruct (parse src) as [a l|e l|p|] eqn:Ep; try discriminate. cbn [verdict_of] in E. injection E as F.
  destruct (fail_stood HU src p_parse e l N (alike_parse HU src) Ep) as (ts&w&r&R&_&Ti&X).
  destruct X as [(_&G&_)|(g&s&v&->&_&_&_&[L|(z&Fz&_)]&_)]; [|destruct (lexeme_not_error _ _ _ L); congruence|congruence].
  (* everything can be read, and it is no program *)
  assert (Np : forall ds, ~ program Nat.ltb ts ds).
  { intros ds P. destruct (proj2 (parse_iff HU src (fold_left ast_push ds ast_empty) N)) as (l'&E'); [|congruence].
    exists ts, ds. split; auto. eapply sees_end; eauto. }
  apply judged_at in J as (us&w'&r'&g&s&i&v&R'&C&B&Sa); auto.
  destruct (leads_to_end _ _ _ _ _ _ _ N R G R') as (xs&Ex&L).
  pose proof (leads_clean _ _ _ _ _ R' N) as Nr.
  assert (K : i = IEnd /\ xs = [] \/ exists t k xs', i = IToken t /\ xs = (t, k) :: xs').
  { destruct L as [r|g1 s1 t v1 xs w r G1 L1 L].
    - left. destruct (comes_unique HU _ _ _ _ _ _ _ _ _ _ Nr C (co_end w' r G)) as (_&_&->&_). auto.
    - right. destruct (comes_unique HU _ _ _ _ _ _ _ _ _ _ Nr C (co_token w' g1 s1 t v1 G1 L1)) as (_&_&->&_). eauto. }
  destruct K as [(->&->)|(t&k&xs'&->&->)]; cbn [says] in Sa.
  - rewrite app_nil_r in Ex. subst us. destruct Sa as [(ds&P&_)|(_&->)]; [eapply Np; eauto|]. destruct (H _ eq_refl); discriminate.
  - destruct Sa as (_&[(Bp&->)|(_&->)]).
    + apply bad_prec_iff in Bp as (us'&k'&kw&->&W&V). rewrite <- app_assoc in Ex. cbn [app] in Ex.
      pose proof (Ti _ _ _ _ _ _ Ex) as X. rewrite W, V in X. discriminate.
    + destruct (H _ eq_refl) as (e'&->). destruct (comes_plain _ _ _ _ _ _ C) as (_&Q). destruct (Q _ eq_refl).
Qed.

End WithUcd.
