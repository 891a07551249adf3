(** Lemmas for C77. *)
From Coq Require Import List Arith NArith Bool String Lia.
From Verif Require Import Prelim Chars Syntax Lexer SpecLexer ProofLexer Parser SpecParser SpecViable SpecShape
  ProofParser ProofParser3 ProofParser6 ProofParser7 ProofParser8 ProofParser11 ProofParser12 ProofParser15 SpecOutcome ProofLexer9 ProofShape.
Import ListNotations.
Local Open Scope string_scope.
Local Open Scope list_scope.

(** * A closed text can be followed by another *)

Section WithUcd.
Context {U : ucd}.
Hypothesis HU : letters U.

Definition ends_lf (s : str) : Prop := exists s0, s = s0 ++ [10%N].

Lemma ends_lf_app a b : b <> [] -> ends_lf (a ++ b) -> ends_lf b.
Proof.
  intros N (s0&E). destruct (@exists_last _ b N) as (b0&c&->). exists b0. f_equal. rewrite app_assoc in E. apply app_inj_tail in E as (_&->). auto.
Qed.
Lemma ends_lf_all (f : chr -> bool) s : all f s -> f 10%N = false -> ends_lf s -> False.
Proof. intros A F (s0&->). apply Forall_app in A as (_&A). inversion A. congruence. Qed.
Lemma ends_lf_last a c : ends_lf (a ++ [c]) -> c = 10%N.
Proof. intros (s0&E). apply app_inj_tail in E as (_&->). auto. Qed.

Lemma gap_closed g v : gap g v -> v = [] -> ends_lf g -> forall v', gap g v'.
Proof.
  induction 1 as [v|c g v W G IH|b g v B S1 S2 S3 G IH|b x g v C L X G IH]; intros -> E v'.
  - constructor.
  - apply gap_white; auto. destruct g; [constructor|]. apply IH; auto. apply (ends_lf_app [c]); auto; discriminate.
  - assert (Ng : g <> []).
    { intros ->. rewrite app_nil_r in E. destruct b as [|c b].
      - apply (ends_lf_last [126%N]) in E. discriminate.
      - apply (ends_lf_app [126%N; 126%N]) in E; [|discriminate]. eapply ends_lf_all; eauto; reflexivity. }
    assert (Eg : ends_lf g) by (apply (ends_lf_app (126%N :: 126%N :: b)); auto).
    rewrite !app_nil_r in *. destruct g as [|c g]; [congruence|].
    apply gap_line; auto.
    + destruct b; auto.
    + destruct b; auto.
  - rewrite app_nil_r in X. destruct x as [|c x].
    + rewrite (X eq_refl) in *. cbn [app] in E. rewrite app_nil_r in E. exfalso.
      assert (K : forall d s, closes (S d) s -> exists s0, s = s0 ++ [126%N]).
      { clear. intros d s C. remember (S d) as k eqn:Ek. revert d Ek. induction C as [|d' s C IH|d' s C IH|d' c s C IH _ _]; intros d Ek; try discriminate.
        - destruct d' as [|d']; [inversion C; subst; exists [125%N]; auto|]. destruct (IH d' eq_refl) as (s0&->). exists (125%N :: 126%N :: s0). auto.
        - destruct (IH _ eq_refl) as (s0&->). exists (126%N :: 123%N :: s0). auto.
        - destruct (IH _ eq_refl) as (s0&->). exists (c :: s0). auto. }
      destruct (K 0 b C) as (s0&->). apply (ends_lf_last (126%N :: 123%N :: s0)) in E. discriminate.
    + apply gap_block; auto; [discriminate|]. destruct g as [|c' g]; [constructor|]. apply IH; auto.
      apply (ends_lf_app (126%N :: 123%N :: b ++ c :: x)); [discriminate|]. cbn [app] in *. rewrite <- app_assoc. auto.
Qed.

Lemma word_lf : word_char 10%N = false.
Proof. reflexivity. Qed.

Lemma lexeme_closed s t v : lexeme s t v -> ends_lf s -> forall v', lexeme s t v'.
Proof.
  intros L E v'. destruct L.
  - apply le_punct; auto.
  - exfalso. repeat destruct H as [H|H]; try (injection H as <- <-; destruct E as (s0&E); apply (f_equal (@rev _)) in E; rewrite rev_app_distr in E; discriminate). destruct H.
  - exfalso. destruct s as [|c' s].
    + rewrite app_nil_r in E. eapply (ends_lf_all _ (c :: u)); eauto.
    + apply (ends_lf_app (c :: u)) in E; [|discriminate]. eapply ends_lf_all; eauto; reflexivity.
  - exfalso. eapply ends_lf_all; eauto; reflexivity.
  - exfalso. apply (ends_lf_last (34%N :: b)) in E. discriminate.
  - exfalso. apply (ends_lf_last [39%N; c]) in E. discriminate.
  - exfalso. apply (ends_lf_last [39%N; 92%N; e]) in E. discriminate.
  - apply le_unicode; auto. intros ->. exfalso.
    replace (39%N :: 92%N :: u :: p ++ h ++ [39%N]) with ((39%N :: 92%N :: u :: p ++ h) ++ [39%N]) in E by (cbn [app]; rewrite <- app_assoc; auto).
    apply ends_lf_app in E; [|discriminate].
    apply (ends_lf_last []) in E. discriminate.
  - exfalso. replace (96%N :: c :: u ++ s ++ [96%N]) with ((96%N :: c :: u ++ s) ++ [96%N]) in E by (cbn [app]; rewrite <- app_assoc; auto).
    apply ends_lf_app in E; [|discriminate]. apply (ends_lf_last []) in E. discriminate.
  - exfalso. destruct s as [|c' s].
    + rewrite app_nil_r in E. destruct u as [|c' u].
      * apply (ends_lf_last [39%N]) in E. subst c. discriminate.
      * apply (ends_lf_app [39%N; c]) in E; [|discriminate]. revert E; apply (ends_lf_all word_char); auto.
    + apply (ends_lf_app (39%N :: c :: u)) in E; [|discriminate]. eapply ends_lf_all; eauto; reflexivity.
  - apply le_quoted_white; auto.
  - exfalso. repeat destruct H as [H|H]; try (injection H as <- <-; destruct E as (s0&E); apply (f_equal (@rev _)) in E; rewrite rev_app_distr in E; discriminate). destruct H.
  - exfalso. destruct s as [|c' s].
    + rewrite app_nil_r in E. revert E; apply (ends_lf_all op_char); auto.
    + apply (ends_lf_app u) in E; [|discriminate]. revert E; apply (ends_lf_all script); auto.
Qed.

Lemma gap_app g g' v : gap g (g' ++ v) -> gap g' v -> gap (g ++ g') v.
Proof.
  intros H G. remember (g' ++ v) as r eqn:Er.
  induction H as [r|c g r W H IH|b g r B S1 S2 S3 H IH|b x g r C L X H IH]; subst; cbn [app]; auto.
  - apply gap_white; auto.
  - rewrite <- app_assoc. apply gap_line; rewrite <- ?app_assoc in *; auto.
  - rewrite <- !app_assoc. apply gap_block; rewrite <- ?app_assoc in *; auto.
Qed.

Lemma ctokens_join w a ts : ctokens w a ts -> (a = [] \/ ends_lf a) -> forall z us, ctokens (w ++ a) z us -> ctokens w (a ++ z) (ts ++ us).
Proof.
  induction 1 as [w g G|w g s t v ts G L T IH]; intros E z us Z.
  - assert (Gv : forall v, gap g v). { destruct E as [->|E]; [constructor|]. eapply gap_closed; eauto. }
    cbn [app]. destruct Z as [g1 G1|g1 s t v us G1 L Z].
    + apply ct_end. apply gap_app; auto.
    + rewrite app_assoc. replace ((w ++ g) ++ g1 ++ s) with (w ++ (g ++ g1) ++ s) in * by (rewrite <- !app_assoc; auto).
      apply ct_cons; auto. apply gap_app; auto.
  - cbn [app]. rewrite <- !app_assoc. pose proof (lexeme_nonempty HU _ _ _ L) as Ns.
    destruct E as [E|E]; [destruct g; [destruct s; [congruence|discriminate]|discriminate]|].
    apply ct_cons.
    + eapply gap_first; eauto. destruct s; [congruence|auto].
    + destruct v as [|c v]; [|eapply lexeme_first; eauto]. eapply lexeme_closed; eauto. rewrite app_nil_r in E.
      apply (ends_lf_app g); auto.
    + apply IH.
      * destruct v as [|c v]; auto. right. apply (ends_lf_app (g ++ s)); [discriminate|]. rewrite <- app_assoc. auto.
      * rewrite <- !app_assoc in *. auto.
Qed.

Lemma gap_drop w g z xs : no_lfcr z -> (forall v, gap g v) -> ctokens w (g ++ z) xs -> ctokens (w ++ g) z xs.
Proof.
  intros N G T. destruct (comes_total HU (w ++ g) z N) as (g2&s2&i2&v2&C). pose proof (comes_text _ _ _ _ _ _ C) as E.
  destruct (comes_solid HU _ _ _ _ _ _ C) as (G2&Sd). subst z.
  assert (G3 : gap (g ++ g2) (s2 ++ v2)) by (apply gap_app; auto).
  remember (g ++ g2 ++ s2 ++ v2) as r eqn:Er. destruct T as [g1 G1|g1 s t v xs G1 L1 T].
  - assert (Eg : g ++ g2 = g1) by (eapply (gap_unique _ _ G3 _ _ G1); auto; [apply solid_nil|rewrite app_nil_r, <- app_assoc; auto]).
    rewrite <- Eg in Er. rewrite app_assoc in Er. rewrite <- (app_nil_r (g ++ g2)) in Er at 1. apply app_inv_head in Er. rewrite <- Er in *.
    rewrite app_nil_r. apply ct_end; auto.
  - assert (Eg : g ++ g2 = g1) by (eapply (gap_unique _ _ G3 _ _ G1); auto; [eapply lexeme_solid; eauto|rewrite <- app_assoc; auto]).
    subst g1. rewrite <- app_assoc in Er. do 2 apply app_inv_head in Er. rewrite <- Er in *.
    replace (w ++ (g ++ g2) ++ s) with ((w ++ g) ++ g2 ++ s) in * by (rewrite <- !app_assoc; auto). apply ct_cons; auto.
Qed.

Lemma ctokens_unjoin w a ts : ctokens w a ts -> (a = [] \/ ends_lf a) -> forall z xs, no_lfcr (a ++ z) -> ctokens w (a ++ z) xs ->
  exists us, xs = ts ++ us /\ ctokens (w ++ a) z us.
Proof.
  induction 1 as [w g G|w g s t v ts G L T IH]; intros E z xs N X.
  - exists xs. split; auto. apply gap_drop; auto; [eapply no_lfcr_app_r; eauto|]. intros v. destruct E as [->|E]; [constructor|]. eapply gap_closed; eauto.
  - pose proof (lexeme_nonempty HU _ _ _ L) as Ns.
    destruct E as [E|E]; [destruct g; [destruct s; [congruence|discriminate]|discriminate]|].
    rewrite <- !app_assoc in *.
    assert (G' : gap g (s ++ v ++ z)) by (eapply gap_first; eauto; destruct s; [congruence|auto]).
    assert (Ev : v = [] \/ ends_lf v). { destruct v as [|c v]; auto. right. apply (ends_lf_app (g ++ s)); [discriminate|]. rewrite <- app_assoc. auto. }
    assert (L' : lexeme s t (v ++ z)).
    { destruct v as [|c v]; [|eapply lexeme_first; eauto]. eapply lexeme_closed; eauto. rewrite app_nil_r in E. apply (ends_lf_app g); auto. }
    pose proof (co_token w g s t (v ++ z) G' L') as C.
    remember (g ++ s ++ v ++ z) as r eqn:Er. destruct X as [g1 G1|g1 s1 t1 v1 xs G1 L1 X].
    + destruct (comes_unique HU _ _ _ _ _ _ _ _ _ _ N C (co_end w g1 G1)) as (_&_&Y&_). discriminate.
    + destruct (comes_unique HU _ _ _ _ _ _ _ _ _ _ N C (co_token w g1 s1 t1 v1 G1 L1)) as (<-&<-&Y&Ez). injection Y as <-.
      rewrite <- Ez in X. destruct (IH Ev z xs) as (us&->&Z); auto.
      * do 2 apply no_lfcr_app_r in N. rewrite Ez. auto.
      * exists us. split; auto.
Qed.

Lemma col_after w x : ends_lf w -> col_of (w ++ x) = col_of x.
Proof.
  intros (w0&->). induction x as [|c x IH] using rev_ind.
  - rewrite app_nil_r, col_of_snoc. reflexivity.
  - rewrite app_assoc, !col_of_snoc, IH. auto.
Qed.
Lemma ctokens_after w0 w x ts : ctokens x w ts -> ends_lf w0 -> ctokens (w0 ++ x) w ts.
Proof.
  intros T E. induction T as [x g G|x g s t v ts G L T IH]; [apply ct_end; auto|].
  rewrite <- (col_after w0 (x ++ g ++ s) E).
  replace (w0 ++ x ++ g ++ s) with ((w0 ++ x) ++ g ++ s) in * by (rewrite <- !app_assoc; auto). apply ct_cons; auto.
Qed.
Lemma ctokens_before w0 w x ts : ctokens (w0 ++ x) w ts -> ends_lf w0 -> ctokens x w ts.
Proof.
  intros T E. remember (w0 ++ x) as y eqn:Ey. revert x Ey. induction T as [y g G|y g s t v ts G L T IH]; intros x ->; [apply ct_end; auto|].
  replace ((w0 ++ x) ++ g ++ s) with (w0 ++ (x ++ g ++ s)) in * by (rewrite <- !app_assoc; auto). rewrite (col_after w0 (x ++ g ++ s) E).
  apply ct_cons; auto.
Qed.
End WithUcd.

(** * Programs one after the other *)

Lemma next_app P (r z : list ptok) : r <> [] -> next_is P (r ++ z) = next_is P r.
Proof. destruct r; [congruence|auto]. Qed.

Lemma hd_more (r z : list ptok) : r <> [] -> hd_error r = hd_error (r ++ z).
Proof. destruct r; [congruence|auto]. Qed.

Lemma decl_more ts d r z : decl_of Nat.ltb ts d r -> r <> [] -> decl_of Nat.ltb ts d (r ++ z).
Proof.
  intros H N. destruct H.
  - apply do_infix. eapply declares_hd; eauto. apply hd_more; auto.
  - apply do_expr. eapply exprs_hd; eauto. apply hd_more; auto.
Qed.

Definition nosemi (ts : list ptok) : Prop := Forall (fun x => fst x <> TSemi) ts.
Lemma nosemi_app a b : nosemi a -> nosemi b -> nosemi (a ++ b).
Proof. intros A B. apply Forall_app. auto. Qed.
Lemma nosemi_cons t k b : t <> TSemi -> nosemi b -> nosemi ((t, k) :: b).
Proof. intros A B. constructor; auto. Qed.
Lemma operators_nosemi ts is r : operators ts is r -> nosemi ts.
Proof. induction 1; repeat (apply nosemi_cons; [try discriminate|]); auto; try constructor; destruct H; discriminate. Qed.
Lemma declares_nosemi ts d r : declares ts d r -> nosemi ts.
Proof. intros [t a k n k' ts' is r' A _ O|t a k ts' is r' A _ O]; apply operators_nosemi in O; repeat (apply nosemi_cons; [try discriminate|]); auto; destruct A; discriminate. Qed.
Ltac ns := repeat (first [assumption | apply nosemi_app | apply nosemi_cons; [try discriminate|] | apply Forall_nil]).
Lemma pats_nosemi q ts ps r : pats q ts ps r -> nosemi ts.
Proof. induction 1; ns. Qed.
Lemma exprs_nosemi q ts es r : exprs Nat.ltb q ts es r -> nosemi ts.
Proof.
  induction 1; repeat match goal with H : pats _ _ _ _ |- _ => apply pats_nosemi in H | H : declares _ _ _ |- _ => apply declares_nosemi in H end; ns.
  - destruct H0; discriminate.
  - eapply Forall_impl; [|eassumption]. cbn. intros a ->. discriminate.
Qed.
Lemma decl_nosemi ts d r : decl_of Nat.ltb ts d r -> nosemi ts.
Proof. intros [ts' d' r' D|t k ts' e r' D]; [eapply declares_nosemi|eapply exprs_nosemi]; eauto. Qed.

Lemma program_nil ds : program Nat.ltb [] ds -> ds = [].
Proof.
  intros P. remember [] as ts eqn:E. destruct P as [|ts d k us ds D P|ts d us ds D N P]; auto.
  - destruct ts; discriminate.
  - apply app_eq_nil in E as (->&->). inversion D. inversion H.
Qed.

Lemma program_join ts ds : program Nat.ltb ts ds -> forall ts0 k, ts = ts0 ++ [(TSemi, k)] ->
  forall us es, program Nat.ltb us es -> program Nat.ltb (ts ++ us) (ds ++ es).
Proof.
  induction 1 as [|ts d k us ds D P IH|ts d us ds D Nx P IH]; intros ts0 k0 E us' es P'.
  - destruct ts0; discriminate.
  - rewrite <- app_assoc. cbn [app]. apply pr_semi.
    + change ((TSemi, k) :: us ++ us') with (((TSemi, k) :: us) ++ us'). apply decl_more; auto; discriminate.
    + destruct us as [|u us].
      * rewrite (program_nil _ P). auto.
      * destruct (@exists_last _ (u :: us) ltac:(discriminate)) as (l&x&El). rewrite El in *. eapply IH; eauto.
        change ((TSemi, k) :: l ++ [x]) with (((TSemi, k) :: l) ++ [x]) in E. rewrite app_assoc in E. apply app_inj_tail in E as (_&->). eauto.
  - destruct us as [|u us].
    + exfalso. rewrite app_nil_r in E. subst ts. apply decl_nosemi in D. apply Forall_app in D as (_&D). inversion D. auto.
    + destruct (@exists_last _ (u :: us) ltac:(discriminate)) as (l&x&El). rewrite <- app_assoc. apply pr_plain.
      * apply decl_more; auto; discriminate.
      * rewrite next_app; auto; discriminate.
      * eapply IH; eauto. rewrite El in *. rewrite app_assoc in E. apply app_inj_tail in E as (_&->). eauto.
Qed.

(** The other direction: what follows a closed text is a program. *)
Section WithUcd.
Context {U : ucd}.
Hypothesis HU : letters U.

Lemma decl_det l ts d r ts' d' r' : sees l (ts ++ r) -> ts ++ r = ts' ++ r' -> decl_of Nat.ltb ts d r -> decl_of Nat.ltb ts' d' r' ->
  d = d' /\ r = r' /\ exists l', sees l' r.
Proof.
  intros S0 E D D'. destruct (decl_run HU _ _ _ D _ S0) as (l1&R1&S1). rewrite E in S0. destruct (decl_run HU _ _ _ D' _ S0) as (l2&R2&S2).
  rewrite R1 in R2. injection R2 as <- <-. split; auto. split; [|eauto]. eapply sees_unique; eauto.
Qed.

Lemma program_inv ts ds : program Nat.ltb ts ds -> (ts = [] /\ ds = []) \/
  (exists us d k vs es, ts = us ++ (TSemi, k) :: vs /\ ds = d :: es /\ decl_of Nat.ltb us d ((TSemi, k) :: vs) /\ program Nat.ltb vs es) \/
  (exists us d vs es, ts = us ++ vs /\ ds = d :: es /\ decl_of Nat.ltb us d vs /\ next_is is_semi vs = false /\ program Nat.ltb vs es).
Proof. intros [|us d k vs es D P|us d vs es D N P]; [left; auto|right; left|right; right]; repeat eexists; eauto. Qed.

Lemma program_split ts ds : program Nat.ltb ts ds -> forall ts0 k, ts = ts0 ++ [(TSemi, k)] ->
  forall us cs l, sees l (ts ++ us) -> program Nat.ltb (ts ++ us) cs -> exists es, cs = ds ++ es /\ program Nat.ltb us es.
Proof.
  induction 1 as [|ts d k us ds D P IH|ts d us ds D Nx P IH]; intros ts0 k0 E us' cs l S0 P'.
  - destruct ts0; discriminate.
  - assert (D1 : decl_of Nat.ltb ts d (((TSemi, k) :: us) ++ us')) by (apply decl_more; auto; discriminate).
    rewrite <- app_assoc in *.     destruct (program_inv _ _ P') as [(Ea&->)|[(ts2&d2&k2&us2&ds2&Ea&->&D2&P2)|(ts2&d2&us2&ds2&Ea&->&D2&N2&P2)]].
    + apply app_eq_nil in Ea as (_&Ea). discriminate.
    + destruct (decl_det _ _ _ _ _ _ _ S0 Ea D1 D2) as (<-&Er&l'&S1).
      cbn [app] in Er. injection Er as <- <-. cbn [app] in S1. destruct S1 as (l1&_&_&_&S1).
      destruct us as [|u us].
      * rewrite (program_nil _ P). exists ds2. auto.
      * destruct (@exists_last _ (u :: us) ltac:(discriminate)) as (l0&x&El).
        destruct (IH l0 k0) with (us := us') (cs := ds2) (l := snd (lx_bump l1)) as (es&->&Pe); auto; [|exists es; auto].
        rewrite El in *. change ((TSemi, k) :: l0 ++ [x]) with (((TSemi, k) :: l0) ++ [x]) in E. rewrite app_assoc in E. apply app_inj_tail in E as (_&->). auto.
    + destruct (decl_det _ _ _ _ _ _ _ S0 Ea D1 D2) as (_&Er&_). rewrite <- Er in N2. discriminate.
  - destruct us as [|u us].
    + exfalso. rewrite app_nil_r in E. subst ts. apply decl_nosemi in D. apply Forall_app in D as (_&D). inversion D. auto.
    + destruct (@exists_last _ (u :: us) ltac:(discriminate)) as (l0&x&El).
      assert (D1 : decl_of Nat.ltb ts d ((u :: us) ++ us')) by (apply decl_more; auto; discriminate).
      rewrite <- app_assoc in *. 
      destruct (program_inv _ _ P') as [(Ea&->)|[(ts2&d2&k2&us2&ds2&Ea&->&D2&P2)|(ts2&d2&us2&ds2&Ea&->&D2&N2&P2)]].
      * apply app_eq_nil in Ea as (_&Ea). discriminate.
      * destruct (decl_det _ _ _ _ _ _ _ S0 Ea D1 D2) as (_&Er&_).
        cbn [app] in Er. injection Er as -> _. discriminate.
      * destruct (decl_det _ _ _ _ _ _ _ S0 Ea D1 D2) as (<-&<-&l'&S1).
        destruct (IH l0 k0) with (us := us') (cs := ds2) (l := l') as (es&->&Pe); auto; [|exists es; auto].
        rewrite El in *. rewrite app_assoc in E. apply app_inj_tail in E as (_&->). auto.
Qed.
End WithUcd.
