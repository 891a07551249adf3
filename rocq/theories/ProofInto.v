(** Lemmas for C81 and C82. *)
From Coq Require Import List Arith NArith Bool Lia.
From Verif Require Import Prelim Chars Syntax Lexer SpecLexer ProofLexer Parser SpecParser Into SpecInto ProofFixity SpecFixity
  SpecLexRun ProofParser ProofParser2 ProofParser3 ProofParser4 ProofParser5 ProofParser6 ProofParser7 ProofParser13 ProofShape2.
Import ListNotations.

(** * Programs that grow *)

Lemma pushed_added ds a : added a ds (fold_left ast_push ds a).
Proof.
  revert a. induction ds as [|d ds IH]; intros a; cbn [fold_left].
  - unfold added. cbn. rewrite !app_nil_r. auto.
  - destruct (IH (ast_push a d)) as (I&E&K). unfold added. rewrite I, E, K. destruct d; cbn; rewrite <- ?app_assoc; auto.
Qed.

Lemma added_once a ds b c : added a ds b -> added a ds c -> b = c.
Proof. intros (I&E&K) (I'&E'&K'). destruct b, c; cbn in *. congruence. Qed.

Section WithUcd.
Context {U : ucd}.

(** * The loop, as the one of [parse] *)

Definition unit_of {A} (r : parsed A) : parsed unit :=
  match r with POk _ l => POk tt l | PErr e l => PErr e l | PPanic p => PPanic p | PFuel => PFuel end.

Definition round : parser decl := d <- p_decl ;; ignore TSemi ;;; ret d.
Definition go_on : parser bool := d <- is_done ;; ret (negb d).

Lemma many_round n l : many_f n go_on round l =
  match is_done l with
  | POk true l1 => POk [] l1
  | POk false l1 =>
      match n with
      | 0 => PFuel
      | S n' =>
          match p_decl l1 with
          | POk d l2 =>
              match ignore TSemi l2 with
              | POk _ l3 => match many_f n' go_on round l3 with POk ds l4 => POk (d :: ds) l4 | r => r end
              | PErr e l3 => PErr e l3 | PPanic p => PPanic p | PFuel => PFuel
              end
          | PErr e l2 => PErr e l2 | PPanic p => PPanic p | PFuel => PFuel
          end
      end
  | PErr e l1 => PErr e l1 | PPanic p => PPanic p | PFuel => PFuel
  end.
Proof.
  destruct n as [|n]; cbn [many_f]; unfold bind at 1; unfold go_on at 1, bind at 1; destruct (is_done l) as [[]l1|e l1|p|]; auto.
  cbn [ret negb]. unfold bind at 1. unfold round at 1, bind at 1. destruct (p_decl l1) as [d l2|e l2|p|]; auto.
  unfold bind at 1. destruct (ignore TSemi l2) as [u l3|e l3|p|]; auto.
Qed.

Lemma into_many : forall n a l, snd (into_f n a l) = unit_of (many_f n go_on round l) /\
  forall ds l', many_f n go_on round l = POk ds l' -> fst (into_f n a l) = fold_left ast_push ds a.
Proof.
  induction n as [|n IH]; intros a l; rewrite many_round; cbn [into_f];
    destruct (is_done l) as [[]l1|e l1|p|]; cbn [ret negb unit_of snd fst]; try (split; auto; discriminate).
  - split; auto. intros ds l' E. injection E as <- <-. auto.
  - split; auto. intros ds l' E. injection E as <- <-. auto.
  - destruct (p_decl l1) as [d l2|e l2|p|]; cbn [unit_of snd fst]; try (split; auto; discriminate).
    destruct (ignore TSemi l2) as [u l3|e l3|p|]; cbn [unit_of snd fst ret]; try (split; auto; discriminate).
    destruct (IH (ast_push a d) l3) as (E1&E2). rewrite E1.
    destruct (many_f n go_on round l3) as [xs l4|e l4|p|]; cbn [unit_of ret]; split; auto; try discriminate.
    intros ds l' E. injection E as <- <-. cbn [fold_left]. eauto.
Qed.

Lemma into_parse a src : snd (parse_into a src) = unit_of (parse src).
Proof.
  unfold parse_into, p_into. rewrite (proj1 (into_many _ a _)). unfold parse, p_parse, p_decls, many, bind at 1.
  fold round go_on. destruct (many_f _ go_on round _); auto.
Qed.

Lemma into_grows : forall n a l, exists ds, fst (into_f n a l) = fold_left ast_push ds a.
Proof.
  induction n as [|n IH]; intros a l; cbn [into_f]; destruct (is_done l) as [[]l1|e l1|p|]; try (exists []; reflexivity).
  destruct (p_decl l1) as [d l2|e l2|p|]; try (exists []; reflexivity).
  destruct (ignore TSemi l2) as [u l3|e l3|p|]; try (exists [d]; reflexivity).
  destruct (IH (ast_push a d) l3) as (ds&->). exists (d :: ds). auto.
Qed.

Context (HU : letters U).

Lemma done_run l ts : sees l ts -> exists l1, is_done l = POk (same (look ts) TEof) l1 /\ sees l1 ts.
Proof. intros S0. destruct (peek_run HU l _ S0) as (l1&E&S1&_). exists l1. split; auto. unfold is_done. rewrite (bind_run _ _ _ _ _ E). auto. Qed.

Lemma done_driven src l b l1 : driven src l -> is_done l = POk b l1 -> driven src l1.
Proof.
  intros D E. apply bind_ok in E as (t&l2&E&H). injection H as _ ->. unfold peek in E.
  destruct (lx_peek l) as [[[t'|] l3]| |] eqn:P; try discriminate; injection E as _ ->; eapply dr_peek; eauto.
Qed.

Lemma decl_sees src ts0 l ts d l2 : sees (lexer_new src) ts0 -> driven src l -> sees l ts -> p_decl l = POk d l2 ->
  driven src l2 /\ exists cs r, ts = cs ++ r /\ decl_of Nat.ltb cs d r /\ sees l2 r.
Proof.
  intros S0 D S1 E. pose proof (good_decl HU src (S (left_ l)) l D ltac:(lia)) as G. rewrite E in G. destruct G as (D2&_). split; auto.
  destruct (driven_sees HU _ _ _ D2 S0) as (_&r&_&S2). destruct (decl_back HU _ _ _ _ E S2) as (cs&S3&X).
  exists cs, r. split; auto. eapply sees_unique; eauto.
Qed.

Lemma ignore_run src l ts : driven src l -> sees l ts -> exists l', ignore TSemi l = POk tt l' /\ driven src l' /\
  ((exists k ts', ts = (TSemi, k) :: ts' /\ sees l' ts') \/ next_is is_semi ts = false /\ sees l' ts).
Proof.
  intros D S0. assert (G : good src (left_ l) top (ignore TSemi l)) by (apply then_top; [apply bump_on_top; auto|]; intros; apply good_ret; auto; exact I).
  destruct (next_is is_semi ts) eqn:N.
  - destruct ts as [|(t,k) ts]; [discriminate|]. assert (t = TSemi) as -> by (destruct t; try discriminate; auto).
    destruct (bump_on_run HU l TSemi k _ eq_refl S0) as (l3&E3&S3&_). exists l3.
    assert (E : ignore TSemi l = POk tt l3) by (unfold ignore; rewrite (bind_run _ _ _ _ _ E3); auto). rewrite E in G. destruct G as (G&_). eauto 8.
  - assert (N' : same (look ts) TSemi = false) by (rewrite <- look_next in N by auto; destruct (look ts); auto; discriminate).
    destruct (bump_on_stop HU l _ _ N' S0) as (l3&E3&S3). exists l3.
    assert (E : ignore TSemi l = POk tt l3) by (unfold ignore; rewrite (bind_run _ _ _ _ _ E3); auto). rewrite E in G. destruct G as (G&_). eauto 8.
Qed.

Lemma into_keeps src ts0 : sees (lexer_new src) ts0 -> forall n a l ts, driven src l -> sees l ts -> List.length ts <= n ->
  exists ds b, keeps ts ds b /\ fst (into_f n a l) = fold_left ast_push ds a /\ (b = true <-> exists l', snd (into_f n a l) = POk tt l').
Proof.
  intros S0. induction n as [|n IH]; intros a l ts D S1 L; destruct (done_run _ _ S1) as (l1&E&S2).
  - destruct ts; [|cbn in L; lia]. cbn [look same] in E. cbn [into_f]. rewrite E. exists [], true. cbn. repeat split; eauto. constructor.
  - destruct ts as [|(t,k) ts].
    { cbn [look same] in E. cbn [into_f]. rewrite E. exists [], true. cbn. repeat split; eauto. constructor. }
    assert (T : same t TEof = false) by (destruct S1 as (?&_&_&Q&_); destruct t; auto; discriminate).
    cbn [look] in E. rewrite T in E. cbn [into_f]. rewrite E. pose proof (done_driven _ _ _ _ D E) as D1.
    assert (Bad : (forall d l2, p_decl l1 <> POk d l2) -> keeps ((t, k) :: ts) [] false).
    { intros B. apply ke_bad; [discriminate|]. intros us d vs Es X. pose proof (eq_ind _ (sees l1) S2 _ Es) as S2e. clear S2. rename S2e into S2. destruct (decl_run HU _ _ _ X _ S2) as (l2&R&_). eapply B; eauto. }
    destruct (p_decl l1) as [d l2|e l2|p|] eqn:Ed.
    + destruct (decl_sees _ _ _ _ _ _ S0 D1 S2 Ed) as (D2&cs&r&Er&X&S3). clear S1 S2 Bad. unfold ptok in *. rewrite Er in *.
      destruct (decl_nonempty _ _ _ _ X) as (t1&k1&cs'&->&_). destruct (ignore_run _ _ _ D2 S3) as (l3&Ei&D3&H). rewrite Ei.
      cbn [app List.length] in L. rewrite app_length in L. destruct H as [(k'&r'&->&S4)|(N&S4)].
      * cbn [List.length] in L. destruct (IH (ast_push a d) l3 r' D3 S4 ltac:(lia)) as (ds&b&K&F&O). exists (d :: ds), b.
        split; [apply ke_semi; auto|]. auto.
      * destruct (IH (ast_push a d) l3 r D3 S4 ltac:(lia)) as (ds&b&K&F&O). exists (d :: ds), b. split; [apply ke_plain; auto|]. auto.
    + exists [], false. split; [apply Bad; discriminate|]. cbn. split; auto. split; [discriminate|]. intros (?&?). discriminate.
    + exists [], false. split; [apply Bad; discriminate|]. cbn. split; auto. split; [discriminate|]. intros (?&?). discriminate.
    + exists [], false. split; [apply Bad; discriminate|]. cbn. split; auto. split; [discriminate|]. intros (?&?). discriminate.
Qed.

(** * Keeping is a function *)

Lemma keeps_decl us d vs ds b : decl_of Nat.ltb us d vs -> keeps (us ++ vs) ds b -> forall l, sees l (us ++ vs) ->
  exists ds', ds = d :: ds' /\ ((exists k vs', vs = (TSemi, k) :: vs' /\ keeps vs' ds' b) \/ next_is is_semi vs = false /\ keeps vs ds' b).
Proof.
  intros X K l S0. remember (us ++ vs) as ts eqn:E. destruct K as [|ts N B|us' d' k vs' ds' b X' K|us' d' vs' ds' b X' N K].
  - destruct (decl_nonempty _ _ _ _ X) as (?&?&?&->&_). discriminate.
  - destruct (B _ _ _ E X).
  - destruct (decl_det HU _ _ _ _ _ _ _ S0 E X' X) as (<-&<-&_). eauto 8.
  - destruct (decl_det HU _ _ _ _ _ _ _ S0 E X' X) as (<-&<-&_). eauto 8.
Qed.

Lemma keeps_once : forall ts ds b, keeps ts ds b -> forall es c l, sees l ts -> keeps ts es c -> ds = es /\ b = c.
Proof.
  induction 1 as [|ts N B|us d k vs ds b X K IH|us d vs ds b X N K IH]; intros es c l S0 K'.
  - remember [] as ts eqn:E. destruct K' as [|ts N B|us d k vs ds b X K|us d vs ds b X N K]; auto.
    + congruence.
    + destruct us; discriminate.
    + destruct (decl_nonempty _ _ _ _ X) as (?&?&?&->&_). discriminate.
  - destruct K' as [|ts N' B'|us d k vs ds b X K|us d vs ds b X N' K]; auto; try destruct (N eq_refl); destruct (B _ _ _ eq_refl X).
  - destruct (keeps_decl _ _ _ _ _ X K' _ S0) as (es'&->&[(k'&vs'&Ev&K2)|(N&K2)]); [|discriminate]. injection Ev as <- <-.
    destruct (decl_run HU _ _ _ X _ S0) as (l2&_&S2). destruct (bump_on_run HU l2 TSemi k _ eq_refl S2) as (l3&_&S3&_).
    destruct (IH _ _ _ S3 K2) as (->&->). auto.
  - destruct (keeps_decl _ _ _ _ _ X K' _ S0) as (es'&->&[(k'&vs'&->&K2)|(_&K2)]); [discriminate|].
    destruct (decl_run HU _ _ _ X _ S0) as (l2&_&S2). destruct (IH _ _ _ S2 K2) as (->&->). auto.
Qed.

Lemma keeps_program ts ds : keeps ts ds true <-> program Nat.ltb ts ds.
Proof.
  split.
  - intros K. remember true as b eqn:E. induction K; try discriminate; constructor; auto.
  - induction 1; constructor; auto.
Qed.

Lemma keeps_join ts ds : program Nat.ltb ts ds -> forall ts0 k, ts = ts0 ++ [(TSemi, k)] ->
  forall us es b, keeps us es b -> keeps (ts ++ us) (ds ++ es) b.
Proof.
  induction 1 as [|ts d k us ds D P IH|ts d us ds D Nx P IH]; intros ts0 k0 E us' es b P'.
  - destruct ts0; discriminate.
  - rewrite <- app_assoc. cbn [app]. apply ke_semi.
    + change ((TSemi, k) :: us ++ us') with (((TSemi, k) :: us) ++ us'). apply decl_more; auto; discriminate.
    + destruct us as [|u us].
      * rewrite (program_nil _ P). auto.
      * destruct (@exists_last _ (u :: us) ltac:(discriminate)) as (l&x&El). rewrite El in *. eapply IH; eauto.
        change ((TSemi, k) :: l ++ [x]) with (((TSemi, k) :: l) ++ [x]) in E. rewrite app_assoc in E. apply app_inj_tail in E as (_&->). eauto.
  - destruct us as [|u us].
    + exfalso. rewrite app_nil_r in E. subst ts. apply decl_nosemi in D. apply Forall_app in D as (_&D). inversion D. auto.
    + destruct (@exists_last _ (u :: us) ltac:(discriminate)) as (l&x&El). rewrite <- app_assoc. apply ke_plain.
      * apply decl_more; auto; discriminate.
      * rewrite next_app; auto; discriminate.
      * eapply IH; eauto. rewrite El in *. rewrite app_assoc in E. apply app_inj_tail in E as (_&->). eauto.
Qed.

(** * Items between separators *)

Section Items.
Context {A : Type} (f : parser A) (item : list ptok -> A -> list ptok -> Prop) (sep : token).
Hypothesis back : forall l x l' rest, f l = POk x l' -> sees l' rest -> exists cs, sees l (cs ++ rest) /\ item cs x rest.
Hypothesis run : forall cs x rest, item cs x rest -> forall l, sees l (cs ++ rest) -> exists l', f l = POk x l' /\ sees l' rest.
Hypothesis Hs : same sep sep = true.
Hypothesis He : sep <> TEof.

Inductive tail : list ptok -> list A -> list ptok -> Prop :=
| ta_nil r : (forall k r', r <> (sep, k) :: r') -> tail [] [] r
| ta_more k us xs r : separated item sep us xs r -> tail ((sep, k) :: us) xs r.

Lemma sep_tail ts x us xs r : item ts x (us ++ r) -> tail us xs r -> separated item sep (ts ++ us) (x :: xs) r.
Proof. intros I0 T. destruct T; [rewrite app_nil_r; apply sep_last; auto|apply sep_more; auto]. Qed.

Lemma many_back : forall n l xs l' rest, many_f n (bump_on sep) f l = POk xs l' -> sees l' rest ->
  exists us, sees l (us ++ rest) /\ tail us xs rest.
Proof.
  assert (N : sentinel sep = false) by (generalize Hs, He; clear; destruct sep; cbn; congruence).
  assert (Stop : forall l l' rest, bump_on sep l = POk false l' -> sees l' rest -> exists us, sees l (us ++ rest) /\ tail us [] rest).
  { intros l l' rest E S0. destruct (bump_on_back HU _ _ _ _ _ E N S0) as (S1&Q). exists []. split; auto. constructor.
    intros k r' ->. cbn in Q. congruence. }
  induction n as [|n IH]; intros l xs l' rest H S0; cbn [many_f] in H; apply bind_ok in H as (b&l2&Eb&H); destruct b.
  - discriminate.
  - injection H as <- ->. eauto.
  - apply bind_ok in H as (y&l3&Ey&H). apply bind_ok in H as (zs&l4&Ez&H). injection H as <- ->.
    destruct (IH _ _ _ _ Ez S0) as (us&S1&X). destruct (back _ _ _ _ Ey S1) as (cs&S2&I2).
    destruct (bump_on_back HU _ _ _ _ _ Eb N S2) as (k&S3&_). exists ((sep, k) :: cs ++ us). cbn [app]. rewrite <- app_assoc.
    split; auto. constructor. apply sep_tail; auto.
  - injection H as <- ->. eauto.
Qed.

Lemma sep_back l xs l' rest : sep_by1 sep f l = POk xs l' -> sees l' rest -> exists ts, sees l (ts ++ rest) /\ separated item sep ts xs rest.
Proof.
  unfold sep_by1, many. intros H S0. apply bind_ok in H as (x&l1&E&H). apply bind_ok in H as (ys&l2&H&R). injection R as <- ->.
  destruct (many_back _ _ _ _ _ H S0) as (us&S1&T). destruct (back _ _ _ _ E S1) as (cs&S2&I2). exists (cs ++ us). rewrite <- app_assoc.
  split; auto. apply sep_tail; auto.
Qed.

Lemma sep_split us xs r : separated item sep us xs r -> exists ts x vs ys, us = ts ++ vs /\ xs = x :: ys /\ item ts x (vs ++ r) /\ tail vs ys r.
Proof.
  destruct 1 as [ts x r I0 N|ts x k us xs r I0 S0].
  - exists ts, x, [], []. rewrite app_nil_r. repeat split; auto. constructor. auto.
  - exists ts, x, ((sep, k) :: us), xs. repeat split; auto. constructor. auto.
Qed.

Lemma many_tail : forall n us xs r, tail us xs r -> List.length us <= n -> forall l, sees l (us ++ r) ->
  exists l', many_f n (bump_on sep) f l = POk xs l' /\ sees l' r.
Proof.
  induction n as [|n IH]; intros us xs r T L l S0; destruct T as [r N|k us xs r T]; cbn [app List.length] in *; try lia.
  - assert (Q : same (look r) sep = false). { destruct (same (look r) sep) eqn:Q; auto. apply same_eq in Q. destruct r as [|(t,k) r]; cbn in Q; [congruence|]. subst. destruct (N k r); auto. }
    destruct (bump_on_stop HU l _ _ Q S0) as (l1&E&S1). exists l1. split; auto. apply many_stop; auto.
  - assert (Q : same (look r) sep = false). { destruct (same (look r) sep) eqn:Q; auto. apply same_eq in Q. destruct r as [|(t,k) r]; cbn in Q; [congruence|]. subst. destruct (N k r); auto. }
    destruct (bump_on_stop HU l _ _ Q S0) as (l1&E&S1). exists l1. split; auto. apply many_stop; auto.
  - destruct (bump_on_run HU l sep k _ Hs S0) as (l1&E&S1&_). destruct (sep_split _ _ _ T) as (ts&x&vs&ys&->&->&I0&T').
    rewrite <- app_assoc in S1. destruct (run _ _ _ I0 _ S1) as (l2&E2&S2). rewrite app_length in L.
    destruct (IH _ _ _ T' ltac:(lia) _ S2) as (l3&E3&S3). exists l3. split; auto. eapply many_go; eauto.
Qed.

Lemma sep_run ts xs r l : separated item sep ts xs r -> sees l (ts ++ r) -> exists l', sep_by1 sep f l = POk xs l' /\ sees l' r.
Proof.
  intros X S0. destruct (sep_split _ _ _ X) as (us&x&vs&ys&->&->&I0&T). rewrite <- app_assoc in S0. destruct (run _ _ _ I0 _ S0) as (l1&E&S1).
  pose proof (sees_budget HU _ _ S1) as L. rewrite app_length in L. destruct (many_tail (budget l1) _ _ _ T ltac:(lia) _ S1) as (l2&E2&S2).
  exists l2. split; auto. unfold sep_by1. rewrite (bind_run _ _ _ _ _ E). unfold bind, many. rewrite E2. auto.
Qed.
End Items.
End WithUcd.
