(** From the grammar of the README to the grammar of the parser. *)
From Coq Require Import List Arith NArith Bool String Lia.
From Verif Require Import Prelim Chars Syntax SpecLexer SpecParser SpecReadme.
Import ListNotations.

(** * Tame lists *)

Definition bracket (st : list token) : bool := match st with TBrackL :: _ => true | _ => false end.
Definition abstr (t : token) : bool := match t with TLambda | TLet => true | _ => false end.
Definition turn (st : list token) (t : token) : list token := open_after st [t].

(** The same, by a run over the tokens with the token before them. *)
Definition pair_ok (st : list token) (p : option token) (y : token) : bool :=
  match p with Some x => negb (apart x y) || abstr y && bracket st | None => true end.
Fixpoint fine (st : list token) (p : option token) (ts : list token) : bool :=
  match ts with [] => true | y :: ts => pair_ok st p y && fine (turn st y) (Some y) ts end.
Definition final (p : option token) (ts : list token) : option token := fold_left (fun _ t => Some t) ts p.

Lemma open_cons st t ts : open_after st (t :: ts) = open_after (turn st t) ts.
Proof. reflexivity. Qed.
Lemma open_app st a b : open_after st (a ++ b) = open_after (open_after st a) b.
Proof. revert st. induction a as [|t a IH]; intros st; [reflexivity|]. cbn [app]. rewrite !open_cons. apply IH. Qed.
Lemma fine_app st p a b : fine st p (a ++ b) = fine st p a && fine (open_after st a) (final p a) b.
Proof.
  revert st p. induction a as [|t a IH]; intros st p; [reflexivity|]. cbn [app fine]. rewrite IH, open_cons, <- andb_assoc. reflexivity.
Qed.
Lemma final_app p a b : final p (a ++ b) = final (final p a) b.
Proof. apply fold_left_app. Qed.
Lemma final_last p a t : final p (a ++ [t]) = Some t.
Proof. rewrite final_app. reflexivity. Qed.

Lemma fine_iff st p ts : fine st p ts = true <->
  (forall y b, ts = y :: b -> pair_ok st p y = true) /\
  (forall a x y b, ts = a ++ x :: y :: b -> apart x y = true -> (y = TLambda \/ y = TLet) /\ hd_error (open_after st (a ++ [x])) = Some TBrackL).
Proof.
  assert (Br : forall s, bracket s = true <-> hd_error s = Some TBrackL).
  { intros [|z zs]; cbn; [split; discriminate|]. destruct z; split; auto; discriminate. }
  assert (Ab : forall y, abstr y = true <-> y = TLambda \/ y = TLet).
  { intros y; destruct y; cbn; split; auto; try discriminate; intros [X|X]; discriminate. }
  revert st p. induction ts as [|t ts IH]; intros st p; cbn [fine].
  - split; auto. intros _. split; [discriminate|]. intros a x y b E. destruct a; discriminate.
  - rewrite andb_true_iff, IH. split.
    + intros (P&Q&R). split. { intros y b E. injection E as <- <-. auto. }
      intros a x y b E A. destruct a as [|t' a]; injection E as <- E.
      * specialize (Q y b E). cbn [pair_ok] in Q. rewrite A in Q. cbn [negb orb] in Q. apply andb_true_iff in Q as (Q1&Q2).
        apply Ab in Q1. apply Br in Q2. auto.
      * destruct (R a x y b E A) as (X&Y). split; auto.
    + intros (P&Q). split; [eapply P; reflexivity|]. split.
      * intros y b ->. cbn [pair_ok]. destruct (apart t y) eqn:A; auto. destruct (Q [] t y b eq_refl A) as (X&Y).
        apply Ab in X. apply Br in Y. cbn [app] in Y. unfold turn. rewrite X, Y. reflexivity.
      * intros a x y b -> A. apply (Q (t :: a) x y b eq_refl A).
Qed.
Lemma tame_fine ts : tame ts <-> fine [] None ts = true.
Proof. rewrite fine_iff. unfold tame. split; [intros H; split; auto|intros (_&H); auto]. Qed.

(** * The grammar without ambiguity *)

Inductive ck := CE | CA | C1 | CM | CI.
Definition abstracts (ts : list token) : Prop := exists t u, ts = t :: u /\ abstr t = true.
Definition decl_ok (f : list token) : Prop := forall a t u, f = a :: t :: u -> apart a t = false.
Inductive ch : ck -> list token -> Prop :=
| c_lam ps e : ps <> [] -> Forall (fun t => pat_tok t = true) ps -> ch CE e -> ch CE (TLambda :: ps ++ TArrow :: e)
| c_let f e : fixity_toks f -> decl_ok f -> ch CE e -> ch CE (TLet :: f ++ TIn :: e)
| c_app a : ch CA a -> ch CE a
| c_bin a t e : ch CA a -> infix_tok t = true -> ch CE e -> ch CE (a ++ t :: e)
| c_one a : ch C1 a -> ch CA a
| c_more a b : ch C1 a -> ch CA b -> ch CA (a ++ b)
| c_ident s : ch C1 [TLower s]
| c_lit x : ch C1 [TLit x]
| c_sec s b : ch C1 [TParenL; TAffix s b; TParenR]
| c_grp e : ch CE e -> ch C1 (TParenL :: e ++ [TParenR])
| c_tup e m : ch CE e -> ch CM m -> m <> [] -> ch C1 (TParenL :: e ++ m ++ [TParenR])
| c_list i : ch CI i -> ch C1 (TBrackL :: i ++ [TBrackR])
| c_none : ch CM []
| c_tail e m : ch CE e -> ch CM m -> ch CM (TComma :: e ++ m)
| ci_last e : ch CE e -> ch CI e
| ci_comma e i : ch CE e -> ch CI i -> ch CI (e ++ TComma :: i)
| ci_plain e i : ch CE e -> ch CI i -> abstracts i -> ch CI (e ++ i).

Definition starts_atom (ts : list token) : Prop := exists t u, ts = t :: u /\ arg_start t = true.
Definition ends_atom (ts : list token) : Prop := exists u t, ts = u ++ [t] /\ ends_operand t = true.

Lemma ends_after a b : ends_atom b -> ends_atom (a ++ b).
Proof. intros (u&t&->&E). exists (a ++ u), t. rewrite <- app_assoc. auto. Qed.

Lemma ch_ends k ts : ch k ts -> match k with CM => True | _ => ends_atom ts end.
Proof.
  induction 1 as [ps e _ _ _ IH|f e _ _ _ IH|a _ IH|a t e _ _ _ _ IH|a _ IH|a b _ _ _ IH|s|x|s b|e _ _|e m _ _ _ _ _|i _ _| | |e _ IH|e i _ _ _ IH|e i _ _ _ IH _]; auto.
  - apply (ends_after (TLambda :: ps ++ [TArrow])) in IH. cbn in IH. now rewrite <- app_assoc in IH.
  - apply (ends_after (TLet :: f ++ [TIn])) in IH. cbn in IH. now rewrite <- app_assoc in IH.
  - apply (ends_after (a ++ [t])) in IH. now rewrite <- app_assoc in IH.
  - apply ends_after; auto.
  - exists [], (TLower s). auto.
  - exists [], (TLit x). auto.
  - exists [TParenL; TAffix s b], TParenR. auto.
  - exists (TParenL :: e), TParenR. auto.
  - exists (TParenL :: e ++ m), TParenR. cbn. now rewrite <- app_assoc.
  - exists (TBrackL :: i), TBrackR. auto.
  - apply (ends_after (e ++ [TComma])) in IH. now rewrite <- app_assoc in IH.
  - apply ends_after; auto.
Qed.

Lemma ch_starts k ts : ch k ts -> match k with CA | C1 => starts_atom ts | _ => True end.
Proof.
  induction 1 as [| | | |a _ IH|a b _ IH _ _| | | | | | | | | | |]; auto; try (eexists _, _; split; [reflexivity|reflexivity]).
  destruct IH as (t&u&->&E). eexists _, _. split; [reflexivity|auto].
Qed.

Lemma ca_app a b : ch CA a -> ch CA b -> ch CA (a ++ b).
Proof.
  remember CA as k eqn:K. intros H Hb. induction H; try discriminate; auto.
  - apply c_more; auto.
  - rewrite <- app_assoc. apply c_more; auto.
Qed.

Lemma ce_bin a t b : ch CE a -> infix_tok t = true -> ch CE b -> ch CE (a ++ t :: b).
Proof.
  remember CE as k eqn:K. intros H T Hb. induction H; try discriminate; subst.
  - cbn [app]. rewrite <- app_assoc. cbn [app]. apply c_lam; auto.
  - cbn [app]. rewrite <- app_assoc. cbn [app]. apply c_let; auto.
  - apply c_bin; auto.
  - rewrite <- app_assoc. cbn [app]. apply c_bin; auto.
Qed.

(** Something that starts with an atom, after an expression. *)
Lemma ce_start a : ch CE a -> starts_atom a -> ch CA a \/ exists b t e, a = b ++ t :: e /\ ch CA b /\ infix_tok t = true /\ ch CE e.
Proof.
  intros H S. inversion H; subst; auto.
  - destruct S as (x&u&E&A). injection E as <- _. discriminate.
  - destruct S as (x&u&E&A). injection E as <- _. discriminate.
  - right. eauto 8.
Qed.
Lemma ce_after a b : ch CE a -> ch CE b -> starts_atom b -> ch CE (a ++ b).
Proof.
  remember CE as k eqn:K. intros H. revert K b. induction H as [ps e N F H IH|f e Fx T H IH|a H IH|a t e H IH T H' IH'| | | | | | | | | | | | |];
    try discriminate; intros K b Hb S.
  - cbn [app]. rewrite <- app_assoc. cbn [app]. apply c_lam; auto.
  - cbn [app]. rewrite <- app_assoc. cbn [app]. apply c_let; auto.
  - subst. destruct (ce_start b Hb S) as [A|(b1&t&e&->&A&T&E)].
    + apply c_app, ca_app; auto.
    + rewrite app_assoc. apply c_bin; auto. apply ca_app; auto.
  - subst. rewrite <- app_assoc. cbn [app]. apply c_bin; auto.
Qed.

(** How an expression starts. *)
Lemma ce_first a : ch CE a -> starts_atom a \/ exists t u, a = t :: u /\ (t = TLambda \/ t = TLet).
Proof.
  intros H. inversion H; subst.
  - right. eauto.
  - right. eauto.
  - left. apply (ch_starts _ _ H0).
  - left. destruct (ch_starts _ _ H0) as (x&u&->&A). eexists _, _. split; [reflexivity|auto].
Qed.

Lemma ce_abstracts a : ch CE a -> ~ abstracts a -> starts_atom a.
Proof.
  intros H N. destruct (ce_first a H) as [S|(t&u&->&L)]; auto. exfalso. apply N. exists t, u. split; auto. destruct L as [->| ->]; reflexivity.
Qed.

(** Several expressions, all but the first a lambda or [let]. *)
Inductive seq : list token -> Prop :=
| sq_one e : ch CE e -> seq e
| sq_more e i : ch CE e -> seq i -> abstracts i -> seq (e ++ i).

Lemma seq_split a : seq a -> exists e i, a = e ++ i /\ ch CE e /\ (i = [] \/ seq i /\ abstracts i).
Proof. intros [e H|e i H S A]; [exists e, []; rewrite app_nil_r; auto|exists e, i; auto]. Qed.
Lemma seq_join e i : ch CE e -> i = [] \/ seq i /\ abstracts i -> seq (e ++ i).
Proof. intros H [->|(S&A)]; [rewrite app_nil_r; now apply sq_one|now apply sq_more]. Qed.
Lemma abstracts_app a b : abstracts a -> abstracts (a ++ b).
Proof. intros (t&u&->&A). exists t, (u ++ b). auto. Qed.

Lemma seq_bin a t b : seq a -> infix_tok t = true -> seq b -> seq (a ++ t :: b).
Proof.
  intros Ha T Hb. induction Ha as [e H|e i H S IH A].
  - destruct (seq_split b Hb) as (f&j&->&F&J). replace (e ++ t :: f ++ j) with ((e ++ t :: f) ++ j) by now rewrite <- app_assoc.
    apply seq_join; auto. apply ce_bin; auto.
  - rewrite <- app_assoc. apply sq_more; auto. now apply abstracts_app.
Qed.
Lemma seq_after a b : seq a -> seq b -> seq (a ++ b).
Proof.
  intros Ha Hb. induction Ha as [e H|e i H S IH A].
  - destruct (seq_split b Hb) as (f&j&->&F&J). destruct (ce_first f F) as [St|(t&u&->&L)].
    + rewrite app_assoc. apply seq_join; auto. apply ce_after; auto.
    + apply sq_more; auto. exists t, (u ++ j). split; auto. destruct L as [->| ->]; reflexivity.
  - rewrite <- app_assoc. apply sq_more; auto. now apply abstracts_app.
Qed.

(** The items of a list. *)
Lemma ci_seq i : seq i -> ch CI i.
Proof. induction 1; [apply ci_last|apply ci_plain]; auto. Qed.
Lemma ci_comma_seq i j : seq i -> ch CI j -> ch CI (i ++ TComma :: j).
Proof.
  induction 1 as [e H|e i H S IH A]; intros J; [apply ci_comma; auto|]. rewrite <- app_assoc. apply ci_plain; auto. now apply abstracts_app.
Qed.

(** Nothing stays open. *)
Lemma flat_fixity f : fixity_toks f -> forall st, open_after st f = st.
Proof.
  assert (I : forall ts, infixes_toks ts -> forall st, open_after st ts = st).
  { induction 1 as [t H|t ts H X IH]; intros st; rewrite open_cons; [destruct t; try discriminate; reflexivity|].
    rewrite open_cons, IH. destruct t; try discriminate; reflexivity. }
  intros [a n ts A _ X|a ts A X] st; rewrite !open_cons, I; auto; destruct a; try discriminate; reflexivity.
Qed.
Lemma flat_pats ps : Forall (fun t => pat_tok t = true) ps -> forall st, open_after st ps = st.
Proof. induction 1 as [|t ps H F IH]; intros st; [reflexivity|]. rewrite open_cons, IH. destruct t; try discriminate; reflexivity. Qed.
Lemma flat_infix t st : infix_tok t = true -> turn st t = st.
Proof. destruct t; try discriminate; reflexivity. Qed.

Lemma flat x ts : derives x ts -> forall st, open_after st ts = st.
Proof.
  induction 1 as [ps e N F H IH|f e Fx H IH|e H IH|a H IH|f a H IH H' IH'|s|x|t I|e H IH|e m H IH H' IH' N|e m H IH H' IH'|e t e' H IH I H' IH'| |e m H IH H' IH']; intros st; auto.
  - rewrite open_cons, open_app, (flat_pats ps F), open_cons, IH. reflexivity.
  - rewrite open_cons, open_app, (flat_fixity f Fx), open_cons, IH. reflexivity.
  - rewrite open_app, IH, IH'. reflexivity.
  - rewrite !open_cons, (flat_infix t); auto.
  - rewrite open_cons, open_app, IH. reflexivity.
  - rewrite open_cons, !open_app, IH, IH'. reflexivity.
  - rewrite open_cons, !open_app, IH, IH'. reflexivity.
  - rewrite open_app, IH, open_cons, IH'. now apply flat_infix.
  - rewrite open_cons, open_app, IH, IH'. reflexivity.
Qed.

Lemma fine_start st p t u : fine st p (t :: u) = true -> (exists x, p = Some x /\ ends_operand x = true) -> abstr t = true -> bracket st = true.
Proof.
  cbn [fine]. intros F (x&->&E) A. apply andb_true_iff in F as (F&_). cbn [pair_ok] in F. unfold apart in F. rewrite E in F.
  destruct t; try discriminate A; cbn in F; auto.
Qed.

Definition phrase (st : list token) (ts : list token) : Prop := seq ts /\ (bracket st = false -> ch CE ts).

Lemma phrase_one st ts : ch CE ts -> phrase st ts.
Proof. intros H. split; auto. now apply sq_one. Qed.
Lemma phrase_ce st ts : phrase st ts -> bracket st = false -> ch CE ts.
Proof. intros (_&H). auto. Qed.

Lemma seq_ends a : seq a -> ends_atom a.
Proof. induction 1 as [e H|e i H S IH A]; [apply (ch_ends _ _ H)|apply ends_after; auto]. Qed.
Lemma seq_some a : seq a -> exists t u, a = t :: u.
Proof. intros H. destruct (seq_ends a H) as (u&t&->&_). destruct u; cbn [app]; eauto. Qed.

Lemma fixity_calm f st p : fixity_toks f -> fine st p f = true -> decl_ok f.
Proof.
  intros Fx F a t u ->. cbn [fine pair_ok] in F. apply andb_true_iff in F as (_&F). apply andb_true_iff in F as (F&_).
  destruct (apart a t) eqn:A; auto. exfalso. cbn [negb orb] in F. apply andb_true_iff in F as (F&_).
  assert (K : infix_tok t = true \/ exists n, t = TLit (LInt n)).
  { inversion Fx as [a0 n ts _ _ _|a0 ts _ I]; subst; eauto. inversion I; subst; auto. }
  destruct K as [K|(n&->)]; [|discriminate]. destruct t; discriminate.
Qed.

Lemma derives_ch x ts : derives x ts -> forall st p, fine st p ts = true ->
  match x with More => (bracket st = false -> ch CM ts) /\ (forall i, seq i -> ch CI (i ++ ts)) | _ => phrase st ts end.
Proof.
  induction 1 as [ps e N F H IH|f e Fx H IH|e H IH|a H IH|f a H IH H' IH'|s|x|t I|e H IH|e m H IH H' IH' N|e m H IH H' IH'|e t e' H IH I H' IH'| |e m H IH H' IH']; intros st p Fi; eauto.
  - cbn [fine] in Fi. rewrite fine_app, !andb_true_iff in Fi. destruct Fi as (_&_&Fi). rewrite (flat_pats ps F) in Fi. cbn [fine] in Fi.
    apply andb_true_iff in Fi as (_&Fi). destruct (IH _ _ Fi) as (S&C). split; [|intros B; apply c_lam; auto].
    destruct (seq_split e S) as (e1&j&->&E1&J). replace (TLambda :: ps ++ TArrow :: e1 ++ j) with ((TLambda :: ps ++ TArrow :: e1) ++ j) by (cbn; now rewrite <- app_assoc).
    apply seq_join; auto. apply c_lam; auto.
  - cbn [fine] in Fi. rewrite fine_app, !andb_true_iff in Fi. destruct Fi as (_&Ff&Fi). rewrite (flat_fixity f Fx) in Fi. cbn [fine] in Fi.
    apply andb_true_iff in Fi as (_&Fi). pose proof (fixity_calm f _ _ Fx Ff) as D. destruct (IH _ _ Fi) as (S&C). split; [|intros B; apply c_let; auto].
    destruct (seq_split e S) as (e1&j&->&E1&J). replace (TLet :: f ++ TIn :: e1 ++ j) with ((TLet :: f ++ TIn :: e1) ++ j) by (cbn; now rewrite <- app_assoc).
    apply seq_join; auto. apply c_let; auto.
  - rewrite fine_app, andb_true_iff, (flat _ _ H) in Fi. destruct Fi as (F1&F2). destruct (IH _ _ F1) as (S1&C1). destruct (IH' _ _ F2) as (S2&C2).
    split; [apply seq_after; auto|]. intros B. apply ce_after; auto. destruct (ce_first a (C2 B)) as [St|(t&u&->&L)]; auto. exfalso.
    rewrite (fine_start _ _ t u F2) in B; [discriminate| |destruct L as [->| ->]; reflexivity].
    destruct (seq_ends f S1) as (v&z&->&E). exists z. rewrite final_last. auto.
  - apply phrase_one, c_app, c_one, c_ident.
  - apply phrase_one, c_app, c_one, c_lit.
  - cbn [fine] in Fi. rewrite !andb_true_iff in Fi. destruct Fi as (_&F1&_). destruct t; try discriminate. apply phrase_one, c_app, c_one, c_sec.
  - cbn [fine] in Fi. rewrite fine_app, !andb_true_iff in Fi. destruct Fi as (_&F1&_).
    apply phrase_one, c_app, c_one, c_grp. apply (phrase_ce _ _ (IH _ _ F1)). reflexivity.
  - cbn [fine] in Fi. rewrite !fine_app, !andb_true_iff, (flat _ _ H) in Fi. destruct Fi as (_&F1&F2&_).
    apply phrase_one, c_app, c_one, c_tup; auto. { apply (phrase_ce _ _ (IH _ _ F1)). reflexivity. } apply (IH' _ _ F2). reflexivity.
  - cbn [fine] in Fi. rewrite !fine_app, !andb_true_iff, (flat _ _ H) in Fi. destruct Fi as (_&F1&F2&_).
    rewrite app_assoc. apply phrase_one, c_app, c_one, c_list. apply (IH' _ _ F2). apply (IH _ _ F1).
  - rewrite fine_app, andb_true_iff, (flat _ _ H) in Fi. destruct Fi as (F1&F2). cbn [fine] in F2. apply andb_true_iff in F2 as (_&F2).
    rewrite (flat_infix t st I) in F2. destruct (IH _ _ F1) as (S1&C1). destruct (IH' _ _ F2) as (S2&C2).
    split; [apply seq_bin; auto|]. intros B. apply ce_bin; auto.
  - split; [intros _; apply c_none|]. intros i S. rewrite app_nil_r. now apply ci_seq.
  - cbn [fine] in Fi. rewrite fine_app, !andb_true_iff, (flat _ _ H) in Fi. destruct Fi as (_&F1&F2).
    destruct (IH _ _ F1) as (S1&C1). destruct (IH' _ _ F2) as (A&B). split; [intros X; apply c_tail; auto|].
    intros i S. apply ci_comma_seq; auto.
Qed.

(** * Its sentences are expressions *)

Lemma split_map (cts : list ptok) a b : map fst cts = a ++ b -> exists x y, cts = x ++ y /\ map fst x = a /\ map fst y = b.
Proof. intros E. apply map_eq_app in E as (x&y&->&E1&E2). eauto. Qed.
Lemma split_cons (cts : list ptok) t b : map fst cts = t :: b -> exists k y, cts = (t, k) :: y /\ map fst y = b.
Proof. destruct cts as [|[t' k] y]; [discriminate|]. cbn. intros E. injection E as -> E. eauto. Qed.
Lemma split_nil (cts : list ptok) : map fst cts = [] -> cts = [].
Proof. destruct cts; [auto|discriminate]. Qed.

Lemma infix_operator t : infix_tok t = true -> exists i, operator t i.
Proof.
  destruct t as [ | | | | | | | | | | | | | | | | | | | | |s b| | |]; try discriminate; intros _; [eexists; constructor|eexists; constructor|].
  destruct b; eexists; constructor.
Qed.

Definition quiet (r : list ptok) : Prop := next_is is_op r = false /\ next_is arg_start r = false.

Lemma infixes_operators ts : infixes_toks ts -> forall cts r, map fst cts = ts -> next_is is_comma r = false -> exists is, operators cts is r.
Proof.
  induction 1 as [t I|t ts I H IH]; intros cts r E N; destruct (infix_operator t I) as (i&O); apply split_cons in E as (k&x&->&E).
  - apply split_nil in E as ->. exists [i]. apply os_one; auto.
  - apply split_cons in E as (k'&y&->&E). destruct (IH _ _ E N) as (is&Os). exists (i :: is). apply os_cons; auto.
Qed.

Lemma assoc_associativity t : assoc_tok t = true -> exists a, associativity t a.
Proof. destruct t; try discriminate; intros _; eexists; constructor. Qed.

Lemma fixity_declares f : fixity_toks f -> decl_ok f -> forall cts r, map fst cts = f -> next_is is_comma r = false -> exists d, declares cts d r.
Proof.
  intros [a n ts A L I|a ts A I] T cts r E N; destruct (assoc_associativity a A) as (x&X); apply split_cons in E as (k&y&->&E).
  - apply split_cons in E as (k'&z&->&E). destruct (infixes_operators _ I _ _ E N) as (is&O). eexists. eapply de_prec; eauto.
  - destruct (infixes_operators _ I _ _ E N) as (is&O). eexists. eapply de_default; eauto.
    assert (P : exists t u, ts = t :: u /\ infix_tok t = true) by (destruct I; eauto). destruct P as (t&u&->&It).
    apply split_cons in E as (k'&z&->&E). pose proof (T _ _ _ eq_refl) as P. unfold apart in P. rewrite A in P.
    destruct t; auto; try discriminate; rewrite ?orb_true_r in P; discriminate.
Qed.

Lemma names_pats ps : Forall (fun t => pat_tok t = true) ps -> forall cts r, map fst cts = ps -> next_is pat_start r = false -> next_is is_at r = false ->
  exists qs, pats Juxt cts qs r /\ List.length qs = List.length ps.
Proof.
  induction 1 as [|t ps P F IH]; intros cts r E N1 N2.
  - apply split_nil in E as ->. exists []. split; auto. apply j_nil. auto.
  - apply split_cons in E as (k&x&->&E). destruct (IH _ _ E N1 N2) as (qs&Q&Lq).
    assert (X : exists p, pats Plain [(t, k)] [p] (x ++ r)).
    { destruct t as [ | | | | | | | | | | | | | | | | | | | |s| | | |]; try discriminate; eexists.
      - apply p_wild. auto.
      - apply p_var; auto. destruct x as [|[t' k'] x]; auto. cbn in E. subst ps. inversion F; subst. cbn. destruct t'; auto; discriminate. }
    destruct X as (p&X). exists (p :: qs). split; [|cbn; auto]. apply (j_cons [(t, k)] p x qs); auto.
Qed.

Notation L := (fun _ _ : nat => true).

Lemma no_arg_quiet c r : next_is arg_start r = false -> no_arg L c r.
Proof. destruct r as [|[t k] r]; cbn; auto. intros ->. auto. Qed.

Definition holds (k : ck) (ts : list token) : Prop := forall cts : list ptok, map fst cts = ts ->
  match k with
  | CE => forall r c, quiet r -> exists e, exprs L (KExpr c) cts [e] r
  | CA => forall r c, next_is arg_start r = false ->
      (exists e, exprs L (KApp c) cts [e] r) /\ forall f, exists e, exprs L (KArgs c f) cts [e] r
  | C1 => forall r, exists e, exprs L KAtom cts [e] r
  | CM => forall r k, exists es, exprs L KTail cts es ((TParenR, k) :: r)
  | CI => forall r k, exists es, exprs L KItems cts es ((TBrackR, k) :: r)
  end.

Lemma tail_quiet m : ch CM m -> forall (cts : list ptok) t k r, map fst cts = m -> t = TParenR \/ t = TBrackR -> quiet (cts ++ (t, k) :: r).
Proof.
  intros H cts t k r E D. remember CM as q eqn:K. destruct H; try discriminate.
  - apply split_nil in E as ->. destruct D as [->| ->]; split; reflexivity.
  - apply split_cons in E as (k'&y&->&_). split; reflexivity.
Qed.

Lemma ce_cons ts : ch CE ts -> forall cts : list ptok, map fst cts = ts -> exists t k u, cts = (t, k) :: u.
Proof.
  intros H cts E. destruct (ch_ends _ _ H) as (u&t&->&_). destruct cts as [|[t' k] v]; eauto. destruct u; discriminate.
Qed.

Lemma ch_holds k ts : ch k ts -> holds k ts.
Proof.
  induction 1 as [ps e N F H IH|f e Fx T H IH|a H IH|a t e H IH I H' IH'|a H IH|a b H IH H' IH'|s|x|s b|e H IH|e m H IH H' IH' N|i H IH| |e m H IH H' IH'|e H IH|e i H IH H' IH'|e i H IH H' IH' A];
    intros cts E; unfold holds in *.
  - apply split_cons in E as (k&x&->&E). apply split_map in E as (x1&x2&->&E1&E2). apply split_cons in E2 as (k2&x3&->&E2).
    intros r c Q. destruct (IH _ E2 r k2 Q) as (e'&X).
    destruct (names_pats ps F x1 ((TArrow, k2) :: x3 ++ r) E1 eq_refl eq_refl) as (qs&P&Lq).
    destruct qs as [|q qs]; [destruct ps; [congruence|discriminate]|].
    eexists. apply e_one; [|apply Q]. rewrite <- (app_nil_r (_ :: _)). eapply e_app; [|apply a_nil, no_arg_quiet, Q]. cbn [app]. eapply t_lam; eauto.
  - apply split_cons in E as (k&x&->&E). apply split_map in E as (x1&x2&->&E1&E2). apply split_cons in E2 as (k2&x3&->&E2).
    intros r c Q. destruct (IH _ E2 r k2 Q) as (e'&X).
    destruct (fixity_declares f Fx T x1 ((TIn, k2) :: x3 ++ r) E1 eq_refl) as (d&D).
    eexists. apply e_one; [|apply Q]. rewrite <- (app_nil_r (_ :: _)). eapply e_app; [|apply a_nil, no_arg_quiet, Q]. cbn [app]. eapply t_let; eauto.
  - intros r c Q. destruct (IH _ E r c (proj2 Q)) as ((e&X)&_). exists e. apply e_one; auto. apply Q.
  - apply split_map in E as (x1&x2&->&E1&E2). apply split_cons in E2 as (k2&x3&->&E2). destruct (ce_cons _ H' _ E2) as (t3&k3&u3&->).
    intros r c Q. destruct (IH' _ E2 r k3 Q) as (e'&X). destruct (infix_operator t I) as (i&O).
    destruct (IH _ E1 ((t, k2) :: ((t3, k3) :: u3) ++ r) c) as ((a'&A)&_). { destruct t; try discriminate; reflexivity. }
    eexists. eapply e_bin; eauto.
  - intros r c Q. split.
    + destruct (IH _ E r) as (e&X). exists e. rewrite <- (app_nil_r cts). eapply e_app; [exact X|]. apply a_nil, no_arg_quiet, Q.
    + intros f. destruct (IH _ E r) as (e&X). exists (App f e).
      destruct (ch_starts _ _ H) as (t&u&->&A). apply split_cons in E as (k&y&->&E). rewrite <- (app_nil_r (_ :: _)).
      eapply a_cons; eauto. apply a_nil, no_arg_quiet, Q.
  - apply split_map in E as (x1&x2&->&E1&E2). intros r c Q. destruct (IH' _ E2 r c Q) as (_&G). destruct (IH _ E1 (x2 ++ r)) as (e&X). split.
    + destruct (G e) as (e'&Y). exists e'. eapply e_app; eauto.
    + intros f. destruct (G (App f e)) as (e'&Y). exists e'.
      destruct (ch_starts _ _ H) as (t&u&->&A). apply split_cons in E1 as (k&y&->&E1). eapply a_cons; eauto.
  - apply split_cons in E as (k&x&->&E). apply split_nil in E as ->. intros r. eexists. apply t_lower.
  - apply split_cons in E as (k&y&->&E). apply split_nil in E as ->. intros r. eexists. apply t_lit.
  - apply split_cons in E as (k&y&->&E). apply split_cons in E as (k1&y1&->&E). apply split_cons in E as (k2&y2&->&E). apply split_nil in E as ->.
    intros r. eexists. apply t_op.
  - apply split_cons in E as (k&y&->&E). apply split_map in E as (x1&x2&->&E1&E2). apply split_cons in E2 as (k2&y2&->&E2). apply split_nil in E2 as ->.
    destruct (ce_cons _ H _ E1) as (t3&k3&u3&->). intros r. destruct (IH _ E1 ((TParenR, k2) :: r) k3) as (e'&X). { split; reflexivity. }
    eexists. apply t_group. exact X.
  - apply split_cons in E as (k&y&->&E). apply split_map in E as (x1&x2&->&E1&E2). apply split_map in E2 as (x3&x4&->&E2&E3).
    apply split_cons in E3 as (k2&y2&->&E3). apply split_nil in E3 as ->. destruct (ce_cons _ H _ E1) as (t3&k3&u3&->). intros r.
    destruct (IH _ E1 (x3 ++ (TParenR, k2) :: r) k3) as (e'&X). { apply (tail_quiet m); auto. }
    destruct (IH' _ E2 r k2) as (es&Y). eexists. apply t_tuple; [exact X|exact Y|]. destruct x3; [destruct m; auto; discriminate|discriminate].
  - apply split_cons in E as (k&y&->&E). apply split_map in E as (x1&x2&->&E1&E2). apply split_cons in E2 as (k2&y2&->&E2). apply split_nil in E2 as ->.
    intros r. destruct (IH _ E1 r k2) as (es&Y). eexists. apply t_list. exact Y.
  - apply split_nil in E as ->. intros r k. exists []. apply tl_nil. reflexivity.
  - apply split_cons in E as (k&y&->&E). apply split_map in E as (x1&x2&->&E1&E2). intros r k'.
    destruct (IH _ E1 (x2 ++ (TParenR, k') :: r) k) as (e'&X). { apply (tail_quiet m); auto. }
    destruct (IH' _ E2 r k') as (es&Y). eexists. apply tl_cons; eauto.
  - intros r k. destruct (ce_cons _ H _ E) as (t3&k3&u3&->). destruct (IH _ E ((TBrackR, k) :: r) k3) as (e'&X). { split; reflexivity. }
    eexists. rewrite <- (app_nil_r (_ :: _)). apply i_plain; [exact X|reflexivity|apply i_nil].
  - apply split_map in E as (x1&x2&->&E1&E2). apply split_cons in E2 as (k2&x3&->&E2). destruct (ce_cons _ H _ E1) as (t3&k3&u3&->). intros r k.
    destruct (IH' _ E2 r k) as (es&Y). destruct (IH _ E1 ((TComma, k2) :: x3 ++ (TBrackR, k) :: r) k3) as (e'&X). { split; reflexivity. }
    eexists. apply i_comma; [exact X|exact Y].
  - apply split_map in E as (x1&x2&->&E1&E2). destruct (ce_cons _ H _ E1) as (t3&k3&u3&->). intros r k.
    destruct (IH' _ E2 r k) as (es&Y). destruct A as (t&u&->&At). apply split_cons in E2 as (k2&x3&->&E2).
    destruct (IH _ E1 (((t, k2) :: x3) ++ (TBrackR, k) :: r) k3) as (e'&X). { destruct t; try discriminate; split; reflexivity. }
    eexists. apply i_plain; [exact X|destruct t; try discriminate; reflexivity|exact Y].
Qed.

(** A sentence of the README, where it and the program agree, is one expression. *)
Lemma readme_expr ts (cts : list ptok) : derives Expr ts -> tame ts -> map fst cts = ts -> exists e, program L cts [DExpr e].
Proof.
  intros D T E. apply tame_fine in T. pose proof (phrase_ce _ _ (derives_ch _ _ D _ _ T) eq_refl) as H. destruct (ce_cons _ H _ E) as (t&k&u&->).
  destruct (ch_holds _ _ H _ E [] k) as (e&X). { split; reflexivity. }
  exists e. rewrite <- (app_nil_r (_ :: _)). apply pr_plain; [|reflexivity|constructor]. apply do_expr. exact X.
Qed.
