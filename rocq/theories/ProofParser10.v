(** An error depends only on the text up to the end of the token found. *)
From Coq Require Import List Arith NArith Bool String Lia.
From Verif Require Import Prelim Chars Syntax Lexer SpecLexer SpecLexRun Parser SpecParser.
From Verif Require Import ProofLexer ProofLexer7 ProofParser ProofParser3 ProofParser8.
Import ListNotations.

Section WithUcd.
Context {U : ucd}.
Context (HU : letters U).

Context (src : str).

(** * Moving forward *)

Definition word (t : token) : bool := match t with TInfixL | TInfixR | TInfix => true | _ => false end.
Definition worded (o : option token) : bool := match o with Some t => word t | None => false end.
Definition is_int (t : token) : bool := match t with TLit (LInt _) => true | _ => false end.
Definition over (t : token) : bool := match t with TLit (LInt n) => N.ltb 9 n | _ => false end.

(** The states the parser reaches, with the token consumed last: it looks at
    tokens and consumes those that are not errors, nor numbers too large for a
    precedence after a fixity keyword. *)
Inductive path : option token -> lexer -> Prop :=
| pa_new : path None (lexer_new src)
| pa_peek o l t l1 : path o l -> peek l = POk t l1 -> path o l1
| pa_bump o l t : path o l -> lx_curr l = Some t -> sentinel t = false -> worded o && over t = false ->
    path (Some t) (snd (lx_bump l)).

(** No number comes directly after a fixity keyword. *)
Definition calm (l : lexer) : Prop :=
  exists o, path o l /\ (worded o = true -> exists t l1, peek l = POk t l1 /\ is_int t = false).

Lemma peek_again l t l1 : peek l = POk t l1 -> exists l2, peek l1 = POk t l2.
Proof.
  unfold peek. destruct (lx_peek l) as [[[o|] l2]| |] eqn:E; try discriminate; intros X; injection X as <- <-.
  - destruct (peek_some _ _ _ E) as (_&->). eauto.
  - destruct (peek_none HU _ _ E) as (_&_&l3&->). eauto.
Qed.

Lemma calm_new : calm (lexer_new src).
Proof. exists None. split; [apply pa_new|discriminate]. Qed.

Lemma calm_peek l t l1 : calm l -> peek l = POk t l1 -> calm l1.
Proof.
  intros (o&P&H) E. exists o. split; [eapply pa_peek; eauto|]. intros W. destruct (H W) as (t'&l'&E'&I).
  rewrite E in E'. injection E' as <- <-. destruct (peek_again _ _ _ E) as (l2&E2). eauto.
Qed.

Lemma peek_shrinks l t l1 : peek l = POk t l1 -> left_ l1 <= left_ l.
Proof.
  unfold peek. destruct (lx_peek l) as [[[o|] l2]| |] eqn:E; try discriminate; intros X; injection X as <- <-;
    eapply peek_left; eauto.
Qed.

(** [e] was reported at [l], just after looking at the next token. *)
Definition blames (e : perror) (l : lexer) : Prop :=
  exists o l0, path o l0 /\ peek l0 = POk (found e) l /\ error_loc e = curr_loc l0 /\
    worded o && is_int (found e) = false.

(** The causes of a panic: the next token cannot be read, or it is a number
    too large for a precedence. *)
Definition dies (p : panic) : Prop :=
  exists o l, path o l /\
    (peek l = PPanic p \/ p = PTodoPrec /\ exists t, worded o = true /\ over t = true /\ lx_curr l = Some t).

(** The two runs have the same [n] tokens in front of them, and one more; that
    one is looked at with [M] left. *)
Fixpoint near (M n : nat) (l1 l2 : lexer) : Prop :=
  curr_loc l1 = curr_loc l2 /\ lx_curr l1 = lx_curr l2 /\
  exists t l1' l2', lx_peek l1 = Ok (Some t, l1') /\ lx_peek l2 = Ok (Some t, l2') /\ sentinel t = false /\
    curr_loc l1' = curr_loc l2' /\
    match n with
    | 0 => left_ l1' = M
    | S n' => M <= left_ (snd (lx_bump l1')) /\ near M n' (snd (lx_bump l1')) (snd (lx_bump l2'))
    end.

Definition close (M : nat) (l1 l2 : lexer) : Prop := exists n, near M n l1 l2.

Definition tame {A} (r : parsed A) (l : lexer) : Prop :=
  match r with
  | POk _ l' => calm l' /\ left_ l' <= left_ l
  | PErr e l' => calm l' /\ left_ l' <= left_ l /\ blames e l'
  | PPanic p => dies p
  | PFuel => True
  end.

Definition agree {A} (M : nat) (r1 r2 : parsed A) : Prop :=
  match r1 with
  | POk a l1 => M <= left_ l1 -> r2 = PFuel \/ exists l2, r2 = POk a l2 /\ close M l1 l2
  | PErr e l1 => M <= left_ l1 -> r2 = PFuel \/ exists l2, r2 = PErr e l2 /\ close M l1 l2
  | _ => True
  end.

(** [l] is where a token [t] was just looked at from a place at [a]. *)
Definition seen_from (Q : lexer -> Prop) (a : loc) (t : token) (l : lexer) : Prop :=
  exists l0, Q l0 /\ peek l0 = POk t l /\ a = curr_loc l0.
Notation seen := (seen_from calm).

(** Like runs, from states satisfying [Q]. *)
Definition alike_on {A} (Q : lexer -> Prop) (p1 p2 : parser A) : Prop :=
  forall l1, Q l1 -> tame (p1 l1) l1 /\ forall M l2, close M l1 l2 -> agree M (p1 l1) (p2 l2).

Notation alike := (alike_on calm).

Lemma alike_weaken {A} a t (p1 p2 : parser A) : alike p1 p2 -> alike_on (seen a t) p1 p2.
Proof. intros H l (l0&C&E&_). apply H. eapply calm_peek; eauto. Qed.

Lemma tame_trans {A} (r : parsed A) l l' : tame r l' -> left_ l' <= left_ l -> tame r l.
Proof. intros T L. destruct r; cbn [tame] in *; auto; intuition lia. Qed.

Lemma alike_bind {A B} Q (m1 m2 : parser A) (f1 f2 : A -> parser B) :
  alike_on Q m1 m2 -> (forall a, alike (f1 a) (f2 a)) -> alike_on Q (bind m1 f1) (bind m2 f2).
Proof.
  intros H F l P. destruct (H l P) as (T&G). unfold bind. split.
  - clear G. destruct (m1 l) as [a l'|e l'| |]; cbn [tame] in T; auto.
    destruct T as (T1&T2). eapply tame_trans; eauto. apply (F a l' T1).
  - intros M l2 C. specialize (G M l2 C). destruct (m1 l) as [a l'|e l'| |]; cbn [agree tame] in *; auto.
    + destruct T as (T1&T2), (F a l' T1) as (T3&G3). destruct (f1 a l') as [b l''|e l''| |] eqn:E; cbn [agree tame] in *; auto; intros L.
      * destruct G as [->|(l2'&->&C')]; [lia|auto|]. specialize (G3 M l2' C'). cbn [agree] in G3. auto.
      * destruct G as [->|(l2'&->&C')]; [lia|auto|]. specialize (G3 M l2' C'). cbn [agree] in G3. auto.
    + intros L. destruct (G L) as [->|(l2'&->&C')]; eauto.
Qed.

Lemma alike_ret {A} (a : A) : alike (ret a) (ret a).
Proof. intros l P. cbn. split; [split; [auto|lia]|]. intros M l2 C _. eauto. Qed.

Lemma alike_fuel {A} (p : parser A) : alike (fun _ => PFuel) p.
Proof. intros l P. cbn. auto. Qed.

Lemma alike_here : alike here here.
Proof.
  intros l P. cbn. split; [split; [auto|lia]|]. intros M l2 (n&C) _. right. exists l2. split.
  - destruct n; destruct C as (E&_); rewrite E; auto.
  - exists n. auto.
Qed.

Lemma peek_close M l1 l2 t l1' : close M l1 l2 -> peek l1 = POk t l1' ->
  exists l2', peek l2 = POk t l2' /\ close M l1' l2'.
Proof.
  intros (n&C) E. assert (D : exists t l1' l2', lx_peek l1 = Ok (Some t, l1') /\ lx_peek l2 = Ok (Some t, l2') /\
    sentinel t = false /\ curr_loc l1' = curr_loc l2' /\ match n with
    | 0 => left_ l1' = M
    | S n' => M <= left_ (snd (lx_bump l1')) /\ near M n' (snd (lx_bump l1')) (snd (lx_bump l2'))
    end) by (destruct n; apply C).
  destruct D as (t'&a&b&Ea&Eb&N&L&H). unfold peek in *. rewrite Ea in E. injection E as <- <-. rewrite Eb.
  exists b. split; auto. exists n. destruct (peek_some _ _ _ Ea) as (Ca&Pa), (peek_some _ _ _ Eb) as (Cb&Pb).
  destruct n; cbn [near]; (split; [auto|split; [congruence|exists t', a, b; auto 10]]).
Qed.

Lemma alike_peek : alike peek peek.
Proof.
  intros l P. split.
  - destruct (peek l) eqn:E; cbn [tame]; auto.
    + split; [eapply calm_peek; eauto|eapply peek_shrinks; eauto].
    + unfold peek in E. destruct (lx_peek l) as [[[?|] ?]| |]; discriminate.
    + destruct P as (o&P&_). exists o, l. auto.
  - intros M l2 C. destruct (peek l) eqn:E; cbn [agree]; auto.
    + intros _. destruct (peek_close _ _ _ _ _ C E) as (l2'&->&C'). eauto.
    + unfold peek in E. destruct (lx_peek l) as [[[?|] ?]| |]; discriminate.
Qed.

Lemma over_int t : is_int t = false -> over t = false.
Proof. destruct t as [| | | | | | | | | | | | | | | | | | | | | |[]| |]; auto; discriminate. Qed.

Lemma bump_path a t l : seen a t l -> sentinel t = false -> word t = false -> calm (snd (lx_bump l)).
Proof.
  intros (l0&C&E&_) N W. assert (Cu : lx_curr l = Some t) by (rewrite (peek_curr _ _ _ E); auto; intros ->; discriminate).
  destruct (calm_peek _ _ _ C E) as (o&P&H). exists (Some t). split.
  - eapply pa_bump; eauto. destruct (worded o); auto. destruct (H eq_refl) as (t'&l1&E1&I).
    unfold peek, lx_peek in E1. rewrite Cu in E1. injection E1 as <- <-. apply over_int; auto.
  - cbn [worded]. congruence.
Qed.

Lemma bump_left l : match lx_curr l with Some t => sentinel t = false | None => True end ->
  left_ (snd (lx_bump l)) <= left_ l.
Proof.
  intros Q. unfold lx_bump, left_. destruct (lx_curr l) as [t|] eqn:C; cbn [snd set_curr lx_curr lx_rest]; [|rewrite C; lia].
  rewrite Q. lia.
Qed.

Lemma bump_agree l : match lx_curr l with Some t => sentinel t = false | None => True end ->
  forall M l2, close M l l2 -> agree M (bump l) (bump l2).
Proof.
  intros Q. unfold bump. destruct (lx_bump l) as [t l'] eqn:E.
  intros M l2 (n&C). cbn [agree]. intros LM. right. destruct (lx_curr l) as [tc|] eqn:Cc.
  - assert (l' = set_curr None l /\ t = tc) as (->&->) by (unfold lx_bump in E; rewrite Cc in E; injection E; auto).
    assert (Pl : lx_peek l = Ok (Some tc, l)) by (unfold lx_peek; rewrite Cc; auto).
    destruct n as [|n]; destruct C as (E1&E2&t&a&b&Pa&Pb&N&EL&H).
    * rewrite Pl in Pa. injection Pa as <- <-. exfalso. revert LM H. unfold left_. cbn [set_curr lx_curr lx_rest].
      rewrite Cc, Q. lia.
    * rewrite Pl in Pa. injection Pa as <- <-. unfold lx_bump. rewrite <- E2. rewrite Cc in E2 |- *. exists (set_curr None l2). split; auto.
      assert (b = l2). { unfold lx_peek in Pb. rewrite <- E2 in Pb. injection Pb as <-. auto. } subst b.
      destruct H as (_&H). unfold lx_bump in H. rewrite Cc, <- E2 in H. cbn [snd] in H. exists n. auto.
  - assert (l' = l /\ t = TEof) as (->&->) by (unfold lx_bump in E; rewrite Cc in E; injection E; auto).
    exists l2. unfold lx_bump. destruct n; pose proof C as C'; destruct C' as (E1&E2&_); rewrite <- E2, Cc; (split; [auto|exists O; exact C]) || (split; [auto|eexists; exact C]).
Qed.

Lemma seen_curr Q a t l : seen_from Q a t l -> sentinel t = false -> lx_curr l = Some t.
Proof. intros (l0&_&E&_) N. rewrite (peek_curr _ _ _ E); auto. intros ->. discriminate. Qed.

Lemma bump_ok l : bump l = POk (fst (lx_bump l)) (snd (lx_bump l)).
Proof. unfold bump. destruct (lx_bump l). reflexivity. Qed.

(** After looking at [t]. *)
Lemma alike_took {A} (f1 f2 : token -> parser A) a t : sentinel t = false -> word t = false ->
  (forall t, alike (f1 t) (f2 t)) -> alike_on (seen a t) (bind bump f1) (bind bump f2).
Proof.
  intros N W F. apply alike_bind; auto. intros l P. pose proof (seen_curr _ _ _ _ P N) as Cu.
  assert (Q : match lx_curr l with Some t => sentinel t = false | None => True end) by (rewrite Cu; auto).
  split; [|apply bump_agree; auto]. rewrite bump_ok. cbn [tame]. split; [eapply bump_path; eauto|apply bump_left; auto].
Qed.

(** Just after a fixity keyword. *)
Definition fresh (l : lexer) : Prop := exists t, path (Some t) l /\ word t = true.

Lemma calm_end l t : calm l -> lx_curr l = Some t -> sentinel t = false -> exists o, path o l /\ worded o && over t = false.
Proof.
  intros (o&P&H) Cu N. exists o. split; auto. destruct (worded o); auto. destruct (H eq_refl) as (t'&l1&E1&I).
  unfold peek, lx_peek in E1. rewrite Cu in E1. injection E1 as <- <-. apply over_int; auto.
Qed.

Lemma alike_took_word {A} (f1 f2 : parser A) a t : word t = true -> alike_on fresh f1 f2 ->
  alike_on (seen a t) (bump ;;; f1) (bump ;;; f2).
Proof.
  intros W F l P. assert (N : sentinel t = false) by (destruct t; auto; discriminate).
  pose proof (seen_curr _ _ _ _ P N) as Cu.
  assert (Q : match lx_curr l with Some t => sentinel t = false | None => True end) by (rewrite Cu; auto).
  pose proof (bump_left l Q) as L. pose proof (bump_agree l Q) as G. rewrite bump_ok in G.
  assert (Fr : fresh (snd (lx_bump l))).
  { exists t. split; auto. destruct P as (l0&C&E&_). destruct (calm_end l t (calm_peek _ _ _ C E) Cu N) as (o&P&H). eapply pa_bump; eauto. }
  destruct (F _ Fr) as (T3&G3). unfold bind. rewrite bump_ok. split; [eapply tame_trans; eauto|].
  intros M l2 C. specialize (G M l2 C). cbn [agree] in G. destruct (f1 (snd (lx_bump l))) as [b l''|e l''| |] eqn:E; cbn [agree tame] in *; auto; intros LM.
  - destruct G as [G|(l2'&G&C')]; [lia|rewrite G; auto|]. rewrite G. specialize (G3 M l2' C'). cbn [agree] in G3. auto.
  - destruct G as [G|(l2'&G&C')]; [lia|rewrite G; auto|]. rewrite G. specialize (G3 M l2' C'). cbn [agree] in G3. auto.
Qed.

Lemma calm_word l0 t l : calm l0 -> peek l0 = POk t l -> exists o, path o l0 /\ worded o && is_int t = false.
Proof.
  intros (o&P&H) E. exists o. split; auto. destruct (worded o); auto. destruct (H eq_refl) as (t'&l'&E'&I).
  rewrite E in E'. injection E' as <- <-. auto.
Qed.

Lemma alike_fail {A} e : alike_on (seen (error_loc e) (found e)) (@fail A e) (fail e).
Proof.
  intros l (l0&P0&E&L). unfold fail. cbn [tame agree]. split.
  - split; [eapply calm_peek; eauto|]. split; auto. destruct (calm_word _ _ _ P0 E) as (o&P&H). exists o, l0. auto.
  - intros M l2 C _. eauto.
Qed.

Lemma alike_look_on {A} (Q : lexer -> Prop) (f1 f2 : loc -> token -> parser A) : (forall l, Q l -> exists o, path o l) ->
  (forall a t, alike_on (seen_from Q a t) (f1 a t) (f2 a t)) ->
  alike_on Q (a <- here ;; t <- peek ;; f1 a t) (a <- here ;; t <- peek ;; f2 a t).
Proof.
  intros K F l P. unfold bind, here. destruct (peek l) as [t l'|e l'|p|] eqn:E.
  - destruct (F (curr_loc l) t l') as (T'&G'). { exists l. auto. }
    split.
    + eapply tame_trans; eauto. eapply peek_shrinks; eauto.
    + intros M l2 C. destruct (peek_close _ _ _ _ _ C E) as (l2'&E2&C').
      assert (Lc : curr_loc l = curr_loc l2) by (destruct C as ([|n]&C); apply C).
      rewrite <- Lc, E2. auto.
  - exfalso. unfold peek in E. destruct (lx_peek l) as [[[?|] ?]| |]; discriminate.
  - cbn. split; auto. destruct (K l P) as (o&Po). exists o, l. auto.
  - cbn. auto.
Qed.

Lemma alike_look {A} (f1 f2 : loc -> token -> parser A) : (forall a t, alike_on (seen a t) (f1 a t) (f2 a t)) ->
  alike (a <- here ;; t <- peek ;; f1 a t) (a <- here ;; t <- peek ;; f2 a t).
Proof. intros F. apply alike_look_on; auto. intros l (o&P&_). eauto. Qed.

Lemma alike_many_f {A} (c1 c2 : parser bool) (b1 b2 : parser A) : alike c1 c2 -> alike b1 b2 ->
  forall n1 n2, alike (many_f n1 c1 b1) (many_f n2 c2 b2).
Proof.
  intros C B. induction n1 as [|n1 IH]; intros n2.
  - destruct n2; cbn [many_f]; apply alike_bind; auto; intros [|]; try apply alike_fuel; apply alike_ret.
  - destruct n2; cbn [many_f]; apply alike_bind; auto; intros [|]; try apply alike_ret.
    + intros l P. split.
      * specialize (IH 0). assert (X : alike (x <- b1 ;; xs <- many_f n1 c1 b1 ;; ret (x :: xs)) (x <- b2 ;; xs <- many_f 0 c2 b2 ;; ret (x :: xs))).
        { apply alike_bind; auto. intros x. apply alike_bind; auto. intros xs. apply alike_ret. }
        apply X; auto.
      * intros M l2 _. destruct ((x <- b1 ;; xs <- many_f n1 c1 b1 ;; ret (x :: xs)) l); cbn [agree]; auto.
    + apply alike_bind; auto. intros x. apply alike_bind; auto. intros xs. apply alike_ret.
Qed.

Lemma alike_many {A} (c1 c2 : parser bool) (b1 b2 : parser A) : alike c1 c2 -> alike b1 b2 ->
  alike (many c1 b1) (many c2 b2).
Proof.
  intros C B l P. unfold many. split.
  - apply (alike_many_f _ _ _ _ C B (budget l) 0); auto.
  - intros M l2. apply (alike_many_f _ _ _ _ C B (budget l) (budget l2)); auto.
Qed.

Lemma alike_peek_on x : alike (peek_on x) (peek_on x).
Proof. apply alike_bind; [apply alike_peek|]. intros t. apply alike_ret. Qed.

(** Bumping after a token was compared with [x]. *)
Lemma alike_if_on {A} x (f1 f2 g1 g2 : parser A) : sentinel x = false -> word x = false -> alike f1 f2 -> alike g1 g2 ->
  alike (on <- peek_on x ;; if on then bump ;;; f1 else g1) (on <- peek_on x ;; if on then bump ;;; f2 else g2).
Proof.
  intros N W F G l P.
  assert (X : alike (a <- here ;; t <- peek ;; if same t x then bump ;;; f1 else g1)
                    (a <- here ;; t <- peek ;; if same t x then bump ;;; f2 else g2)).
  { apply alike_look. intros a t. destruct (same t x) eqn:Q; [|apply alike_weaken; auto].
    apply same_eq in Q. subst t. apply alike_took; auto. }
  destruct (X l P) as (T&H).
  assert (Q : forall (f g : parser A) l, bind (peek_on x) (fun on : bool => if on then bump ;;; f else g) l =
    (a <- here ;; t <- peek ;; if same t x then bump ;;; f else g) l).
  { intros f g l'. unfold peek_on, bind, here, ret. destruct (peek l'); auto. }
  split; [rewrite Q; exact T|]. intros M l2 C. rewrite !Q. auto.
Qed.

Lemma alike_bump_on x : sentinel x = false -> word x = false -> alike (bump_on x) (bump_on x).
Proof. intros N W. unfold bump_on. apply alike_if_on; auto; apply alike_ret. Qed.

Lemma alike_eat x : sentinel x = false -> word x = false -> alike (eat x) (eat x).
Proof.
  intros N W. unfold eat. apply alike_look. intros a t. destruct (same t x) eqn:Q.
  - apply same_eq in Q. subst t. apply alike_took; auto. intros _. apply alike_ret.
  - exact (alike_fail (Expected x a t)).
Qed.

(** One step into a parser. *)
Ltac step :=
  match goal with
  | |- alike_on calm (ret _) (ret _) => apply alike_ret
  | |- alike_on calm peek peek => apply alike_peek
  | |- alike_on calm here here => apply alike_here
  | |- alike_on calm (eat _) (eat _) => apply alike_eat; reflexivity
  | |- alike_on calm (bump_on _) (bump_on _) => apply alike_bump_on; reflexivity
  | |- alike_on calm (peek_on _) (peek_on _) => apply alike_peek_on
  | |- alike_on calm (many _ _) (many _ _) => apply alike_many
  | |- alike_on (seen _ _) (ret _) (ret _) => apply alike_weaken
  | |- alike_on (seen _ _) peek peek => apply alike_weaken
  | |- alike_on (seen _ _) here here => apply alike_weaken
  | |- alike_on (seen _ _) (eat _) (eat _) => apply alike_weaken
  | |- alike_on (seen _ _) (bump_on _) (bump_on _) => apply alike_weaken
  | |- alike_on (seen _ _) (peek_on _) (peek_on _) => apply alike_weaken
  | |- alike_on (seen _ _) (many _ _) (many _ _) => apply alike_weaken
  | |- alike_on (seen ?a ?t) (fail (Unexpected ?t ?a)) _ => exact (alike_fail (Unexpected t a))
  | |- alike_on calm (bind here (fun a => bind peek _)) _ => apply alike_look; intros ? []
  | |- alike_on (seen _ _) (bind bump _) (bind bump _) => apply alike_took; [reflexivity|reflexivity|intros ?]
  | |- alike_on (seen _ _) (bind here (fun a => bind peek _)) _ => apply alike_weaken
  | |- alike_on _ (bind _ _) (bind _ _) => apply alike_bind; [|intros ?]
  | |- alike_on _ (if ?b then _ else _) _ => destruct b
  | H : alike_on calm ?p ?q |- alike_on calm ?p ?q => apply H
  | H : alike_on calm ?p ?q |- alike_on (seen _ _) ?p ?q => apply alike_weaken, H
  end.
Ltac steps := repeat step.

Lemma alike_infix : alike p_infix p_infix.
Proof. unfold p_infix. steps. Qed.

Lemma fresh_calm a t l : seen_from fresh a t l -> is_int t = false -> calm l.
Proof.
  intros (l0&(w&P&W)&E&_) I. exists (Some w). split; [eapply pa_peek; eauto|]. intros _.
  destruct (peek_again _ _ _ E) as (l2&E2). eauto.
Qed.

Lemma alike_prec : alike_on fresh p_prec p_prec.
Proof.
  unfold p_prec. apply alike_look_on. { intros l (t&P&_). eauto. }
  intros a t.
  assert (F : is_int t = false -> alike_on (seen_from fresh a t) (@fail N (Unexpected t a)) (fail (Unexpected t a))).
  { intros I l P. pose proof (fresh_calm _ _ _ P I) as C. destruct P as (l0&(w&P0&W)&E&L). unfold fail. cbn [tame agree]. split.
    - split; auto. split; auto. exists (Some w), l0. cbn [found error_loc]. rewrite I, andb_false_r. auto.
    - intros M l2 C2 _. eauto. }
  destruct t as [| | | | | | | | | | | | | | | | | | | | |s b|[| |n|]| |]; try (apply F; reflexivity).
  - intros l P. pose proof (fresh_calm _ _ _ P eq_refl) as C. apply alike_ret; auto.
  - intros l P. pose proof (seen_curr _ _ _ _ P eq_refl) as Cu. pose proof P as (l0&(w&P0&W)&E&L).
    assert (Q : match lx_curr l with Some t => sentinel t = false | None => True end) by (rewrite Cu; auto).
    pose proof (bump_left l Q) as BL. pose proof (bump_agree l Q) as G. rewrite bump_ok in G.
    unfold bind. rewrite bump_ok. destruct (N.leb n 9) eqn:Le.
    + unfold ret. split.
      * cbn [tame]. split; auto. exists (Some (TLit (LInt n))). split; [|discriminate].
        eapply pa_bump; [eapply pa_peek; eauto|auto|auto|]. cbn [worded over]. rewrite W. apply N.leb_le in Le. apply N.ltb_ge. auto.
      * intros M l2 C. specialize (G M l2 C). cbn [agree] in G |- *. intros LM. destruct (G LM) as [->|(l2'&->&C')]; eauto.
    + cbn [tame agree]. split; auto. exists (Some w), l. split; [eapply pa_peek; eauto|]. right. split; auto.
      exists (TLit (LInt n)). cbn [worded over]. apply N.leb_gt in Le. apply N.ltb_lt in Le. auto.
Qed.

Definition p_fixity' : parser fixity :=
  a <- here ;; t <- peek ;;
  match t with
  | TInfixL => bump ;;; (p <- p_prec ;; ret (mkFix p ALeft))
  | TInfixR => bump ;;; (p <- p_prec ;; ret (mkFix p ARight))
  | TInfix => bump ;;; (p <- p_prec ;; ret (mkFix p ANeither))
  | t => fail (Unexpected t a)
  end.

Lemma p_fixity_eq l : p_fixity l = p_fixity' l.
Proof.
  unfold p_fixity, p_fixity', p_assoc, bind, here, fail. destruct (peek l) as [t l1|? ?| |]; auto.
  destruct t; auto; rewrite bump_ok; unfold ret; destruct (p_prec _); auto.
Qed.

Lemma alike_fixity : alike p_fixity p_fixity.
Proof.
  assert (X : alike p_fixity' p_fixity').
  { unfold p_fixity'. apply alike_look. intros a t. destruct t; lazymatch goal with |- alike_on _ (fail _) _ => step | _ => apply alike_took_word; [reflexivity|] end;
      (apply alike_bind; [apply alike_prec|intros p; step]). }
  intros l P. destruct (X l P) as (T&G). split; [rewrite p_fixity_eq; auto|]. intros M l2 C. rewrite !p_fixity_eq. auto.
Qed.

Lemma alike_infix_decl : alike p_infix_decl p_infix_decl.
Proof. pose proof alike_infix. pose proof alike_fixity. unfold p_infix_decl. steps. Qed.

Lemma alike_at_pat : alike at_pat at_pat.
Proof. unfold at_pat. steps. Qed.

Lemma alike_tail {A} (x : A) (p1 p2 : parser A) w : alike p1 p2 -> alike (collection_tail x p1 w) (collection_tail x p2 w).
Proof. intros H. unfold collection_tail. steps. Qed.

Lemma alike_upper p1 p2 a s : alike p1 p2 -> alike_on (seen a (TUpper s)) (upper_pat p1 s) (upper_pat p2 s).
Proof. intros H. pose proof alike_at_pat. unfold upper_pat. steps. apply alike_tail. auto. Qed.

Lemma alike_lower p1 p2 a s : alike p1 p2 -> alike_on (seen a (TLower s)) (lower_pat p1 s) (lower_pat p2 s).
Proof. intros H. unfold lower_pat. steps. Qed.

Lemma alike_brack p1 p2 : alike p1 p2 -> alike (brack_pat p1) (brack_pat p2).
Proof. intros H. unfold brack_pat. steps. apply alike_tail. auto. Qed.

Lemma alike_paren p1 p2 q1 q2 : alike p1 p2 -> alike q1 q2 -> alike (paren_pat p1 q1) (paren_pat p2 q2).
Proof.
  intros H H'. unfold paren_pat. apply alike_bind; [step|intros _].
  match goal with |- alike (bind here (fun a => bind peek (fun t => bind (@?F a t) ?G))) (bind here (fun b => bind peek (fun u => bind (@?F' b u) ?G'))) =>
    apply (alike_look (fun a t => bind (F a t) G) (fun a t => bind (F' a t) G')) end.
  intros a t. apply alike_bind.
  - destruct t; steps; try (apply alike_upper; auto); cbn; steps.
  - intros p. steps. apply alike_tail. auto.
Qed.

Definition pat_body (b : bool) (p q : parser pat) : parser pat :=
  a <- here ;; t <- peek ;;
  match t with
  | TUnderscore => bump ;;; ret PWild
  | TParenL => paren_pat p q
  | TBrackL => brack_pat q
  | TUpper s => if b then upper_pat p s else bump ;;; ret (PCon s [])
  | TLower s => lower_pat p s
  | TLit x => if b then bump ;;; ret (PLit x) else fail (Unexpected t a)
  | TDash => if b then bump ;;; p else fail (Unexpected t a)
  | t => fail (Unexpected t a)
  end.

Lemma alike_pat_body b p1 p2 q1 q2 : alike p1 p2 -> alike q1 q2 -> alike (pat_body b p1 q1) (pat_body b p2 q2).
Proof.
  intros H H'. unfold pat_body. steps; try (apply alike_upper; auto); try (apply alike_lower; auto);
    try (apply alike_weaken, alike_brack; auto); try (apply alike_weaken, alike_paren; auto).
Qed.

(** The second run may run out of fuel instead. *)
Lemma alike_none {A} (p1 p2 : parser A) : alike p1 p2 -> alike p1 (fun _ => PFuel).
Proof.
  intros H l P. split; [apply (H l P)|]. intros M l2 _. destruct (p1 l); cbn [agree]; auto.
Qed.

Lemma alike_pat : forall n1 n2 b, alike (pat_f n1 b) (pat_f n2 b).
Proof.
  induction n1 as [|n1 IH]; intros n2 b; [apply alike_fuel|]. destruct n2 as [|n2].
  - apply (alike_none _ (pat_f (S n1) b)).
    exact (alike_pat_body b _ _ _ _ (IH n1 false) (IH n1 true)).
  - exact (alike_pat_body b _ _ _ _ (IH n2 false) (IH n2 true)).
Qed.

Lemma alike_pattern : alike pattern pattern.
Proof.
  intros l P. unfold pattern. split; [apply (alike_pat (budget l) 0 false l P)|].
  intros M l2. apply (alike_pat (budget l) (budget l2) false l P).
Qed.

Lemma alike_lambda f1 f2 : alike f1 f2 -> alike (lambda f1) (lambda f2).
Proof. intros H. pose proof alike_pattern. pose proof alike_at_pat. unfold lambda. steps. Qed.

Lemma alike_paren_expr f1 f2 : alike f1 f2 -> alike (paren_expr f1) (paren_expr f2).
Proof. intros H. unfold paren_expr. steps; cbn; steps. Qed.

Lemma alike_brack_expr f1 f2 : alike f1 f2 -> alike (brack_expr f1) (brack_expr f2).
Proof.
  intros H. unfold brack_expr. steps.
  - unfold more_items, is_done. steps.
  - unfold item. step; [steps|]. apply alike_if_on; auto; steps.
Qed.

Lemma alike_atom f1 f2 : alike f1 f2 -> alike (atom f1) (atom f2).
Proof.
  intros H. pose proof (alike_lambda _ _ H). pose proof (alike_paren_expr _ _ H). pose proof (alike_brack_expr _ _ H).
  pose proof alike_infix_decl. unfold atom. steps.
Qed.

Lemma alike_application f1 f2 : alike f1 f2 -> alike (application f1) (application f2).
Proof. intros H. unfold application. apply alike_bind; [steps|]. intros a. steps. unfold at_arg. steps. Qed.

(** Where an operator was looked for and not found, the chain ends. *)
Definition otherwise {A B} (m : parser A) (f : A -> parser B) (g : parser B) : parser B := fun l =>
  match m l with
  | POk a l1 => f a l1
  | PErr _ l1 => g l1
  | PPanic p => PPanic p
  | PFuel => PFuel
  end.

Lemma alike_otherwise {A B} (m1 m2 : parser A) (f1 f2 : A -> parser B) g1 g2 :
  alike m1 m2 -> (forall a, alike (f1 a) (f2 a)) -> alike g1 g2 -> alike (otherwise m1 f1 g1) (otherwise m2 f2 g2).
Proof.
  intros H F G l P. destruct (H l P) as (T&K). unfold otherwise. split.
  - clear K. destruct (m1 l) as [a l'|e l'| |]; cbn [tame] in T |- *; auto.
    + destruct T. eapply tame_trans; eauto. apply (F a l'); auto.
    + destruct T as (?&?&_). eapply tame_trans; eauto. apply (G l'); auto.
  - intros M l2 C. specialize (K M l2 C).
    assert (X : forall (r : parsed B) l', tame r l' -> (M <= left_ l' -> agree M r (match m2 l2 with
      | POk a l1 => f2 a l1 | PErr _ l1 => g2 l1 | PPanic p => PPanic p | PFuel => PFuel end)) -> agree M r (match m2 l2 with
      | POk a l1 => f2 a l1 | PErr _ l1 => g2 l1 | PPanic p => PPanic p | PFuel => PFuel end)).
    { intros r l' T' W. destruct r; cbn [tame agree] in *; auto; intros L; apply W; auto; destruct T'; lia. }
    destruct (m1 l) as [a l'|e l'| |]; cbn [agree] in K |- *; auto; cbn [tame] in T; destruct T as (T1&_).
    + destruct (F a l' T1) as (T3&G3). apply (X _ l' T3). intros L. destruct (K L) as [->|(l2'&->&C')]; auto.
      destruct (f1 a l'); cbn; auto.
    + destruct (G l' T1) as (T3&G3). apply (X _ l' T3). intros L. destruct (K L) as [->|(l2'&->&C')]; auto.
      destruct (g1 l'); cbn; auto.
Qed.

Lemma alike_chain f1 f2 : alike f1 f2 -> forall n1 n2 e, alike (chain_f n1 f1 e) (chain_f n2 f2 e).
Proof.
  intros H.
  assert (X : forall n1 n2 e k1 k2, alike k1 k2 ->
    alike (otherwise p_infix (fun i => a <- here ;; t <- peek ;;
       if begins_expr t false
       then match n1 with
            | 0 => fun _ => PFuel
            | S n' => right <- f1 ;; r <- chain_f n' f1 right ;; ret (Bin e i r)
            end
       else fail (Unexpected t a)) k1) (otherwise p_infix (fun i => a <- here ;; t <- peek ;;
       if begins_expr t false
       then match n2 with
            | 0 => fun _ => PFuel
            | S n' => right <- f2 ;; r <- chain_f n' f2 right ;; ret (Bin e i r)
            end
       else fail (Unexpected t a)) k2)).
  { induction n1 as [|n1 IH]; intros n2 e k1 k2 K; apply alike_otherwise; auto using alike_infix; intros i.
    - apply alike_look. intros a t. destruct (begins_expr t false); [apply alike_weaken, alike_fuel|step].
    - assert (Y : forall n2, alike (right <- f1 ;; r <- chain_f n1 f1 right ;; ret (Bin e i r))
                        (right <- f2 ;; r <- chain_f n2 f2 right ;; ret (Bin e i r))).
      { intros m. apply alike_bind; auto. intros right. apply alike_bind; [|intros r; step].
        pose proof (IH m right (ret right) (ret right) (alike_ret _)) as IH'.
        destruct n1, m; exact IH'. }
      apply alike_look. intros a t. destruct (begins_expr t false); [|step]. apply alike_weaken.
      destruct n2 as [|n2]; [apply (alike_none _ _ (Y 0))|apply Y]. }
  intros n1 n2 e. specialize (X n1 n2 e (ret e) (ret e) (alike_ret e)). destruct n1, n2; exact X.
Qed.

Lemma alike_binary f1 f2 : alike f1 f2 -> alike (binary f1) (binary f2).
Proof.
  intros H. unfold binary. apply alike_bind; auto. intros e l P. split.
  - apply (alike_chain _ _ H (budget l) 0 e l P).
  - intros M l2. apply (alike_chain _ _ H (budget l) (budget l2) e l P).
Qed.

Lemma alike_expr : forall n1 n2, alike (expr_f n1) (expr_f n2).
Proof.
  induction n1 as [|n1 IH]; intros n2; [apply alike_fuel|]. destruct n2 as [|n2].
  - apply (alike_none _ (expr_f (S n1))). exact (alike_binary _ _ (alike_application _ _ (alike_atom _ _ (IH n1)))).
  - exact (alike_binary _ _ (alike_application _ _ (alike_atom _ _ (IH n2)))).
Qed.

Lemma alike_expression : alike expression expression.
Proof.
  intros l P. unfold expression. split; [apply (alike_expr (budget l) 0 l P)|].
  intros M l2. apply (alike_expr (budget l) (budget l2) l P).
Qed.

Lemma alike_decl : alike p_decl p_decl.
Proof.
  pose proof alike_expression. pose proof alike_infix_decl. unfold p_decl. steps; cbn [begins_expr]; steps.
Qed.

Lemma alike_decls : alike p_decls p_decls.
Proof. pose proof alike_decl. unfold p_decls, is_done, ignore. steps. Qed.

Lemma alike_parse : alike p_parse p_parse.
Proof. pose proof alike_decls. unfold p_parse. steps. Qed.

End WithUcd.
