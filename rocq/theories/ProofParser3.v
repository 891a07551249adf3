(** What the parser accepts is in the grammar. *)
From Coq Require Import List Arith NArith Bool String Lia.
From Verif Require Import Prelim Chars Syntax Lexer SpecLexer SpecLexRun Parser SpecParser.
From Verif Require Import ProofLexer ProofLexer7 ProofParser.
Import ListNotations.

Section WithUcd.
Context {U : ucd}.

(** [sees l ts]: the lexer [l] is about to yield exactly the tokens [ts] (and
    no error) up to the end of the source. *)
Fixpoint sees (l : lexer) (ts : list ptok) : Prop :=
  match ts with
  | [] => exists l1, lx_peek l = Ok (None, l1)
  | (t, k) :: ts' => exists l1, lx_peek l = Ok (Some t, l1) /\ lx_col l1 = k /\ sentinel t = false /\
                     sees (snd (lx_bump l1)) ts'
  end.

Definition look (ts : list ptok) : token := match ts with [] => TEof | (t, _) :: _ => t end.

Lemma peek_some l t l1 : lx_peek l = Ok (Some t, l1) -> lx_curr l1 = Some t /\ lx_peek l1 = Ok (Some t, l1).
Proof.
  unfold lx_peek at 1. destruct (lx_curr l) eqn:C.
  - intros E. injection E as <- <-. split; auto. unfold lx_peek. rewrite C. auto.
  - destruct (lex l) as [[t' r]| |]; cbn [obind]; try discriminate.
    destruct t'; intros E; try discriminate; injection E as <- <-; auto.
Qed.

Lemma lex_at_end l : lx_rest l = [] -> exists l1, lex l = Ok (TEof, l1) /\ lx_curr l1 = lx_curr l.
Proof. destruct l as [s r k a b n p]. cbn. intros ->. cbn. eauto. Qed.

Lemma peek_none (HU : letters U) l l1 : lx_peek l = Ok (None, l1) ->
  lx_curr l1 = None /\ lx_rest l1 = [] /\ exists l2, lx_peek l1 = Ok (None, l2).
Proof.
  unfold lx_peek at 1. destruct (lx_curr l) eqn:C. { intros E. discriminate. }
  pose proof (lex_terminates HU l) as F. destruct (lex l) as [[t r]| |]; cbn [obind]; try discriminate.
  cbn [fine] in F. destruct t; intros E; try discriminate. injection E as ->.
  assert (Rr : lx_rest l1 = []) by (unfold lexed in F; tauto).
  assert (Hc : lx_curr l1 = None). { apply lexed_goes in F. destruct F as (u&(_&Hc&_)). congruence. }
  split; auto. split; auto. unfold lx_peek. rewrite Hc. destruct (lex_at_end l1 Rr) as (l2&E&_).
  rewrite E. cbn. eauto.
Qed.

Context (HU : letters U).

(** Looking does not change what is seen. *)
Lemma peek_sees l t l1 : peek l = POk t l1 -> forall ts, sees l1 ts <-> (sees l ts).
Proof.
  unfold peek. destruct (lx_peek l) as [[[t'|] l']| |] eqn:E; try discriminate; intros X; injection X as <- <-; intros ts.
  - destruct (peek_some _ _ _ E) as (_&E'). destruct ts as [|(t1,k) ts]; cbn [sees]; rewrite E, E'; tauto.
  - destruct (peek_none HU _ _ E) as (_&_&l2&E'). destruct ts as [|(t1,k) ts]; cbn [sees]; rewrite E, E'; split; intros (x&H); try (eauto; fail); destruct H; discriminate.
Qed.

Lemma peek_look l t l1 ts : peek l = POk t l1 -> sees l1 ts -> t = look ts.
Proof.
  intros E S. apply (peek_sees _ _ _ E) in S. unfold peek in E.
  destruct ts as [|(t1,k) ts]; cbn [sees look] in *; destruct S as (l2&S); [|destruct S as (S&_)];
    rewrite S in E; injection E as <- <-; auto.
Qed.

Lemma peek_at l t k ts l1 : peek l = POk t l1 -> sees l1 ((t, k) :: ts) ->
  lx_curr l1 = Some t /\ lx_col l1 = k /\ sentinel t = false /\ sees (snd (lx_bump l1)) ts.
Proof.
  intros E S. apply (peek_sees _ _ _ E) in S. unfold peek in E. cbn [sees] in S. destruct S as (l2&S&Hk&Hn&S2).
  rewrite S in E. injection E as <-. destruct (peek_some _ _ _ S). auto.
Qed.

Lemma peek_run l ts : sees l ts -> exists l1, peek l = POk (look ts) l1 /\ sees l1 ts /\
  match ts with [] => True | (t, k) :: ts' => lx_curr l1 = Some t /\ lx_col l1 = k /\ sees (snd (lx_bump l1)) ts' end.
Proof.
  intros S. destruct ts as [|(t,k) ts].
  - destruct S as (l1&S). exists l1. unfold peek. rewrite S. split; auto. split; auto.
    destruct (peek_none HU _ _ S) as (_&_&l2&E). cbn. eauto.
  - destruct S as (l1&S&Hk&Hn&S2). exists l1. unfold peek. rewrite S. split; auto.
    destruct (peek_some _ _ _ S) as (C&E). split; auto. cbn [sees]. exists l1. auto.
Qed.

Lemma bump_run l t : lx_curr l = Some t -> bump l = POk t (snd (lx_bump l)).
Proof. intros C. unfold bump, lx_bump. rewrite C. auto. Qed.

Lemma bump_col l : lx_col (snd (lx_bump l)) = lx_col l.
Proof. unfold lx_bump. destruct (lx_curr l); auto. Qed.

(** Backwards over [bump]. *)
Lemma bump_back l t ts : lx_curr l = Some t -> sentinel t = false -> sees (snd (lx_bump l)) ts ->
  sees l ((t, lx_col l) :: ts).
Proof. intros C N S. cbn [sees]. exists l. unfold lx_peek. rewrite C. auto. Qed.

Lemma bind_ok {A B} (m : parser A) (f : A -> parser B) l b l' :
  bind m f l = POk b l' -> exists a l1, m l = POk a l1 /\ f a l1 = POk b l'.
Proof. unfold bind. destruct (m l); try discriminate. eauto. Qed.

(** * Successful runs, read backwards *)

Definition col (l : lexer) : nat := lx_col l.

(** [step l ts l' rest]: running from [l] to [l'] consumed [ts], when [rest]
    is seen afterwards. *)

(** A token looked at, then consumed. *)
Lemma peek_curr l t l1 : peek l = POk t l1 -> t <> TEof -> lx_curr l1 = Some t.
Proof.
  unfold peek. destruct (lx_peek l) as [[[t'|] l']| |] eqn:E; try discriminate; intros X N; injection X as <- <-.
  - apply (peek_some _ _ _ E).
  - congruence.
Qed.

Lemma take_back l t l1 t2 l2 ts : peek l = POk t l1 -> sentinel t = false -> bump l1 = POk t2 l2 -> sees l2 ts ->
  sees l1 ((t, lx_col l1) :: ts) /\ sees l ((t, lx_col l1) :: ts) /\ lx_col l2 = lx_col l1.
Proof.
  intros P N B S. assert (C : lx_curr l1 = Some t) by (eapply peek_curr; eauto; intros ->; discriminate).
  rewrite (bump_run _ _ C) in B. injection B as _ <-.
  pose proof (bump_back _ _ _ C N S) as S1. split; auto. split; [apply (peek_sees _ _ _ P); auto|apply bump_col].
Qed.

Lemma peek_on_back l x b l1 : peek_on x l = POk b l1 -> exists t, peek l = POk t l1 /\ b = same t x.
Proof. unfold peek_on. intros H. apply bind_ok in H as (t&l2&E&H). injection H as <- <-. eauto. Qed.

Lemma bump_on_back l x b l1 ts : bump_on x l = POk b l1 -> sentinel x = false -> sees l1 ts ->
  if b then exists k, sees l ((x, k) :: ts) /\ lx_col l1 = k
  else sees l ts /\ same (look ts) x = false.
Proof.
  unfold bump_on. intros H N S. apply bind_ok in H as (on&l2&E&H). apply peek_on_back in E as (t&E&->).
  destruct (same t x) eqn:Q.
  - apply bind_ok in H as (t2&l3&B&H). injection H as <- <-. apply same_eq in Q. subst t.
    destruct (take_back _ _ _ _ _ _ E N B S) as (_&S1&C). exists (lx_col l2). auto.
  - injection H as <- <-. rewrite <- (peek_look _ _ _ _ E S). split; auto. apply (peek_sees _ _ _ E), S.
Qed.

Lemma eat_back l x l1 ts : eat x l = POk tt l1 -> sentinel x = false -> sees l1 ts ->
  exists k, sees l ((x, k) :: ts) /\ lx_col l1 = k.
Proof.
  unfold eat. intros H N S. apply bind_ok in H as (a&l0&E0&H). injection E0 as <- <-.
  apply bind_ok in H as (t&l2&E&H). destruct (same t x) eqn:Q; [|discriminate].
  apply bind_ok in H as (t2&l3&B&H). injection H as <-. apply same_eq in Q. subst t.
  destruct (take_back _ _ _ _ _ _ E N B S) as (_&S1&C). exists (lx_col l2). auto.
Qed.

(** [here] and [peek] *)
Lemma look_back {A} l (f : loc -> token -> parser A) a l' :
  (a <- here ;; t <- peek ;; f a t) l = POk a l' ->
  exists t l1, peek l = POk t l1 /\ f (curr_loc l) t l1 = POk a l'.
Proof.
  intros H. apply bind_ok in H as (c&l0&E0&H). injection E0 as <- <-. apply bind_ok in H as (t&l1&E&H). eauto.
Qed.

Lemma many_back {A} (cond : parser bool) (body : parser A) (R : list ptok -> list A -> list ptok -> Prop) :
  (forall l l1 rest, cond l = POk false l1 -> sees l1 rest -> sees l rest /\ R [] [] rest) ->
  (forall l l1 x l2 us xs rest, cond l = POk true l1 -> body l1 = POk x l2 -> sees l2 (us ++ rest) -> R us xs rest ->
     exists cs, sees l (cs ++ us ++ rest) /\ R (cs ++ us) (x :: xs) rest) ->
  forall n l xs l' rest, many_f n cond body l = POk xs l' -> sees l' rest ->
  exists cs, sees l (cs ++ rest) /\ R cs xs rest.
Proof.
  intros H0 H1. induction n as [|n IH]; intros l xs l' rest E S; cbn [many_f] in E.
  - apply bind_ok in E as (b&l1&E1&E). destruct b; [discriminate|]. injection E as <- <-.
    exists []. cbn [app]. eauto.
  - apply bind_ok in E as (b&l1&E1&E). destruct b.
    + apply bind_ok in E as (x&l2&E2&E). apply bind_ok in E as (xs'&l3&E3&E). injection E as <- <-.
      destruct (IH _ _ _ _ E3 S) as (us&S2&R2). destruct (H1 _ _ _ _ _ _ _ E1 E2 S2 R2) as (cs&S3&R3).
      exists (cs ++ us). rewrite <- app_assoc. auto.
    + injection E as <- <-. exists []. cbn [app]. eauto.
Qed.

Lemma same_comma t : same t TComma = is_comma t.
Proof. destruct t; auto. Qed.
Lemma look_next (P : token -> bool) ts : P TEof = false -> P (look ts) = next_is P ts.
Proof. destruct ts as [|(t,k) ts]; auto. Qed.

(** * Fixity declarations *)

Lemma infix_back l i l1 ts : p_infix l = POk i l1 -> sees l1 ts ->
  exists t k, sees l ((t, k) :: ts) /\ operator t i /\ lx_col l1 = k.
Proof.
  unfold p_infix. intros H S. apply look_back in H as (t&l2&E&H).
  assert (G : sentinel t = false -> (exists t2 l3, bump l2 = POk t2 l3 /\ l3 = l1) ->
     exists k, sees l ((t, k) :: ts) /\ lx_col l1 = k).
  { intros N (t2&l3&B&->). destruct (take_back _ _ _ _ _ _ E N B S) as (_&S1&C). eauto. }
  destruct t; try discriminate; apply bind_ok in H as (t2&l3&B&H); injection H as <- <-;
    (destruct G as (k&S1&C); [auto|eauto|]); eexists _, k; (split; [exact S1|]); split; auto.
  - constructor.
  - constructor.
  - destruct promoted; constructor.
Qed.

Lemma operators_back l i l1 is l2 rest n : p_infix l = POk i l1 -> many_f n (bump_on TComma) p_infix l1 = POk is l2 ->
  sees l2 rest -> exists cs, sees l (cs ++ rest) /\ operators cs (i :: is) rest.
Proof.
  intros E1 E2 S.
  destruct (many_back (bump_on TComma) p_infix (fun us xs r => forall t k i, operator t i -> operators ((t, k) :: us) (i :: xs) r))
    with (3 := E2) (4 := S) as (us&S1&R).
  - intros a b r H Sb. apply (bump_on_back _ _ _ _ r) in H as (S2&N); auto. rewrite same_comma, look_next in N by auto.
    split; auto. intros t k j O. constructor; auto.
  - intros a b x c us xs r H Hx Sc R. destruct (infix_back _ _ _ _ Hx Sc) as (t&k&Sb&O&_).
    apply (bump_on_back _ _ _ _ ((t, k) :: us ++ r)) in H as (k'&Sa&_); auto.
    exists [(TComma, k'); (t, k)]. split; auto. intros t0 k0 i0 O0. cbn [app]. constructor; auto.
  - destruct (infix_back _ _ _ _ E1 S1) as (t&k&S0&O&_). exists ((t, k) :: us). split; auto.
Qed.

Lemma assoc_back l a l1 ts : p_assoc l = POk a l1 -> sees l1 ts ->
  exists t k, sees l ((t, k) :: ts) /\ associativity t a.
Proof.
  unfold p_assoc. intros H S. apply look_back in H as (t&l2&E&H).
  destruct t; try discriminate; apply bind_ok in H as (t2&l3&B&H); injection H as <- <-;
    destruct (take_back _ _ _ _ _ _ E eq_refl B S) as (_&S1&_); eexists _, _; (split; [exact S1|constructor]).
Qed.

Lemma prec_back l p l1 ts : p_prec l = POk p l1 -> sees l1 ts ->
  (exists k, sees l ((TLit (LInt p), k) :: ts) /\ (p <= 9)%N) \/ (sees l ts /\ p = 9%N /\ next_is is_affix ts = true).
Proof.
  unfold p_prec. intros H S. apply look_back in H as (t&l2&E&H).
  destruct t; try discriminate.
  - injection H as <- <-. right. pose proof (peek_look _ _ _ _ E S) as L. split; [apply (peek_sees _ _ _ E), S|].
    split; auto. rewrite <- look_next, <- L; auto.
  - destruct l0; try discriminate. apply bind_ok in H as (t2&l3&B&H). destruct (N.leb_spec n 9); [|discriminate].
    injection H as <- <-. destruct (take_back _ _ _ _ _ _ E eq_refl B S) as (_&S1&_). left. eauto.
Qed.

Lemma infix_decl_back l d l1 rest : p_infix_decl l = POk d l1 -> sees l1 rest ->
  exists cs, sees l (cs ++ rest) /\ declares cs d rest.
Proof.
  unfold p_infix_decl, p_fixity. intros H S. apply bind_ok in H as (f&l2&E&H). apply bind_ok in H as (i&l3&E1&H).
  apply bind_ok in H as (is&l4&E2&H). injection H as <- <-.
  apply bind_ok in E as (a&l5&Ea&E). apply bind_ok in E as (p&l6&Ep&E). injection E as <- <-.
  destruct (operators_back _ _ _ _ _ _ _ E1 E2 S) as (os&S1&O).
  destruct (prec_back _ _ _ _ Ep S1) as [(k&S2&Lp)|(S2&->&Na)].
  - destruct (assoc_back _ _ _ _ Ea S2) as (t&k'&S3&A). exists ((t, k') :: (TLit (LInt p), k) :: os).
    split; auto. constructor; auto.
  - destruct (assoc_back _ _ _ _ Ea S2) as (t&k'&S3&A). exists ((t, k') :: os).
    split; auto. constructor; auto. destruct O; auto.
Qed.

(** * Patterns *)

Definition simple (q : pkind) : Prop := q = Plain \/ q = Inner.

(** [p] reads patterns of kind [q]. *)
Definition reads (p : parser pat) (q : pkind) : Prop :=
  forall l x l' rest, p l = POk x l' -> sees l' rest -> exists cs, sees l (cs ++ rest) /\ pats q cs [x] rest.

Lemma commas_back p q : simple q -> reads p q -> forall n l xs l' rest,
  many_f n (bump_on TComma) p l = POk xs l' -> sees l' rest ->
  exists cs, sees l (cs ++ rest) /\ pats (Commas q) cs xs rest.
Proof.
  intros Q P. apply many_back.
  - intros a b r H Sb. apply (bump_on_back _ _ _ _ r) in H as (S2&N); auto. rewrite same_comma, look_next in N by auto.
    split; auto. constructor; auto.
  - intros a b x c us xs r H Hx Sc R. destruct (P _ _ _ _ Hx Sc) as (ts&Sb&D).
    apply (bump_on_back _ _ _ _ (ts ++ us ++ r)) in H as (k'&Sa&_); auto.
    exists ((TComma, k') :: ts). split; auto. cbn [app]. constructor; auto.
Qed.

Lemma juxt_back p : reads p Plain -> forall n l xs l' rest,
  many_f n at_pat p l = POk xs l' -> sees l' rest ->
  exists cs, sees l (cs ++ rest) /\ pats Juxt cs xs rest.
Proof.
  intros P. apply many_back.
  - intros a b r H Sb. unfold at_pat in H. apply bind_ok in H as (t&l1&E&H). injection H as H <-.
    rewrite (peek_look _ _ _ _ E Sb) in H. split; [apply (peek_sees _ _ _ E), Sb|]. constructor.
    destruct r as [|(t1,k) r]; auto.
  - intros a b x c us xs r H Hx Sc R. destruct (P _ _ _ _ Hx Sc) as (ts&Sb&D).
    unfold at_pat in H. apply bind_ok in H as (t&l1&E&H). injection H as _ <-.
    exists ts. split; [apply (peek_sees _ _ _ E), Sb|]. constructor; auto.
Qed.

Lemma look_comma l b l1 ts : peek_on TComma l = POk b l1 -> sees l1 ts -> sees l ts /\ b = next_is is_comma ts.
Proof.
  intros H S. apply peek_on_back in H as (t&E&->). split; [apply (peek_sees _ _ _ E), S|].
  rewrite (peek_look _ _ _ _ E S), same_comma, look_next; auto.
Qed.

Lemma upper_back p s l x l' rest : reads p Plain -> lx_curr l = Some (TUpper s) ->
  upper_pat p s l = POk x l' -> sees l' rest ->
  exists cs, sees l (cs ++ rest) /\ pats Con cs [x] rest /\ next_is is_con cs = true.
Proof.
  intros P C H S. unfold upper_pat in H. apply bind_ok in H as (t&l1&B&H). rewrite (bump_run _ _ C) in B. injection B as _ <-.
  apply bind_ok in H as (args&l2&E&H). apply bind_ok in H as (b&l3&Eb&H). destruct b.
  - unfold collection_tail in H. apply bind_ok in H as (xs&l4&Ec&H). injection H as <- <-.
    destruct (commas_back p Plain (or_introl eq_refl) P _ _ _ _ _ Ec S) as (us&S1&D1).
    destruct (look_comma _ _ _ _ Eb S1) as (S2&N).
    destruct (juxt_back p P _ _ _ _ _ E S2) as (ts&S3&D2). apply (bump_back _ _ _ C eq_refl) in S3.
    eexists ((_, _) :: ts ++ us). split; [cbn [app]; rewrite <- app_assoc; exact S3|]. split; auto.
    constructor; auto. intros ->. inversion D1; subst. cbn [app] in N. congruence.
  - injection H as <- <-. destruct (look_comma _ _ _ _ Eb S) as (S2&N).
    destruct (juxt_back p P _ _ _ _ _ E S2) as (ts&S3&D2). apply (bump_back _ _ _ C eq_refl) in S3.
    eexists ((_, _) :: ts). split; [cbn [app]; exact S3|]. split; auto. constructor; auto.
Qed.

Lemma lower_back p s q l x l' rest : simple q -> reads p Plain -> lx_curr l = Some (TLower s) ->
  lower_pat p s l = POk x l' -> sees l' rest ->
  exists cs, sees l (cs ++ rest) /\ pats q cs [x] rest.
Proof.
  intros Q P C H S. unfold lower_pat in H. apply bind_ok in H as (t&l1&B&H). rewrite (bump_run _ _ C) in B. injection B as _ <-.
  apply bind_ok in H as (b&l2&E&H). destruct b.
  - apply bind_ok in H as (y&l3&Ey&H). injection H as <- <-. destruct (P _ _ _ _ Ey S) as (ts&S1&D).
    apply (bump_on_back _ _ _ _ _ E eq_refl) in S1 as (k'&S1&_). apply (bump_back _ _ _ C eq_refl) in S1.
    eexists ((_, _) :: (_, _) :: ts). split; [exact S1|]. constructor; auto.
  - injection H as <- <-. apply (bump_on_back _ _ _ _ _ E eq_refl) in S as (S1&N). apply (bump_back _ _ _ C eq_refl) in S1.
    eexists [(_, _)]. split; [exact S1|]. constructor; auto. rewrite <- look_next; auto.
Qed.

Lemma brack_back p q : simple q -> reads p Inner -> reads (brack_pat p) q.
Proof.
  intros Q P l x l' rest H S. unfold brack_pat in H. apply bind_ok in H as ([]&l1&E1&H).
  apply bind_ok in H as (b&l2&E2&H). apply bind_ok in H as (y&l3&E3&H). apply bind_ok in H as ([]&l4&E4&H).
  injection H as -> <-. destruct (eat_back _ _ _ _ E4 eq_refl S) as (k'&S4&_). destruct b.
  - injection E3 as <- <-. apply (bump_on_back _ _ _ _ _ E2 eq_refl) in S4 as (k1&S3&_).
    destruct (eat_back _ _ _ _ E1 eq_refl S3) as (k&S1&_). eexists [_; _; _]. split; [exact S1|]. constructor; auto.
  - apply bind_ok in E3 as (f&l5&E5&E3). unfold collection_tail in E3. apply bind_ok in E3 as (xs&l6&E6&E3).
    injection E3 as <- <-.
    destruct (commas_back p Inner (or_intror eq_refl) P _ _ _ _ _ E6 S4) as (us&S5&D1).
    destruct (P _ _ _ _ E5 S5) as (ts&S6&D2).
    apply (bump_on_back _ _ _ _ _ E2 eq_refl) in S6 as (S6&_).
    destruct (eat_back _ _ _ _ E1 eq_refl S6) as (k&S1&_).
    eexists ((_, _) :: ts ++ us ++ [(_, _)]). split; [|apply p_list; eauto].
    cbn [app]. rewrite <- !app_assoc. exact S1.
Qed.

Lemma paren_back p p' q : simple q -> reads p Plain -> reads p' Inner -> reads (paren_pat p p') q.
Proof.
  intros Q P P' l x l' rest H S. unfold paren_pat in H. apply bind_ok in H as ([]&l1&E1&H).
  apply look_back in H as (t&l2&E2&H). apply bind_ok in H as (y&l3&E3&H).
  apply bind_ok in H as (b&l4&E4&H). apply bind_ok in H as (z&l5&E5&H). apply bind_ok in H as ([]&l6&E6&H).
  injection H as -> <-. destruct (eat_back _ _ _ _ E6 eq_refl S) as (k'&S6&_).
  assert (Hd : forall rest, sees l3 rest -> exists cs, sees l1 (cs ++ rest) /\ pats Head cs [y] rest).
  { clear - HU P E2 E3. intros rest S.
    assert (G : forall cs, sees l2 (cs ++ rest) -> sees l1 (cs ++ rest)) by (intros cs; apply (peek_sees _ _ _ E2)).
    assert (G' : p l2 = POk y l3 -> is_con t = false -> t <> TEof -> exists cs, sees l1 (cs ++ rest) /\ pats Head cs [y] rest).
    { intros E N Ne. destruct (P _ _ _ _ E S) as (cs&S1&D). exists cs. split; auto. apply h_pat; auto.
      rewrite (peek_look _ _ _ _ E2 S1) in N. destruct cs as [|(t1,k1) cs]; auto. }
    destruct t; try discriminate; try (apply G'; [exact E3|reflexivity|discriminate]).
    - apply bind_ok in E3 as (t2&l4&B&E3). apply bind_ok in E3 as (w&l5&Ew&E3). injection E3 as <- <-.
      destruct (P _ _ _ _ Ew S) as (ts&S1&D). destruct (take_back _ _ _ _ _ _ E2 eq_refl B S1) as (_&S2&_).
      eexists ((_, _) :: ts). split; [exact S2|]. constructor. auto.
    - destruct (upper_back p s l2 y l3 rest P) as (cs&S1&D&_); auto. { eapply peek_curr; eauto; discriminate. }
      exists cs. split; auto. apply h_con, D.
    - apply bind_ok in E3 as (t2&l4&B&E3). injection E3 as <- <-.
      destruct (take_back _ _ _ _ _ _ E2 eq_refl B S) as (_&S2&_). eexists [_]. split; [exact S2|]. constructor. }
  destruct b.
  - unfold collection_tail in E5. apply bind_ok in E5 as (xs&l7&E7&E5). injection E5 as <- <-.
    destruct (commas_back p' Inner (or_intror eq_refl) P' _ _ _ _ _ E7 S6) as (us&S7&D1).
    destruct (look_comma _ _ _ _ E4 S7) as (S4&N). destruct (Hd _ S4) as (ts&S2&D2).
    destruct (eat_back _ _ _ _ E1 eq_refl S2) as (k&S1&_).
    eexists ((_, _) :: ts ++ us ++ [(_, _)]). split; [|eapply p_tuple; eauto].
    + cbn [app]. rewrite <- !app_assoc. exact S1.
    + intros ->. discriminate N.
  - injection E5 as <- <-. destruct (look_comma _ _ _ _ E4 S6) as (S4&N). destruct (Hd _ S4) as (ts&S2&D2).
    destruct (eat_back _ _ _ _ E1 eq_refl S2) as (k&S1&_).
    eexists ((_, _) :: ts ++ [(_, _)]). split; [|eapply p_group; eauto].
    cbn [app]. rewrite <- app_assoc. exact S1.
Qed.

Definition kind_of (inner : bool) : pkind := if inner then Inner else Plain.

Lemma pat_back : forall n b, reads (pat_f n b) (kind_of b).
Proof.
  induction n as [|n IH]; intros b l x l' rest H S; cbn [pat_f] in H; [discriminate|].
  assert (Q : simple (kind_of b)) by (destruct b; [right|left]; auto).
  pose proof (IH false) as P. pose proof (IH true) as P'. cbn [kind_of] in P, P'.
  apply look_back in H as (t&l1&E&H).
  assert (G : forall cs, sees l1 (cs ++ rest) -> sees l (cs ++ rest)) by (intros cs; apply (peek_sees _ _ _ E)).
  destruct t; try discriminate.
  - destruct (paren_back _ _ _ Q P P' _ _ _ _ H S) as (cs&S1&D). eauto.
  - destruct (brack_back _ _ Q P' _ _ _ _ H S) as (cs&S1&D). eauto.
  - apply bind_ok in H as (t2&l3&B&H). injection H as <- <-. destruct (take_back _ _ _ _ _ _ E eq_refl B S) as (_&S2&_).
    eexists [_]. split; [exact S2|]. constructor. auto.
  - destruct b; [|discriminate]. apply bind_ok in H as (t2&l3&B&H). destruct (P _ _ _ _ H S) as (cs&S1&D).
    destruct (take_back _ _ _ _ _ _ E eq_refl B S1) as (_&S2&_). eexists ((_, _) :: cs). split; [exact S2|].
    apply p_minus, D.
  - destruct b.
    + destruct (upper_back _ s l1 x l' rest P) as (cs&S1&D&_); auto. { eapply peek_curr; eauto; discriminate. }
      exists cs. split; auto. apply p_inner_con, D.
    + apply bind_ok in H as (t2&l3&B&H). injection H as <- <-. destruct (take_back _ _ _ _ _ _ E eq_refl B S) as (_&S2&_).
      eexists [_]. split; [exact S2|]. constructor.
  - destruct (lower_back _ s (kind_of b) l1 x l' rest Q P) as (cs&S1&D); auto. { eapply peek_curr; eauto; discriminate. }
    eauto.
  - destruct b; [|discriminate]. apply bind_ok in H as (t2&l3&B&H). injection H as <- <-.
    destruct (take_back _ _ _ _ _ _ E eq_refl B S) as (_&S2&_). eexists [_]. split; [exact S2|]. apply p_lit.
Qed.

Lemma pattern_back : reads pattern Plain.
Proof. intros l x l' rest. unfold pattern. apply (pat_back _ false). Qed.

End WithUcd.
