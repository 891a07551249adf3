(** What may follow a phrase of the grammar, and how a phrase can be completed. *)
From Coq Require Import List Arith NArith Bool String Lia.
From Verif Require Import Prelim Chars Syntax SpecParser.
Import ListNotations.

(** * One token of lookahead *)

Lemma next_hd P (r r' : list ptok) : hd_error r = hd_error r' -> next_is P r = next_is P r'.
Proof. destruct r, r'; cbn; try discriminate; auto. intros E. injection E as ->. auto. Qed.

Lemma hd_app (us r r' : list ptok) : hd_error r = hd_error r' -> hd_error (us ++ r) = hd_error (us ++ r').
Proof. destruct us; auto. Qed.

Lemma hd_app_ne (us r r' : list ptok) : us <> [] -> hd_error (us ++ r) = hd_error (us ++ r').
Proof. destruct us; [congruence|auto]. Qed.

Lemma pats_hd q ts ps r : pats q ts ps r -> forall r', hd_error r = hd_error r' -> pats q ts ps r'.
Proof.
  induction 1; intros r' E;
    try (econstructor; eauto; try (erewrite <- next_hd; eauto; fail); try (apply IHpats; auto; fail);
         try (apply IHpats1; try apply hd_app; auto; fail); try (apply IHpats2; auto; fail); fail).
Qed.

Lemma operators_next ts is r : operators ts is r -> forall r', next_is is_comma r' = false -> operators ts is r'.
Proof. induction 1; intros r' E; constructor; auto. Qed.

Lemma declares_next ts d r : declares ts d r -> forall r', next_is is_comma r' = false -> declares ts d r'.
Proof. destruct 1; intros r' E; constructor; auto; eapply operators_next; eauto. Qed.

Lemma operators_hd ts is r : operators ts is r -> forall r', hd_error r = hd_error r' -> operators ts is r'.
Proof. induction 1; intros r' E; constructor; auto. rewrite <- (next_hd _ _ _ E). auto. Qed.
Lemma declares_hd ts d r : declares ts d r -> forall r', hd_error r = hd_error r' -> declares ts d r'.
Proof. destruct 1; intros r' E; constructor; auto; eapply operators_hd; eauto. Qed.

(** Nothing, or a closing bracket: ends every phrase of expressions that can end. *)
Definition ends (r : list ptok) : Prop :=
  match r with [] => True | (t, _) :: _ => t = TParenR \/ t = TBrackR end.

Lemma ends_next P r : ends r -> P TParenR = false -> P TBrackR = false -> next_is P r = false.
Proof. destruct r as [|(t,k) r]; cbn; auto. intros [->| ->]; auto. Qed.

Lemma ends_no_arg c r : ends r -> no_arg Nat.ltb c r.
Proof. destruct r as [|(t,k) r]; cbn; auto. intros [->| ->]; auto. Qed.

Lemma no_arg_hd c r r' : hd_error r = hd_error r' -> no_arg Nat.ltb c r -> no_arg Nat.ltb c r'.
Proof. destruct r, r'; cbn; try discriminate; auto. intros E. injection E as ->. auto. Qed.

(** [r'] may stand for [r] after a phrase of kind [q]. *)
Definition instead (q : ekind) (r r' : list ptok) : Prop :=
  hd_error r = hd_error r' \/ q <> KItems /\ ends r'.

Lemma instead_next q P r r' : instead q r r' -> P TParenR = false -> P TBrackR = false ->
  next_is P r = false -> next_is P r' = false.
Proof. intros [E|(_&E)] H1 H2 N; [rewrite <- (next_hd _ _ _ E); auto|apply ends_next; auto]. Qed.

Lemma instead_app q q' us r r' : instead q r r' -> q' <> KItems -> instead q' (us ++ r) (us ++ r').
Proof.
  intros H Q. destruct us as [|u us]; [|left; auto]. destruct H as [H|(_&H)]; [left; auto|right; auto].
Qed.

Lemma same_head {u : ptok} {us r r'} q : instead q (u :: us ++ r) (u :: us ++ r').
Proof. left. auto. Qed.

Lemma exprs_instead q ts es r : exprs Nat.ltb q ts es r -> forall r', instead q r r' -> exprs Nat.ltb q ts es r'.
Proof.
  induction 1; intros r' E; try (constructor; auto; fail).
  - (* e_one *) constructor; [apply IHexprs; destruct E as [E|(_&E)]; [left; auto|right; split; [discriminate|auto]]|eapply instead_next; eauto].
  - (* e_bin *) eapply e_bin; eauto; [apply IHexprs1; left; auto|]. apply IHexprs2. destruct E as [E|(_&E)]; [left; auto|right; split; [discriminate|auto]].
  - (* e_app *) eapply e_app; [apply IHexprs1; eapply instead_app; eauto; discriminate|].
    apply IHexprs2. destruct E as [E|(_&E)]; [left; auto|right; split; [discriminate|auto]].
  - (* a_nil *) constructor. destruct E as [E|(_&E)]; [eapply no_arg_hd; eauto|apply ends_no_arg; auto].
  - (* a_cons *) eapply a_cons; eauto; [apply IHexprs1; eapply instead_app; eauto; discriminate|].
    apply IHexprs2. destruct E as [E|(_&E)]; [left; auto|right; split; [discriminate|auto]].
  - (* t_lam *) eapply t_lam; [eapply pats_hd; eauto|]. apply IHexprs. destruct E as [E|(_&E)]; [left; auto|right; split; [discriminate|auto]].
  - (* t_group *) apply t_group. apply IHexprs. left. auto.
  - (* t_tuple *) apply t_tuple; auto; [apply IHexprs1; left; destruct us; auto|apply IHexprs2; left; auto].
  - (* t_list *) apply t_list. apply IHexprs. left. auto.
  - (* t_let *) eapply t_let; [eapply declares_hd; eauto|]. apply IHexprs. destruct E as [E|(_&E)]; [left; auto|right; split; [discriminate|auto]].
  - (* tl_nil *) constructor. eapply instead_next; eauto.
  - (* tl_cons *) constructor; [apply IHexprs1; eapply instead_app; eauto; discriminate|auto].
  - (* i_nil *) destruct E as [E|(E&_)]; [|congruence]. destruct r' as [|x r']; [discriminate|]. injection E as <-. constructor.
  - (* i_comma *) destruct E as [E|(E&_)]; [|congruence]. apply i_comma; [apply IHexprs1; left; auto|apply IHexprs2; left; auto].
  - (* i_plain *) destruct E as [E|(E&_)]; [|congruence]. apply i_plain.
    + apply IHexprs1. left. apply hd_app; auto.
    + rewrite <- (next_hd is_comma (us ++ r)); auto. apply hd_app; auto.
    + apply IHexprs2. left. auto.
Qed.

Lemma exprs_ends q ts es r r' : exprs Nat.ltb q ts es r -> q <> KItems -> ends r' -> exprs Nat.ltb q ts es r'.
Proof. intros D Q E. eapply exprs_instead; eauto. right. auto. Qed.
Lemma exprs_hd q ts es r r' : exprs Nat.ltb q ts es r -> hd_error r = hd_error r' -> exprs Nat.ltb q ts es r'.
Proof. intros D E. eapply exprs_instead; eauto. left. auto. Qed.

(** * Completions *)

(** The tokens used to complete a phrase. *)
Definition vocabulary : list token :=
  [TUnderscore; TLit (LInt 1); TAffix (lit "+") false; TParenR; TBrackR; TArrow; TIn; TComma; TInfixL].
Definition vocab (cs : list token) : Prop := Forall (fun t => In t vocabulary) cs.

Lemma vocab_app a b : vocab a -> vocab b -> vocab (a ++ b).
Proof. intros A B. apply Forall_app. auto. Qed.
Lemma vocab_all cs : forallb (fun t => existsb (fun u => match t, u with
    | TUnderscore, TUnderscore | TParenR, TParenR | TBrackR, TBrackR | TArrow, TArrow | TIn, TIn | TComma, TComma
    | TInfixL, TInfixL => true
    | _, _ => false end) vocabulary) cs = true -> vocab cs.
Proof.
  intros H. apply Forall_forall. intros t I. rewrite forallb_forall in H. apply H in I.
  apply existsb_exists in I as (u&I&E). destruct t, u; try discriminate E; auto.
Qed.

(** [open D F pre]: there are tokens to complete [pre], in whatever columns, to
    a phrase as described by [D], followed by anything that satisfies [F]. *)
Definition open {X} (D : list ptok -> X -> list ptok -> Prop) (F : list ptok -> Prop) (pre : list ptok) : Prop :=
  exists cs x, vocab cs /\ forall c r, map fst c = cs -> F r -> D (pre ++ c) x r.

Definition after_pat (r : list ptok) : Prop := next_is is_at r = false.
Definition after_inner (r : list ptok) : Prop := next_is is_at r = false /\ next_is is_comma r = false.
Definition after_juxt (r : list ptok) : Prop := next_is is_at r = false /\ next_is pat_start r = false.

Definition apat (q : pkind) (ts : list ptok) (p : pat) (r : list ptok) : Prop := pats q ts [p] r.

Lemma plain_after ts ps r : pats Plain ts ps r -> forall r', after_pat r' -> pats Plain ts ps r'.
Proof.
  intros P. remember Plain as q eqn:Q. induction P; intros r' E; try discriminate Q; try (constructor; auto; fail).
  - apply p_group; auto. eapply pats_hd; eauto.
  - apply p_tuple; auto; eapply pats_hd; eauto. destruct us; auto.
  - apply p_list; auto; eapply pats_hd; eauto. destruct us; auto.
Qed.

Lemma juxt_after ts ps r : pats Juxt ts ps r -> forall r', after_juxt r' -> pats Juxt ts ps r'.
Proof.
  intros P. remember Juxt as q eqn:Q. induction P; intros r' E; try discriminate Q; try (destruct H; congruence).
  - constructor. apply E.
  - constructor; auto. destruct us as [|u us].
    + eapply plain_after; eauto. apply E.
    + eapply pats_hd; eauto.
Qed.

Lemma app_nil_map (c : list ptok) : map fst c = [] -> c = [].
Proof. destruct c; auto; discriminate. Qed.

Lemma map_two (c : list ptok) a b : map fst c = a ++ b -> exists c1 c2, c = c1 ++ c2 /\ map fst c1 = a /\ map fst c2 = b.
Proof. intros E. apply map_eq_app in E as (c1&c2&->&E1&E2). eauto. Qed.

Lemma map_one (c : list ptok) t : map fst c = [t] -> exists k, c = [(t, k)].
Proof. destruct c as [|(t',k) [|]]; try discriminate. intros E. injection E as ->. eauto. Qed.
Lemma map_cons (c : list ptok) t b : map fst c = t :: b -> exists k c', c = (t, k) :: c' /\ map fst c' = b.
Proof. destruct c as [|(t',k) c]; try discriminate. intros E. injection E as -> E. eauto. Qed.

(** A constructor pattern can always go on as a tuple; the others are complete. *)
Lemma pats_open q ts ps r : pats q ts ps r ->
  match q with
  | Plain | Juxt => True
  | Commas q' => q' = Plain \/ q' = Inner -> open (pats (Commas q')) after_inner ts
  | _ => open (apat q) after_inner ts
  end.
Proof.
  induction 1 as
   [q k r Q|q s k r Q N|q s k k' ts p r Q P IH|s k r|ts p r P IH|x k r|k ts p r P IH|q k k' ts p r Q P IH
   |q k k' ts p us ps r Q P IH P' IH' Nu|q k k1 k2 r Q|q k k' ts p us ps r Q P IH P' IH'
   |s b k r|k ts p r P IH|ts p r P IH|ts p r P IH N|s k ts ps r P IH N|s k ts ps us qs r P IH P' IH' Nu
   |r N|ts p us ps r P IH P' IH'|q r N|q k ts p us ps r Q P IH P' IH'].
  all: try (destruct Q as [->| ->]; [exact I|]).
  - exists [], PWild. split; [constructor|]. intros c r' E _. rewrite (app_nil_map _ E), app_nil_r. constructor. auto.
  - exists [], (PVar s). split; [constructor|]. intros c r' E F. rewrite (app_nil_map _ E), app_nil_r. constructor; auto. apply F.
  - exists [], (PAs s p). split; [constructor|]. intros c r' E F. rewrite (app_nil_map _ E), app_nil_r. apply p_as; auto.
    eapply plain_after; eauto. apply F.
  - exact I.
  - destruct IH as (cs&x&V&IH). exists cs, x. split; auto. intros c r' E F. apply p_inner_con. apply IH; auto.
  - exists [], (PLit x). split; [constructor|]. intros c r' E _. rewrite (app_nil_map _ E), app_nil_r. apply p_lit.
  - exists [], p. split; [constructor|]. intros c r' E F. rewrite (app_nil_map _ E), app_nil_r. apply p_minus.
    eapply plain_after; eauto. apply F.
  - exists [], p. split; [constructor|]. intros c r' E F. rewrite (app_nil_map _ E), app_nil_r. apply p_group; auto. eapply pats_hd; eauto.
  - exists [], (PTup (p :: ps)). split; [constructor|]. intros c r' E F. rewrite (app_nil_map _ E), app_nil_r.
    apply p_tuple; auto; eapply pats_hd; eauto. destruct us; auto.
  - exists [], (PArr []). split; [constructor|]. intros c r' E F. rewrite (app_nil_map _ E), app_nil_r. apply p_empty. auto.
  - exists [], (PArr (p :: ps)). split; [constructor|]. intros c r' E F. rewrite (app_nil_map _ E), app_nil_r.
    apply p_list; auto; eapply pats_hd; eauto. destruct us; auto.
  - exists [], (PVar s). split; [constructor|]. intros c r' E F. rewrite (app_nil_map _ E), app_nil_r. apply h_op.
  - exists [], (PNeg p). split; [constructor|]. intros c r' E F. rewrite (app_nil_map _ E), app_nil_r. apply h_neg.
    eapply plain_after; eauto. apply F.
  - destruct IH as (cs&x&V&IH). exists cs, x. split; auto. intros c r' E F. apply h_con. apply IH; auto.
  - exists [], p. split; [constructor|]. intros c r' E F. rewrite (app_nil_map _ E), app_nil_r. apply h_pat; auto.
    eapply plain_after; eauto. apply F.
  - exists [TComma; TUnderscore], (PTup (PCon s ps :: [PWild])). split; [apply vocab_all; auto|]. intros c r' E F.
    apply map_cons in E as (k1&c'&->&E). apply map_one in E as (k2&->). cbn [app].
    apply c_tuple; [eapply juxt_after; eauto; split; auto| |discriminate].
    apply (cs_cons Plain k1 [(TUnderscore, k2)] PWild [] []); auto; [apply p_wild; auto|constructor; apply F].
  - destruct IH' as (cs&x&V&IH'); auto. exists cs, (PTup (PCon s ps :: x)). split; auto. intros c r' E F. cbn [app].
    unfold apat. rewrite <- app_assoc. apply c_tuple; auto.
    + rewrite <- app_assoc. eapply pats_hd; eauto. apply hd_app_ne; auto.
    + destruct us; [congruence|discriminate].
  - exact I.
  - exact I.
  - intros Q. exists [], []. split; [constructor|]. intros c r' E F. rewrite (app_nil_map _ E). constructor. apply F.
  - intros Q'. destruct us as [|u us].
    + assert (X : open (apat q) after_inner ts).
      { destruct Q as [->| ->]; auto. exists [], p. split; [constructor|]. intros c r' E F. rewrite (app_nil_map _ E), app_nil_r.
        eapply plain_after; eauto. apply F. }
      destruct X as (cs&x&V&X). exists cs, [x]. split; auto. intros c r' E F. cbn [app]. rewrite app_nil_r.
      rewrite <- (app_nil_r (ts ++ c)). apply (cs_cons q k (ts ++ c) x [] []); [auto|apply X; auto|constructor; apply F].
    + destruct (IH' Q') as (cs&x&V&X). exists cs, (p :: x). split; auto. intros c r' E F. cbn [app].
      rewrite <- app_assoc. apply cs_cons; [auto|eapply pats_hd; eauto|apply X; auto].
Qed.
