(** Where the parser fails, what it has read can be completed. *)
From Coq Require Import List Arith NArith Bool String Lia.
From Verif Require Import Prelim Chars Syntax Lexer SpecLexer SpecLexRun Parser SpecParser.
From Verif Require Import ProofLexer ProofLexer7 ProofParser ProofParser3 ProofParser4 ProofParser12.
Import ListNotations.

Lemma vocab_next P (c r : list ptok) : vocab (map fst c) -> forallb (fun t => negb (P t)) vocabulary = true ->
  next_is P r = false -> next_is P (c ++ r) = false.
Proof.
  intros V A N. destruct c as [|(t,k) c]; auto. cbn. inversion V as [|? ? I]; subst. rewrite forallb_forall in A.
  apply A in I. cbn [fst] in I. destruct (P t); auto; discriminate.
Qed.

Section WithUcd.
Context {U : ucd}.
Context (HU : letters U).

Notation exprs := (exprs Nat.ltb).
Notation decl_of := (decl_of Nat.ltb).
Notation program := (program Nat.ltb).

(** * Failing runs, read backwards *)

Lemma bind_err {A B} (m : parser A) (f : A -> parser B) l e l' : bind m f l = PErr e l' ->
  m l = PErr e l' \/ exists a l1, m l = POk a l1 /\ f a l1 = PErr e l'.
Proof. unfold bind. destruct (m l); try discriminate; intros X; [right; eauto|left; injection X as <- <-; auto]. Qed.

Lemma peek_err l e l' : peek l = PErr e l' -> False.
Proof. unfold peek. destruct (lx_peek l) as [[[]]| |]; discriminate. Qed.

Lemma bump_err l e l' : bump l = PErr e l' -> False.
Proof. unfold bump. destruct (lx_bump l). discriminate. Qed.

Lemma peek_on_err x l e l' : peek_on x l = PErr e l' -> False.
Proof. unfold peek_on. intros H. apply bind_err in H as [H|(t&l1&_&H)]; [eapply peek_err; eauto|discriminate]. Qed.

Lemma bump_on_err x l e l' : bump_on x l = PErr e l' -> False.
Proof.
  unfold bump_on. intros H. apply bind_err in H as [H|(b&l1&_&H)]; [eapply peek_on_err; eauto|].
  destruct b; [|discriminate]. apply bind_err in H as [H|(t&l2&_&H)]; [eapply bump_err; eauto|discriminate].
Qed.

Lemma look_err {A} (f : loc -> token -> parser A) l e l' : (a <- here ;; t <- peek ;; f a t) l = PErr e l' ->
  exists t l1, peek l = POk t l1 /\ f (curr_loc l) t l1 = PErr e l'.
Proof.
  intros H. apply bind_err in H as [H|(c&l0&E0&H)]; [discriminate|]. injection E0 as <- <-.
  apply bind_err in H as [H|(t&l1&E&H)]; [destruct (peek_err _ _ _ H)|eauto].
Qed.

Lemma took_err {A} (m : parser A) l e l' : (bump ;;; m) l = PErr e l' ->
  exists t l1, bump l = POk t l1 /\ m l1 = PErr e l'.
Proof. intros H. apply bind_err in H as [H|(t&l1&E&H)]; [destruct (bump_err _ _ _ H)|eauto]. Qed.

Lemma eat_err x l e l' r : eat x l = PErr e l' -> sees l' r -> sees l r.
Proof.
  unfold eat. intros H S. apply look_err in H as (t&l1&E&H). destruct (same t x).
  - apply took_err in H as (t2&l2&_&H). discriminate.
  - injection H as _ <-. apply (peek_sees HU _ _ _ E), S.
Qed.

Lemma many_fail {A} (cond : parser bool) (body : parser A) (R : list ptok -> list ptok -> Prop) :
  (forall l e l1, cond l = PErr e l1 -> False) ->
  (forall l l1 e l2 rest, cond l = POk true l1 -> body l1 = PErr e l2 -> sees l2 rest ->
     exists pre, sees l (pre ++ rest) /\ R pre rest) ->
  (forall l l1 x l2 us rest, cond l = POk true l1 -> body l1 = POk x l2 -> sees l2 (us ++ rest) -> R us rest ->
     exists cs, sees l (cs ++ us ++ rest) /\ R (cs ++ us) rest) ->
  forall n l e l' rest, many_f n cond body l = PErr e l' -> sees l' rest ->
  exists pre, sees l (pre ++ rest) /\ R pre rest.
Proof.
  intros H0 H1 H2. induction n as [|n IH]; intros l e l' rest E S; cbn [many_f] in E;
    (apply bind_err in E as [E|(b&l1&E1&E)]; [destruct (H0 _ _ _ E)|]); (destruct b; [|discriminate]); [discriminate|].
  apply bind_err in E as [E|(x&l2&E2&E)]; [eauto|]. apply bind_err in E as [E|(xs&l3&E3&E)]; [|discriminate].
  destruct (IH _ _ _ _ E S) as (us&S2&R2). destruct (H2 _ _ _ _ _ _ E1 E2 S2 R2) as (cs&S3&R3).
  exists (cs ++ us). rewrite <- app_assoc. auto.
Qed.

(** * Fixity declarations *)

Lemma infix_fail l e l' rest : p_infix l = PErr e l' -> sees l' rest -> sees l rest.
Proof. intros H S. apply (infix_fails HU _ _ _ _ H S). Qed.

Definition plus (k : nat) : ptok := (TAffix (lit "+") false, k).
Lemma operator_plus : operator (TAffix (lit "+") false) (Standard (lit "+")).
Proof. constructor. Qed.
Lemma vocab_in t : In t vocabulary -> vocab [t].
Proof. intros I. constructor; auto. Qed.
Lemma vocab_plus : vocab [TAffix (lit "+") false].
Proof. apply vocab_in. cbv [vocabulary In]. tauto. Qed.
Lemma vocab_one : vocab [TLit (LInt 1)].
Proof. apply vocab_in. cbv [vocabulary In]. tauto. Qed.
Lemma vocab_wild : vocab [TUnderscore].
Proof. apply vocab_all. auto. Qed.
Lemma vocab_paren : vocab [TParenR].
Proof. apply vocab_all. auto. Qed.
Lemma vocab_brack : vocab [TBrackR].
Proof. apply vocab_all. auto. Qed.

Lemma infix_decl_fail l e l' rest : p_infix_decl l = PErr e l' -> sees l' rest ->
  exists pre, sees l (pre ++ rest) /\ open declares (fun r => next_is is_comma r = false) pre.
Proof.
  unfold p_infix_decl, p_fixity. intros H S.
  assert (O1 : forall k r, next_is is_comma r = false -> operators [plus k] [Standard (lit "+")] r)
    by (intros; constructor; auto; apply operator_plus).
  apply bind_err in H as [H|(f&l1&Ef&H)].
  { apply bind_err in H as [H|(a&l2&Ea&H)].
    - exists []. split.
      { unfold p_assoc in H. apply look_err in H as (t&l1&E&H).
        destruct t; try (injection H as _ <-; apply (peek_sees HU _ _ _ E), S);
          apply took_err in H as (?&?&_&H); discriminate. }
      eexists [TInfixL; TAffix (lit "+") false], _. split.
      { apply (vocab_app [_] [_]); [apply vocab_all; auto|apply vocab_plus]. }
      intros c r E F. apply map_cons in E as (k1&c'&->&E). apply map_one in E as (k2&->). cbn [app].
      eapply de_default; [constructor|reflexivity|apply O1; auto].
    - apply bind_err in H as [H|(p&l3&_&H)]; [|discriminate].
      assert (S2 : sees l2 rest).
      { unfold p_prec in H. apply look_err in H as (t&l3&E&H).
        destruct t; try discriminate; try (injection H as _ <-; apply (peek_sees HU _ _ _ E), S).
        destruct l0; try (injection H as _ <-; apply (peek_sees HU _ _ _ E), S).
        apply took_err in H as (?&?&_&H). destruct (N.leb n 9); discriminate. }
      destruct (assoc_back HU _ _ _ _ Ea S2) as (t&k&S3&A). exists [(t, k)]. split; auto.
      eexists [TAffix (lit "+") false], _. split; [apply vocab_plus|].
      intros c r E F. apply map_one in E as (k2&->). cbn [app].
      eapply de_default; [exact A|reflexivity|apply O1; auto]. }
  apply bind_ok in Ef as (a&l5&Ea&Ef). apply bind_ok in Ef as (p&l6&Ep&Ef). injection Ef as <- <-.
  assert (G : forall us, sees l6 (us ++ rest) -> open operators (fun r => next_is is_comma r = false) us -> exists pre, sees l (pre ++ rest) /\ open declares (fun r => next_is is_comma r = false) pre).
  { intros us S6 (cs&is&V&O). destruct (prec_back HU _ _ _ _ Ep S6) as [(k&S2&Lp)|(S2&->&Na)].
    - destruct (assoc_back HU _ _ _ _ Ea S2) as (t&k'&S3&A). exists ((t, k') :: (TLit (LInt p), k) :: us).
      split; auto. exists cs. eexists. split; auto. intros c r E F. cbn [app]. eapply de_prec; [exact A|exact Lp|apply O; auto].
    - destruct (assoc_back HU _ _ _ _ Ea S2) as (t&k'&S3&A). destruct us as [|u us].
      + exists [(t, k')]. split; auto. eexists [TAffix (lit "+") false], _. split; [apply vocab_plus|].
        intros c r E F. apply map_one in E as (k2&->). cbn [app].
        eapply de_default; [exact A|reflexivity|apply O1; auto].
      + exists ((t, k') :: u :: us). split; auto. exists cs. eexists. split; auto. intros c r E F. cbn [app].
        eapply de_default; [exact A| |apply O; auto]. destruct u; auto. }
  apply bind_err in H as [H|(i&l7&Ei&H)].
  - apply (G []); [eapply infix_fail; eauto|]. eexists [TAffix (lit "+") false], _. split; [apply vocab_plus|].
    intros c r E F. apply map_one in E as (k2&->). cbn [app]. apply O1; auto.
  - apply bind_err in H as [H|(is&l8&_&H)]; [|discriminate].
    destruct (many_fail (bump_on TComma) p_infix (fun us _ => exists cs xs, vocab cs /\ forall c r t k i, map fst c = cs ->
        next_is is_comma r = false -> operator t i -> operators ((t, k) :: us ++ c) (i :: xs) r))
      with (4 := H) (5 := S) as (us&S1&cs&xs&V&R).
    + apply bump_on_err.
    + intros l0 l1 e0 l2 r E1 E2 S2. apply (infix_fail _ _ _ _ E2) in S2.
      apply (bump_on_back HU _ _ _ _ r) in E1 as (k'&Sa&_); auto. exists [(TComma, k')]. split; auto.
      eexists [TAffix (lit "+") false], _. split; [apply vocab_plus|]. intros c r' t k i' E F O.
      apply map_one in E as (k2&->). cbn [app]. apply os_cons; [exact O|apply O1; auto].
    + intros l0 l1 x l2 us r E1 E2 S2 (cs&xs&V&R). destruct (infix_back HU _ _ _ _ E2 S2) as (t&k&Sb&O&_).
      apply (bump_on_back HU _ _ _ _ ((t, k) :: us ++ r)) in E1 as (k'&Sa&_); auto.
      exists [(TComma, k'); (t, k)]. split; auto. exists cs, (x :: xs). split; auto.
      intros c r' t0 k0 i0 E F O0. cbn [app]. constructor; auto.
    + destruct (infix_back HU _ _ _ _ Ei S1) as (t&k&S0&O&_). apply (G ((t, k) :: us)); auto.
      exists cs, (i :: xs). split; auto. intros c r E F. cbn [app]. apply R; auto.
Qed.

(** * Patterns *)

Definition follows (q : pkind) (r : list ptok) : Prop :=
  match q with Plain => after_pat r | Juxt => after_juxt r | _ => after_inner r end.

Lemma inner_follows q r : simple q -> after_inner r -> follows q r.
Proof. intros [->| ->] A; cbn [follows]; auto. apply A. Qed.

(** If [p] fails, what it read can be completed to a pattern of kind [q]. *)
Definition pfails (p : parser pat) (q : pkind) : Prop :=
  forall l e l' rest, p l = PErr e l' -> sees l' rest ->
  exists pre, sees l (pre ++ rest) /\ open (apat q) (follows q) pre.

Lemma open_wild q : simple q -> open (apat q) (follows q) [].
Proof.
  intros Q. exists [TUnderscore], PWild. split; [apply vocab_wild|]. intros c r E F. apply map_one in E as (k&->).
  apply p_wild. auto.
Qed.

(** Patterns after commas: at least one comma was read. *)
Lemma commas_fail p q : simple q -> reads p q -> pfails p q -> forall n l e l' rest,
  many_f n (bump_on TComma) p l = PErr e l' -> sees l' rest ->
  exists pre, sees l (pre ++ rest) /\ open (pats (Commas q)) after_inner pre /\ next_is is_comma pre = true.
Proof.
  intros Q P F. apply (many_fail (bump_on TComma) p (fun us _ => open (pats (Commas q)) after_inner us /\ next_is is_comma us = true)).
  - apply bump_on_err.
  - intros l l1 e l2 rest E1 E2 S2. destruct (F _ _ _ _ E2 S2) as (pre&S1&cs&x&V&O).
    apply (bump_on_back HU _ _ _ _ (pre ++ rest)) in E1 as (k&Sa&_); auto.
    exists ((TComma, k) :: pre). split; auto. split; auto. exists cs, [x]. split; auto. intros c r E A. cbn [app].
    rewrite <- (app_nil_r (pre ++ c)). apply cs_cons; [auto|apply O; auto; apply inner_follows; auto|constructor; apply A].
  - intros l l1 x l2 us rest E1 E2 S2 ((cs&xs&V&O)&Nu). destruct (P _ _ _ _ E2 S2) as (ts&Sb&D).
    apply (bump_on_back HU _ _ _ _ (ts ++ us ++ rest)) in E1 as (k&Sa&_); auto.
    exists ((TComma, k) :: ts). split; auto. split; auto. exists cs, (x :: xs). split; auto. intros c r E A.
    cbn [app]. rewrite <- app_assoc. apply cs_cons; auto.
    eapply pats_hd; [exact D|]. rewrite <- app_assoc. destruct us; [discriminate|auto].
Qed.

(** Patterns one after the other. *)
Lemma juxt_one ts p r : pats Plain ts [p] r -> after_juxt r -> pats Juxt ts [p] r.
Proof. intros D A. rewrite <- (app_nil_r ts). apply j_cons; auto. constructor. apply A. Qed.

(** A pattern before others that are to be completed. *)
Lemma juxt_then ts p us r : pats Plain ts [p] (us ++ r) -> open (pats Juxt) after_juxt us ->
  open (pats Juxt) after_juxt (ts ++ us).
Proof.
  intros D (cs&xs&V&O). exists cs, (p :: xs). split; auto. intros c r' E A. rewrite <- app_assoc. apply j_cons; auto.
  rewrite <- app_assoc. destruct us as [|u us]; [|eapply pats_hd; eauto].
  eapply plain_after; [exact D|]. cbn [app]. apply vocab_next; [rewrite E; auto|reflexivity|apply A].
Qed.

Lemma juxt_fail p : reads p Plain -> pfails p Plain -> forall n l e l' rest,
  many_f n at_pat p l = PErr e l' -> sees l' rest ->
  exists pre, sees l (pre ++ rest) /\ open (pats Juxt) after_juxt pre.
Proof.
  intros P F. apply (many_fail at_pat p (fun us _ => open (pats Juxt) after_juxt us)).
  - unfold at_pat. intros l e l1 H. apply bind_err in H as [H|(t&l2&_&H)]; [eapply peek_err; eauto|discriminate].
  - intros l l1 e l2 rest E1 E2 S2. destruct (F _ _ _ _ E2 S2) as (pre&S1&cs&x&V&O).
    unfold at_pat in E1. apply bind_ok in E1 as (t&l3&E1&X). injection X as _ <-.
    exists pre. split; [apply (peek_sees HU _ _ _ E1), S1|]. exists cs, [x]. split; auto.
    intros c r E A. apply juxt_one; auto. apply O; auto. apply A.
  - intros l l1 x l2 us rest E1 E2 S2 R. destruct (P _ _ _ _ E2 S2) as (ts&Sb&D).
    unfold at_pat in E1. apply bind_ok in E1 as (t&l3&E1&X). injection X as _ <-.
    exists ts. split; [apply (peek_sees HU _ _ _ E1), Sb|]. eapply juxt_then; eauto.
Qed.

Lemma upper_fail p s l e l' rest : reads p Plain -> pfails p Plain -> lx_curr l = Some (TUpper s) ->
  upper_pat p s l = PErr e l' -> sees l' rest ->
  exists pre, sees l (pre ++ rest) /\ open (apat Con) after_inner pre.
Proof.
  intros P F C H S. unfold upper_pat in H. apply took_err in H as (t&l1&B&H). rewrite (bump_run _ _ C) in B. injection B as _ <-.
  apply bind_err in H as [H|(args&l2&E&H)].
  - destruct (juxt_fail p P F _ _ _ _ _ H S) as (pre&S1&cs&x&V&O). apply (bump_back _ _ _ C eq_refl) in S1.
    eexists (_ :: pre). split; [exact S1|]. exists (cs ++ [TComma; TUnderscore]), (PTup (PCon s x :: [PWild])).
    split; [apply vocab_app; auto; apply vocab_all; auto|]. intros c r E A.
    apply map_two in E as (c1&c2&->&E1&E2). apply map_cons in E2 as (k1&c3&->&E2). apply map_one in E2 as (k2&->).
    cbn [app]. rewrite app_assoc. apply c_tuple; [apply O; auto; split; auto| |discriminate].
    apply (cs_cons Plain k1 [(TUnderscore, k2)] PWild [] []); auto; [apply p_wild; auto|constructor; apply A].
  - apply bind_err in H as [H|(b&l3&Eb&H)]; [destruct (peek_on_err _ _ _ _ H)|]. destruct b; [|discriminate].
    unfold collection_tail in H. apply bind_err in H as [H|(xs&l4&_&H)]; [|discriminate].
    destruct (commas_fail p Plain (or_introl eq_refl) P F _ _ _ _ _ H S) as (us&S1&(cs&x&V&O)&Nu).
    destruct (look_comma HU _ _ _ _ Eb S1) as (S2&N).
    destruct (juxt_back HU p P _ _ _ _ _ E S2) as (ts&S3&D2). apply (bump_back _ _ _ C eq_refl) in S3.
    eexists ((_, _) :: ts ++ us). split; [cbn [app]; rewrite <- app_assoc; exact S3|].
    exists cs, (PTup (PCon s args :: x)). split; auto. intros c r Ec A. cbn [app]. rewrite <- app_assoc.
    apply c_tuple; auto; [|destruct us; discriminate].
    eapply pats_hd; [exact D2|]. destruct us; [discriminate|auto].
Qed.

Lemma lower_fail p s q l e l' rest : simple q -> pfails p Plain -> lx_curr l = Some (TLower s) ->
  lower_pat p s l = PErr e l' -> sees l' rest ->
  exists pre, sees l (pre ++ rest) /\ open (apat q) (follows q) pre.
Proof.
  intros Q F C H S. unfold lower_pat in H. apply took_err in H as (t&l1&B&H). rewrite (bump_run _ _ C) in B. injection B as _ <-.
  apply bind_err in H as [H|(b&l2&E&H)]; [destruct (bump_on_err _ _ _ _ H)|]. destruct b; [|discriminate].
  apply bind_err in H as [H|(y&l3&_&H)]; [|discriminate]. destruct (F _ _ _ _ H S) as (ts&S1&cs&x&V&O).
  apply (bump_on_back HU _ _ _ _ _ E eq_refl) in S1 as (k'&S1&_). apply (bump_back _ _ _ C eq_refl) in S1.
  eexists ((_, _) :: (_, _) :: ts). split; [exact S1|]. exists cs, (PAs s x). split; auto. intros c r Ec A. cbn [app].
  apply p_as; auto. apply O; auto. destruct Q as [->| ->]; [auto|apply A].
Qed.

(** A bracket pattern whose closing bracket is still to come. *)
Lemma open_list q k ts p us ps r : simple q -> pats Inner ts [p] (us ++ r) -> pats (Commas Inner) us ps r ->
  open (apat q) (follows q) ((TBrackL, k) :: ts ++ us).
Proof.
  intros Q D1 D2. destruct us as [|u us].
  - destruct (pats_open _ _ _ _ D1) as (cs&x&V&O). exists (cs ++ [TBrackR]), (PArr [x]).
    split; [apply vocab_app; auto; apply vocab_brack|]. intros c r' E A. rewrite app_nil_r.
    apply map_two in E as (c1&c2&->&E1&E2). apply map_one in E2 as (k2&->). cbn [app]. rewrite app_assoc.
    apply (p_list q k k2 (ts ++ c1) x [] []); auto; [apply O; auto; split; auto|constructor; auto].
  - destruct (pats_open _ _ _ _ D2) as (cs&x&V&O); auto. exists (cs ++ [TBrackR]), (PArr (p :: x)).
    split; [apply vocab_app; auto; apply vocab_brack|]. intros c r' E A.
    apply map_two in E as (c1&c2&->&E1&E2). apply map_one in E2 as (k2&->). cbn [app].
    rewrite <- app_assoc. change (u :: us) with ([u] ++ us) in *. cbn [app].
    replace (ts ++ u :: us ++ c1 ++ [(TBrackR, k2)]) with (ts ++ (u :: us ++ c1) ++ [(TBrackR, k2)]) by (cbn [app]; rewrite <- app_assoc; auto).
    apply p_list; auto; [eapply pats_hd; eauto|apply O; auto; split; auto].
Qed.

Lemma brack_fail p q : simple q -> reads p Inner -> pfails p Inner -> pfails (brack_pat p) q.
Proof.
  intros Q P F l e l' rest H S. unfold brack_pat in H. apply bind_err in H as [H|([]&l1&E1&H)].
  { exists []. split; [eapply eat_err; eauto|apply open_wild; auto]. }
  apply bind_err in H as [H|(b&l2&E2&H)]; [destruct (bump_on_err _ _ _ _ H)|].
  apply bind_err in H as [H|(y&l3&E3&H)].
  - destruct b; [discriminate|]. apply bind_err in H as [H|(f&l4&E4&H)].
    + destruct (F _ _ _ _ H S) as (pre&S3&cs&x&V&O). apply (bump_on_back HU _ _ _ _ _ E2 eq_refl) in S3 as (S3&_).
      destruct (eat_back HU _ _ _ _ E1 eq_refl S3) as (k&S1&_). exists ((TBrackL, k) :: pre). split; auto.
      exists (cs ++ [TBrackR]), (PArr [x]). split; [apply vocab_app; auto; apply vocab_brack|]. intros c r' E A.
      apply map_two in E as (c1&c2&->&E1'&E2'). apply map_one in E2' as (k2&->). cbn [app]. rewrite app_assoc.
      apply (p_list q k k2 (pre ++ c1) x [] []); auto; [apply O; auto; split; auto|constructor; auto].
    + unfold collection_tail in H. apply bind_err in H as [H|(xs&l5&_&H)]; [|discriminate].
      destruct (commas_fail p Inner (or_intror eq_refl) P F _ _ _ _ _ H S) as (us&S5&(cs&x&V&O)&Nu).
      destruct (P _ _ _ _ E4 S5) as (ts&S6&D2). apply (bump_on_back HU _ _ _ _ _ E2 eq_refl) in S6 as (S6&_).
      destruct (eat_back HU _ _ _ _ E1 eq_refl S6) as (k&S1&_).
      exists ((TBrackL, k) :: ts ++ us). split; [cbn [app]; rewrite <- app_assoc; auto|].
      exists (cs ++ [TBrackR]), (PArr (f :: x)). split; [apply vocab_app; auto; apply vocab_brack|]. intros c r' E A.
      apply map_two in E as (c1&c2&->&E1'&E2'). apply map_one in E2' as (k2&->). cbn [app].
      replace ((ts ++ us) ++ c1 ++ [(TBrackR, k2)]) with (ts ++ (us ++ c1) ++ [(TBrackR, k2)]) by (rewrite <- !app_assoc; auto).
      apply p_list; auto; [eapply pats_hd; [exact D2|destruct us; [discriminate|auto]]|apply O; auto; split; auto].
  - apply bind_err in H as [H|([]&l4&_&H)]; [|discriminate]. apply (eat_err _ _ _ _ _ H) in S. destruct b.
    + injection E3 as <- <-. apply (bump_on_back HU _ _ _ _ _ E2 eq_refl) in S as (k1&S3&_).
      destruct (eat_back HU _ _ _ _ E1 eq_refl S3) as (k&S1&_). exists [(TBrackL, k); (TBrackR, k1)]. split; auto.
      exists [TBrackR], (PArr []). split; [apply vocab_brack|]. intros c r E A. apply map_one in E as (k2&->).
      apply p_empty. auto.
    + apply bind_ok in E3 as (f&l5&E5&E3). unfold collection_tail in E3. apply bind_ok in E3 as (xs&l6&E6&E3).
      injection E3 as <- <-.
      destruct (ProofParser3.commas_back HU p Inner (or_intror eq_refl) P _ _ _ _ _ E6 S) as (us&S5&D1).
      destruct (P _ _ _ _ E5 S5) as (ts&S6&D2).
      apply (bump_on_back HU _ _ _ _ _ E2 eq_refl) in S6 as (S6&_).
      destruct (eat_back HU _ _ _ _ E1 eq_refl S6) as (k&S1&_).
      exists ((TBrackL, k) :: ts ++ us). split; [cbn [app]; rewrite <- app_assoc; auto|]. eapply open_list; eauto.
Qed.

(** A parenthesised pattern whose closing parenthesis is still to come. *)
Lemma open_group q k ts : simple q -> open (apat Head) after_inner ts -> open (apat q) (follows q) ((TParenL, k) :: ts).
Proof.
  intros Q (cs&x&V&O). exists (cs ++ [TParenR]), x. split; [apply vocab_app; auto; apply vocab_paren|]. intros c r' E A.
  apply map_two in E as (c1&c2&->&E1&E2). apply map_one in E2 as (k2&->). cbn [app]. rewrite app_assoc.
  apply p_group; auto. apply O; auto. split; auto.
Qed.

Lemma open_tuple q k ts p us r : simple q -> pats Head ts [p] (us ++ r) -> next_is is_comma us = true ->
  open (pats (Commas Inner)) after_inner us -> open (apat q) (follows q) ((TParenL, k) :: ts ++ us).
Proof.
  intros Q D Nu (cs&x&V&O). exists (cs ++ [TParenR]), (PTup (p :: x)). split; [apply vocab_app; auto; apply vocab_paren|].
  intros c r' E A. apply map_two in E as (c1&c2&->&E1&E2). apply map_one in E2 as (k2&->). cbn [app].
  replace ((ts ++ us) ++ c1 ++ [(TParenR, k2)]) with (ts ++ (us ++ c1) ++ [(TParenR, k2)]) by (rewrite <- !app_assoc; auto).
  apply p_tuple; auto; [eapply pats_hd; [exact D|destruct us; [discriminate|auto]]|apply O; auto; split; auto|destruct us; discriminate].
Qed.

Lemma paren_fail p p' q : simple q -> reads p Plain -> reads p' Inner -> pfails p Plain -> pfails p' Inner ->
  pfails (paren_pat p p') q.
Proof.
  intros Q P P' F F' l e l' rest H S. unfold paren_pat in H. apply bind_err in H as [H|([]&l1&E1&H)].
  { exists []. split; [eapply eat_err; eauto|apply open_wild; auto]. }
  apply look_err in H as (t&l2&E2&H). apply bind_err in H as [H|(y&l3&E3&H)].
  { assert (X : exists pre, sees l1 (pre ++ rest) /\ open (apat Head) after_inner pre).
    { assert (W : forall ts, open (apat Plain) (follows Plain) ts -> next_is is_con (ts ++ rest) = false -> open (apat Head) after_inner ts).
      { intros ts (cs&x&V&O) N. exists cs, x. split; auto. intros c r E A. apply h_pat; [apply O; auto; apply A|].
        destruct ts as [|u ts]; auto. cbn [app]. rewrite <- (app_nil_r c). apply vocab_next; auto. rewrite E. auto. }
      assert (G' : p l2 = PErr e l' -> is_con t = false -> t <> TEof -> exists pre, sees l1 (pre ++ rest) /\ open (apat Head) after_inner pre).
      { intros E N Ne. destruct (F _ _ _ _ E S) as (cs&S1&D). exists cs. split; [apply (peek_sees HU _ _ _ E2), S1|].
        apply W; auto. rewrite (peek_look HU _ _ _ _ E2 S1) in N. rewrite look_next in N; auto. }
      assert (G0 : (@fail pat (Unexpected t (curr_loc l1))) l2 = PErr e l' -> is_con t = false -> exists pre, sees l1 (pre ++ rest) /\ open (apat Head) after_inner pre).
      { intros E N. injection E as _ <-. exists []. split; [apply (peek_sees HU _ _ _ E2), S|]. apply W; [apply open_wild; left; auto|].
        cbn [app]. rewrite <- look_next, <- (peek_look HU _ _ _ _ E2 S); auto. }
      destruct t; try (apply G0; [exact H|reflexivity]); try (apply G'; [exact H|reflexivity|discriminate]).
      - apply took_err in H as (t2&l4&B&H). apply bind_err in H as [H|(w&l5&_&H)]; [|discriminate].
        destruct (F _ _ _ _ H S) as (ts&S1&cs&x&V&O). destruct (take_back HU _ _ _ _ _ _ E2 eq_refl B S1) as (_&S2&_).
        eexists ((_, _) :: ts). split; [exact S2|]. exists cs, (PNeg x). split; auto. intros c r E A. cbn [app].
        apply h_neg. apply O; auto. apply A.
      - destruct (upper_fail p s l2 e l' rest P F) as (ts&S1&cs&x&V&O); auto. { eapply peek_curr; eauto; discriminate. }
        exists ts. split; [apply (peek_sees HU _ _ _ E2), S1|]. exists cs, x. split; auto. intros c r E A. apply h_con, O; auto.
      - apply took_err in H as (t2&l4&_&H). discriminate. }
    destruct X as (pre&S2&O). destruct (eat_back HU _ _ _ _ E1 eq_refl S2) as (k&S1&_).
    exists ((TParenL, k) :: pre). split; auto. apply open_group; auto. }
  apply bind_err in H as [H|(b&l4&E4&H)]; [destruct (peek_on_err _ _ _ _ H)|].
  assert (Hd : forall rest, sees l3 rest -> exists cs, sees l1 (cs ++ rest) /\ pats Head cs [y] rest).
  { clear - HU P E2 E3. intros rest S.
    assert (G : forall cs, sees l2 (cs ++ rest) -> sees l1 (cs ++ rest)) by (intros cs; apply (peek_sees HU _ _ _ E2)).
    assert (G' : p l2 = POk y l3 -> is_con t = false -> t <> TEof -> exists cs, sees l1 (cs ++ rest) /\ pats Head cs [y] rest).
    { intros E N Ne. destruct (P _ _ _ _ E S) as (cs&S1&D). exists cs. split; auto. apply h_pat; auto.
      rewrite (peek_look HU _ _ _ _ E2 S1) in N. destruct cs as [|(t1,k1) cs]; auto. }
    destruct t; try discriminate; try (apply G'; [exact E3|reflexivity|discriminate]).
    - apply bind_ok in E3 as (t2&l4&B&E3). apply bind_ok in E3 as (w&l5&Ew&E3). injection E3 as <- <-.
      destruct (P _ _ _ _ Ew S) as (ts&S1&D). destruct (take_back HU _ _ _ _ _ _ E2 eq_refl B S1) as (_&S2&_).
      eexists ((_, _) :: ts). split; [exact S2|]. constructor. auto.
    - destruct (upper_back HU p s l2 y l3 rest P) as (cs&S1&D&_); auto. { eapply peek_curr; eauto; discriminate. }
      exists cs. split; auto. apply h_con, D.
    - apply bind_ok in E3 as (t2&l4&B&E3). injection E3 as <- <-.
      destruct (take_back HU _ _ _ _ _ _ E2 eq_refl B S) as (_&S2&_). eexists [_]. split; [exact S2|]. constructor. }
  apply bind_err in H as [H|(z&l5&E5&H)].
  - destruct b; [|discriminate]. unfold collection_tail in H. apply bind_err in H as [H|(xs&l6&_&H)]; [|discriminate].
    destruct (commas_fail p' Inner (or_intror eq_refl) P' F' _ _ _ _ _ H S) as (us&S5&O&Nu).
    destruct (look_comma HU _ _ _ _ E4 S5) as (S4&_). destruct (Hd _ S4) as (ts&S2&D2).
    destruct (eat_back HU _ _ _ _ E1 eq_refl S2) as (k&S1&_).
    exists ((TParenL, k) :: ts ++ us). split; [cbn [app]; rewrite <- app_assoc; auto|]. eapply open_tuple; eauto.
  - apply bind_err in H as [H|([]&l6&_&H)]; [|discriminate]. apply (eat_err _ _ _ _ _ H) in S. destruct b.
    + unfold collection_tail in E5. apply bind_ok in E5 as (xs&l7&E7&E5). injection E5 as <- <-.
      destruct (ProofParser3.commas_back HU p' Inner (or_intror eq_refl) P' _ _ _ _ _ E7 S) as (us&S7&D1).
      destruct (look_comma HU _ _ _ _ E4 S7) as (S4&N). destruct (Hd _ S4) as (ts&S2&D2).
      destruct (eat_back HU _ _ _ _ E1 eq_refl S2) as (k&S1&_).
      exists ((TParenL, k) :: ts ++ us). split; [cbn [app]; rewrite <- app_assoc; auto|].
      eapply open_tuple; eauto.
      * inversion D1; subst; auto. cbn [app] in N. congruence.
      * apply (pats_open _ _ _ _ D1). auto.
    + injection E5 as <- <-. destruct (look_comma HU _ _ _ _ E4 S) as (S4&N). destruct (Hd _ S4) as (ts&S2&D2).
      destruct (eat_back HU _ _ _ _ E1 eq_refl S2) as (k&S1&_). exists ((TParenL, k) :: ts). split; auto.
      apply open_group; auto. apply (pats_open _ _ _ _ D2).
Qed.

Lemma pat_fail : forall n b, pfails (pat_f n b) (kind_of b).
Proof.
  induction n as [|n IH]; intros b l e l' rest H S; cbn [pat_f] in H; [discriminate|].
  assert (Q : simple (kind_of b)) by (destruct b; [right|left]; auto).
  pose proof (IH false) as F. pose proof (IH true) as F'. cbn [kind_of] in F, F'.
  pose proof (pat_back HU n false) as P. pose proof (pat_back HU n true) as P'. cbn [kind_of] in P, P'.
  apply look_err in H as (t&l1&E&H).
  assert (G : forall cs, sees l1 (cs ++ rest) -> sees l (cs ++ rest)) by (intros cs; apply (peek_sees HU _ _ _ E)).
  assert (G0 : (@fail pat (Unexpected t (curr_loc l))) l1 = PErr e l' -> exists pre, sees l (pre ++ rest) /\ open (apat (kind_of b)) (follows (kind_of b)) pre).
  { intros X. injection X as _ <-. exists []. split; [apply G, S|apply open_wild; auto]. }
  destruct t; try (apply G0; exact H).
  - destruct (paren_fail _ _ _ Q P P' F F' _ _ _ _ H S) as (cs&S1&D). eauto.
  - destruct (brack_fail _ _ Q P' F' _ _ _ _ H S) as (cs&S1&D). eauto.
  - apply took_err in H as (t2&l3&_&H). discriminate.
  - destruct b; [|apply G0; exact H]. apply took_err in H as (t2&l3&B&H). destruct (F _ _ _ _ H S) as (ts&S1&cs&x&V&O).
    destruct (take_back HU _ _ _ _ _ _ E eq_refl B S1) as (_&S2&_). eexists ((_, _) :: ts). split; [exact S2|].
    exists cs, x. split; auto. intros c r Ec A. cbn [app]. apply p_minus, O; auto. apply A.
  - destruct b.
    + destruct (upper_fail _ s l1 e l' rest P F) as (ts&S1&cs&x&V&O); auto. { eapply peek_curr; eauto; discriminate. }
      exists ts. split; auto. exists cs, x. split; auto. intros c r Ec A. apply p_inner_con, O; auto.
    + apply took_err in H as (t2&l3&_&H). discriminate.
  - destruct (lower_fail _ s (kind_of b) l1 e l' rest Q F) as (cs&S1&D); auto. { eapply peek_curr; eauto; discriminate. }
    eauto.
  - destruct b; [|apply G0; exact H]. apply took_err in H as (t2&l3&_&H). discriminate.
Qed.

Lemma pattern_fail : pfails pattern Plain.
Proof. intros l e l' rest. unfold pattern. apply (pat_fail _ false). Qed.

End WithUcd.
