(** Where the parser fails, what it has read can be completed: expressions and
    programs. *)
From Coq Require Import List Arith NArith Bool String Lia.
From Verif Require Import Prelim Chars Syntax Lexer SpecLexer SpecLexRun Parser SpecParser.
From Verif Require Import ProofLexer ProofLexer7 ProofParser ProofParser3 ProofParser4 ProofParser12 ProofParser13.
Import ListNotations.

Section WithUcd.
Context {U : ucd}.
Context (HU : letters U).

Notation exprs := (exprs Nat.ltb).
Notation decl_of := (decl_of Nat.ltb).
Notation program := (program Nat.ltb).

Definition anexp (q : ekind) (ts : list ptok) (x : expr) (r : list ptok) : Prop := exprs q ts [x] r.

(** If [p] fails, what it read can be completed to an expression. *)
Definition efails (p : parser expr) (q : nat -> ekind) : Prop :=
  forall l e l' rest, p l = PErr e l' -> sees l' rest ->
  exists pre, sees l (pre ++ rest) /\ open (anexp (q (lx_col l))) ends pre.

Lemma atom_one k r : exprs KAtom [(TLit (LInt 1), k)] [Lit (LInt 1)] r.
Proof. constructor. Qed.
Lemma app_one c k r : ends r -> exprs (KApp c) [(TLit (LInt 1), k)] [Lit (LInt 1)] r.
Proof.
  intros A. apply (e_app _ c [(TLit (LInt 1), k)] (Lit (LInt 1)) []); [constructor|]. constructor. apply ends_no_arg; auto.
Qed.
Lemma expr_one c k r : ends r -> exprs (KExpr c) [(TLit (LInt 1), k)] [Lit (LInt 1)] r.
Proof. intros A. constructor; [apply app_one; auto|apply ends_next; auto]. Qed.

Lemma open_one q : q = KAtom \/ (exists c, q = KApp c) \/ (exists c, q = KExpr c) -> open (anexp q) ends [].
Proof.
  intros Q. exists [TLit (LInt 1)], (Lit (LInt 1)). split; [apply vocab_one|]. intros c r E A. apply map_one in E as (k&->).
  destruct Q as [->|[(c&->)|(c&->)]]; [apply atom_one|apply app_one; auto|apply expr_one; auto].
Qed.

(** An expression whose column is that of its first token. *)
Definition fresh (q : nat -> ekind) (ts : list ptok) (x : expr) (r : list ptok) : Prop :=
  exists t k us, ts = (t, k) :: us /\ exprs (q k) ts [x] r.

Definition column_kind (q : nat -> ekind) : Prop := q = KApp \/ q = KExpr.

Lemma fresh_one q : column_kind q -> open (fresh q) ends [].
Proof.
  intros Q. exists [TLit (LInt 1)], (Lit (LInt 1)). split; [apply vocab_one|]. intros c r E A. apply map_one in E as (k&->).
  eexists _, _, []. split; [reflexivity|]. destruct Q as [->| ->]; [apply app_one; auto|apply expr_one; auto].
Qed.

Lemma fails_at p q l0 t l e l' rest : column_kind q -> efails p q -> peek l0 = POk t l -> p l = PErr e l' -> sees l' rest ->
  exists pre, sees l0 (pre ++ rest) /\ open (fresh q) ends pre.
Proof.
  intros Q F E0 E S. destruct (F _ _ _ _ E S) as (pre&S1&cs&x&V&O). exists pre. split; [apply (peek_sees HU _ _ _ E0), S1|].
  destruct pre as [|(t1,k) pre]; [apply fresh_one; auto|]. cbn [app] in S1.
  assert (t = t1) by (apply (peek_look HU _ _ _ _ E0) in S1; auto). subst t1.
  destruct (peek_at HU _ _ _ _ _ E0 S1) as (_&C&_&_). subst k.
  exists cs, x. split; auto. intros c r Ec A. eexists _, _, _. split; [reflexivity|]. apply O; auto.
Qed.

Lemma ends_paren k r : ends ((TParenR, k) :: r).
Proof. left. auto. Qed.
Lemma ends_brack k r : ends ((TBrackR, k) :: r).
Proof. right. auto. Qed.
Hint Resolve ends_paren ends_brack : core.

Ltac fill E := repeat (apply map_two in E as (?c&?c&->&?E&E)); try apply map_one in E as (?k&->).

(** A lambda whose body is still to come. *)
Lemma open_lambda k ts ps : ps <> [] -> (forall k' r, pats Juxt ts ps ((TArrow, k') :: r)) ->
  open (anexp KAtom) ends ((TLambda, k) :: ts).
Proof.
  intros Np D. destruct ps as [|p ps]; [congruence|]. exists [TArrow; TLit (LInt 1)]. eexists.
  split; [apply (vocab_app [_] [_]); [apply vocab_all; auto|apply vocab_one]|]. intros c r E A.
  apply map_cons in E as (k1&c'&->&E). apply map_one in E as (k2&->). cbn [app].
  eapply t_lam; [apply D|apply expr_one; auto].
Qed.

Lemma lambda_fail f : efails f KExpr -> efails (lambda f) (fun _ => KAtom).
Proof.
  intros F l e l' rest H S. unfold lambda in H. apply bind_err in H as [H|([]&l1&E1&H)].
  { exists []. split; [eapply eat_err; eauto|apply open_one; auto]. }
  apply bind_err in H as [H|(p&l2&E2&H)].
  { destruct (pattern_fail HU _ _ _ _ H S) as (pre&S1&cs&x&V&O). destruct (eat_back HU _ _ _ _ E1 eq_refl S1) as (k&S0&_).
    exists ((TLambda, k) :: pre). split; auto. exists (cs ++ [TArrow; TLit (LInt 1)]). eexists.
    split; [apply vocab_app; auto; apply (vocab_app [_] [_]); [apply vocab_all; auto|apply vocab_one]|]. intros c r E A.
    apply map_two in E as (c1&c2&->&E&E'). apply map_cons in E' as (k1&c'&->&E'). apply map_one in E' as (k2&->). cbn [app].
    rewrite app_assoc. eapply t_lam; [|apply expr_one; auto]. apply juxt_one; [apply O; auto; reflexivity|split; reflexivity]. }
  apply bind_err in H as [H|(ps&l3&E3&H)].
  { destruct (juxt_fail HU _ (pattern_back HU) (pattern_fail HU) _ _ _ _ _ H S) as (us&S2&O).
    destruct (pattern_back HU _ _ _ _ E2 S2) as (ts&S1&D). destruct (eat_back HU _ _ _ _ E1 eq_refl S1) as (k&S0&_).
    exists ((TLambda, k) :: ts ++ us). split; [cbn [app]; rewrite <- app_assoc; auto|].
    destruct O as (cs&x&V&O). exists (cs ++ [TArrow; TLit (LInt 1)]). eexists.
    split; [apply vocab_app; auto; apply (vocab_app [_] [_]); [apply vocab_all; auto|apply vocab_one]|]. intros c r E A.
    apply map_two in E as (c1&c2&->&E&E'). apply map_cons in E' as (k1&c'&->&E'). apply map_one in E' as (k2&->). cbn [app].
    rewrite app_assoc. eapply t_lam; [|apply expr_one; auto]. rewrite <- app_assoc. apply j_cons; [|apply O; auto; split; reflexivity].
    destruct us as [|u us]; [|eapply pats_hd; eauto]. eapply plain_after; [exact D|]. cbn [app].
    apply vocab_next; [rewrite E; auto|reflexivity|reflexivity]. }
  apply bind_err in H as [H|([]&l4&E4&H)].
  { apply (eat_err HU _ _ _ _ _ H) in S.
    destruct (juxt_back HU _ (pattern_back HU) _ _ _ _ _ E3 S) as (us&S2&D2).
    destruct (pattern_back HU _ _ _ _ E2 S2) as (ts&S1&D). destruct (eat_back HU _ _ _ _ E1 eq_refl S1) as (k&S0&_).
    exists ((TLambda, k) :: ts ++ us). split; [cbn [app]; rewrite <- app_assoc; auto|].
    apply (open_lambda k _ (p :: ps)); [discriminate|]. intros k' r. eapply juxt_after; [apply j_cons; eauto|split; reflexivity]. }
  apply bind_err in H as [H|(b&l5&_&H)]; [|discriminate].
  destruct (F _ _ _ _ H S) as (us&S1&cs&x&V&O). destruct (eat_back HU _ _ _ _ E4 eq_refl S1) as (k'&S2&C).
  destruct (juxt_back HU _ (pattern_back HU) _ _ _ _ _ E3 S2) as (vs&S3&D2).
  destruct (pattern_back HU _ _ _ _ E2 S3) as (ts&S4&D3). destruct (eat_back HU _ _ _ _ E1 eq_refl S4) as (k&S5&_).
  exists ((TLambda, k) :: (ts ++ vs) ++ (TArrow, k') :: us). split.
  { cbn [app]. rewrite <- !app_assoc. exact S5. }
  exists cs. eexists. split; auto. intros c r E A. cbn [app]. rewrite <- (app_assoc (ts ++ vs)). cbn [app]. subst k'.
  eapply t_lam; [|apply O; auto]. eapply pats_hd; [apply j_cons; eauto|reflexivity].
Qed.

Lemma tail_fail f : ereads f KExpr -> efails f KExpr -> forall n l e l' rest,
  many_f n (bump_on TComma) f l = PErr e l' -> sees l' rest ->
  exists pre, sees l (pre ++ rest) /\ open (exprs KTail) ends pre /\ next_is is_comma pre = true.
Proof.
  intros P F. apply (many_fail (bump_on TComma) f (fun us _ => open (exprs KTail) ends us /\ next_is is_comma us = true)).
  - apply bump_on_err.
  - intros l l1 e l2 rest E1 E2 S2. destruct (F _ _ _ _ E2 S2) as (pre&S1&cs&x&V&O).
    apply (bump_on_back HU _ _ _ _ (pre ++ rest)) in E1 as (k&Sa&C); auto. subst k.
    exists ((TComma, lx_col l1) :: pre). split; auto. split; auto. exists cs, [x]. split; auto. intros c r E A. cbn [app].
    rewrite <- (app_nil_r (pre ++ c)). apply tl_cons; [apply O; auto|constructor; apply ends_next; auto].
  - intros l l1 x l2 us rest E1 E2 S2 ((cs&xs&V&O)&Nu). destruct (P _ _ _ _ E2 S2) as (ts&Sb&D&_).
    apply (bump_on_back HU _ _ _ _ (ts ++ us ++ rest)) in E1 as (k&Sa&C); auto. subst k.
    eexists ((TComma, _) :: ts). split; [exact Sa|]. split; auto. exists cs, (x :: xs). split; auto. intros c r E A.
    cbn [app]. rewrite <- app_assoc. apply tl_cons; auto.
    eapply exprs_hd; [exact D|]. rewrite <- app_assoc. destruct us; [discriminate|auto].
Qed.

Lemma paren_expr_fail f : ereads f KExpr -> efails f KExpr -> efails (paren_expr f) (fun _ => KAtom).
Proof.
  intros P F l e l' rest H S. unfold paren_expr in H. apply bind_err in H as [H|([]&l1&E1&H)].
  { exists []. split; [eapply eat_err; eauto|apply open_one; auto]. }
  apply look_err in H as (t&l2&E2&H).
  assert (G0 : forall e0, (@fail expr e0) l2 = PErr e l' -> exists pre, sees l (pre ++ rest) /\ open (anexp KAtom) ends pre).
  { intros e0 X. injection X as _ <-. apply (peek_sees HU _ _ _ E2) in S. destruct (eat_back HU _ _ _ _ E1 eq_refl S) as (k&S0&_).
    exists [(TParenL, k)]. split; auto. exists [TParenR], (Tup []). split; [apply vocab_paren|]. intros c r E A.
    apply map_one in E as (k2&->). cbn [app]. constructor. }
  assert (G : (first <- f;; comma <- peek_on TComma;;
      (if comma then es <- many (bump_on TComma) f;; eat TParenR;;; ret (Tup (first :: es))
       else eat TParenR;;; ret (Grp first))) l2 = PErr e l' ->
      exists pre, sees l (pre ++ rest) /\ open (anexp KAtom) ends pre).
  { clear H. intros H. apply bind_err in H as [H|(y&l3&E3&H)].
    { destruct (fails_at _ _ _ _ _ _ _ _ (or_intror eq_refl) F E2 H S) as (pre&S1&cs&x&V&O).
      destruct (eat_back HU _ _ _ _ E1 eq_refl S1) as (k&S0&_). exists ((TParenL, k) :: pre). split; auto.
      exists (cs ++ [TParenR]), (Grp x). split; [apply vocab_app; auto; apply vocab_paren|]. intros c r E A.
      apply map_two in E as (c1&c2&->&E&E'). apply map_one in E' as (k2&->). cbn [app]. rewrite app_assoc.
      destruct (O c1 ((TParenR, k2) :: r) E) as (t1&k1&us&->&D); auto. apply t_group. auto. }
    apply bind_err in H as [H|(b&l4&E4&H)]; [destruct (peek_on_err _ _ _ _ H)|]. destruct b.
    - apply bind_err in H as [H|(es&l5&E5&H)].
      + destruct (tail_fail f P F _ _ _ _ _ H S) as (us&S5&(cs&x&V&O)&Nu). destruct (look_comma HU _ _ _ _ E4 S5) as (S4&_).
        destruct (reads_at HU _ _ _ _ _ _ _ _ P E2 E3 S4) as (t1&k1&ts&_&S2&_&D).
        destruct (eat_back HU _ _ _ _ E1 eq_refl S2) as (k&S1&_).
        exists ((TParenL, k) :: ((t1, k1) :: ts) ++ us). split; [cbn [app]; rewrite <- app_assoc; auto|].
        exists (cs ++ [TParenR]), (Tup (y :: x)). split; [apply vocab_app; auto; apply vocab_paren|]. intros c r E A.
        apply map_two in E as (c1&c2&->&E&E'). apply map_one in E' as (k2&->). cbn [app].
        rewrite <- (app_assoc ts us), (app_assoc us c1).
        apply (t_tuple _ k t1 k1 ts y (us ++ c1) x k2 r); [|apply O; auto|destruct us; discriminate].
        eapply exprs_hd; [exact D|]. destruct us; [discriminate|auto].
      + apply bind_err in H as [H|([]&l6&_&H)]; [|discriminate]. apply (eat_err HU _ _ _ _ _ H) in S.
        destruct (tail_back HU f P _ _ _ _ _ E5 S) as (us&S5&D1). destruct (look_comma HU _ _ _ _ E4 S5) as (S4&N).
        destruct (reads_at HU _ _ _ _ _ _ _ _ P E2 E3 S4) as (t1&k1&ts&_&S2&_&D).
        destruct (eat_back HU _ _ _ _ E1 eq_refl S2) as (k&S1&_).
        exists ((TParenL, k) :: ((t1, k1) :: ts) ++ us). split; [cbn [app]; rewrite <- app_assoc; auto|].
        assert (Nu : us <> []). { intros ->. inversion D1; subst. cbn [app] in N. congruence. }
        exists [TParenR], (Tup (y :: es)). split; [apply vocab_paren|]. intros c r E A.
        apply map_one in E as (k2&->). cbn [app]. rewrite <- app_assoc.
        apply (t_tuple _ k t1 k1 ts y us es k2 r); auto.
        * eapply exprs_hd; [exact D|]. apply hd_app_ne; auto.
        * eapply exprs_ends; eauto. discriminate.
    - apply bind_err in H as [H|([]&l6&_&H)]; [|discriminate]. apply (eat_err HU _ _ _ _ _ H) in S.
      destruct (look_comma HU _ _ _ _ E4 S) as (S4&N).
      destruct (reads_at HU _ _ _ _ _ _ _ _ P E2 E3 S4) as (t1&k1&ts&_&S2&_&D).
      destruct (eat_back HU _ _ _ _ E1 eq_refl S2) as (k&S1&_). exists ((TParenL, k) :: (t1, k1) :: ts). split; auto.
      exists [TParenR], (Grp y). split; [apply vocab_paren|]. intros c r E A. apply map_one in E as (k2&->).
      apply (t_group _ k t1 k1 ts y k2 r). eapply exprs_ends; eauto. discriminate. }
  destruct t; try (eapply G0; exact H); try (exact (G H)); clear G.
  - apply took_err in H as (?&?&_&H). discriminate.
  - apply bind_err in H as [H|(cs&l3&E3&H)].
    { destruct (many_fail (bump_on TComma) (ret tt) (fun _ _ => False) (bump_on_err TComma)) with (3 := H) (4 := S) as (?&_&[]).
      - intros ? ? ? ? ? _ X. discriminate.
      - intros ? ? ? ? ? ? _ _ _ []. }
    apply bind_err in H as [H|([]&l4&_&H)]; [|discriminate]. apply (eat_err HU _ _ _ _ _ H) in S.
    destruct (ProofParser4.commas_back HU _ _ _ _ _ E3 S) as (ts&S3&Q1&Q2&Q3).
    apply (peek_sees HU _ _ _ E2) in S3.
    destruct (eat_back HU _ _ _ _ E1 eq_refl S3) as (k&S1&_). exists ((TParenL, k) :: ts). split; auto.
    destruct ts as [|u ts].
    { exists [TParenR], (Tup []). split; [apply vocab_paren|]. intros c r E A. apply map_one in E as (k2&->). constructor. }
    exists [TParenR]. eexists. split; [apply vocab_paren|]. intros c r E A. apply map_one in E as (k2&->).
    apply (t_commas _ k (u :: ts) k2 r); auto. discriminate.
  - apply took_err in H as (t2&l3&B&H). apply bind_err in H as [H|([]&l4&_&H)]; [|discriminate].
    apply (eat_err HU _ _ _ _ _ H) in S. destruct (take_back HU _ _ _ _ _ _ E2 eq_refl B S) as (_&S2&_).
    destruct (eat_back HU _ _ _ _ E1 eq_refl S2) as (k&S1&_). eexists [_; _]. split; [exact S1|].
    exists [TParenR]. eexists. split; [apply vocab_paren|]. intros c r E A. apply map_one in E as (k2&->). constructor.
Qed.

(** * Lists *)

(** The test before each item only looks. *)
Lemma more_items_back a b l1 : more_items a = POk b l1 ->
  exists l0 t, peek l0 = POk t l1 /\ (forall ts, sees l1 ts <-> sees a ts) /\
    b = negb (same t TEof) && negb (same t TBrackR).
Proof.
  unfold more_items, is_done. intros E. apply bind_ok in E as (d&l2&Ed&E). apply bind_ok in Ed as (t&l3&Et&Ed). injection Ed as <- <-.
  destruct (same t TEof) eqn:Q.
  - injection E as <- <-. exists a, t. rewrite Q. split; auto. split; auto. apply (peek_sees HU _ _ _ Et).
  - apply bind_ok in E as (b2&l4&E3&E). injection E as <- <-. apply peek_on_back in E3 as (t3&E3&->).
    exists l3, t3. split; auto. split.
    + intros ts. rewrite (peek_sees HU _ _ _ E3 ts). apply (peek_sees HU _ _ _ Et).
    + assert (t3 = t); [|subst; rewrite Q; auto]. unfold peek in Et, E3.
      destruct (lx_peek a) as [[[u|] la]| |] eqn:Ea; try discriminate; injection Et as <- <-.
      * destruct (peek_some _ _ _ Ea) as (_&Ea'). rewrite Ea' in E3. injection E3 as <- _. auto.
      * destruct (peek_none HU _ _ Ea) as (_&_&l2&Ea'). rewrite Ea' in E3. injection E3 as <- _. auto.
Qed.

Lemma more_items_err l e l' : more_items l = PErr e l' -> False.
Proof.
  unfold more_items, is_done. intros H. apply bind_err in H as [H|(d&l1&_&H)].
  - apply bind_err in H as [H|(t&l2&_&H)]; [eapply peek_err; eauto|discriminate].
  - destruct d; [discriminate|]. apply bind_err in H as [H|(b&l2&_&H)]; [eapply peek_on_err; eauto|discriminate].
Qed.

Lemma open_item t k ts e us r : exprs (KExpr k) ((t, k) :: ts) [e] (us ++ r) -> next_is is_comma (us ++ r) = false ->
  forall es c, (us = [] -> c = []) -> forall k' r', exprs KItems (us ++ c) es ((TBrackR, k') :: r') ->
  exprs KItems (((t, k) :: ts) ++ us ++ c) (e :: es) ((TBrackR, k') :: r').
Proof.
  intros D N es c Hc k' r' I. apply i_plain; auto.
  - rewrite <- app_assoc. destruct us as [|u us].
    + rewrite (Hc eq_refl). cbn [app]. eapply exprs_ends; eauto; discriminate.
    + eapply exprs_hd; eauto.
  - rewrite <- app_assoc. destruct us as [|u us]; [rewrite (Hc eq_refl); auto|]. auto.
Qed.

(** All items read, at the end or before the closing bracket. *)
Lemma items_end f : ereads f KExpr -> forall n l xs l' rest,
  many_f n more_items (item f) l = POk xs l' -> sees l' rest ->
  exists cs, sees l (cs ++ rest) /\ forall k r, exprs KItems cs xs ((TBrackR, k) :: r).
Proof.
  intros P. apply (many_back more_items (item f) (fun cs xs _ => forall k r, exprs KItems cs xs ((TBrackR, k) :: r))).
  - intros a b r E Sb. apply more_items_back in E as (l0&t&_&Sa&_). split; [apply Sa, Sb|]. intros k r'. constructor.
  - intros a b x c us ys r E Ex Sc R. apply more_items_back in E as (l0&t&Pb&Sa&_).
    unfold item in Ex. apply bind_ok in Ex as (e&l1&Ee&Ex). apply bind_ok in Ex as (cm&l2&Ec&Ex). destruct cm.
    + apply bind_ok in Ex as (t2&l3&B&Ex). injection Ex as <- <-. apply peek_on_back in Ec as (u&Ec&Et).
      symmetry in Et. apply same_eq in Et. subst u. destruct (take_back HU _ _ _ _ _ _ Ec eq_refl B Sc) as (_&S2&_).
      destruct (reads_at HU _ _ _ _ _ _ _ _ P Pb Ee S2) as (t1&k1&ts&S3&_&_&D).
      exists (((t1, k1) :: ts) ++ [(TComma, lx_col l2)]). split; [rewrite <- app_assoc; apply Sa, S3|].
      intros k r'. rewrite <- app_assoc. cbn [app]. apply (i_comma _ t1 k1 ts); auto. eapply exprs_hd; eauto.
    + injection Ex as <- <-. destruct (look_comma HU _ _ _ _ Ec Sc) as (S2&N2).
      destruct (reads_at HU _ _ _ _ _ _ _ _ P Pb Ee S2) as (t1&k1&ts&S3&_&_&D).
      exists ((t1, k1) :: ts). split; [apply Sa, S3|]. intros k r'. rewrite <- (app_nil_r us).
      eapply open_item; eauto. rewrite app_nil_r. auto.
Qed.

Definition closing (r : list ptok) : Prop := exists k r', r = (TBrackR, k) :: r'.

Lemma items_fail f : ereads f KExpr -> efails f KExpr -> forall n l e l' rest,
  many_f n more_items (item f) l = PErr e l' -> sees l' rest ->
  exists pre, sees l (pre ++ rest) /\ open (exprs KItems) closing pre.
Proof.
  intros P F. apply (many_fail more_items (item f) (fun us _ => open (exprs KItems) closing us)).
  - apply more_items_err.
  - intros l l1 e l2 rest E1 E2 S2. apply more_items_back in E1 as (l0&t&Pb&Sa&_).
    unfold item in E2. apply bind_err in E2 as [E2|(x&l3&_&E2)].
    + destruct (F _ _ _ _ E2 S2) as (pre0&S0&_). destruct (fails_at _ _ _ _ _ _ _ _ (or_intror eq_refl) F Pb E2 S2) as (pre&S1&cs&x&V&O).
      apply (peek_sees HU _ _ _ Pb) in S1. exists pre. split; [apply Sa, S1|].
      exists cs, [x]. split; auto. intros c r E (k&r'&->). destruct (O c ((TBrackR, k) :: r') E) as (t1&k1&us&->&D); auto.
      rewrite <- (app_nil_r ((t1, k1) :: us)). apply i_plain; auto. constructor.
    + apply bind_err in E2 as [E2|(b&l4&_&E2)]; [destruct (peek_on_err _ _ _ _ E2)|]. destruct b; [|discriminate].
      apply took_err in E2 as (?&?&_&E2). discriminate.
  - intros l l1 x l2 us rest E1 Ex Sc O. apply more_items_back in E1 as (l0&t&Pb&Sa&_).
    unfold item in Ex. apply bind_ok in Ex as (e&l3&Ee&Ex). apply bind_ok in Ex as (cm&l4&Ec&Ex). destruct cm.
    + apply bind_ok in Ex as (t2&l5&B&Ex). injection Ex as <- <-. apply peek_on_back in Ec as (u&Ec&Et).
      symmetry in Et. apply same_eq in Et. subst u. destruct (take_back HU _ _ _ _ _ _ Ec eq_refl B Sc) as (_&S2&_).
      destruct (reads_at HU _ _ _ _ _ _ _ _ P Pb Ee S2) as (t1&k1&ts&S3&_&_&D).
      exists (((t1, k1) :: ts) ++ [(TComma, lx_col l4)]). split; [rewrite <- app_assoc; apply Sa, S3|].
      destruct O as (cs&xs&V&O). exists cs, (e :: xs). split; auto. intros c r E A. rewrite <- !app_assoc. cbn [app].
      apply (i_comma _ t1 k1 ts); auto. eapply exprs_hd; eauto.
    + injection Ex as <- <-. destruct (look_comma HU _ _ _ _ Ec Sc) as (S2&N2).
      destruct (reads_at HU _ _ _ _ _ _ _ _ P Pb Ee S2) as (t1&k1&ts&S3&_&_&D).
      exists ((t1, k1) :: ts). split; [apply Sa, S3|]. destruct us as [|u us].
      * exists [], [e]. split; [constructor|]. intros c r E (k'&r'&->). rewrite (app_nil_map _ E). rewrite <- app_assoc.
        eapply open_item; eauto. constructor.
      * destruct O as (cs&xs&V&O). exists cs, (e :: xs). split; auto. intros c r E (k'&r'&->). rewrite <- app_assoc.
        eapply open_item; eauto; [discriminate|]. apply O; auto. eexists _, _. eauto.
Qed.

Lemma brack_expr_fail f : ereads f KExpr -> efails f KExpr -> efails (brack_expr f) (fun _ => KAtom).
Proof.
  intros P F l e l' rest H S. unfold brack_expr in H. apply bind_err in H as [H|([]&l1&E1&H)].
  { exists []. split; [eapply eat_err; eauto|apply open_one; auto]. }
  apply bind_err in H as [H|(es&l2&E2&H)].
  - destruct (items_fail f P F _ _ _ _ _ H S) as (pre&S1&cs&x&V&O). destruct (eat_back HU _ _ _ _ E1 eq_refl S1) as (k&S0&_).
    exists ((TBrackL, k) :: pre). split; auto. exists (cs ++ [TBrackR]), (List x). split; [apply vocab_app; auto; apply vocab_brack|].
    intros c r E A. apply map_two in E as (c1&c2&->&E&E'). apply map_one in E' as (k2&->). cbn [app]. rewrite app_assoc.
    apply t_list. apply O; auto. eexists _, _. eauto.
  - apply bind_err in H as [H|([]&l4&_&H)]; [|discriminate]. apply (eat_err HU _ _ _ _ _ H) in S.
    destruct (items_end f P _ _ _ _ _ E2 S) as (cs&S1&D). destruct (eat_back HU _ _ _ _ E1 eq_refl S1) as (k&S0&_).
    exists ((TBrackL, k) :: cs). split; auto. exists [TBrackR], (List es). split; [apply vocab_brack|].
    intros c r E A. apply map_one in E as (k2&->). cbn [app]. apply t_list; auto.
Qed.

(** * Atoms, applications, chains *)

Lemma atom_fail f : ereads f KExpr -> efails f KExpr -> efails (atom f) (fun _ => KAtom).
Proof.
  intros P F l e l' rest H S. unfold atom in H. apply look_err in H as (t&l1&E&H).
  assert (G : forall cs, sees l1 (cs ++ rest) -> sees l (cs ++ rest)) by (intros cs; apply (peek_sees HU _ _ _ E)).
  assert (G0 : (@fail expr (Unexpected t (curr_loc l))) l1 = PErr e l' -> exists pre, sees l (pre ++ rest) /\ open (anexp KAtom) ends pre).
  { intros X. injection X as _ <-. exists []. split; [apply G, S|apply open_one; auto]. }
  destruct t; try (apply G0; exact H).
  - destruct (paren_expr_fail f P F _ _ _ _ H S) as (cs&S1&O). eauto.
  - destruct (brack_expr_fail f P F _ _ _ _ H S) as (cs&S1&O). eauto.
  - destruct (lambda_fail f F _ _ _ _ H S) as (cs&S1&O). eauto.
  - apply took_err in H as (t2&l2&B&H). apply bind_err in H as [H|(d&l3&E3&H)].
    { destruct (infix_decl_fail HU _ _ _ _ H S) as (pre&S1&cs&x&V&O). destruct (take_back HU _ _ _ _ _ _ E eq_refl B S1) as (_&S2&_).
      eexists ((_, _) :: pre). split; [exact S2|]. exists (cs ++ [TIn; TLit (LInt 1)]), (Let x (Lit (LInt 1))).
      split; [apply vocab_app; auto; apply (vocab_app [_] [_]); [apply vocab_all; auto|apply vocab_one]|]. intros c r Ec A.
      apply map_two in Ec as (c1&c2&->&Ec&E'). apply map_cons in E' as (k1&c'&->&E'). apply map_one in E' as (k2&->). cbn [app].
      rewrite app_assoc. apply t_let; [apply O; auto|apply expr_one; auto]. }
    apply bind_err in H as [H|([]&l4&E4&H)].
    { apply (eat_err HU _ _ _ _ _ H) in S. destruct (infix_decl_back HU _ _ _ _ E3 S) as (ds&S3&D3).
      destruct (take_back HU _ _ _ _ _ _ E eq_refl B S3) as (_&S4&_). eexists ((_, _) :: ds). split; [exact S4|].
      exists [TIn; TLit (LInt 1)], (Let d (Lit (LInt 1))).
      split; [apply (vocab_app [_] [_]); [apply vocab_all; auto|apply vocab_one]|]. intros c r Ec A.
      apply map_cons in Ec as (k1&c'&->&E'). apply map_one in E' as (k2&->). cbn [app].
      apply t_let; [eapply declares_next; eauto|apply expr_one; auto]. }
    apply bind_err in H as [H|(y&l5&_&H)]; [|discriminate].
    destruct (F _ _ _ _ H S) as (us&S1&cs&x&V&O). destruct (eat_back HU _ _ _ _ E4 eq_refl S1) as (k'&S2&C).
    destruct (infix_decl_back HU _ _ _ _ E3 S2) as (ds&S3&D3). destruct (take_back HU _ _ _ _ _ _ E eq_refl B S3) as (_&S4&_).
    eexists ((_, _) :: ds ++ (TIn, k') :: us). split; [cbn [app]; rewrite <- app_assoc; exact S4|].
    exists cs, (Let d x). split; auto. intros c r Ec A. cbn [app]. rewrite <- app_assoc. cbn [app]. subst k'.
    apply t_let; [eapply declares_hd; eauto|apply O; auto].
  - apply took_err in H as (?&?&_&H). discriminate.
  - apply took_err in H as (?&?&_&H). discriminate.
  - apply took_err in H as (?&?&_&H). discriminate.
Qed.

Lemma at_arg_err c l e l' : at_arg c l = PErr e l' -> False.
Proof.
  unfold at_arg. intros H. apply bind_err in H as [H|(t&l1&_&H)]; [eapply peek_err; eauto|].
  apply bind_err in H as [H|(a&l2&_&H)]; discriminate.
Qed.

Lemma args_none c e : open (anexp (KArgs c e)) ends [].
Proof.
  exists [], e. split; [constructor|]. intros d r E A. rewrite (app_nil_map _ E). constructor. apply ends_no_arg; auto.
Qed.

(** An atom before arguments that are to be completed. *)
Lemma open_arg c e t k ts x us r : arg_start t = true -> Nat.ltb c k = true -> exprs KAtom ((t, k) :: ts) [x] (us ++ r) ->
  open (anexp (KArgs c (App e x))) ends us -> open (anexp (KArgs c e)) ends (((t, k) :: ts) ++ us).
Proof.
  intros H1 H2 D O. destruct us as [|u us].
  - exists [], (App e x). split; [constructor|]. intros d r' E A. rewrite (app_nil_map _ E). rewrite app_nil_r.
    apply (a_cons _ c e t k ts x []); auto; [eapply exprs_ends; eauto; discriminate|]. constructor. apply ends_no_arg; auto.
  - destruct O as (cs&y&V&O). exists cs, y. split; auto. intros d r' E A. rewrite <- app_assoc.
    apply (a_cons _ c e t k ts x); auto; [eapply exprs_hd; eauto|apply O; auto].
Qed.

Lemma args_fail f c : ereads f (fun _ => KAtom) -> efails f (fun _ => KAtom) -> forall n l e l' rest,
  many_f n (at_arg c) f l = PErr e l' -> sees l' rest ->
  exists pre, sees l (pre ++ rest) /\ forall x, open (anexp (KArgs (l_col c) x)) ends pre.
Proof.
  intros P F. apply (many_fail (at_arg c) f (fun us _ => forall x, open (anexp (KArgs (l_col c) x)) ends us)).
  - apply at_arg_err.
  - intros l l1 e l2 rest E1 E2 S2. unfold at_arg in E1. apply bind_ok in E1 as (t&l3&E&H). apply bind_ok in H as (h&l4&Eh&H).
    injection Eh as <- <-. injection H as H <-. apply andb_true_iff in H as (H1&H2).
    destruct (F _ _ _ _ E2 S2) as (pre&S1&cs&y&V&O). exists pre. split; [apply (peek_sees HU _ _ _ E), S1|].
    intros x. destruct pre as [|(t1,k) pre]; [apply args_none|].
    assert (t = t1) by (apply (peek_look HU _ _ _ _ E) in S1; auto). subst t1. cbn [app] in S1.
    destruct (peek_at HU _ _ _ _ _ E S1) as (_&C&_&_). subst k.
    exists cs, (App x y). split; auto. intros d r Ed A. rewrite <- (app_nil_r (((t, _) :: pre) ++ d)). cbn [app].
    apply (a_cons _ (l_col c) x t (lx_col l3) (pre ++ d) y []); [rewrite <- arg_tok; auto|exact H2|apply O; auto|].
    constructor. apply ends_no_arg; auto.
  - intros l l1 y l2 us rest E1 E2 S2 O. unfold at_arg in E1. apply bind_ok in E1 as (t&l3&E&H). apply bind_ok in H as (h&l4&Eh&H).
    injection Eh as <- <-. injection H as H <-. apply andb_true_iff in H as (H1&H2).
    destruct (P _ _ _ _ E2 S2) as (ts&Sb&D&N). destruct ts as [|(t1,k) ts]; [congruence|].
    assert (t = t1) by (apply (peek_look HU _ _ _ _ E) in Sb; auto). subst t1. cbn [app] in Sb.
    destruct (peek_at HU _ _ _ _ _ E Sb) as (_&C&_&_). exists ((t, k) :: ts). split; [apply (peek_sees HU _ _ _ E), Sb|].
    intros x. eapply open_arg; [rewrite <- arg_tok; auto|rewrite <- C; exact H2|exact D|apply O].
Qed.

Lemma application_fail f : ereads f (fun _ => KAtom) -> efails f (fun _ => KAtom) -> efails (application f) KApp.
Proof.
  intros P F l e l' rest H S. unfold application in H. apply bind_err in H as [H|(c&l0&E0&H)]; [discriminate|]. injection E0 as <- <-.
  apply bind_err in H as [H|(x&l1&E1&H)].
  - destruct (F _ _ _ _ H S) as (pre&S1&cs&y&V&O). exists pre. split; auto. exists cs, y. split; auto. intros d r E A.
    rewrite <- (app_nil_r (pre ++ d)). eapply e_app; [apply O; auto|]. constructor. apply ends_no_arg; auto.
  - apply bind_err in H as [H|(args&l2&_&H)]; [|discriminate].
    destruct (args_fail f (curr_loc l) P F _ _ _ _ _ H S) as (us&S1&O). destruct (P _ _ _ _ E1 S1) as (ts&S2&D&N).
    exists (ts ++ us). rewrite <- app_assoc. split; auto. destruct us as [|u us].
    + exists [], x. split; [constructor|]. intros d r E A. rewrite (app_nil_map _ E), !app_nil_r.
      rewrite <- (app_nil_r ts). eapply e_app; [eapply exprs_ends; eauto; discriminate|]. constructor. apply ends_no_arg; auto.
    + destruct (O x) as (cs&y&V&O'). exists cs, y. split; auto. intros d r E A. rewrite <- app_assoc.
      eapply e_app; [eapply exprs_hd; eauto|apply O'; auto].
Qed.

Lemma chain_fail f : ereads f KApp -> efails f KApp -> forall n x l e l' rest, chain_f n f x l = PErr e l' -> sees l' rest ->
  exists us, sees l (us ++ rest) /\ us <> [] /\
    forall c ts, exprs (KApp c) ts [x] (us ++ rest) -> open (anexp (KExpr c)) ends (ts ++ us).
Proof.
  intros P F. induction n as [|n IH]; intros x l e l' rest H S; cbn [chain_f] in H; destruct (p_infix l) as [i l1|e1 l1| |] eqn:Ei; try discriminate;
    apply look_err in H as (t&l2&E&H).
  all: assert (G : forall us, us <> [] -> sees l1 (us ++ rest) -> open (fresh KExpr) ends us -> exists us, sees l (us ++ rest) /\ us <> [] /\
    forall c ts, exprs (KApp c) ts [x] (us ++ rest) -> open (anexp (KExpr c)) ends (ts ++ us)).
  1,3: (intros us Nu S1 (cs&y&V&O); destruct (infix_back HU _ _ _ _ Ei S1) as (o&k&S3&Op&_);
    exists ((o, k) :: us); (split; [auto|split; [discriminate|]]); intros c ts D; exists cs, (Bin x i y); (split; [auto|]); intros d r Ed A;
    rewrite <- app_assoc; cbn [app]; destruct (O d r Ed A) as (t1&k1&vs&Ev&D1); rewrite Ev in *; eapply e_bin; eauto; eapply exprs_hd; eauto).
  all: assert (G0 : sees l1 rest -> exists us, sees l (us ++ rest) /\ us <> [] /\
    forall c ts, exprs (KApp c) ts [x] (us ++ rest) -> open (anexp (KExpr c)) ends (ts ++ us)).
  1,3: (intros S1; destruct (infix_back HU _ _ _ _ Ei S1) as (o&k&S3&Op&_);
    exists [(o, k)]; (split; [auto|split; [discriminate|]]); intros c ts D; exists [TLit (LInt 1)], (Bin x i (Lit (LInt 1)));
    (split; [apply vocab_one|]); intros d r Ed A; apply map_one in Ed as (k2&->); rewrite <- app_assoc; cbn [app];
    eapply (e_bin _ c ts x o i k _ k2 []); eauto; [eapply exprs_hd; eauto|apply expr_one; auto]).
  all: destruct (begins_expr t false); [|injection H as _ <-; apply G0; apply (peek_sees HU _ _ _ E), S].
  - discriminate.
  - apply bind_err in H as [H|(y&l3&E3&H)].
    + destruct (fails_at _ _ _ _ _ _ _ _ (or_introl eq_refl) F E H S) as (us&S1&cs&z&V&O).
      destruct us as [|u us]; [apply G0; auto|]. apply (G (u :: us)); auto; [discriminate|].
      exists cs, z. split; auto. intros d r Ed A. destruct (O d r Ed A) as (t1&k1&vs&Ev&D1). exists t1, k1, vs. split; auto.
      constructor; auto. apply ends_next; auto.
    + apply bind_err in H as [H|(z&l4&_&H)]; [|discriminate]. destruct (IH _ _ _ _ _ H S) as (us&S1&Nu&O).
      destruct (reads_at HU _ _ _ _ _ _ _ _ P E E3 S1) as (t1&k1&ts&_&S2&_&D2).
      destruct (O _ _ D2) as (cs&w&V&O'). apply (G (((t1, k1) :: ts) ++ us)); [discriminate|rewrite <- app_assoc; auto|].
      exists cs, w. split; auto. intros d r Ed A. eexists _, _, _. split; [reflexivity|]. apply O'; auto.
Qed.

Lemma binary_fail f : ereads f KApp -> efails f KApp -> efails (binary f) KExpr.
Proof.
  intros P F l e l' rest H S. unfold binary in H. apply bind_err in H as [H|(x&l1&E1&H)].
  - destruct (F _ _ _ _ H S) as (pre&S1&cs&y&V&O). exists pre. split; auto. exists cs, y. split; auto. intros d r E A.
    constructor; [apply O; auto|apply ends_next; auto].
  - destruct (chain_fail f P F _ _ _ _ _ _ H S) as (us&S1&Nu&O). destruct (P _ _ _ _ E1 S1) as (ts&S2&D&_).
    exists (ts ++ us). rewrite <- app_assoc. split; auto.
Qed.

Lemma expr_fail : forall n, efails (expr_f n) KExpr.
Proof.
  induction n as [|n IH]; intros l e l' rest H S; cbn [expr_f] in H; [discriminate|].
  revert H S. apply binary_fail; [apply (application_back HU), (atom_back HU), (expr_back HU)|].
  apply application_fail; [apply (atom_back HU), (expr_back HU)|]. apply atom_fail; [apply (expr_back HU)|apply IH].
Qed.
Lemma expression_fail : efails expression KExpr.
Proof. intros l e l' rest. unfold expression. apply expr_fail. Qed.

(** * Programs *)

Lemma decl_fail l e l' rest : p_decl l = PErr e l' -> sees l' rest ->
  exists pre, sees l (pre ++ rest) /\ (pre = [] \/ open decl_of (fun r => r = []) pre).
Proof.
  unfold p_decl. intros H S. apply look_err in H as (t&l1&E&H).
  assert (G0 : (@fail decl (Unexpected t (curr_loc l))) l1 = PErr e l' -> exists pre, sees l (pre ++ rest) /\ (pre = [] \/ open decl_of (fun r => r = []) pre)).
  { intros X. injection X as _ <-. exists []. split; auto. apply (peek_sees HU _ _ _ E), S. }
  assert (G1 : (d <- p_infix_decl;; ret (DInfix d)) l1 = PErr e l' -> exists pre, sees l (pre ++ rest) /\ (pre = [] \/ open decl_of (fun r => r = []) pre)).
  { clear H. intros H. apply bind_err in H as [H|(i&l2&_&H)]; [|discriminate].
    destruct (infix_decl_fail HU _ _ _ _ H S) as (pre&S1&cs&x&V&O). exists pre. split; [apply (peek_sees HU _ _ _ E), S1|]. right.
    exists cs, (DInfix x). split; auto. intros c r Ec ->. constructor; auto. }
  assert (G2 : (y <- expression;; ret (DExpr y)) l1 = PErr e l' -> exists pre, sees l (pre ++ rest) /\ (pre = [] \/ open decl_of (fun r => r = []) pre)).
  { clear H. intros H. apply bind_err in H as [H|(i&l2&_&H)]; [|discriminate].
    destruct (fails_at _ _ _ _ _ _ _ _ (or_intror eq_refl) expression_fail E H S) as (pre&S1&cs&x&V&O). exists pre. split; auto. right.
    exists cs, (DExpr x). split; auto. intros c r Ec ->. destruct (O c [] Ec I) as (t1&k1&us&->&D). constructor; auto. }
  destruct t; try (apply G0; exact H); auto.
Qed.

Lemma decl_end ts d r : decl_of ts d r -> decl_of ts d [].
Proof.
  destruct 1; constructor.
  - eapply declares_next; eauto.
  - eapply exprs_ends; eauto; [discriminate|exact I].
Qed.

Definition viable (ts : list ptok) : Prop :=
  exists cs ds, vocab cs /\ forall c, map fst c = cs -> program (ts ++ c) ds.

Lemma decls_fail l e l' rest : p_decls l = PErr e l' -> sees l' rest ->
  exists pre, sees l (pre ++ rest) /\ viable pre.
Proof.
  unfold p_decls, many. intros H S.
  destruct (many_fail (d <- is_done;; ret (negb d)) (d <- p_decl;; ignore TSemi;;; ret d) (fun us _ => viable us)) with (4 := H) (5 := S)
    as (pre&S1&V); eauto.
  - intros a e1 b X. apply bind_err in X as [X|(d&l1&_&X)]; [|discriminate]. unfold is_done in X.
    apply bind_err in X as [X|(t&l1&_&X)]; [eapply peek_err; eauto|discriminate].
  - intros a b e1 c r E1 E2 S2. unfold is_done in E1. apply bind_ok in E1 as (d&l1&E&Ed). apply bind_ok in E as (t&l2&E&Et).
    injection Et as <- <-. injection Ed as _ <-. apply bind_err in E2 as [E2|(x&l3&_&E2)].
    + destruct (decl_fail _ _ _ _ E2 S2) as (pre&S1&D). exists pre. split; [apply (peek_sees HU _ _ _ E), S1|].
      destruct D as [->|(cs&x&V&O)].
      * exists [], []. split; [constructor|]. intros k Ek. rewrite (app_nil_map _ Ek). constructor.
      * exists cs, [x]. split; auto. intros k Ek. rewrite <- (app_nil_r (pre ++ k)). apply pr_plain; auto. constructor.
    + apply bind_err in E2 as [E2|(y&l4&_&E2)]; [|discriminate]. unfold ignore in E2.
      apply bind_err in E2 as [E2|(z&l5&_&E2)]; [destruct (bump_on_err _ _ _ _ E2)|discriminate].
  - intros a b x c us r E1 Ex Sc V. unfold is_done in E1. apply bind_ok in E1 as (d&l1&E&Ed). apply bind_ok in E as (t&l2&E&Et).
    injection Et as <- <-. injection Ed as _ <-. apply bind_ok in Ex as (d2&l3&E3&Ex). apply bind_ok in Ex as ([]&l4&E4&Ex).
    injection Ex as <- <-. unfold ignore in E4. apply bind_ok in E4 as (bb&l5&E5&E4). injection E4 as <-.
    apply (bump_on_back HU _ _ _ _ (us ++ r)) in E5; auto. destruct V as (cs&ds&V&O). destruct bb.
    + destruct E5 as (k&S5&_). destruct (decl_back HU _ _ _ _ E3 S5) as (ts&S3&D).
      exists (ts ++ [(TSemi, k)]). split; [rewrite <- app_assoc; apply (peek_sees HU _ _ _ E), S3|].
      exists cs, (d2 :: ds). split; auto. intros k0 Ek. rewrite <- !app_assoc. cbn [app]. apply pr_semi; auto.
      clear - D. inversion D; subst; constructor; [eapply declares_hd|eapply exprs_hd]; eauto.
    + destruct E5 as (S5&N). destruct (decl_back HU _ _ _ _ E3 S5) as (ts&S3&D).
      exists ts. split; [apply (peek_sees HU _ _ _ E), S3|]. destruct us as [|u us].
      * exists [], [d2]. split; [constructor|]. intros k Ek. rewrite (app_nil_map _ Ek), !app_nil_r. rewrite <- (app_nil_r ts).
        apply pr_plain; [eapply decl_end; eauto|auto|constructor].
      * exists cs, (d2 :: ds). split; auto. intros k Ek. rewrite <- app_assoc. apply pr_plain; auto.
        -- clear - D. inversion D; subst; constructor; [eapply declares_hd|eapply exprs_hd]; eauto.
        -- destruct u as (t1,k1). cbn [app look next_is] in *. destruct t1; auto; discriminate.
Qed.

Lemma parse_fail src e l' rest : parse src = PErr e l' -> sees l' rest ->
  exists pre, sees (lexer_new src) (pre ++ rest) /\ viable pre.
Proof.
  unfold parse, p_parse. intros H S. apply bind_err in H as [H|(ds&l1&_&H)]; [|discriminate]. eapply decls_fail; eauto.
Qed.

End WithUcd.
