(** What the parser accepts is in the grammar: expressions and programs. *)
From Coq Require Import List Arith NArith Bool String Lia.
From Verif Require Import Prelim Chars Syntax Lexer SpecLexer SpecLexRun Parser SpecParser.
From Verif Require Import ProofLexer ProofLexer7 ProofParser ProofParser3.
Import ListNotations.

Section WithUcd.
Context {U : ucd}.
Context (HU : letters U).

Notation exprs := (exprs Nat.ltb).
Notation decl_of := (decl_of Nat.ltb).
Notation program := (program Nat.ltb).

(** [p] reads expressions that start at the lexer's column. *)
Definition ereads (p : parser expr) (q : nat -> ekind) : Prop :=
  forall l x l' rest, p l = POk x l' -> sees l' rest ->
  exists cs, sees l (cs ++ rest) /\ exprs (q (lx_col l)) cs [x] rest /\ cs <> [].

(** The same when the next token has been looked at. *)
Lemma reads_at p q l0 t l x l' rest : ereads p q -> peek l0 = POk t l -> p l = POk x l' -> sees l' rest ->
  exists t k cs, sees l (((t, k) :: cs) ++ rest) /\ sees l0 (((t, k) :: cs) ++ rest) /\ lx_col l = k /\
    exprs (q k) ((t, k) :: cs) [x] rest.
Proof.
  intros P E0 E S. destruct (P _ _ _ _ E S) as (cs&S1&D&N). destruct cs as [|(t1,k) cs]; [congruence|].
  assert (t = t1) by (apply (peek_look HU _ _ _ _ E0) in S1; auto). subst t1.
  cbn [app] in *. destruct (peek_at HU _ _ _ _ _ E0 S1) as (_&C&_&_). subst k.
  exists t, (lx_col l), cs. repeat split; auto. apply (peek_sees HU _ _ _ E0), S1.
Qed.

Lemma lambda_back f : ereads f KExpr -> ereads (lambda f) (fun _ => KAtom).
Proof.
  intros F l x l' rest H S. unfold lambda in H. apply bind_ok in H as ([]&l1&E1&H).
  apply bind_ok in H as (p&l2&E2&H). apply bind_ok in H as (ps&l3&E3&H). apply bind_ok in H as ([]&l4&E4&H).
  apply bind_ok in H as (b&l5&E5&H). injection H as <- <-.
  destruct (F _ _ _ _ E5 S) as (us&S1&D1&_). destruct (eat_back HU _ _ _ _ E4 eq_refl S1) as (k'&S2&C).
  destruct (juxt_back HU _ (pattern_back HU) _ _ _ _ _ E3 S2) as (vs&S3&D2).
  destruct (pattern_back HU _ _ _ _ E2 S3) as (ts&S4&D3). destruct (eat_back HU _ _ _ _ E1 eq_refl S4) as (k&S5&_).
  eexists ((_, _) :: (ts ++ vs) ++ (_, _) :: us). split; [|split; [|discriminate]].
  - cbn [app]. rewrite <- !app_assoc. exact S5.
  - subst k'. apply t_lam; auto. constructor; auto.
Qed.

Lemma commas_back l xs l' n rest : many_f n (bump_on TComma) (ret tt) l = POk xs l' -> sees l' rest ->
  exists cs, sees l (cs ++ rest) /\ Forall (fun x => fst x = TComma) cs /\ List.length cs = List.length xs /\
    next_is is_comma rest = false.
Proof.
  apply (many_back (bump_on TComma) (ret tt)
    (fun cs xs rest => Forall (fun x => fst x = TComma) cs /\ List.length cs = List.length xs /\ next_is is_comma rest = false)).
  - intros a b r H Sb. apply (bump_on_back HU _ _ _ _ r) in H as (S2&N); auto. rewrite same_comma, look_next in N by auto.
    auto.
  - intros a b x c us ys r H Hx Sc (R1&R2&R3). injection Hx as <- <-.
    apply (bump_on_back HU _ _ _ _ (us ++ r)) in H as (k'&Sa&_); auto.
    exists [(TComma, k')]. split; auto. cbn. auto.
Qed.

Lemma tail_back f : ereads f KExpr -> forall n l xs l' rest,
  many_f n (bump_on TComma) f l = POk xs l' -> sees l' rest ->
  exists cs, sees l (cs ++ rest) /\ exprs KTail cs xs rest.
Proof.
  intros F. apply many_back.
  - intros a b r H Sb. apply (bump_on_back HU _ _ _ _ r) in H as (S2&N); auto. rewrite same_comma, look_next in N by auto.
    split; auto. constructor; auto.
  - intros a b x c us xs r H Hx Sc R. destruct (F _ _ _ _ Hx Sc) as (ts&Sb&D&_).
    apply (bump_on_back HU _ _ _ _ (ts ++ us ++ r)) in H as (k'&Sa&C); auto. subst k'.
    eexists ((TComma, _) :: ts). split; [exact Sa|]. cbn [app]. constructor; auto.
Qed.

Lemma paren_expr_back f : ereads f KExpr -> ereads (paren_expr f) (fun _ => KAtom).
Proof.
  intros F l x l' rest H S. unfold paren_expr in H. apply bind_ok in H as ([]&l1&E1&H).
  apply look_back in H as (t&l2&E2&H).
  assert (G : (first <- f;; comma <- peek_on TComma;;
      (if comma then es <- many (bump_on TComma) f;; eat TParenR;;; ret (Tup (first :: es))
       else eat TParenR;;; ret (Grp first))) l2 = POk x l' ->
      exists cs, sees l (cs ++ rest) /\ exprs KAtom cs [x] rest /\ cs <> []).
  { clear H. intros H. apply bind_ok in H as (e&l3&E3&H). apply bind_ok in H as (b&l4&E4&H). destruct b.
    - apply bind_ok in H as (es&l5&E5&H). apply bind_ok in H as ([]&l6&E6&H). injection H as <- <-.
      destruct (eat_back HU _ _ _ _ E6 eq_refl S) as (k'&S6&_).
      destruct (tail_back f F _ _ _ _ _ E5 S6) as (us&S5&D1). destruct (look_comma HU _ _ _ _ E4 S5) as (S4&N).
      destruct (reads_at _ _ _ _ _ _ _ _ F E2 E3 S4) as (t1&k1&ts&_&S2&_&D).
      destruct (eat_back HU _ _ _ _ E1 eq_refl S2) as (k&S1&_).
      eexists ((TParenL, _) :: ((_, _) :: ts) ++ us ++ [(TParenR, _)]). split; [|split; [|discriminate]].
      + cbn [app]. rewrite <- !app_assoc. exact S1.
      + apply t_tuple; eauto. intros ->. discriminate N.
    - apply bind_ok in H as ([]&l6&E6&H). injection H as <- <-.
      destruct (eat_back HU _ _ _ _ E6 eq_refl S) as (k'&S6&_). destruct (look_comma HU _ _ _ _ E4 S6) as (S4&N).
      destruct (reads_at _ _ _ _ _ _ _ _ F E2 E3 S4) as (t1&k1&ts&_&S2&_&D).
      destruct (eat_back HU _ _ _ _ E1 eq_refl S2) as (k&S1&_).
      eexists ((TParenL, _) :: ((_, _) :: ts) ++ [(TParenR, _)]). split; [|split; [|discriminate]].
      + cbn [app]. rewrite <- !app_assoc. exact S1.
      + apply t_group; eauto. }
  destruct t; try discriminate; try (exact (G H)); clear G.
  - apply bind_ok in H as (t2&l3&B&H). injection H as <- <-. destruct (take_back HU _ _ _ _ _ _ E2 eq_refl B S) as (_&S2&_).
    destruct (eat_back HU _ _ _ _ E1 eq_refl S2) as (k&S1&_). eexists [_; _]. split; [exact S1|]. split; [constructor|discriminate].
  - apply bind_ok in H as (cs&l3&E3&H). apply bind_ok in H as ([]&l4&E4&H). injection H as <- <-.
    destruct (eat_back HU _ _ _ _ E4 eq_refl S) as (k'&S4&_).
    destruct (commas_back _ _ _ _ _ E3 S4) as (ts&S3&Q1&Q2&Q3).
    pose proof (peek_look HU _ _ _ _ E2 S3) as L. apply (peek_sees HU _ _ _ E2) in S3.
    destruct (eat_back HU _ _ _ _ E1 eq_refl S3) as (k&S1&_).
    eexists ((_, _) :: ts ++ [(_, _)]). split; [|split; [|discriminate]].
    + cbn [app]. rewrite <- !app_assoc. exact S1.
    + rewrite <- Q2. apply t_commas; auto. intros ->. discriminate L.
  - apply bind_ok in H as (t2&l3&B&H). apply bind_ok in H as ([]&l4&E4&H). injection H as <- <-.
    destruct (eat_back HU _ _ _ _ E4 eq_refl S) as (k'&S4&_).
    destruct (take_back HU _ _ _ _ _ _ E2 eq_refl B S4) as (_&S2&_).
    destruct (eat_back HU _ _ _ _ E1 eq_refl S2) as (k&S1&_). eexists [_; _; _]. split; [exact S1|]. split; [constructor|discriminate].
Qed.

Lemma items_back f : ereads f KExpr -> forall n l xs l' k rest,
  many_f n more_items (item f) l = POk xs l' -> sees l' ((TBrackR, k) :: rest) ->
  exists cs, sees l (cs ++ (TBrackR, k) :: rest) /\ exprs KItems cs xs ((TBrackR, k) :: rest).
Proof.
  intros F n l xs l' k rest H S.
  destruct (many_back more_items (item f) (fun cs xs r => next_is (fun t => match t with TBrackR => true | _ => false end) r = true ->
     exprs KItems cs xs r)) with (3 := H) (4 := S) as (cs&S1&R); eauto.
  - intros a b r E Sb. unfold more_items, is_done in E. apply bind_ok in E as (d&l1&Ed&E).
    apply bind_ok in Ed as (t&l2&Et&Ed). injection Ed as <- <-. destruct (same t TEof) eqn:Q.
    + injection E as <-. split; [apply (peek_sees HU _ _ _ Et), Sb|]. apply same_eq in Q. subst t.
      pose proof (peek_look HU _ _ _ _ Et Sb) as L. intros N. destruct r as [|(t1,k1) r]; [discriminate N|].
      cbn in L, N. subst t1. discriminate.
    + apply bind_ok in E as (b2&l3&E3&E). injection E as E <-. apply peek_on_back in E3 as (t3&E3&->).
      split. { apply (peek_sees HU _ _ _ Et), (peek_sees HU _ _ _ E3), Sb. }
      intros N. destruct r as [|([] ,k1) r]; try discriminate N. constructor.
  - intros a b x c us ys r E Ex Sc R.
    assert (Pb : exists l0 t, peek l0 = POk t b /\ forall ts, sees b ts -> sees a ts).
    { unfold more_items, is_done in E. apply bind_ok in E as (d&l1&Ed&E). apply bind_ok in Ed as (t&l2&Et&Ed). injection Ed as <- <-.
      destruct (same t TEof); [discriminate|].
      apply bind_ok in E as (b2&l3&E3&E). injection E as E <-. apply peek_on_back in E3 as (t3&E3&->).
      exists l2, t3. split; auto. intros ts Sb. apply (peek_sees HU _ _ _ Et), (peek_sees HU _ _ _ E3), Sb. }
    destruct Pb as (l0&t0&Pb&Sa). unfold item in Ex. apply bind_ok in Ex as (e&l1&Ee&Ex). apply bind_ok in Ex as (cm&l2&Ec&Ex).
    destruct cm.
    + apply bind_ok in Ex as (t2&l3&B&Ex). injection Ex as <- <-. apply peek_on_back in Ec as (t&Ec&Et).
      symmetry in Et. apply same_eq in Et. subst t. destruct (take_back HU _ _ _ _ _ _ Ec eq_refl B Sc) as (_&S2&_).
      destruct (reads_at _ _ _ _ _ _ _ _ F Pb Ee S2) as (t1&k1&ts&S3&_&_&D).
      exists (((t1, k1) :: ts) ++ [(TComma, lx_col l2)]). split; [rewrite <- app_assoc; apply Sa, S3|].
      intros N. rewrite <- app_assoc. cbn [app]. apply i_comma; auto.
    + injection Ex as <- <-. destruct (look_comma HU _ _ _ _ Ec Sc) as (S2&N2).
      destruct (reads_at _ _ _ _ _ _ _ _ F Pb Ee S2) as (t1&k1&ts&S3&_&_&D).
      exists ((t1, k1) :: ts). split; [apply Sa, S3|]. intros N. apply i_plain; auto.
Qed.

Lemma brack_expr_back f : ereads f KExpr -> ereads (brack_expr f) (fun _ => KAtom).
Proof.
  intros F l x l' rest H S. unfold brack_expr in H. apply bind_ok in H as ([]&l1&E1&H).
  apply bind_ok in H as (es&l2&E2&H). apply bind_ok in H as ([]&l3&E3&H). injection H as <- <-.
  destruct (eat_back HU _ _ _ _ E3 eq_refl S) as (k'&S3&_).
  destruct (items_back f F _ _ _ _ _ _ E2 S3) as (cs&S2&D). destruct (eat_back HU _ _ _ _ E1 eq_refl S2) as (k&S1&_).
  eexists ((_, _) :: cs ++ [(_, _)]). split; [|split; [|discriminate]].
  - cbn [app]. rewrite <- !app_assoc. exact S1.
  - apply t_list; auto.
Qed.

Lemma atom_back f : ereads f KExpr -> ereads (atom f) (fun _ => KAtom).
Proof.
  intros F l x l' rest H S. unfold atom in H. apply look_back in H as (t&l1&E&H).
  assert (G : forall cs, sees l1 (cs ++ rest) -> sees l (cs ++ rest)) by (intros cs; apply (peek_sees HU _ _ _ E)).
  destruct t; try discriminate.
  - destruct (paren_expr_back f F _ _ _ _ H S) as (cs&S1&D&N). eauto.
  - destruct (brack_expr_back f F _ _ _ _ H S) as (cs&S1&D&N). eauto.
  - destruct (lambda_back f F _ _ _ _ H S) as (cs&S1&D&N). eauto.
  - apply bind_ok in H as (t2&l2&B&H). apply bind_ok in H as (d&l3&E3&H). apply bind_ok in H as ([]&l4&E4&H).
    apply bind_ok in H as (e&l5&E5&H). injection H as <- <-.
    destruct (F _ _ _ _ E5 S) as (us&S1&D1&_). destruct (eat_back HU _ _ _ _ E4 eq_refl S1) as (k'&S2&C).
    destruct (infix_decl_back HU _ _ _ _ E3 S2) as (ds&S3&D3). destruct (take_back HU _ _ _ _ _ _ E eq_refl B S3) as (_&S4&_).
    eexists ((_, _) :: ds ++ (_, _) :: us). split; [|split; [|discriminate]].
    + cbn [app]. rewrite <- !app_assoc. exact S4.
    + subst k'. apply t_let; auto.
  - apply bind_ok in H as (t2&l2&B&H). injection H as <- <-. destruct (take_back HU _ _ _ _ _ _ E eq_refl B S) as (_&S4&_).
    eexists [_]. split; [exact S4|]. split; [constructor|discriminate].
  - apply bind_ok in H as (t2&l2&B&H). injection H as <- <-. destruct (take_back HU _ _ _ _ _ _ E eq_refl B S) as (_&S4&_).
    eexists [_]. split; [exact S4|]. split; [constructor|discriminate].
  - apply bind_ok in H as (t2&l2&B&H). injection H as <- <-. destruct (take_back HU _ _ _ _ _ _ E eq_refl B S) as (_&S4&_).
    eexists [_]. split; [exact S4|]. split; [constructor|discriminate].
Qed.

Lemma arg_tok t : arg_expr_tok t = arg_start t.
Proof. destruct t; auto. Qed.

Lemma args_back f c : ereads f (fun _ => KAtom) -> forall n l xs l' rest,
  many_f n (at_arg c) f l = POk xs l' -> sees l' rest ->
  exists cs, sees l (cs ++ rest) /\ forall e, exprs (KArgs (l_col c) e) cs [fold_left App xs e] rest.
Proof.
  intros F. apply (many_back (at_arg c) f (fun cs xs r => forall e, exprs (KArgs (l_col c) e) cs [fold_left App xs e] r)).
  - intros a b r H Sb. unfold at_arg in H. apply bind_ok in H as (t&l1&E&H). apply bind_ok in H as (h&l2&Eh&H).
    injection Eh as <- <-. injection H as H <-. split; [apply (peek_sees HU _ _ _ E), Sb|]. intros e. cbn [fold_left].
    constructor. destruct r as [|(t1,k) r]; cbn [no_arg]; auto.
    assert (t = t1) by (apply (peek_look HU _ _ _ _ E) in Sb; auto). subst t1.
    destruct (peek_at HU _ _ _ _ _ E Sb) as (_&C&_&_). rewrite <- C, <- arg_tok. exact H.
  - intros a b x l2 us xs r H Hx Sc R. unfold at_arg in H. apply bind_ok in H as (t&l1&E&H). apply bind_ok in H as (h&l3&Eh&H).
    injection Eh as <- <-. injection H as H <-. apply andb_true_iff in H as (H1&H2).
    destruct (F _ _ _ _ Hx Sc) as (ts&Sb&D&N). destruct ts as [|(t1,k) ts]; [congruence|].
    assert (t = t1) by (apply (peek_look HU _ _ _ _ E) in Sb; auto). subst t1. cbn [app] in Sb.
    destruct (peek_at HU _ _ _ _ _ E Sb) as (_&C&_&_). exists ((t, k) :: ts). split; [apply (peek_sees HU _ _ _ E), Sb|].
    intros e. cbn [fold_left]. eapply a_cons; [rewrite <- arg_tok; auto|rewrite <- C; exact H2|exact D|apply R].
Qed.

Lemma application_back f : ereads f (fun _ => KAtom) -> ereads (application f) KApp.
Proof.
  intros F l x l' rest H S. unfold application in H. apply bind_ok in H as (c&l0&E0&H). injection E0 as <- <-.
  apply bind_ok in H as (e&l1&E1&H). apply bind_ok in H as (args&l2&E2&H). injection H as <- <-.
  destruct (args_back f (curr_loc l) F _ _ _ _ _ E2 S) as (us&S1&D1). destruct (F _ _ _ _ E1 S1) as (ts&S2&D2&N).
  exists (ts ++ us). rewrite <- app_assoc. split; auto. split.
  - eapply e_app; eauto.
  - destruct ts; [congruence|discriminate].
Qed.

Lemma infix_fails l e l1 ts : p_infix l = PErr e l1 -> sees l1 ts -> sees l ts /\ next_is is_op ts = false.
Proof.
  unfold p_infix, here, bind at 1. intros H S. unfold bind at 1 in H. destruct (peek l) as [t l2| | |] eqn:E; try discriminate.
  2:{ unfold peek in E. destruct (lx_peek l) as [[[]]| |]; discriminate. }
  assert (l1 = l2). { destruct t; unfold bind in H; try (injection H; auto; fail); unfold bump in H; destruct (lx_bump l2); discriminate. }
  subst l2. split; [apply (peek_sees HU _ _ _ E), S|]. rewrite <- look_next, <- (peek_look HU _ _ _ _ E S) by auto.
  destruct t; auto; unfold bind in H; unfold bump in H; destruct (lx_bump l1); discriminate.
Qed.

Lemma chain_back f : ereads f KApp -> forall n e l x l' rest, chain_f n f e l = POk x l' -> sees l' rest ->
  exists cs, sees l (cs ++ rest) /\ forall c ts, exprs (KApp c) ts [e] (cs ++ rest) -> exprs (KExpr c) (ts ++ cs) [x] rest.
Proof.
  intros F. induction n as [|n IH]; intros e l x l' rest H S; cbn [chain_f] in H; destruct (p_infix l) as [i l1|e1 l1| |] eqn:Ei; try discriminate.
  - apply look_back in H as (t&l2&E&H). destruct (begins_expr t false); discriminate.
  - injection H as <- <-. destruct (infix_fails _ _ _ _ Ei S) as (S1&N). exists []. split; auto.
    intros c ts D. rewrite app_nil_r. constructor; auto.
  - apply look_back in H as (t&l2&E&H). destruct (begins_expr t false); [|discriminate].
    apply bind_ok in H as (r&l3&E3&H). apply bind_ok in H as (y&l4&E4&H). injection H as <- <-.
    destruct (IH _ _ _ _ _ E4 S) as (us&S1&D1). destruct (reads_at _ _ _ _ _ _ _ _ F E E3 S1) as (t1&k1&ts&_&S2&_&D2).
    destruct (infix_back HU _ _ _ _ Ei S2) as (o&k&S3&O&_).
    exists ((o, k) :: ((t1, k1) :: ts) ++ us). split.
    { cbn [app]. rewrite <- app_assoc. exact S3. }
    intros c vs D. cbn [app]. eapply e_bin; [|exact O|exact (D1 _ _ D2)].
    cbn [app]. cbn [app] in D. exact D.
  - injection H as <- <-. destruct (infix_fails _ _ _ _ Ei S) as (S1&N). exists []. split; auto.
    intros c ts D. rewrite app_nil_r. constructor; auto.
Qed.

Lemma binary_back f : ereads f KApp -> ereads (binary f) KExpr.
Proof.
  intros F l x l' rest H S. unfold binary in H. apply bind_ok in H as (e&l1&E1&H).
  destruct (chain_back f F _ _ _ _ _ _ H S) as (us&S1&D1). destruct (F _ _ _ _ E1 S1) as (ts&S2&D2&N).
  exists (ts ++ us). rewrite <- app_assoc. split; auto. split; auto. destruct ts; [congruence|discriminate].
Qed.

Lemma expr_back : forall n, ereads (expr_f n) KExpr.
Proof.
  induction n as [|n IH]; intros l x l' rest H S; cbn [expr_f] in H; [discriminate|].
  revert H S. apply binary_back, application_back, atom_back, IH.
Qed.
Lemma expression_back : ereads expression KExpr.
Proof. intros l x l' rest. unfold expression. apply expr_back. Qed.

Lemma decl_back l d l' rest : p_decl l = POk d l' -> sees l' rest ->
  exists cs, sees l (cs ++ rest) /\ decl_of cs d rest.
Proof.
  unfold p_decl. intros H S. apply look_back in H as (t&l1&E&H).
  assert (G : forall cs, sees l1 (cs ++ rest) -> sees l (cs ++ rest)) by (intros cs; apply (peek_sees HU _ _ _ E)).
  assert (G1 : (d <- p_infix_decl;; ret (DInfix d)) l1 = POk d l' -> exists cs, sees l (cs ++ rest) /\ decl_of cs d rest).
  { clear H. intros H. apply bind_ok in H as (i&l2&Ei&H). injection H as <- <-.
    destruct (infix_decl_back HU _ _ _ _ Ei S) as (cs&S1&D). exists cs. split; auto. constructor; auto. }
  assert (G2 : (e <- expression;; ret (DExpr e)) l1 = POk d l' -> exists cs, sees l (cs ++ rest) /\ decl_of cs d rest).
  { clear H. intros H. apply bind_ok in H as (e&l2&Ei&H). injection H as <- <-.
    destruct (reads_at _ _ _ _ _ _ _ _ expression_back E Ei S) as (t1&k1&ts&_&S2&_&D). eexists. split; [exact S2|].
    constructor; auto. }
  destruct t; try discriminate; auto.
Qed.

Lemma decls_back l ds l' : p_decls l = POk ds l' -> sees l' [] ->
  exists ts, sees l ts /\ program ts ds.
Proof.
  unfold p_decls, many. intros H S.
  destruct (many_back (d <- is_done;; ret (negb d)) (d <- p_decl;; ignore TSemi;;; ret d)
    (fun cs ds r => r = [] -> program cs ds)) with (3 := H) (4 := S) as (cs&S1&R).
  - intros a b r E Sb. unfold is_done in E. apply bind_ok in E as (d&l1&E&Ed). apply bind_ok in E as (t&l2&E&Et).
    injection Et as <- <-. injection Ed as Ed <-. split; [apply (peek_sees HU _ _ _ E), Sb|]. intros _. constructor.
  - intros a b x c us xs r E Ex Sc R. unfold is_done in E. apply bind_ok in E as (d&l1&E&Ed). apply bind_ok in E as (t&l2&E&Et).
    injection Et as <- <-. injection Ed as _ <-. apply bind_ok in Ex as (d2&l3&E3&Ex). apply bind_ok in Ex as ([]&l4&E4&Ex).
    injection Ex as <- <-. unfold ignore in E4. apply bind_ok in E4 as (bb&l5&E5&E4). injection E4 as <-.
    apply (bump_on_back HU _ _ _ _ (us ++ r)) in E5; auto. destruct bb.
    + destruct E5 as (k&S5&_). destruct (decl_back _ _ _ _ E3 S5) as (ts&S3&D).
      exists (ts ++ [(TSemi, k)]). split; [rewrite <- app_assoc; apply (peek_sees HU _ _ _ E), S3|].
      intros ->. rewrite <- app_assoc. rewrite app_nil_r in D. constructor; auto.
    + destruct E5 as (S5&N). destruct (decl_back _ _ _ _ E3 S5) as (ts&S3&D).
      exists ts. split; [apply (peek_sees HU _ _ _ E), S3|]. intros ->. rewrite app_nil_r in *. apply pr_plain; auto.
      rewrite <- look_next by auto. destruct (look us); auto; discriminate.
  - exists cs. rewrite app_nil_r in S1. auto.
Qed.

End WithUcd.
