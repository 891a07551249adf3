(** Printed expressions are read back. *)
From Coq Require Import List Arith NArith ZArith Bool String Lia.
From Verif Require Import Prelim Chars Syntax Fixity SpecFixity Style SpecStyle SpecLexer SpecParser Printer SpecPrinter.
From Verif Require Import ProofPrinter ProofPrinter2 ProofPrinter3 ProofPrinter4.
Import ListNotations.

(** Every infix expression has one operator, and there is no let. *)
Inductive single : expr -> Prop :=
| si_lit x : single (Lit x)
| si_var i : single (Var i)
| si_app f x : single f -> single x -> single (App f x)
| si_bin a o b : not_bin a -> not_bin b -> single a -> single b -> single (Bin a o b)
| si_lam p e : single e -> single (Lam p e)
| si_grp e : single e -> single (Grp e)
| si_tup es : Forall single es -> single (Tup es)
| si_list es : Forall single es -> single (List es).

Lemma single_flat : forall e, single e -> flat e /\ nodup_lets e /\ forall F, resolves F e e.
Proof.
  fix IH 2. intros e H.
  assert (L : forall es, Forall single es -> Forall flat es /\ Forall nodup_lets es /\ forall F, Forall2 (resolves F) es es).
  { clear H e. fix IHl 2. intros es H. destruct H as [|x es H Hs]; [repeat split; constructor|].
    destruct (IH _ H) as (A&B&C). destruct (IHl _ Hs) as (D&E&F). repeat split; constructor; auto. }
  destruct H as [x|i|f x Hf Hx|a o b Na Nb Ha Hb|p e He|e He|es Hs|es Hs].
  - repeat split; constructor.
  - repeat split; constructor.
  - destruct (IH _ Hf) as (A&B&C). destruct (IH _ Hx) as (D&E&F). repeat split; constructor; auto.
  - destruct (IH _ Ha) as (A&B&C). destruct (IH _ Hb) as (D&E&F). split; [|split]; [constructor; auto..|].
    intros G. apply (rs_bin G a o b (Node (Leaf a) o (Leaf b))).
    + cbn. repeat split; discriminate.
    + assert (K : forall e, not_bin e -> chain e = [Operand e]).
      { intros e N. destruct e; auto. exfalso. eapply N; eauto. }
      cbn [chain yield]. rewrite (K b) by auto. repeat constructor; auto.
  - destruct (IH _ He) as (A&B&C). repeat split; constructor; auto.
  - destruct (IH _ He) as (A&B&C). repeat split; constructor; auto.
  - destruct (L _ Hs) as (A&B&C). repeat split; constructor; auto.
  - destruct (L _ Hs) as (A&B&C). repeat split; constructor; auto.
Qed.

Lemma single_lams ps e : single e -> single (fold_right Lam e ps).
Proof. induction ps; cbn; auto. constructor. auto. Qed.

Section WithUcd.
Context {U : ucd}.

Let any : nat -> nat -> bool := fun _ _ => true.
Notation exprs := (exprs any).

(** What can follow a whole expression. *)
Definition ends (r : list ptok) : Prop := next_is is_op r = false /\ next_is arg_start r = false.

Definition arg_ok (ts : list ptok) (e : expr) : Prop :=
  next_is arg_start ts = true /\ not_bin e /\ forall us, exprs KAtom ts [e] us.
Definition spine_ok (ts : list ptok) (e : expr) : Prop :=
  forall c us g r, exprs (KArgs c e) us [g] r -> exprs (KApp c) (ts ++ us) [g] r.
Definition expr_ok (ts : list ptok) (e : expr) : Prop :=
  forall c us, ends us -> exprs (KExpr c) ts [e] us.

Definition reads (s : str) (e : expr) (arg spine : bool) : Prop := forall w, exists ts e',
  lexes s w ts /\ ts <> [] /\ bare e' = bare e /\ single e' /\
  (arg = true -> arg_ok ts e') /\ (spine = true -> spine_ok ts e') /\ expr_ok ts e'.

Lemma no_arg_any c r : next_is arg_start r = false -> no_arg any c r.
Proof. destruct r as [|(t,k) r]; cbn; auto. intros ->. reflexivity. Qed.

Lemma arg_spine ts e : arg_ok ts e -> spine_ok ts e.
Proof. intros (_&_&H) c us g r A. eapply e_app; [apply H|exact A]. Qed.
Lemma spine_expr ts e : spine_ok ts e -> expr_ok ts e.
Proof.
  intros H c us (A&B). apply e_one; auto. rewrite <- (app_nil_r ts). apply H. apply a_nil. apply no_arg_any. auto.
Qed.

(** It suffices to know the atom. *)
Lemma arg_reads s e spine : (forall w, exists ts e', lexes s w ts /\ bare e' = bare e /\ single e' /\ arg_ok ts e') ->
  reads s e true spine.
Proof.
  intros H w. destruct (H w) as (ts&e'&L&B&S1&A). exists ts, e'. repeat split; auto; try apply A.
  - intros ->. destruct A as (A&_). discriminate.
  - intros _. apply arg_spine; auto.
  - apply spine_expr. apply arg_spine. auto.
Qed.
Lemma reads_weak s e a sp : reads s e a sp -> forall b sp', (b = true -> a = true) -> (sp' = true -> sp = true) -> reads s e b sp'.
Proof.
  intros H b sp' Hb Hs w. destruct (H w) as (ts&e'&L&N&B&S1&A&P&X). exists ts, e'. repeat split; auto; apply A; auto.
Qed.

Lemma ends_close t k r : t = TParenR \/ t = TBrackR \/ t = TComma -> ends ((t, k) :: r).
Proof. intros H; destruct H as [H|[H|H]]; subst t; split; reflexivity. Qed.

Lemma group_reads s e a sp : reads s e a sp -> forall spine, reads (fparens true s) (Grp e) true spine.
Proof.
  intros H spine. apply arg_reads. intros w. destruct (H (w ++ [40%N])) as (ts&e'&L&N&B&S1&_&_&X).
  eexists. exists (Grp e'). split; [apply parens_lexes; eauto|]. split; [exact B|]. split; [constructor; auto|].
  split; [reflexivity|]. split; [discriminate|]. intros us. destruct ts as [|(t,k) ts]; [congruence|].
  apply t_group. apply X. apply ends_close. auto.
Qed.

(** ** Sequences *)

Definition tails (ss : list str) : str := flat_map (fun y => 44%N :: 32%N :: y) ss.

Lemma tail_reads es ss : Forall2 (fun s e => reads s e false false) ss es -> forall w, exists us es',
  lexes (tails ss) w us /\ (ss <> [] -> us <> []) /\ map bare es' = map bare es /\ Forall single es' /\
  (us = [] \/ next_is is_comma us = true) /\
  (forall k r, exprs KTail us es' ((TParenR, k) :: r)) /\
  (forall k1 ts e, ts <> [] -> expr_ok ts e -> forall k r, exprs (KExpr k1) ts [e] (us ++ (TBrackR, k) :: r) /\
     exprs KItems (ts ++ us) (e :: es') ((TBrackR, k) :: r)).
Proof.
  induction 1 as [|s e ss es H F IH]; intros w.
  - exists [], []. split; [apply lexes_nil|]. repeat split; auto; try congruence.
    + intros k r. apply tl_nil. reflexivity.
    + apply H0. apply ends_close. auto.
    + destruct ts as [|(t,k1') ts]; [congruence|].
      apply i_plain; [|reflexivity|apply i_nil]. apply H0. apply ends_close. auto.
  - destruct (H ((w ++ [44%N]) ++ [32%N])) as (ts&e'&L&N&B&S1&_&_&X).
    destruct (IH (((w ++ [44%N]) ++ [32%N]) ++ s)) as (us&es'&Lu&_&Bs&Ss&Hu&Pt&Pi).
    exists ((TComma, col_of (w ++ [44%N])) :: ts ++ us), (e' :: es').
    split; [|split; [discriminate|split; [|split; [|split; [right; reflexivity|split]]]]].
    + cbn [tails flat_map app]. apply lexes_punct; [cbn; tauto|]. apply lexes_space. apply lexes_more; auto. apply flat_sep.
    + cbn [map]. f_equal; auto.
    + constructor; auto.
    + intros k r. apply tl_cons; auto. apply X. destruct Hu as [->|Hu]; [apply ends_close; auto|].
      destruct us as [|(t,k1) us]; [discriminate|]. destruct t; try discriminate. apply ends_close. auto.
    + intros k1 ts0 e0 N0 X0 k r. destruct (Pi k1 ts e' N X k r) as (Y1&Y2). split.
      * cbn [app]. apply X0. apply ends_close. auto.
      * destruct ts0 as [|(t0,k0) ts0]; [congruence|]. apply i_comma; auto. rewrite <- app_assoc.
        apply X0. apply ends_close. auto.
Qed.

Lemma commas_tails s ss : commas (s :: ss) = s ++ tails ss.
Proof. apply commas_cons. Qed.

Lemma tuple_reads ss es spine : List.length es <> 1 -> Forall2 (fun s e => reads s e false false) ss es ->
  reads (fparens true (commas ss)) (Tup es) true spine.
Proof.
  intros Ne F. apply arg_reads. intros w. destruct F as [|s e ss es H F].
  - exists ([(TParenL, col_of (w ++ [40%N])); (TParenR, col_of (w ++ 40%N :: [] ++ [41%N]))]), (Tup []).
    split; [apply (parens_lexes w [] []); apply lexes_nil|].
    split; [reflexivity|]. split; [repeat constructor|]. split; [reflexivity|]. split; [discriminate|]. intros us. apply t_unit.
  - destruct (H (w ++ [40%N])) as (ts&e'&L&N&B&S1&_&_&X).
    destruct (tail_reads _ _ F ((w ++ [40%N]) ++ s)) as (us&es'&Lu&Nu&Bs&Ss&Hu&Pt&_).
    eexists. exists (Tup (e' :: es')). split; [|split; [|split; [|split; [|split]]]].
    + apply parens_lexes. rewrite commas_tails. apply lexes_more; [apply flat_sep|exact L|exact Lu].
    + cbn [bare map]. congruence.
    + constructor. constructor; auto.
    + reflexivity.
    + discriminate.
    + intros vs. rewrite <- app_assoc. destruct ts as [|(t,k) ts]; [congruence|].
      assert (Nu' : us <> []).
      { apply Nu. intros ->. inversion F; subst. cbn in Ne. lia. }
      apply t_tuple; auto. apply X. destruct us as [|(t1,k1) us]; [congruence|]. destruct Hu as [Hu|Hu]; [discriminate|].
      destruct t1; try discriminate. apply ends_close. auto.
Qed.

Lemma list_reads ss es spine : Forall2 (fun s e => reads s e false false) ss es ->
  reads (91%N :: commas ss ++ [93%N]) (List es) true spine.
Proof.
  intros F. apply arg_reads. intros w. destruct F as [|s e ss es H F].
  - eexists. exists (List []). split; [apply lexes_pair; [cbn; tauto|cbn; tauto|cbn; tauto|apply lexes_nil]|].
    split; [reflexivity|]. split; [repeat constructor|]. split; [reflexivity|]. split; [discriminate|].
    intros us. apply (t_list any _ []). apply i_nil.
  - destruct (H (w ++ [91%N])) as (ts&e'&L&N&B&S1&_&_&X).
    destruct (tail_reads _ _ F ((w ++ [91%N]) ++ s)) as (us&es'&Lu&_&Bs&Ss&_&_&Pi).
    eexists. exists (List (e' :: es')). split; [|split; [|split; [|split; [|split]]]].
    + apply lexes_pair; [cbn; tauto|cbn; tauto|cbn; tauto|]. rewrite commas_tails. apply lexes_more; [apply flat_sep|exact L|exact Lu].
    + cbn [bare map]. congruence.
    + constructor. constructor; auto.
    + reflexivity.
    + discriminate.
    + intros vs. apply t_list. apply Pi; auto. exact 0.
Qed.

(** ** Lambdas *)

Lemma plain_not_at ts p us : pats Plain ts [p] us -> next_is is_at ts = false.
Proof. intros H. inversion H; subst; reflexivity. Qed.

Definition lam_reads (s : str) (e : expr) : Prop := forall w, exists tsP ps k ts e0,
  lexes s w (tsP ++ (TArrow, k) :: ts) /\ bare (fold_right Lam e0 ps) = bare e /\ single e0 /\
  next_is is_at (tsP ++ [(TArrow, k)]) = false /\
  (forall r, pats Juxt tsP ps ((TArrow, k) :: r)) /\ (forall r, ends r -> exprs (KExpr k) ts [e0] r).

Lemma arrow_reads s e a sp : reads s e a sp -> lam_reads (lit " -> " ++ s) e.
Proof.
  intros H w. destruct (H (((w ++ [32%N]) ++ lit "->") ++ [32%N])) as (ts&e'&L&N&B&S1&_&_&X).
  exists [], [], (col_of ((w ++ [32%N]) ++ lit "->")), ts, e'. split; [|repeat split; auto].
  - change (lit " -> " ++ s) with (32%N :: lit "->" ++ 32%N :: s). apply lexes_space.
    apply lexes_front; [|apply lexes_space; auto]. intros v _. apply le_symbol; [cbn; tauto|reflexivity|reflexivity].
  - intros r. apply j_nil. reflexivity.
Qed.

Lemma one_more p s e w : readable_pat false p -> sep s -> s <> [] -> lam_reads s e ->
  exists ts tsP ps k us e0, lexes (fpat p ++ s) w ((ts ++ tsP) ++ (TArrow, k) :: us) /\
    bare (fold_right Lam e0 (p :: ps)) = bare (Lam p e) /\ single e0 /\
    next_is is_at ((ts ++ tsP) ++ [(TArrow, k)]) = false /\
    (forall r, pats Juxt (ts ++ tsP) (p :: ps) ((TArrow, k) :: r)) /\ (forall r, ends r -> exprs (KExpr k) us [e0] r).
Proof.
  intros R Ss Ns H. destruct (pat_reads_back _ _ R w) as (ts&L&N&_&P).
  destruct (H (w ++ fpat p)) as (tsP&ps&k&us&e0&Lb&B&S1&At&PJ&X).
  assert (PP : forall r, pats Plain ts [p] (tsP ++ (TArrow, k) :: r)).
  { intros r. apply P; auto. destruct tsP as [|(t,k1) tsP]; auto. }
  exists ts, tsP, ps, k, us, e0. split; [|split; [|split; [|split; [|split]]]]; auto.
  - rewrite <- app_assoc. apply lexes_app; auto.
  - cbn [fold_right bare]. congruence.
  - specialize (PP []). apply plain_not_at in PP. destruct ts as [|(t,k1) ts]; [congruence|]. exact PP.
  - intros r. apply j_cons; auto.
Qed.

Lemma flams_sep b e : sep (flams b e) /\ flams b e <> [].
Proof. destruct e; split; try discriminate; cbn; tauto. Qed.

Lemma flams_reads b : forall e, readable e -> (forall e1, esize e1 <= esize e -> readable e1 -> reads (fexpr b e1) e1 false false) ->
  lam_reads (flams b e) e.
Proof.
  fix IH 1. intros e R H.
  assert (D : (forall p x, e <> Lam p x) -> lam_reads (lit " -> " ++ fexpr b e) e).
  { intros _. eapply arrow_reads. apply H; auto. }
  destruct e as [x|i|f x|a o c|p e|e|e|es|es|d e]; try (apply D; congruence).
  inversion R as [| | | | | |p' e' Rp Re| | | |]; subst.
  assert (HL : lam_reads (flams b e) e).
  { apply IH; auto. intros e1 L1. apply H. cbn [esize]. lia. }
  intros w. destruct (flams_sep b e) as (Ss&Ns).
  destruct (one_more p (flams b e) e (w ++ [32%N]) Rp Ss Ns HL) as (ts&tsP&ps&k&us&e0&A1&A2&A3&A4&A5&A6).
  exists (ts ++ tsP), (p :: ps), k, us, e0. split; auto. cbn [flams]. apply lexes_space. auto.
Qed.

Lemma lam_text b p e : fexpr b (Lam p e) = fparens b (92%N :: fpat p ++ flams b e).
Proof. reflexivity. Qed.

Lemma lambda_reads p e b : readable_pat false p -> lam_reads (flams b e) e ->
  reads (92%N :: fpat p ++ flams b e) (Lam p e) false false.
Proof.
  intros R H w. destruct (flams_sep b e) as (Ss&Ns).
  destruct (one_more p (flams b e) e (w ++ [92%N]) R Ss Ns H) as (ts&tsP&ps&k&us&e0&A1&A2&A3&A4&A5&A6).
  exists ((TLambda, col_of (w ++ [92%N])) :: (ts ++ tsP) ++ (TArrow, k) :: us), (fold_right Lam e0 (p :: ps)).
  split; [|split; [discriminate|split; [exact A2|split; [apply single_lams; auto|split; [discriminate|split; [discriminate|]]]]]].
  - apply (lexes_front [92%N]); auto. intros v Sv. destruct (pat_front p R) as (Nf&Fo&Fs).
    apply le_symbol; [cbn; tauto| |]; destruct (fpat p); try congruence; auto.
  - intros c r Er. apply e_one; [|apply Er].
    rewrite <- (app_nil_r (_ :: _)). eapply e_app; [|apply a_nil; apply no_arg_any; apply Er].
    cbn [app]. apply t_lam; auto.
Qed.

(** ** Expressions *)

Lemma no_paren_arg e : no_paren e = true -> is_arg e = true.
Proof. destruct e; auto. Qed.

Lemma operand_reads e : reads (fexpr true e) e (is_arg e) (is_spine e) ->
  forall w, exists ts e', lexes (fparens (negb (no_paren e)) (fexpr true e)) w ts /\ bare e' = bare e /\ single e' /\ arg_ok ts e'.
Proof.
  intros H w. destruct (no_paren e) eqn:E; cbn [negb].
  - destruct (H w) as (ts&e'&L&N&B&S1&A&_). exists ts, e'. repeat split; auto; apply A; apply no_paren_arg; auto.
  - destruct (group_reads _ _ _ _ H true w) as (ts&e'&L&N&B&S1&A&_). exists ts, e'. repeat split; auto; apply A; auto.
Qed.

Lemma expr_reads : forall n e, esize e <= n -> readable e -> forall b, reads (fexpr b e) e (is_arg e) (is_spine e).
Proof.
  induction n as [|n IH]; intros e Sz R b; [destruct e; cbn in Sz; lia|].
  assert (Seq : forall es, list_sum (map esize es) <= n -> Forall readable es ->
    Forall2 (fun s e => reads s e false false) (map (fexpr false) es) es).
  { induction es as [|x es IHes]; intros H F; [constructor|]. change (esize x + list_sum (map esize es) <= n) in H.
    inversion F; subst. constructor; [|apply IHes; auto; lia]. eapply reads_weak; [apply IH; auto; lia| |]; discriminate. }
  destruct R as [x Rx|s Rs|k Nk|s Rs|f x Sf Ax Rf Rx|a o c Ro Ra Rc|p e Rp Re|e Re|es Ne F|es F|d e Re];
    cbn [is_arg is_spine].
  - apply arg_reads. intros w. exists [(TLit x, col_of (w ++ show_lit x))], (Lit x). split; [apply lexes_tok|].
    { intros v Sv. apply lit_lexeme; auto. apply sep_stops in Sv. tauto. }
    split; [reflexivity|]. split; [repeat constructor|]. split; [reflexivity|]. split; [discriminate|]. intros us. apply t_lit.
  - apply arg_reads. intros w. exists [(TLower s, col_of (w ++ s))], (Var (ILower s)). split; [apply lexes_tok|].
    { intros v Sv. apply sep_stops in Sv as (A&B&_). apply name_lexeme; auto. }
    split; [reflexivity|]. split; [repeat constructor|]. split; [reflexivity|]. split; [discriminate|]. intros us. apply t_lower.
  - apply arg_reads. intros w.
    assert (C : forall k w, exists cs, lexes (repeat 44%N k) w cs /\ List.length cs = k /\ Forall (fun x => fst x = TComma) cs).
    { clear. induction k as [|k IH]; intros w; [exists []; split; [apply lexes_nil|auto]|].
      destruct (IH (w ++ [44%N])) as (cs&L&N&F). exists ((TComma, col_of (w ++ [44%N])) :: cs). split; [|cbn; auto].
      cbn [repeat]. apply lexes_punct; auto. cbn. tauto. }
    destruct (C k (w ++ [40%N])) as (cs&L&N&F). eexists. exists (Var (ICommas k)).
    split; [cbn [fexpr ident_is_infix fparens show_ident]; apply (parens_lexes w _ _ L)|].
    split; [reflexivity|]. split; [constructor|]. split; [reflexivity|]. split; [discriminate|].
    intros us. rewrite <- N. apply t_commas; auto. intros ->. cbn in N. lia.
  - apply arg_reads. intros w. eexists. exists (Var (IInfix s)).
    split.
    { intros v us Sv T. cbn [fexpr ident_is_infix fparens show_ident].
      replace ((40%N :: s ++ [41%N]) ++ v) with ([40%N] ++ s ++ 41%N :: v) by (cbn; rewrite <- app_assoc; reflexivity).
      instantiate (1 := [(TParenL, col_of (w ++ [40%N])); (TAffix s false, col_of ((w ++ [40%N]) ++ s)); (TParenR, col_of (((w ++ [40%N]) ++ s) ++ [41%N]))]).
      apply (ct_cons w [] [40%N]); [constructor|apply le_punct; cbn; tauto|]. cbn [app].
      apply (ct_cons _ [] s); [constructor|apply lexeme_longer; auto|]. cbn [app].
      apply (ct_cons _ [] [41%N] TParenR v); [constructor|apply le_punct; cbn; tauto|]. cbn [app].
      replace (((w ++ [40%N]) ++ s) ++ [41%N]) with (w ++ 40%N :: s ++ [41%N]) by (rewrite <- !app_assoc; reflexivity). exact T. }
    split; [reflexivity|]. split; [repeat constructor|]. split; [reflexivity|]. split; [discriminate|]. intros us. apply t_op.
  - cbn [esize] in Sz. intros w. destruct (IH f ltac:(lia) Rf b w) as (ts&f'&L&N&B&S1&_&P&_).
    destruct (IH x ltac:(lia) Rx b ((w ++ fexpr b f) ++ [32%N])) as (us&x'&Lx&Nx&Bx&Sx&A&_&_).
    exists (ts ++ us), (App f' x').
    assert (Sp : spine_ok (ts ++ us) (App f' x')).
    { intros c vs g r K. rewrite <- app_assoc. apply P; auto. destruct (A Ax) as (A1&_&A2).
      destruct us as [|(t,k) us]; [congruence|]. apply a_cons with x'; auto. }
    split; [|split; [|split; [|split; [|split; [discriminate|split; [auto|apply spine_expr; auto]]]]]].
    + cbn [fexpr]. apply lexes_app; auto; [discriminate|cbn; tauto|]. apply lexes_space. auto.
    + destruct ts; [congruence|discriminate].
    + cbn [bare]. congruence.
    + constructor; auto.
  - cbn [esize] in Sz. intros w.
    destruct (operand_reads a (IH a ltac:(lia) Ra true) w) as (ts&a'&La&Ba&Sa&A1&Na&A2).
    set (sa := fparens (negb (no_paren a)) (fexpr true a)) in *.
    set (w1 := ((w ++ sa) ++ [32%N]) ++ show_infix o).
    destruct (operand_reads c (IH c ltac:(lia) Rc true) (w1 ++ [32%N])) as (us&c'&Lc&Bc&Sc&C1&Nc&C2).
    set (sc := fparens (negb (no_paren c)) (fexpr true c)) in *.
    pose proof (show_infix_text o Ro) as E. destruct Ro as ((t&Lo&Ot)&_).
    exists (ts ++ (t, col_of w1) :: us), (Bin a' o c').
    split; [|split; [|split; [|split; [|split; [discriminate|split; [discriminate|]]]]]].
    + cbn [fexpr]. fold sa sc. apply lexes_app; auto; [discriminate|cbn; tauto|]. apply lexes_space.
      apply lexes_front; [|apply lexes_space; exact Lc]. intros v _. rewrite E. apply lexeme_longer. auto.
    + destruct ts; discriminate.
    + cbn [bare]. congruence.
    + constructor; auto.
    + intros k r Er. destruct us as [|(t1,k1) us]; [discriminate|]. eapply e_bin; [|exact Ot|].
      * rewrite <- (app_nil_r ts). eapply e_app; [apply A2|]. apply a_nil. destruct Ot; reflexivity.
      * apply spine_expr; auto. apply arg_spine. repeat split; auto.
  - cbn [esize] in Sz. rewrite lam_text. assert (HL : lam_reads (flams b e) e).
    { apply flams_reads; auto. intros e1 L1 R1. eapply reads_weak; [apply IH; auto; lia| |]; discriminate. }
    pose proof (lambda_reads p e b Rp HL) as H. destruct b; cbn [fparens]; auto.
    pose proof (group_reads _ _ _ _ H true) as G. intros w.
    destruct (G w) as (ts&e'&L&N&B&S1&_&_&X). exists ts, e'. repeat split; auto; discriminate.
  - cbn [esize] in Sz. apply (group_reads _ _ _ _ (IH e ltac:(lia) Re b)).
  - cbn [esize] in Sz. cbn [fexpr]. apply tuple_reads; auto. apply Seq; auto. lia.
  - cbn [esize] in Sz. cbn [fexpr]. apply list_reads; auto. apply Seq; auto. lia.
  - cbn [esize] in Sz. cbn [fexpr]. intros w. destruct (IH e ltac:(lia) Re b w) as (ts&e'&L&N&B&S1&_&_&X).
    exists ts, e'. repeat split; auto; discriminate.
Qed.

End WithUcd.
