(** Renaming commutes with resolution (C96); an expression in parentheses can be
    resolved on its own (C97). *)
From Coq Require Import String List Arith NArith Bool Lia.
From Verif Require Import Prelim Syntax Fixity SpecFixity SpecRename ProofTable ProofRewrite ProofResolve
  ProofResolve2 ProofFixity.
Import ListNotations.

Section Renamed.
Variable lits : literal -> literal.
Variable ids : ident -> ident.
Variable pats : pat -> pat.
Variable ops : infix -> infix.
Hypothesis Apart : keeps_apart ops.

Notation rn := (rename lits ids pats ops).
Notation rt := (rename_table ops).

Definition rename_error (x : assoc_error) : assoc_error :=
  mkErr (ops (e_prev x)) (e_prev_fix x) (ops (e_curr x)) (e_curr_fix x).
Definition rename_resolver (r : resolver) : resolver :=
  mkResolver (rt (r_fix r)) (map rename_error (r_errs r)).

Lemma eqb_ops a b : infix_eqb (ops a) (ops b) = infix_eqb a b.
Proof.
  destruct (infix_eqb_spec (ops a) (ops b)) as [E|E]; destruct (infix_eqb_spec a b) as [D|D]; auto.
  - now elim D; apply (proj1 (Apart a b)).
  - now elim E; apply (proj2 (Apart a b)).
Qed.

Lemma get_defined_rename t o : get_defined (rt t) (ops o) = get_defined t o.
Proof.
  induction t as [|[k v] t IH]; cbn [rename_table map get_defined]; auto. rewrite eqb_ops.
  destruct (infix_eqb k o); auto.
Qed.
Lemma get_rename t o : get (rt t) (ops o) = get t o.
Proof. unfold get. now rewrite get_defined_rename. Qed.
Lemma insert_rename t o f : insert_tbl (rt t) (ops o) f = rt (insert_tbl t o f).
Proof.
  induction t as [|[k v] t IH]; cbn [rename_table map insert_tbl]; auto. rewrite eqb_ops.
  destruct (infix_eqb k o); cbn [rename_table map]; auto. f_equal. exact IH.
Qed.
Lemma remove_rename t o : remove_tbl (rt t) (ops o) = rt (remove_tbl t o).
Proof.
  induction t as [|[k v] t IH]; cbn [rename_table map remove_tbl]; auto. rewrite eqb_ops.
  destruct (infix_eqb k o); cbn [rename_table map]; auto. f_equal. exact IH.
Qed.
Lemma insert_many_rename f : forall os t, insert_many (rt t) f (map ops os) = rt (insert_many t f os).
Proof.
  unfold insert_many. induction os as [|o os IH]; intros t; cbn [map fold_left]; auto.
  rewrite insert_rename. apply IH.
Qed.
Lemma push_local_rename f : forall os t,
  push_local (rt t) f (map ops os)
  = (rt (fst (push_local t f os)), map (fun '(o, x) => (ops o, x)) (snd (push_local t f os))).
Proof.
  induction os as [|o os IH]; intros t; cbn [map push_local]; auto. unfold insert.
  rewrite insert_rename, get_defined_rename, IH.
  destruct (push_local (insert_tbl t o f) f os) as [t2 olds]. reflexivity.
Qed.
Lemma restore_rename : forall olds t,
  restore (rt t) (map (fun '(o, x) => (ops o, x)) olds) = rt (restore t olds).
Proof.
  induction olds as [|[o [f|]] olds IH]; intros t; cbn [map restore]; auto.
  - rewrite insert_rename. apply IH.
  - rewrite remove_rename. apply IH.
Qed.

Definition omap {A B} (f : A -> B) (m : outcome A) : outcome B := obind m (fun a => Ok (f a)).

Lemma push_op_rename t o : forall ins es,
  push_op (rt t) (map rn es) (map ops ins) (ops o)
  = omap (fun r => match r with
                   | inl (es', ins') => inl (map rn es', map ops ins')
                   | inr x => inr (rename_error x)
                   end) (push_op t es ins o).
Proof.
  induction ins as [|p ins IH]; intros es; cbn [map push_op]; auto. rewrite !get_rename.
  destruct (from_fixities (get t p) (get t o)); cbn [omap obind]; auto.
  destruct es as [|a [|b es]]; cbn [map reduce]; auto.
  exact (IH (Bin b p a :: es)).
Qed.
Lemma finish_rename : forall ins es e,
  finish (map rn es) (map ops ins) (rn e) = omap rn (finish es ins e).
Proof.
  induction ins as [|i ins IH]; intros es e; cbn [map finish]; auto.
  destruct es as [|a es]; cbn [map]; auto. exact (IH es (Bin a i e)).
Qed.
Definition rn_result (r : expr + assoc_error) : expr + assoc_error :=
  match r with inl e => inl (rn e) | inr x => inr (rename_error x) end.
Lemma rewrite_rename_loop t : forall e es ins,
  rewrite_loop (rt t) (rn e) (map rn es) (map ops ins) = omap rn_result (rewrite_loop t e es ins).
Proof.
  assert (Leaf : forall e es ins,
    match finish (map rn es) (map ops ins) (rn e) with
    | Ok e' => Ok (inl e') | Panic p => Panic p | NoFuel => NoFuel end
    = omap rn_result match finish es ins e with
    | Ok e' => Ok (inl e') | Panic p => Panic p | NoFuel => NoFuel end).
  { intros e es ins. rewrite finish_rename. destruct (finish es ins e); reflexivity. }
  induction e as [l|i|a IHa b IHb|e1 IHe1 o e2 IHe2|p a IHa|a IHa|a IHa|zs|zs|d a IHa]; intros xs ins; try (match goal with |- rewrite_loop _ (rename _ _ _ _ ?e) _ _ = _ => exact (Leaf e xs ins) end). clear IHe1 Leaf.
  cbn [rename rewrite_loop]. change (rn e1 :: map rn xs) with (map rn (e1 :: xs)). rewrite push_op_rename.
  destruct (push_op t (e1 :: xs) ins o) as [[[es' ins']|x]|p|]; cbn [omap obind]; auto.
Qed.
Lemma rewrite_rename t e : rewrite (rt t) (rn e) = omap rn_result (rewrite t e).
Proof. exact (rewrite_rename_loop t e [] []). Qed.

Lemma err_eqb_rename a b : err_eqb (rename_error a) (rename_error b) = err_eqb a b.
Proof. unfold err_eqb. cbn [rename_error e_prev e_curr e_prev_fix e_curr_fix]. now rewrite !eqb_ops. Qed.
Lemma store_rename r x :
  store_error (rename_resolver r) (rename_error x) = rename_resolver (store_error r x).
Proof.
  unfold store_error. cbn [rename_resolver r_errs r_fix].
  assert (E : existsb (fun y => err_eqb y (rename_error x)) (map rename_error (r_errs r))
            = existsb (fun y => err_eqb y x) (r_errs r)).
  { induction (r_errs r) as [|y l IH]; cbn [map existsb]; auto. now rewrite err_eqb_rename, IH. }
  rewrite E. destruct (existsb (fun y => err_eqb y x) (r_errs r)); auto. unfold rename_resolver. cbn. rewrite map_app. reflexivity.
Qed.

Lemma esize_rename : forall n e, esize e <= n -> esize (rn e) = esize e.
Proof.
  induction n as [|n IH]; intros e H; [pose proof (esize_pos e); lia|].
  destruct e as [l|i|e1 e2|e1 o e2|p e|e|e|es|es|d e]; cbn [rename esize] in *; auto; rewrite ?IH by lia; auto.
  all: f_equal; f_equal; rewrite map_map; apply map_ext_in; intros y I; apply IH;
    pose proof (list_sum_in y es I); lia.
Qed.

Definition rn_visit (r : resolver * expr) : resolver * expr := (rename_resolver (fst r), rn (snd r)).

Lemma visit_list_rename v : (forall r e, v (rename_resolver r) (rn e) = omap rn_visit (v r e)) ->
  forall es r, visit_list v (rename_resolver r) (map rn es)
  = omap (fun x => (rename_resolver (fst x), map rn (snd x))) (visit_list v r es).
Proof.
  intros V. induction es as [|e es IH]; intros r; cbn [map visit_list]; auto. rewrite V.
  destruct (v r e) as [[r1 e1]|p|]; cbn [omap obind rn_visit fst snd]; auto. rewrite IH.
  destruct (visit_list v r1 es) as [[r2 es2]|p|]; reflexivity.
Qed.

Lemma walk_rename v : (forall r e, v (rename_resolver r) (rn e) = omap rn_visit (v r e)) ->
  forall r e, (forall d a, e <> Let d a) ->
  walk_expr v (rename_resolver r) (rn e) = omap rn_visit (walk_expr v r e).
Proof.
  intros V r x NL. destruct x as [l|i|e1 e2|e1 o e2|p e|e|e|es|es|d e]; cbn [rename walk_expr]; auto; rewrite ?V.
  all: try (destruct (v r e) as [[r1 x1]|p1|]; reflexivity).
  all: try (destruct (v r e1) as [[r1 x1]|p1|]; cbn [omap obind rn_visit fst snd]; auto; rewrite V;
            destruct (v r1 e2) as [[r2 x2]|p2|]; reflexivity).
  all: try (rewrite visit_list_rename by exact V; destruct (visit_list v r es) as [[r1 x1]|p1|]; reflexivity).
Qed.

Lemma visit_rename : forall n r e,
  visit_fuel n (rename_resolver r) (rn e) = omap rn_visit (visit_fuel n r e).
Proof.
  induction n as [|n IH]; intros r e; auto.
  assert (W : forall e, (forall d a, e <> Let d a) ->
    walk_expr (visit_fuel n) (rename_resolver r) (rn e) = omap rn_visit (walk_expr (visit_fuel n) r e)).
  { intros x NL. now apply walk_rename. }
  destruct e as [l|i|e1 e2|e1 o e2|p e|e|e|es|es|d e]; try (apply W; discriminate).
  - change (rn (Bin e1 o e2)) with (Bin (rn e1) (ops o) (rn e2)). cbn [visit_fuel].
    change (Bin (rn e1) (ops o) (rn e2)) with (rn (Bin e1 o e2)). cbn [rename_resolver r_fix].
    rewrite rewrite_rename. destruct (rewrite (r_fix r) (Bin e1 o e2)) as [[e'|x]|p|] eqn:R; cbn [omap obind rn_result]; auto.
    + apply W. apply rewrite_bin in R as (a&p&b&->&_). discriminate.
    + unfold rn_visit. cbn [fst snd]. now rewrite <- store_rename.
  - cbn [rename visit_fuel rename_decl d_fixity d_infixes rename_resolver r_fix r_errs].
    rewrite push_local_rename. destruct (push_local (r_fix r) (d_fixity d) (d_infixes d)) as [t1 olds]. cbn [fst snd].
    change (mkResolver (rt t1) (map rename_error (r_errs r))) with (rename_resolver (mkResolver t1 (r_errs r))).
    rewrite IH. destruct (visit_fuel n (mkResolver t1 (r_errs r)) e) as [[r2 b]|p|]; cbn [omap obind rn_visit fst snd]; auto.
    cbn [rename_resolver r_fix r_errs]. now rewrite restore_rename.
Qed.

Lemma load_rename r a :
  load_fixities (rename_resolver r) (rename_ast lits ids pats ops a) = rename_resolver (load_fixities r a).
Proof.
  unfold load_fixities. cbn [rename_resolver r_fix r_errs rename_ast a_infxs].
  unfold rename_resolver. cbn [r_fix r_errs]. f_equal. generalize (r_fix r).
  induction (a_infxs a) as [|d l IH]; intros t; cbn [map fold_left]; auto.
  cbn [rename_decl d_infixes d_fixity]. rewrite insert_many_rename. apply IH.
Qed.
End Renamed.

(** C96: resolving a renamed program under a renamed table gives the renamed
    result: the same groupings, the same table, the same errors in the same order. *)
Theorem C96_resolve : forall lits ids pats ops, keeps_apart ops -> forall r a,
  match resolve_ast r a with
  | Ok (r', a', errs) =>
      resolve_ast (rename_resolver ops r) (rename_ast lits ids pats ops a)
      = Ok (rename_resolver ops r', rename_ast lits ids pats ops a', map (rename_error ops) errs)
  | Panic p => resolve_ast (rename_resolver ops r) (rename_ast lits ids pats ops a) = Panic p
  | NoFuel => resolve_ast (rename_resolver ops r) (rename_ast lits ids pats ops a) = NoFuel
  end.
Proof.
  intros lits ids pats ops Ap r a. unfold resolve_ast, visit_ast. rewrite load_rename by exact Ap.
  cbn [rename_ast a_exprs].
  rewrite (visit_list_rename lits ids pats ops visit_expr).
  - destruct (visit_list visit_expr (load_fixities r a) (a_exprs a)) as [[r1 es]|p|]; reflexivity.
  - intros r0 e. unfold visit_expr. rewrite (esize_rename lits ids pats ops _ e (le_n _)). now apply visit_rename.
Qed.

(** C96: so does looking up, for every operator. *)
Theorem C96_lookup : forall ops, keeps_apart ops -> forall t o,
  get (rename_table ops t) (ops o) = get t o
  /\ get_defined (rename_table ops t) (ops o) = get_defined t o.
Proof. intros ops Ap t o. split; [now apply get_rename|now apply get_defined_rename]. Qed.

(** ** C97 *)
Lemma same_name_spec a b : reflect (a = b) (same_name a b).
Proof.
  destruct a, b; cbn [same_name]; try (constructor; discriminate); try (constructor; reflexivity).
  - destruct (Nat.eqb_spec n n0) as [->|E]; constructor; congruence.
  - destruct (str_eqb_spec s s0) as [->|E]; constructor; congruence.
  - destruct (str_eqb_spec s s0) as [->|E]; constructor; congruence.
  - destruct (str_eqb_spec s s0) as [->|E]; constructor; congruence.
Qed.

Definition on_item (f : expr -> expr) (i : item) : item :=
  match i with Operand x => Operand (f x) | Operator o => Operator o end.

Fixpoint on_tree (f : expr -> expr) (g : gtree) : gtree :=
  match g with Leaf e => Leaf (f e) | Node l o r => Node (on_tree f l) o (on_tree f r) end.

Lemma yield_on_tree f g : yield (on_tree f g) = map (on_item f) (yield g).
Proof. induction g as [e|l IHl o r IHr]; cbn; auto. rewrite map_app, IHl, IHr. reflexivity. Qed.
Lemma root_on_tree f g : root (on_tree f g) = root g.
Proof. destruct g; reflexivity. Qed.
Lemma legal_on_tree F f g : legal F (on_tree f g) <-> legal F g.
Proof.
  induction g as [e|l IHl o r IHr]; cbn [on_tree legal]; [tauto|]. rewrite IHl, IHr, !root_on_tree. tauto.
Qed.
Lemma tree_of_mapped f : forall g ys, yield g = map (on_item f) ys ->
  exists g0, g = on_tree f g0 /\ yield g0 = ys.
Proof.
  induction g as [e|l IHl o r IHr]; intros ys E; cbn [yield] in E.
  - destruct ys as [|[y|o] [|? ?]]; cbn in E; try discriminate. injection E as ->.
    exists (Leaf y). auto.
  - symmetry in E. apply map_eq_app in E as (y1&y2&->&E1&E2). destruct y2 as [|[z|o'] y2]; try discriminate.
    cbn in E2. injection E2 as <- E2. destruct (IHl y1 (eq_sym E1)) as (gl&->&<-).
    destruct (IHr y2 (eq_sym E2)) as (gr&->&<-). exists (Node gl o' gr). auto.
Qed.

Lemma as_expr_place x u g : as_expr (on_tree (place x u) g) = place x u (as_expr g).
Proof. induction g as [e|l IHl o r IHr]; cbn; auto. now rewrite IHl, IHr. Qed.
Lemma chain_place x u e : chain (place x u e) = map (on_item (place x u)) (chain e).
Proof.
  induction e as [l|i|a IHa b IHb|a IHa o b IHb|p a IHa|a IHa|a IHa|es|es|d a IHa]; try reflexivity.
  - cbn [place]. destruct (same_name i x) eqn:S; cbn [chain map on_item place]; rewrite S; reflexivity.
  - cbn [place chain map on_item]. now rewrite IHb.
Qed.

Lemma operand_smaller e y : In (Operand y) (chain e) -> y = e \/ (esize y < esize e /\ exists a o b, e = Bin a o b).
Proof.
  intros I. destruct e as [l|i|a b|a o b|p a|a|a|es|es|d a];
    try (destruct I as [[= <-]|[]]; now left). right. split; [|eauto].
  destruct I as [[= <-]|[I|I]]; [cbn; lia|discriminate|]. pose proof (isize_in y _ I) as S.
  rewrite esize_chain in S. cbn. lia.
Qed.
Lemma stands_operand x F y G : forall e, In (Operand y) (chain e) -> stands x F y G -> stands x F e G.
Proof.
  induction e as [l|i|a IHa b IHb|a IHa o b IHb|p a IHa|a IHa|a IHa|es|es|d a IHa]; intros I S;
    try (destruct I as [[= <-]|[]]; exact S).
  destruct I as [[= <-]|[I|I]]; [now apply st_bin_l|discriminate|]. apply st_bin_r. auto.
Qed.

Lemma items_placed (R : expr -> expr -> Prop) f f' xs :
  (forall y, In (Operand y) xs -> forall w, R (f y) w <-> exists y', R y y' /\ w = f' y') ->
  forall ys, Forall2 (item_rel R) (map (on_item f) xs) ys
    <-> exists ys0, Forall2 (item_rel R) xs ys0 /\ ys = map (on_item f') ys0.
Proof.
  induction xs as [|i xs IH]; intros H ys; cbn [map].
  - split; [intros K; inversion K; exists []; auto|intros (ys0&K&->); inversion K; constructor].
  - assert (H' : forall y, In (Operand y) xs -> forall w, R (f y) w <-> exists y', R y y' /\ w = f' y')
      by (intros; apply H; now right).
    split.
    + intros K. inversion K as [|? z ? zs K1 K2]; subst. apply (proj1 (IH H' zs)) in K2 as (ys0&K2&->).
      destruct i as [y|o]; inversion K1; subst.
      * match goal with X : R (f y) _ |- _ => apply (proj1 (H y (or_introl eq_refl) _)) in X as (y'&X&->) end.
        exists (Operand y' :: ys0). split; [constructor; [now constructor|exact K2]|reflexivity].
      * exists (Operator o :: ys0). split; [constructor; [constructor|exact K2]|reflexivity].
    + intros (ys0&K&->). inversion K as [|? z ? zs K1 K2]; subst. cbn [map]. constructor.
      * inversion K1; subst; cbn [on_item]; constructor. apply (H a (or_introl eq_refl)). eauto.
      * apply (proj2 (IH H' _)). eauto.
Qed.
Lemma list_placed (R : expr -> expr -> Prop) f f' xs :
  (forall y, In y xs -> forall w, R (f y) w <-> exists y', R y y' /\ w = f' y') ->
  forall ys, Forall2 R (map f xs) ys <-> exists ys0, Forall2 R xs ys0 /\ ys = map f' ys0.
Proof.
  induction xs as [|i xs IH]; intros H ys; cbn [map].
  - split; [intros K; inversion K; exists []; auto|intros (ys0&K&->); inversion K; constructor].
  - assert (H' : forall y, In y xs -> forall w, R (f y) w <-> exists y', R y y' /\ w = f' y')
      by (intros; apply H; now right).
    split.
    + intros K. inversion K as [|? z ? zs K1 K2]; subst. apply (proj1 (IH H' zs)) in K2 as (ys0&K2&->).
      apply (proj1 (H i (or_introl eq_refl) _)) in K1 as (y'&K1&->).
      exists (y' :: ys0). split; [constructor; auto|reflexivity].
    + intros (ys0&K&->). inversion K as [|? z ? zs K1 K2]; subst. cbn [map]. constructor.
      * apply (H i (or_introl eq_refl)). eauto.
      * apply (proj2 (IH H' _)). eauto.
Qed.

Lemma place_iff x u u' : forall n e F, esize e <= n ->
  (forall G, stands x F e G -> resolves G u u') ->
  forall w, resolves F (place x u e) w <-> exists e', resolves F e e' /\ w = place x u' e'.
Proof.
  induction n as [|n IH]; intros e F Sz H w; [pose proof (esize_pos e); lia|].
  destruct e as [l|i|a b|a o b|p a|a|a|es|es|d a]; cbn [esize] in Sz.
  - cbn [place]. split; [intros K; inversion K; subst; exists (Lit l); split; [constructor|reflexivity]|].
    intros (e'&K&->). inversion K; subst. constructor.
  - cbn [place]. destruct (same_name_spec i x) as [->|Ne].
    + assert (Hu : resolves F u u') by (apply H; constructor). split.
      * intros K. inversion K; subst. exists (Var x). split; [constructor|]. cbn [place].
        destruct (same_name_spec x x) as [_|X]; [|congruence]. f_equal. eapply resolves_unique_lemma; eauto.
      * intros (e'&K&->). inversion K; subst. cbn [place].
        destruct (same_name_spec x x) as [_|X]; [|congruence]. now constructor.
    + split.
      * intros K. inversion K; subst. exists (Var i). split; [constructor|]. cbn [place].
        destruct (same_name_spec i x) as [E|_]; [contradiction|reflexivity].
      * intros (e'&K&->). inversion K; subst. cbn [place].
        destruct (same_name_spec i x) as [E|_]; [contradiction|constructor].
  - assert (Ha := IH a F ltac:(lia) (fun G S => H G (st_app_l x F a b G S))).
    assert (Hb := IH b F ltac:(lia) (fun G S => H G (st_app_r x F a b G S))). cbn [place]. split.
    + intros K. inversion K; subst.
      match goal with X : resolves F (place x u a) _, Y : resolves F (place x u b) _ |- _ =>
        apply (proj1 (Ha _)) in X as (p&X&->); apply (proj1 (Hb _)) in Y as (q&Y&->); exists (App p q) end.
      split; [now constructor|reflexivity].
    + intros (e'&K&->). inversion K; subst. cbn [place]. constructor; [apply Ha|apply Hb]; eauto.
  - assert (HI : forall y, In (Operand y) (chain (Bin a o b)) -> forall w, resolves F (place x u y) w
        <-> exists y', resolves F y y' /\ w = place x u' y').
    { intros y I. assert (Sy : esize y <= n).
      { destruct I as [[= <-]|[I|I]]; [lia|discriminate|]. pose proof (isize_in y _ I) as S.
        rewrite esize_chain in S. lia. }
      apply IH; auto. intros G S. apply H. eapply stands_operand; eauto. }
    split.
    + intros K. change (place x u (Bin a o b)) with (Bin (place x u a) o (place x u b)) in K.
      inversion K as [| | |? ? ? ? g L It| | | | | |]; subst.
      change (Bin (place x u a) o (place x u b)) with (place x u (Bin a o b)) in It. rewrite chain_place in It.
      apply (proj1 (items_placed _ _ (place x u') _ HI _)) in It as (ys0&It&Y).
      apply tree_of_mapped in Y as (g0&->&<-). exists (as_expr g0). split.
      * constructor; auto. now apply (proj1 (legal_on_tree F (place x u') g0)).
      * apply as_expr_place.
    + intros (e'&K&->). inversion K as [| | |? ? ? ? g L It| | | | | |]; subst. rewrite <- as_expr_place.
      change (place x u (Bin a o b)) with (Bin (place x u a) o (place x u b)). constructor.
      * now apply (proj2 (legal_on_tree F (place x u') g)).
      * change (Bin (place x u a) o (place x u b)) with (place x u (Bin a o b)). rewrite chain_place, yield_on_tree.
        apply (proj2 (items_placed _ _ (place x u') _ HI _)). eauto.
  - assert (Ha := IH a F ltac:(lia) (fun G S => H G (st_lam x F p a G S))). cbn [place]. split.
    + intros K. inversion K; subst.
      match goal with X : resolves F (place x u a) _ |- _ => apply (proj1 (Ha _)) in X as (q&X&->); exists (Lam p q) end.
      split; [now constructor|reflexivity].
    + intros (e'&K&->). inversion K; subst. cbn [place]. constructor. apply Ha. eauto.
  - assert (Ha := IH a F ltac:(lia) (fun G S => H G (st_grp x F a G S))). cbn [place]. split.
    + intros K. inversion K; subst.
      match goal with X : resolves F (place x u a) _ |- _ => apply (proj1 (Ha _)) in X as (q&X&->); exists (Grp q) end.
      split; [now constructor|reflexivity].
    + intros (e'&K&->). inversion K; subst. cbn [place]. constructor. apply Ha. eauto.
  - assert (Ha := IH a F ltac:(lia) (fun G S => H G (st_neg x F a G S))). cbn [place]. split.
    + intros K. inversion K; subst.
      match goal with X : resolves F (place x u a) _ |- _ => apply (proj1 (Ha _)) in X as (q&X&->); exists (Neg q) end.
      split; [now constructor|reflexivity].
    + intros (e'&K&->). inversion K; subst. cbn [place]. constructor. apply Ha. eauto.
  - assert (HI : forall y, In y es -> forall w, resolves F (place x u y) w
        <-> exists y', resolves F y y' /\ w = place x u' y').
    { intros y I. apply IH; [pose proof (list_sum_in y es I); lia|]. intros G S. apply H. eapply st_tup; eauto. }
    cbn [place]. split.
    + intros K. inversion K; subst.
      match goal with X : Forall2 _ _ _ |- _ => apply (proj1 (list_placed _ _ _ _ HI _)) in X as (q&X&->); exists (Tup q) end.
      split; [now constructor|reflexivity].
    + intros (e'&K&->). inversion K; subst. cbn [place]. constructor. apply (proj2 (list_placed _ _ _ _ HI _)). eauto.
  - assert (HI : forall y, In y es -> forall w, resolves F (place x u y) w
        <-> exists y', resolves F y y' /\ w = place x u' y').
    { intros y I. apply IH; [pose proof (list_sum_in y es I); lia|]. intros G S. apply H. eapply st_list; eauto. }
    cbn [place]. split.
    + intros K. inversion K; subst.
      match goal with X : Forall2 _ _ _ |- _ => apply (proj1 (list_placed _ _ _ _ HI _)) in X as (q&X&->); exists (List q) end.
      split; [now constructor|reflexivity].
    + intros (e'&K&->). inversion K; subst. cbn [place]. constructor. apply (proj2 (list_placed _ _ _ _ HI _)). eauto.
  - assert (Ha := IH a (scoped F d) ltac:(lia) (fun G S => H G (st_let x F d a G S))). cbn [place]. split.
    + intros K. inversion K; subst.
      match goal with X : resolves _ (place x u a) _ |- _ => apply (proj1 (Ha _)) in X as (q&X&->); exists (Let d q) end.
      split; [now constructor|reflexivity].
    + intros (e'&K&->). inversion K; subst. cbn [place]. constructor. apply Ha. eauto.
Qed.


Lemma stands_bin x F G : forall b a o, stands x F (Bin a o b) G ->
  exists y, In (Operand y) (chain (Bin a o b)) /\ stands x F y G.
Proof.
  induction b as [l|i|c IHc d IHd|c IHc p d IHd|q c IHc|c IHc|c IHc|es|es|d c IHc]; intros a o S; inversion S; subst;
    try (exists a; split; [now left|assumption]).
  all: try (eexists; split; [right; right; left; reflexivity|assumption]).
  match goal with X : stands x F (Bin c p d) G |- _ => destruct (IHd _ _ X) as (y&I&Y) end.
  exists y. split; [right; right; exact I|exact Y].
Qed.

Lemma items_in (R : expr -> expr -> Prop) xs ys y : Forall2 (item_rel R) xs ys -> In (Operand y) xs -> exists z, R y z.
Proof.
  intros K. induction K as [|i j xs ys K1 K IH]; intros I; [destruct I|].
  destruct I as [->|I]; [inversion K1; eauto|auto].
Qed.
Lemma list_in (R : expr -> expr -> Prop) xs ys y : Forall2 R xs ys -> In y xs -> exists z, R y z.
Proof. intros K. induction K as [|i j xs ys K1 K IH]; intros I; [destruct I|]. destruct I as [->|I]; eauto. Qed.

Lemma place_needs x u : forall n e F G w, esize e <= n ->
  resolves F (place x u e) w -> stands x F e G -> exists u', resolves G u u'.
Proof.
  induction n as [|n IH]; intros e F G w Sz R S; [pose proof (esize_pos e); lia|].
  destruct e as [l|i|a b|a o b|p a|a|a|es|es|d a]; cbn [esize] in Sz.
  4:{ apply stands_bin in S as (y&I&S).
      change (place x u (Bin a o b)) with (Bin (place x u a) o (place x u b)) in R.
      inversion R as [| | |? ? ? ? g L It| | | | | |]; subst.
      change (Bin (place x u a) o (place x u b)) with (place x u (Bin a o b)) in It. rewrite chain_place in It.
      destruct (items_in _ _ _ (place x u y) It) as (z&Rz).
      { apply in_map_iff. exists (Operand y). auto. }
      apply (IH y F G z); auto. destruct I as [[= <-]|[I|I]]; [lia|discriminate|]. pose proof (isize_in y _ I) as Sy.
      rewrite esize_chain in Sy. lia. }
  all: inversion S; subst; cbn [place] in R.
  - match type of R with context [same_name ?v ?v] => destruct (same_name_spec v v) as [_|X]; [|congruence] end.
    inversion R; subst. eauto.
  - inversion R; subst. eapply (IH a); eauto; lia.
  - inversion R; subst. eapply (IH b); eauto; lia.
  - inversion R; subst. eapply (IH a); eauto; lia.
  - inversion R; subst. eapply (IH a); eauto; lia.
  - inversion R; subst. eapply (IH a); eauto; lia.
  - inversion R; subst. match goal with X : Forall2 _ _ _, I : In y es |- _ =>
      destruct (list_in _ _ _ (place x u y) X (in_map _ _ _ I)) as (z&Rz); apply (IH y F G z); auto;
      pose proof (list_sum_in y es I); lia end.
  - inversion R; subst. match goal with X : Forall2 _ _ _, I : In y es |- _ =>
      destruct (list_in _ _ _ (place x u y) X (in_map _ _ _ I)) as (z&Rz); apply (IH y F G z); auto;
      pose proof (list_sum_in y es I); lia end.
  - inversion R; subst. eapply (IH a); eauto; lia.
Qed.

(** C97: where [x] stands, [u] has to resolve to [u'] under the fixities in force
    there; then resolving around it and inside it are independent. *)
Theorem C97_placed : forall x u u' e F w,
  (forall G, stands x F e G -> resolves G u u') ->
  (resolves F (place x u e) w <-> exists e', resolves F e e' /\ w = place x u' e').
Proof. intros x u u' e F w H. exact (place_iff x u u' (esize e) e F (le_n _) H w). Qed.

Theorem C97_needed : forall x u e F G w,
  resolves F (place x u e) w -> stands x F e G -> exists u', resolves G u u'.
Proof. intros x u e F G w. exact (place_needs x u (esize e) e F G w (le_n _)). Qed.

(** Without let the fixities in force are the same everywhere. *)
Lemma stands_let_free x F e G : stands x F e G -> let_free e = true -> G = F.
Proof.
  induction 1; cbn [let_free]; intros L; auto; try discriminate;
    try (apply andb_true_iff in L as [L1 L2]; auto).
  - rewrite forallb_forall in L. auto.
  - rewrite forallb_forall in L. auto.
Qed.

Lemma flat_place x u : flat u -> forall n e, esize e <= n -> flat e -> flat (place x u e).
Proof.
  intros Fu. induction n as [|n IH]; intros e Sz Fe; [pose proof (esize_pos e); lia|].
  inversion Fe; subst; cbn [place esize] in *; try (constructor; auto; apply IH; auto; lia).
  - destruct (same_name i x); now constructor.
  - constructor; try (apply IH; auto; lia). destruct a; cbn [place]; try discriminate.
    + destruct (same_name i x); discriminate.
    + match goal with X : not_bin _ |- _ => now elim (X a1 o0 a2) end.
  - constructor. rewrite Forall_forall in *. intros y I. apply in_map_iff in I as (z&<-&I).
    apply IH; auto. pose proof (list_sum_in z es I). lia.
  - constructor. rewrite Forall_forall in *. intros y I. apply in_map_iff in I as (z&<-&I).
    apply IH; auto. pose proof (list_sum_in z es I). lia.
Qed.
Lemma nodup_place x u : nodup_lets u -> forall n e, esize e <= n -> nodup_lets e -> nodup_lets (place x u e).
Proof.
  intros Fu. induction n as [|n IH]; intros e Sz Fe; [pose proof (esize_pos e); lia|].
  inversion Fe; subst; cbn [place esize] in *; try (constructor; auto; apply IH; auto; lia).
  - destruct (same_name i x); now constructor.
  - constructor. rewrite Forall_forall in *. intros y I. apply in_map_iff in I as (z&<-&I).
    apply IH; auto. pose proof (list_sum_in z es I). lia.
  - constructor. rewrite Forall_forall in *. intros y I. apply in_map_iff in I as (z&<-&I).
    apply IH; auto. pose proof (list_sum_in z es I). lia.
Qed.

(** One expression, evaluated under the table [t] without an error. *)
Definition evaluates (t : fixities) (e e' : expr) : Prop :=
  exists r, resolve_ast (mkResolver t []) (mkAst [KExpr] [] [e]) = Ok (r, mkAst [KExpr] [] [e'], []).

Lemma evaluates_iff t e e' : flat e -> nodup_lets e -> (evaluates t e e' <-> resolves (get t) e e').
Proof.
  intros Fe Ne. split.
  - intros (r&E).
    destruct (resolve_ast_spec (mkResolver t []) (mkAst [KExpr] [] [e]) eq_refl) as (r'&a'&errs&E'&_&_&_&_&C&_);
      [now constructor|now constructor|]. rewrite E in E'. injection E' as <- <- <-.
    specialize (C eq_refl). cbn in C. now inversion C; subst.
  - intros R. eexists. apply (resolve_ast_complete (mkResolver t []) (mkAst [KExpr] [] [e]) [e']);
      cbn; try reflexivity; try (now constructor).
Qed.

(** C97: [e] with [(u)] for [x] is accepted exactly if both are, and comes out as
    the one in the other. *)
Theorem C97_evaluated : forall t x u e w,
  let_free e = true -> flat e -> nodup_lets e -> flat u -> nodup_lets u ->
  (exists G, stands x (get t) e G) ->
  (evaluates t (place x u e) w
   <-> exists e' u', evaluates t e e' /\ evaluates t u u' /\ w = place x u' e').
Proof.
  intros t x u e w L Fe Ne Fu Nu (G&S).
  rewrite (evaluates_iff t (place x u e) w) by (eauto using flat_place, nodup_place).
  assert (Only : forall G, stands x (get t) e G -> G = get t) by (intros; eapply stands_let_free; eauto).
  split.
  - intros R. destruct (C97_needed x u e (get t) G w R S) as (u'&Ru). rewrite (Only G S) in Ru.
    assert (H : forall G, stands x (get t) e G -> resolves G u u') by (intros G' S'; now rewrite (Only G' S')).
    destruct (proj1 (C97_placed x u u' e (get t) w H) R) as (e'&R'&E).
    exists e', u'. rewrite !evaluates_iff; auto.
  - intros (e'&u'&E&U&->). rewrite evaluates_iff in E, U; auto.
    assert (H : forall G, stands x (get t) e G -> resolves G u u') by (intros G' S'; now rewrite (Only G' S')).
    apply (proj2 (C97_placed x u u' e (get t) _ H)). eauto.
Qed.

(** (e): [a * x + b] with [(c + d)] for [x], under the table of the unit tests; a
    renaming that swaps the two operators and spells one of them with an apostrophe. *)
Local Open Scope string_scope.
Definition swap_ops (o : infix) : infix :=
  if infix_eqb o (std "+") then std "*" else if infix_eqb o (std "*") then Promoted (lit "+") else o.
Definition fix_ex : fixities := [(std "+", mkFix 6 ALeft); (std "*", mkFix 7 ALeft)].
Definition var_ex (s : string) : expr := Var (ILower (lit s)).
Definition e_ex : expr := Bin (var_ex "a") (std "*") (Bin (var_ex "x") (std "+") (var_ex "b")).
Definition u_ex : expr := Bin (var_ex "c") (std "+") (Bin (var_ex "d") (std "*") (var_ex "c")).

Lemma swap_ops_symbol o : symbol (swap_ops o)
  = if str_eqb (symbol o) (lit "+") then lit "*" else if str_eqb (symbol o) (lit "*") then lit "+" else symbol o.
Proof.
  unfold swap_ops, infix_eqb. change (symbol (std "+")) with (lit "+"). change (symbol (std "*")) with (lit "*").
  destruct (str_eqb (symbol o) (lit "+")); [reflexivity|]. destruct (str_eqb (symbol o) (lit "*")); reflexivity.
Qed.

Example C96_ex : keeps_apart swap_ops
  /\ (let r := mkResolver fix_ex [] in let a := mkAst [KExpr] [] [e_ex] in
      resolve_ast r a = Ok (r, mkAst [KExpr] [] [Bin (Bin (var_ex "a") (std "*") (var_ex "x")) (std "+") (var_ex "b")], [])
      /\ rename_table swap_ops fix_ex = [(std "*", mkFix 6 ALeft); (Promoted (lit "+"), mkFix 7 ALeft)]).
Proof.
  split.
  - intros a b. rewrite !swap_ops_symbol.
    destruct (str_eqb_spec (symbol a) (lit "+")) as [A|A]; destruct (str_eqb_spec (symbol b) (lit "+")) as [B|B];
      destruct (str_eqb_spec (symbol a) (lit "*")) as [C|C]; destruct (str_eqb_spec (symbol b) (lit "*")) as [D|D];
      rewrite ?A, ?B, ?C, ?D in *; intuition congruence.
  - vm_compute. auto.
Qed.

Example C97_ex : let_free e_ex = true /\ flat e_ex /\ flat u_ex
  /\ stands (ILower (lit "x")) (get fix_ex) e_ex (get fix_ex)
  /\ evaluates fix_ex (place (ILower (lit "x")) u_ex e_ex)
       (Bin (Bin (var_ex "a") (std "*") (Grp (Bin (var_ex "c") (std "+") (Bin (var_ex "d") (std "*") (var_ex "c")))))
            (std "+") (var_ex "b")).
Proof.
  repeat split; try (repeat constructor; discriminate).
  - eexists. vm_compute. reflexivity.
Qed.

Print Assumptions C96_resolve.
Print Assumptions C96_lookup.
Print Assumptions C97_placed.
Print Assumptions C97_needed.
Print Assumptions C97_evaluated.
