(** Claim C17: iterating over an AST. *)
From Coq Require Import List NArith Lia.
From Verif Require Import Prelim Syntax Fixity SpecFixity SpecAst ProofFixity.
Import ListNotations.

(** The iterator driven by a mix of [next] and [next_back], src/syntax/ast.rs:95-121. *)
Fixpoint drive (it : ast_iter) (ss : list step) : list (option decl * nat) :=
  match ss with
  | [] => []
  | s :: ss' =>
      let (d, it') := match s with Front => iter_next it | Back => iter_next_back it end in
      (d, iter_len it') :: drive it' ss'
  end.

Definition represents (it : ast_iter) (ds : list decl) : Prop :=
  it_kinds it = map kind ds /\ it_infxs it = infix_decls ds /\ it_exprs it = input_exprs ds.

Lemma represents_new : forall ds, represents (iter_new (fold_left ast_push ds ast_empty)) ds.
Proof.
  intros ds. unfold iter_new, represents. simpl.
  rewrite ast_of_infxs, ast_of_exprs. repeat split.
  assert (G : forall ds a, a_kinds (fold_left ast_push ds a) = a_kinds a ++ map kind ds).
  { clear. induction ds as [|d ds IH]; intros a; simpl; [now rewrite app_nil_r|].
    rewrite IH. destruct d; simpl; now rewrite <- app_assoc. }
  apply (G ds ast_empty).
Qed.

Lemma pop_back_app {A} (l : list A) x : pop_back (l ++ [x]) = (Some x, l).
Proof. unfold pop_back. rewrite rev_app_distr. simpl. now rewrite rev_involutive. Qed.

Lemma drive_spec : forall ss it ds, represents it ds -> drive it ss = deque ds ss.
Proof.
  induction ss as [|s ss IH]; intros it ds R; simpl; auto.
  destruct it as [ks is es]. destruct R as (K & I & E). simpl in *. subst. destruct s.
  - destruct ds as [|d ds]; simpl.
    + f_equal. apply (IH _ []). repeat split.
    + unfold iter_next, iter_tick; simpl. destruct d; simpl; unfold iter_len; simpl;
        rewrite map_length; f_equal; apply IH; repeat split.
  - destruct ds as [|d0 ds0].
    + simpl. f_equal. apply (IH _ []). repeat split.
    + assert (N : d0 :: ds0 <> []) by discriminate.
      destruct (exists_last N) as (l & b & X).
      assert (D : deque (d0 :: ds0) (Back :: ss) = (Some b, length l) :: deque l ss).
      { rewrite X. destruct l as [|d1 l]; [reflexivity|].
        cbn [deque app]. rewrite app_comm_cons, last_last, removelast_last. reflexivity. }
      cbn [deque] in D. rewrite D, X.
      unfold iter_next_back, iter_tick; simpl.
      unfold infix_decls, input_exprs. rewrite map_app, !flat_map_app. simpl. rewrite pop_back_app.
      destruct b as [i|e]; simpl; rewrite ?app_nil_r, pop_back_app; unfold iter_len; simpl;
        rewrite map_length; f_equal; apply IH; repeat split.
Qed.

(** ** C17 *)
Theorem C17_iteration_is_source_order : forall ds ss,
  drive (iter_new (fold_left ast_push ds ast_empty)) ss = deque ds ss.
Proof. intros ds ss. apply drive_spec, represents_new. Qed.
Print Assumptions C17_iteration_is_source_order.

Theorem C17_initial_count : forall ds,
  iter_len (iter_new (fold_left ast_push ds ast_empty)) = length ds.
Proof.
  intros ds. destruct (represents_new ds) as (K&_). unfold iter_len. rewrite K. apply map_length.
Qed.
Print Assumptions C17_initial_count.

Example C17_ex :
  let d := DInfix (mkInfixDecl [Standard [43%N]] (mkFix 6 ALeft)) in
  let e := DExpr (Lit (LInt 1)) in
  drive (iter_new (fold_left ast_push [d; e; e; d] ast_empty)) [Back; Front; Back; Front; Front]
  = [(Some d, 3); (Some d, 2); (Some e, 1); (Some e, 0); (None, 0)].
Proof. reflexivity. Qed.
