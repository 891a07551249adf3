(** C106: a let declares for its body what a declaration declares for the program. *)
From Coq Require Import String List Arith NArith Bool Lia.
From Verif Require Import Prelim Syntax Fixity ProofLexer2 SpecFixity SpecLets ProofTable ProofRewrite ProofResolve
  ProofResolve2 ProofFixity ProofRepl3 PropsFixity PropsRename.
Import ListNotations.

(** The expressions [es] of a program with the declarations [ds], resolved
    without an error. *)
Definition accepted (t : fixities) (ds : list infix_decl) (es es' : list expr) : Prop :=
  exists k r, resolve_ast (mkResolver t []) (mkAst k ds es) = Ok (r, mkAst k ds es', []).

Lemma accepted_iff t ds es es' : Forall flat es -> Forall nodup_lets es ->
  (accepted t ds es es' <-> Forall2 (resolves (declared (get t) ds)) es es').
Proof.
  intros Fl Nd. split.
  - intros (k&r&E). destruct (resolve_ast_spec (mkResolver t []) (mkAst k ds es) eq_refl Fl Nd) as (r'&a'&errs&E'&_&_&_&_&C&_).
    rewrite E in E'. injection E' as <- <- <-. exact (C eq_refl).
  - intros R. exists [], (load_fixities (mkResolver t []) (mkAst [] ds es)).
    exact (resolve_ast_complete (mkResolver t []) (mkAst [] ds es) es' eq_refl Fl Nd R).
Qed.

Lemma resolves_let F d e w : resolves F (Let d e) w <-> exists e', resolves (scoped F d) e e' /\ w = Let d e'.
Proof. split; [intros H; inversion H; subst; eauto|intros (e'&H&->); now constructor]. Qed.

Lemma resolves_iff F G e e' : (forall o, F o = G o) -> (resolves F e e' <-> resolves G e e').
Proof. intros H. split; intros R; eapply resolves_ext; eauto. Qed.

Lemma resolves_under : forall ds F e w,
  resolves F (in_lets ds e) w <-> exists e', resolves (declared F ds) e e' /\ w = in_lets ds e'.
Proof.
  assert (K : forall ds F e w, resolves F (in_lets ds e) w <-> exists e', resolves (fold_left scoped ds F) e e' /\ w = in_lets ds e').
  { induction ds as [|d ds IH]; intros F e w; cbn [in_lets fold_right fold_left].
    - split; [intros H; eauto|intros (e'&H&->); exact H].
    - rewrite resolves_let. split.
      + intros (b&H&->). apply IH in H as (e'&H&->). exists e'. auto.
      + intros (e'&H&->). exists (in_lets ds e'). split; [|reflexivity]. apply IH. eauto. }
  intros ds F e w. rewrite K. split; intros (e'&H&->); exists e'; split; auto; eapply resolves_ext; eauto;
    intros o; rewrite declared_scoped; reflexivity.
Qed.

Lemma flat_under ds e : flat e -> flat (in_lets ds e).
Proof. intros F. induction ds as [|d ds IH]; cbn; auto. now constructor. Qed.
Lemma nodup_under ds e : Forall lists_once ds -> nodup_lets e -> nodup_lets (in_lets ds e).
Proof. intros L N. induction L as [|d ds D L IH]; cbn; auto. now constructor. Qed.
Lemma under_inj ds : forall a b, in_lets ds a = in_lets ds b -> a = b.
Proof. induction ds as [|d ds IH]; intros a b E; cbn in E; auto. injection E as E. now apply IH. Qed.

(** Only the fixities of the operators that occur matter, also under lets. *)
Lemma resolves_same F e e' : resolves F e e' -> forall G, (forall o, In o (ops_in e) -> F o = G o) -> resolves G e e'.
Proof.
  intros H. induction H using resolves_ind'; intros G E; try (constructor; auto; fail).
  - cbn [ops_in] in E. constructor; [apply IHresolves1|apply IHresolves2]; intros o I; apply E, in_or_app; auto.
  - constructor.
    + apply (agree_legal F G (ops_in (Bin a o b))).
      * split; [intros x I; now rewrite E|intros x y I J; now rewrite !E].
      * intros x I. apply ops_chain. erewrite item_rel_ops; eauto.
      * assumption.
    + assert (K : forall x, In (Operand x) (chain (Bin a o b)) -> forall y, In y (ops_in x) -> F y = G y).
      { intros x I y J. apply E. exact (ops_operand _ _ I y J). }
      revert K. clear - H0. induction H0 as [|x y xs ys Hxy _ IH]; intros K; constructor.
      * inversion Hxy as [u v Hr|]; subst; constructor. destruct Hr as [_ Hr]. apply Hr. apply K. now left.
      * apply IH. intros; eapply K; [right|]; eauto.
  - constructor. cbn [ops_in] in E. revert E.
    induction H as [|x y xs ys [_ K] _ IH]; intros E; constructor; cbn [flat_map] in E.
    + apply K. intros o I. apply E, in_or_app. auto.
    + apply IH. intros o I. apply E, in_or_app. auto.
  - constructor. cbn [ops_in] in E. revert E.
    induction H as [|x y xs ys [_ K] _ IH]; intros E; constructor; cbn [flat_map] in E.
    + apply K. intros o I. apply E, in_or_app. auto.
    + apply IH. intros o I. apply E, in_or_app. auto.
  - constructor. apply IHresolves. cbn [ops_in] in E. intros o I. unfold scoped. now rewrite E.
Qed.

(** ** C106 *)

(** The declarations of a program can be written as lets around each of its
    expressions instead. *)
Theorem C106_lifted : forall t ds es es', Forall flat es -> Forall nodup_lets es -> Forall lists_once ds ->
  (accepted t ds es es' <-> Forall2 (fun e e' => evaluates t (in_lets ds e) (in_lets ds e')) es es').
Proof.
  intros t ds es es' Fl Nd L. rewrite (accepted_iff t ds es es' Fl Nd). split; intros H.
  - induction H as [|e e' es es' R H IH]; constructor; [|inversion Fl; inversion Nd; auto].
    inversion Fl; inversion Nd; subst. apply evaluates_iff; [now apply flat_under|now apply nodup_under|]. apply resolves_under. eauto.
  - induction H as [|e e' es es' R H IH]; constructor; [|inversion Fl; inversion Nd; auto].
    inversion Fl; inversion Nd; subst. apply evaluates_iff in R; [|now apply flat_under|now apply nodup_under].
    apply resolves_under in R as (e1&R&E). now apply under_inj in E as ->.
Qed.
Print Assumptions C106_lifted.

(** Lets stay where they are. *)
Theorem C106_kept : forall t ds e w, flat e -> nodup_lets e -> Forall lists_once ds ->
  evaluates t (in_lets ds e) w -> exists e', w = in_lets ds e' /\ accepted t ds [e] [e'].
Proof.
  intros t ds e w Fl Nd L E. assert (E' := E). apply evaluates_iff in E; [|now apply flat_under|now apply nodup_under].
  apply resolves_under in E as (e'&R&->). exists e'. split; [reflexivity|]. apply accepted_iff; auto.
Qed.
Print Assumptions C106_kept.

Lemma evaluates_under t ds e e' : flat e -> nodup_lets e -> Forall lists_once ds ->
  (evaluates t (in_lets ds e) (in_lets ds e') <-> resolves (declared (get t) ds) e e').
Proof.
  intros Fl Nd L. rewrite evaluates_iff by (auto using flat_under, nodup_under). rewrite resolves_under. split.
  - intros (e1&R&E). now apply under_inj in E as ->.
  - intros R. eauto.
Qed.

(** Two lists of lets, one instead of the other: it is enough that the operators
    used in the body get the same fixities. *)
Theorem C106_instead : forall t t' ds ds' e e', flat e -> nodup_lets e -> Forall lists_once ds -> Forall lists_once ds' ->
  (forall o, In o (ops_in e) -> declared (get t) ds o = declared (get t') ds' o) ->
  (evaluates t (in_lets ds e) (in_lets ds e') <-> evaluates t' (in_lets ds' e) (in_lets ds' e')).
Proof.
  intros t t' ds ds' e e' Fl Nd L L' H. rewrite !evaluates_under by auto.
  split; intros R; eapply resolves_same; eauto. intros o I. symmetry. auto.
Qed.
Print Assumptions C106_instead.

(** Lets of different operators can change places. *)
Corollary C106_exchanged : forall t d d' e e', flat e -> nodup_lets e -> lists_once d -> lists_once d' ->
  (forall o, in_decl d o = true -> in_decl d' o = false) ->
  (evaluates t (Let d (Let d' e)) (Let d (Let d' e')) <-> evaluates t (Let d' (Let d e)) (Let d' (Let d e'))).
Proof.
  intros t d d' e e' Fl Nd L L' A. apply (C106_instead t t [d; d'] [d'; d]); auto. intros o _. cbn [declared existsb].
  rewrite !orb_false_r. destruct (in_decl d o) eqn:I; [now rewrite (A o I)|]. now destruct (in_decl d' o).
Qed.

Lemma nodup_parts {A} (a b : list A) : NoDup (a ++ b) -> NoDup a /\ NoDup b.
Proof.
  induction a as [|x a IH]; cbn [app]; intros H; [split; [constructor|exact H]|].
  inversion H as [|? ? I N]; subst. destruct (IH N) as (Na&Nb). split; auto. constructor; auto. intros J. apply I, in_or_app. auto.
Qed.

(** A let of several operators is as good as several lets. *)
Corollary C106_joined : forall t os os' f e e', flat e -> nodup_lets e -> NoDup (map symbol (os ++ os')) ->
  (evaluates t (Let (mkInfixDecl (os ++ os') f) e) (Let (mkInfixDecl (os ++ os') f) e')
   <-> evaluates t (Let (mkInfixDecl os f) (Let (mkInfixDecl os' f) e)) (Let (mkInfixDecl os f) (Let (mkInfixDecl os' f) e'))).
Proof.
  intros t os os' f e e' Fl Nd N.
  assert (N2 := N). rewrite map_app in N2.
  assert (L1 : lists_once (mkInfixDecl os f)) by exact (proj1 (nodup_parts _ _ N2)).
  assert (L2 : lists_once (mkInfixDecl os' f)) by exact (proj2 (nodup_parts _ _ N2)).
  apply (C106_instead t t [mkInfixDecl (os ++ os') f] [mkInfixDecl os f; mkInfixDecl os' f]); auto.
  intros o _. cbn [declared existsb]. unfold in_decl. cbn [d_infixes d_fixity]. rewrite existsb_app, orb_false_r.
  destruct (existsb _ os'); [now rewrite orb_true_r|]. now rewrite orb_false_r.
Qed.

(** A let all of whose operators are declared again inside has no effect. *)
Corollary C106_hidden : forall t d d' e e', flat e -> nodup_lets e -> lists_once d -> lists_once d' ->
  (forall o, in_decl d o = true -> in_decl d' o = true) ->
  (evaluates t (Let d (Let d' e)) (Let d (Let d' e')) <-> evaluates t (Let d' e) (Let d' e')).
Proof.
  intros t d d' e e' Fl Nd L L' A. apply (C106_instead t t [d; d'] [d']); auto. intros o _. cbn [declared existsb].
  rewrite orb_false_r. destruct (in_decl d' o) eqn:I; auto. destruct (in_decl d o) eqn:J; auto. rewrite (A o J) in I. discriminate I.
Qed.

(** Nor has a let that changes nothing for the operators of its body. *)
Corollary C106_idle : forall t d e e', flat e -> nodup_lets e -> lists_once d ->
  (forall o, In o (ops_in e) -> in_decl d o = true -> get t o = d_fixity d) ->
  (evaluates t (Let d e) (Let d e') <-> evaluates t e e').
Proof.
  intros t d e e' Fl Nd L A. apply (C106_instead t t [d] []); auto. intros o I. cbn [declared existsb].
  destruct (in_decl d o) eqn:J; auto. symmetry. now apply A.
Qed.
Print Assumptions C106_idle.

(** ** Examples *)
Definition op_a : infix := Standard (lit "<+>").
Definition op_b : infix := Standard (lit "<*>").
Definition d_a : infix_decl := mkInfixDecl [op_a] (mkFix 3 ARight).
Definition d_b : infix_decl := mkInfixDecl [op_b] (mkFix 2 ALeft).
Definition xv (s : string) : expr := Var (ILower (lit s)).
Definition e_in : expr := Bin (xv "x") op_a (Bin (xv "y") op_b (xv "z")).
Definition e_out : expr := Bin (Bin (xv "x") op_a (xv "y")) op_b (xv "z").
Example C106_ex : flat e_in /\ nodup_lets e_in /\ Forall lists_once [d_a; d_b] /\
  accepted [] [d_a; d_b] [e_in] [e_out] /\ evaluates [] (Let d_a (Let d_b e_in)) (Let d_a (Let d_b e_out)) /\
  evaluates [] (Let d_b (Let d_a e_in)) (Let d_b (Let d_a e_out)) /\ ~ evaluates [] (Let d_a e_in) (Let d_a e_out) /\
  (forall o, in_decl d_a o = true -> in_decl d_b o = false).
Proof.
  split; [repeat constructor; discriminate|]. split; [repeat constructor|].
  split; [repeat constructor; intros []|]. split; [exists [KExpr]; eexists; reflexivity|]. split; [eexists; reflexivity|].
  split; [eexists; reflexivity|]. split; [intros (r&E); vm_compute in E; discriminate E|].
  intros o. unfold in_decl. cbn [d_a d_b d_infixes existsb]. rewrite !orb_false_r. intros H. apply ProofLexer2.str_eqb_eq in H. now rewrite <- H.
Qed.
(** A let and a declaration, tables and all: three ways to say the same. *)
Example C106_ex_idle : (forall o, In o (ops_in e_in) -> in_decl d_b o = true -> get [(op_b, mkFix 2 ALeft)] o = d_fixity d_b) /\
  (forall o, in_decl (mkInfixDecl [op_b] (mkFix 7 ALeft)) o = true -> in_decl d_b o = true) /\ NoDup (map symbol ([op_a] ++ [op_b])).
Proof.
  split; [intros o [<-|[<-|[]]] H; [discriminate H|reflexivity]|]. split; [intros o H; exact H|].
  constructor; [intros [H|[]]; discriminate H|]. constructor; [intros []|constructor].
Qed.
