(** C105: operators of equal level stand for each other. *)
From Coq Require Import String List Arith NArith Bool Lia.
From Verif Require Import Prelim Syntax Fixity SpecFixity SpecRename ProofTable ProofRewrite ProofResolve
  ProofResolve2 ProofFixity PropsFixity PropsRename.
Import ListNotations.

Section StandIn.
Variable lits : literal -> literal.
Variable ids : ident -> ident.
Variable pats : pat -> pat.
Variable ops : infix -> infix.
Notation rn := (rename lits ids pats ops).

Definition rename_item (i : item) : item :=
  match i with Operand e => Operand (rn e) | Operator o => Operator (ops o) end.
Fixpoint rename_tree (g : gtree) : gtree :=
  match g with Leaf e => Leaf (rn e) | Node l o r => Node (rename_tree l) (ops o) (rename_tree r) end.

Lemma chain_rename e : chain (rn e) = map rename_item (chain e).
Proof. induction e as [l|i|a IHa b IHb|a IHa o b IHb|p a IHa|a IHa|a IHa|zs|zs|d a IHa]; try reflexivity. cbn [rename chain map rename_item]. now rewrite IHb. Qed.
Lemma yield_rename g : yield (rename_tree g) = map rename_item (yield g).
Proof. induction g as [e|l IHl o r IHr]; cbn [rename_tree yield map rename_item]; auto. rewrite map_app, IHl, IHr. reflexivity. Qed.
Lemma as_expr_rename g : as_expr (rename_tree g) = rn (as_expr g).
Proof. induction g as [e|l IHl o r IHr]; cbn [rename_tree as_expr rename]; auto. now rewrite IHl, IHr. Qed.
Lemma root_rename g : root (rename_tree g) = option_map ops (root g).
Proof. now destruct g. Qed.

(** Every grouping of renamed items is a renamed grouping. *)
Lemma tree_renamed : forall g l, yield g = map rename_item l -> exists g0, yield g0 = l /\ rename_tree g0 = g.
Proof.
  induction g as [e|a IHa o b IHb]; intros l E; cbn [yield] in E.
  - destruct l as [|[x|x] [|y l]]; try discriminate E. injection E as ->. exists (Leaf x). auto.
  - symmetry in E. apply map_eq_app in E as (l1&l2&->&E1&E2). destruct l2 as [|[x|x] l2]; try discriminate E2.
    cbn [map rename_item] in E2. injection E2 as <- E2.
    destruct (IHa l1 (eq_sym E1)) as (a0&<-&<-), (IHb l2 (eq_sym E2)) as (b0&<-&<-). exists (Node a0 x b0). auto.
Qed.

Lemma flat_rename : forall n e, esize e <= n -> flat e -> flat (rn e).
Proof.
  induction n as [|n IH]; intros e S H; [pose proof (esize_pos e); lia|].
  inversion H; subst; cbn [rename esize] in *; try (constructor; auto; apply IH; auto; lia).
  - constructor; try (apply IH; auto; lia). intros x c y E. destruct a; try discriminate E. match goal with X : not_bin _ |- _ => now elim (X a1 o0 a2) end.
  - constructor. rewrite Forall_forall in *. intros y I. apply in_map_iff in I as (z&<-&I). apply IH; auto. pose proof (list_sum_in z es I). lia.
  - constructor. rewrite Forall_forall in *. intros y I. apply in_map_iff in I as (z&<-&I). apply IH; auto. pose proof (list_sum_in z es I). lia.
Qed.
Lemma let_free_rename : forall n e, esize e <= n -> let_free (rn e) = let_free e.
Proof.
  induction n as [|n IH]; intros e S; [pose proof (esize_pos e); lia|].
  assert (Es : forall es, list_sum (map esize es) <= n -> forallb let_free (map rn es) = forallb let_free es).
  { induction es as [|x es IHs]; intros Sz; auto. cbn [map list_sum fold_right forallb] in *. fold (list_sum (map esize es)) in Sz.
    rewrite IH, IHs by lia. reflexivity. }
  destruct e as [l|i|a b|a o b|p a|a|a|es|es|d a]; cbn [esize] in S; cbn [rename let_free]; auto; try (apply IH; lia); try (apply Es; lia).
  - now rewrite !IH by lia.
  - now rewrite !IH by lia.
Qed.

Variable G : infix -> fixity.
Notation F := (fun o => G (ops o)).

Lemma legal_rename g : legal G (rename_tree g) <-> legal F g.
Proof.
  induction g as [e|l IHl o r IHr]; [reflexivity|]. cbn [rename_tree legal]. rewrite IHl, IHr, !root_rename.
  assert (L : (forall c, option_map ops (root l) = Some c -> left_ok G c (ops o)) <-> (forall c, root l = Some c -> left_ok F c o)).
  { destruct (root l) as [x|]; cbn [option_map]; split; intros H c Ec; try discriminate Ec; injection Ec as <-; exact (H _ eq_refl). }
  assert (R : (forall c, option_map ops (root r) = Some c -> right_ok G (ops o) c) <-> (forall c, root r = Some c -> right_ok F o c)).
  { destruct (root r) as [x|]; cbn [option_map]; split; intros H c Ec; try discriminate Ec; injection Ec as <-; exact (H _ eq_refl). }
  tauto.
Qed.

Lemma let_free_in es x : forallb let_free es = true -> In x es -> let_free x = true.
Proof. intros H I. rewrite forallb_forall in H. auto. Qed.

Lemma stand_in : forall n e w, esize e <= n -> let_free e = true ->
  (resolves G (rn e) w <-> exists e', resolves F e e' /\ w = rn e').
Proof.
  induction n as [|n IH]; intros e w S L; [pose proof (esize_pos e); lia|].
  assert (Es : forall es ws, list_sum (map esize es) <= n -> forallb let_free es = true ->
    (Forall2 (resolves G) (map rn es) ws <-> exists es', Forall2 (resolves F) es es' /\ ws = map rn es')).
  { induction es as [|x es IHs]; intros ws Sz Lf.
    - split; [intros H; inversion H; exists []; auto|intros (es'&H&->); inversion H; constructor].
    - cbn [map list_sum fold_right forallb] in Sz, Lf. apply andb_true_iff in Lf as (L1&L2). fold (list_sum (map esize es)) in Sz. split.
      + intros H. inversion H as [|? y ? ws' H1 H2]; subst. apply IH in H1 as (y'&H1&->); [|lia|auto].
        apply IHs in H2 as (es'&H2&->); [|lia|auto]. exists (y' :: es'). split; [now constructor|reflexivity].
      + intros (es'&H&->). inversion H as [|? y ? ys H1 H2]; subst. cbn [map]. constructor; [apply IH; eauto; lia|apply IHs; eauto; lia]. }
  assert (It : forall its ws, (forall x, In (Operand x) its -> esize x <= n /\ let_free x = true) ->
    (Forall2 (item_rel (resolves G)) (map rename_item its) ws <-> exists its', Forall2 (item_rel (resolves F)) its its' /\ ws = map rename_item its')).
  { induction its as [|i its IHs]; intros ws Sz.
    - split; [intros H; inversion H; exists []; auto|intros (es'&H&->); inversion H; constructor].
    - assert (Sz' : forall x, In (Operand x) its -> esize x <= n /\ let_free x = true) by (intros x I; apply Sz; now right). split.
      + intros H. inversion H as [|? y ? ws' H1 H2]; subst. apply IHs in H2 as (es'&H2&->); [|auto].
        destruct i as [x|o]; cbn [rename_item] in H1; inversion H1; subst.
        * destruct (Sz x (or_introl eq_refl)) as (Z1&Z2). match goal with X : resolves G (rn x) _ |- _ => apply IH in X as (y'&X&->) end; [|auto|auto].
          exists (Operand y' :: es'). split; [constructor; [now constructor|auto]|reflexivity].
        * exists (Operator o :: es'). split; [constructor; [constructor|auto]|reflexivity].
      + intros (es'&H&->). inversion H as [|? y ? ys H1 H2]; subst. cbn [map]. constructor; [|apply IHs; eauto].
        inversion H1; subst; cbn [rename_item]; constructor. destruct (Sz a (or_introl eq_refl)) as (Z1&Z2). apply IH; eauto. }
  destruct e as [l|i|a b|a o b|p a|a|a|es|es|d a]; cbn [esize let_free] in S, L.
  - split; [intros H; inversion H; subst; exists (Lit l); split; [constructor|reflexivity]|intros (e'&H&->); inversion H; constructor].
  - split; [intros H; inversion H; subst; exists (Var i); split; [constructor|reflexivity]|intros (e'&H&->); inversion H; constructor].
  - apply andb_true_iff in L as (L1&L2). cbn [rename]. split.
    + intros H. inversion H as [| |? ? ? a' b' H1 H2| | | | | | |]; subst. apply IH in H1 as (a1&H1&->); [|lia|auto]. apply IH in H2 as (b1&H2&->); [|lia|auto].
      exists (App a1 b1). split; [now constructor|reflexivity].
    + intros (e'&H&->). inversion H; subst. cbn [rename]. constructor; apply IH; eauto; lia.
  - assert (Sz : forall x, In (Operand x) (chain (Bin a o b)) -> esize x <= n /\ let_free x = true).
    { intros x I. split; [|eapply let_free_chain; [|exact I]; exact L]. cbn [chain In] in I. destruct I as [I|[I|I]]; [injection I as <-; lia|discriminate I|]. apply isize_in in I. rewrite esize_chain in I. lia. }
    split.
    + intros H. inversion H as [| | |? ? ? ? g Lg Y| | | | | |]; subst.
      change (Bin (rn a) (ops o) (rn b)) with (rn (Bin a o b)) in Y. rewrite chain_rename in Y. apply It in Y as (l&Y&E); [|exact Sz].
      apply tree_renamed in E as (g0&<-&<-). exists (as_expr g0). split; [|now rewrite as_expr_rename].
      constructor; [now apply legal_rename|exact Y].
    + intros (e'&H&->). inversion H as [| | |? ? ? ? g Lg Y| | | | | |]; subst. rewrite <- as_expr_rename. cbn [rename].
      constructor; [now apply legal_rename|]. change (Bin (rn a) (ops o) (rn b)) with (rn (Bin a o b)). rewrite chain_rename, yield_rename.
      apply It; eauto.
  - cbn [rename]. split; [intros H; inversion H; subst|intros (e'&H&->); inversion H; subst; cbn [rename]; constructor; apply IH; eauto; lia].
    match goal with X : resolves G (rn a) _ |- _ => apply IH in X as (a1&X&->) end; [|lia|auto]. exists (Lam p a1). split; [now constructor|reflexivity].
  - cbn [rename]. split; [intros H; inversion H; subst|intros (e'&H&->); inversion H; subst; cbn [rename]; constructor; apply IH; eauto; lia].
    match goal with X : resolves G (rn a) _ |- _ => apply IH in X as (a1&X&->) end; [|lia|auto]. exists (Grp a1). split; [now constructor|reflexivity].
  - cbn [rename]. split; [intros H; inversion H; subst|intros (e'&H&->); inversion H; subst; cbn [rename]; constructor; apply IH; eauto; lia].
    match goal with X : resolves G (rn a) _ |- _ => apply IH in X as (a1&X&->) end; [|lia|auto]. exists (Neg a1). split; [now constructor|reflexivity].
  - cbn [rename]. split; [intros H; inversion H; subst|intros (e'&H&->); inversion H; subst; cbn [rename]; constructor; apply Es; eauto; lia].
    match goal with X : Forall2 _ (map rn es) _ |- _ => apply Es in X as (a1&X&->) end; [|lia|auto]. exists (Tup a1). split; [now constructor|reflexivity].
  - cbn [rename]. split; [intros H; inversion H; subst|intros (e'&H&->); inversion H; subst; cbn [rename]; constructor; apply Es; eauto; lia].
    match goal with X : Forall2 _ (map rn es) _ |- _ => apply Es in X as (a1&X&->) end; [|lia|auto]. exists (List a1). split; [now constructor|reflexivity].
  - discriminate L.
Qed.

End StandIn.

Lemma let_free_nodup : forall n e, esize e <= n -> let_free e = true -> nodup_lets e.
Proof.
  induction n as [|n IH]; intros e S L; [pose proof (esize_pos e); lia|].
  destruct e as [l|i|a b|a o b|p a|a|a|es|es|d a]; cbn [esize let_free] in S, L; try discriminate L;
    try (apply andb_true_iff in L as (L1&L2)); constructor; try (apply IH; auto; lia).
  all: rewrite Forall_forall; intros y I; apply IH; [pose proof (list_sum_in y es I); lia|eapply let_free_in; eauto].
Qed.

(** ** C105 *)

(** Operators may be replaced by others, even several by the same, if those have
    the same associativity and compare to each other in the same way. *)
Theorem C105_groupings : forall lits ids pats ops F G e w, let_free e = true ->
  agree F (fun o => G (ops o)) (ops_in e) ->
  (resolves G (rename lits ids pats ops e) w <-> exists e', resolves F e e' /\ w = rename lits ids pats ops e').
Proof.
  intros lits ids pats ops F G e w L A. rewrite (stand_in lits ids pats ops G (esize e) e w (le_n _) L).
  split; intros (e'&R&->); exists e'; split; auto; apply (C13_only_relative_precedence_deep F (fun o => G (ops o)) e e' L A); exact R.
Qed.
Print Assumptions C105_groupings.

Theorem C105_evaluated : forall lits ids pats ops t t' e w, let_free e = true -> flat e ->
  agree (get t) (fun o => get t' (ops o)) (ops_in e) ->
  (evaluates t' (rename lits ids pats ops e) w <-> exists e', evaluates t e e' /\ w = rename lits ids pats ops e').
Proof.
  intros lits ids pats ops t t' e w L Fl A.
  assert (N : nodup_lets e) by (eapply let_free_nodup; eauto).
  assert (N' : nodup_lets (rename lits ids pats ops e)) by (apply (let_free_nodup _ _ (le_n _)); now rewrite (let_free_rename lits ids pats ops (esize e) e (le_n _))).
  rewrite (evaluates_iff t' _ w) by (try apply (flat_rename lits ids pats ops (esize e) e (le_n _)); assumption).
  rewrite (C105_groupings lits ids pats ops (get t) (get t') e w L A).
  split; intros (e'&R&->); exists e'; split; auto; now apply (evaluates_iff t e e').
Qed.
Print Assumptions C105_evaluated.

(** The same for the pairs of operators that cannot be grouped. *)
Lemma clash_agree F G its o1 o2 ops : agree F G ops -> (forall o, In (Operator o) its -> In o ops) ->
  clash F its o1 o2 -> clash G its o1 o2.
Proof.
  intros (Aa&Ac) I (a&m&b&->&P&L&R&M). exists a, m, b. split; [reflexivity|].
  assert (I1 : In o1 ops) by (apply I; apply in_or_app; right; left; auto).
  assert (I2 : In o2 ops) by (apply I; apply in_or_app; right; right; apply in_or_app; right; left; auto).
  unfold is_infixl, is_infixr, prec in *. rewrite <- (Aa o1 I1), <- (Aa o2 I2). split.
  { apply N.compare_eq_iff. rewrite <- (Ac o1 o2 I1 I2). now apply N.compare_eq_iff. }
  split; [exact L|]. split; [exact R|]. intros o Ho.
  assert (Io : In o ops) by (apply I; apply in_or_app; right; right; apply in_or_app; left; auto).
  unfold N.lt. rewrite <- (Ac o1 o I1 Io). now apply M.
Qed.

Lemma clash_in_agree F e o1 f1 o2 f2 : clash_in F e o1 f1 o2 f2 -> forall G, let_free e = true -> agree F G (ops_in e) ->
  clash_in G e o1 (G o1) o2 (G o2).
Proof.
  intros H. induction H as [F e o1 o2 C|F a b o1 f1 o2 f2 H IH|F a b o1 f1 o2 f2 H IH|F e x o1 f1 o2 f2 I H IH|F p a o1 f1 o2 f2 H IH
    |F a o1 f1 o2 f2 H IH|F a o1 f1 o2 f2 H IH|F x es o1 f1 o2 f2 I H IH|F x es o1 f1 o2 f2 I H IH|F d a o1 f1 o2 f2 H IH]; intros G L A; cbn [let_free ops_in] in *.
  - apply ci_here. exact (clash_agree F G _ _ _ (ops_in e) A (ops_chain e) C).
  - apply andb_true_iff in L as (L1&L2). apply ci_app_l, IH; auto. eapply agree_incl; [exact A|]. apply incl_appl, incl_refl.
  - apply andb_true_iff in L as (L1&L2). apply ci_app_r, IH; auto. eapply agree_incl; [exact A|]. apply incl_appr, incl_refl.
  - apply (ci_operand G e x); auto. apply IH; [eapply let_free_chain; eauto|]. eapply agree_incl; [exact A|]. now apply ops_operand.
  - apply ci_lam, IH; auto.
  - apply ci_grp, IH; auto.
  - apply ci_neg, IH; auto.
  - apply (ci_tup G x); auto. apply IH; [eapply let_free_in; eauto|]. eapply agree_incl; [exact A|]. intros o Ho. apply in_flat_map. eauto.
  - apply (ci_list G x); auto. apply IH; [eapply let_free_in; eauto|]. eapply agree_incl; [exact A|]. intros o Ho. apply in_flat_map. eauto.
  - discriminate L.
Qed.

Section Clashes.
Variable lits : literal -> literal.
Variable ids : ident -> ident.
Variable pats : pat -> pat.
Variable ops : infix -> infix.
Notation rn := (rename lits ids pats ops).
Notation ri := (rename_item lits ids pats ops).

Lemma operator_renamed its p : In (Operator p) (map ri its) -> exists o, In (Operator o) its /\ p = ops o.
Proof. intros I. apply in_map_iff in I as ([x|o]&E&I); [discriminate E|]. injection E as <-. eauto. Qed.
Lemma operand_renamed its x : In (Operand x) (map ri its) -> exists y, In (Operand y) its /\ x = rn y.
Proof. intros I. apply in_map_iff in I as ([y|o]&E&I); [|discriminate E]. injection E as <-. eauto. Qed.

Lemma clash_rename G its p1 p2 : clash G (map ri its) p1 p2 <->
  exists o1 o2, clash (fun o => G (ops o)) its o1 o2 /\ p1 = ops o1 /\ p2 = ops o2.
Proof.
  split.
  - intros (a&m&b&E&P&L&R&M). apply map_eq_app in E as (a0&r&->&<-&E). destruct r as [|[x|o1] r]; try discriminate E.
    cbn [map rename_item] in E. injection E as <- E. apply map_eq_app in E as (m0&r2&->&<-&E). destruct r2 as [|[x|o2] b0]; try discriminate E.
    cbn [map rename_item] in E. injection E as <- <-. exists o1, o2. split; [|auto]. exists a0, m0, b0.
    split; [reflexivity|]. split; [exact P|]. split; [exact L|]. split; [exact R|]. intros o I. apply M. exact (in_map ri _ _ I).
  - intros (o1&o2&(a&m&b&->&P&L&R&M)&->&->). exists (map ri a), (map ri m), (map ri b).
    split; [rewrite map_app; cbn [map rename_item]; now rewrite map_app|]. split; [exact P|]. split; [exact L|]. split; [exact R|].
    intros p I. apply operator_renamed in I as (o&I&->). exact (M o I).
Qed.

Lemma clash_in_rename F G e o1 f1 o2 f2 : clash_in F e o1 f1 o2 f2 -> let_free e = true -> (forall o, F o = G (ops o)) ->
  clash_in G (rn e) (ops o1) f1 (ops o2) f2.
Proof.
  intros H. induction H as [F e o1 o2 C|F a b o1 f1 o2 f2 H IH|F a b o1 f1 o2 f2 H IH|F e x o1 f1 o2 f2 I H IH|F p a o1 f1 o2 f2 H IH
    |F a o1 f1 o2 f2 H IH|F a o1 f1 o2 f2 H IH|F x es o1 f1 o2 f2 I H IH|F x es o1 f1 o2 f2 I H IH|F d a o1 f1 o2 f2 H IH]; intros L E; cbn [let_free] in *.
  - rewrite !E. apply ci_here. rewrite chain_rename. apply clash_rename. exists o1, o2. split; [|auto].
    destruct C as (a&m&b&->&P&Q&R&M). unfold is_infixl, is_infixr, prec in *. rewrite !E in *. exists a, m, b. unfold is_infixl, is_infixr, prec.
    split; [reflexivity|]. split; [exact P|]. split; [exact Q|]. split; [exact R|]. intros o I. rewrite <- (E o). now apply M.
  - apply andb_true_iff in L as (L1&L2). apply ci_app_l, IH; auto.
  - apply andb_true_iff in L as (L1&L2). apply ci_app_r, IH; auto.
  - apply (ci_operand G (rn e) (rn x)); [rewrite chain_rename; exact (in_map ri _ _ I)|]. apply IH; auto. eapply let_free_chain; eauto.
  - apply ci_lam, IH; auto.
  - apply ci_grp, IH; auto.
  - apply ci_neg, IH; auto.
  - apply (ci_tup G (rn x)); [now apply in_map|]. apply IH; auto. eapply let_free_in; eauto.
  - apply (ci_list G (rn x)); [now apply in_map|]. apply IH; auto. eapply let_free_in; eauto.
  - discriminate L.
Qed.

Lemma clash_in_renamed G e' p1 f1 p2 f2 : clash_in G e' p1 f1 p2 f2 -> forall e, e' = rn e -> let_free e = true ->
  exists o1 o2, clash_in (fun o => G (ops o)) e o1 f1 o2 f2 /\ p1 = ops o1 /\ p2 = ops o2.
Proof.
  intros H. induction H as [G e' p1 p2 C|G a b p1 f1 p2 f2 H IH|G a b p1 f1 p2 f2 H IH|G e' x p1 f1 p2 f2 I H IH|G p a p1 f1 p2 f2 H IH
    |G a p1 f1 p2 f2 H IH|G a p1 f1 p2 f2 H IH|G x es p1 f1 p2 f2 I H IH|G x es p1 f1 p2 f2 I H IH|G d a p1 f1 p2 f2 H IH]; intros e E L.
  - subst e'. rewrite chain_rename in C. apply clash_rename in C as (o1&o2&C&->&->). exists o1, o2. split; [|auto].
    exact (ci_here (fun o => G (ops o)) e o1 o2 C).
  - destruct e; try discriminate E. injection E as -> ->. cbn [let_free] in L. apply andb_true_iff in L as (L1&L2).
    destruct (IH _ eq_refl L1) as (o1&o2&C&->&->). exists o1, o2. split; [now apply ci_app_l|auto].
  - destruct e; try discriminate E. injection E as -> ->. cbn [let_free] in L. apply andb_true_iff in L as (L1&L2).
    destruct (IH _ eq_refl L2) as (o1&o2&C&->&->). exists o1, o2. split; [now apply ci_app_r|auto].
  - subst e'. rewrite chain_rename in I. apply operand_renamed in I as (y&I&->).
    destruct (IH _ eq_refl (let_free_chain _ _ L I)) as (o1&o2&C&->&->). exists o1, o2. split; [now apply (ci_operand _ e y)|auto].
  - destruct e; try discriminate E. injection E as -> ->. destruct (IH _ eq_refl L) as (o1&o2&C&->&->). exists o1, o2. split; [now apply ci_lam|auto].
  - destruct e; try discriminate E. injection E as ->. destruct (IH _ eq_refl L) as (o1&o2&C&->&->). exists o1, o2. split; [now apply ci_grp|auto].
  - destruct e; try discriminate E. injection E as ->. destruct (IH _ eq_refl L) as (o1&o2&C&->&->). exists o1, o2. split; [now apply ci_neg|auto].
  - destruct e as [l|i|a b|a o b|p a|a|a|zs|zs|d a]; try discriminate E. injection E as ->. apply in_map_iff in I as (y&<-&I). cbn [let_free] in L.
    destruct (IH _ eq_refl (let_free_in _ _ L I)) as (o1&o2&C&->&->). exists o1, o2. split; [now apply (ci_tup _ y)|auto].
  - destruct e as [l|i|a b|a o b|p a|a|a|zs|zs|d a]; try discriminate E. injection E as ->. apply in_map_iff in I as (y&<-&I). cbn [let_free] in L.
    destruct (IH _ eq_refl (let_free_in _ _ L I)) as (o1&o2&C&->&->). exists o1, o2. split; [now apply (ci_list _ y)|auto].
  - destruct e as [l|i|a0 b|a0 o b|p a0|a0|a0|zs|zs|d0 a0]; try discriminate E. discriminate L.
Qed.
End Clashes.

Theorem C105_clashes : forall lits ids pats ops F G e p1 p2, let_free e = true ->
  agree F (fun o => G (ops o)) (ops_in e) ->
  (clash_in G (rename lits ids pats ops e) p1 (G p1) p2 (G p2)
   <-> exists o1 o2, clash_in F e o1 (F o1) o2 (F o2) /\ p1 = ops o1 /\ p2 = ops o2).
Proof.
  intros lits ids pats ops F G e p1 p2 L A. split.
  - intros C. apply (clash_in_renamed lits ids pats ops) with (e := e) in C as (o1&o2&C&->&->); auto. exists o1, o2. split; [|auto].
    exact (clash_in_agree _ _ _ _ _ _ C F L (agree_sym _ _ _ A)).
  - intros (o1&o2&C&->&->). apply (clash_in_agree _ _ _ _ _ _ C (fun o => G (ops o)) L) in A.
    exact (clash_in_rename lits ids pats ops _ G _ _ _ _ _ A L (fun _ => eq_refl)).
Qed.
Print Assumptions C105_clashes.

(** ** Examples *)

(** Two operators become one of the same level. *)
Definition plus_o : infix := Standard (lit "+").
Definition minus_o : infix := Standard (lit "<->").
Definition times_o : infix := Standard (lit "*").
Definition t_two : fixities := [(plus_o, mkFix 6 ALeft); (minus_o, mkFix 6 ALeft); (times_o, mkFix 7 ALeft)].
Definition t_one : fixities := [(plus_o, mkFix 2 ALeft); (times_o, mkFix 5 ALeft)].
Definition merge (o : infix) : infix := if infix_eqb o minus_o then plus_o else o.
Definition vv (s : string) : expr := Var (ILower (lit s)).
Definition e_two : expr := Bin (vv "a") plus_o (Bin (vv "b") times_o (Bin (vv "c") minus_o (vv "d"))).
Example C105_ex : let_free e_two = true /\ flat e_two /\ agree (get t_two) (fun o => get t_one (merge o)) (ops_in e_two) /\
  evaluates t_two e_two (Bin (Bin (vv "a") plus_o (Bin (vv "b") times_o (vv "c"))) minus_o (vv "d")) /\
  evaluates t_one (rename (fun l => l) (fun i => i) (fun p => p) merge e_two)
    (Bin (Bin (vv "a") plus_o (Bin (vv "b") times_o (vv "c"))) plus_o (vv "d")).
Proof.
  split; [reflexivity|]. split; [repeat constructor; discriminate|]. split; [|split; eexists; reflexivity].
  split; cbn [ops_in e_two vv app].
  - intros o [<-|[<-|[<-|[]]]]; reflexivity.
  - intros o p [<-|[<-|[<-|[]]]] [<-|[<-|[<-|[]]]]; reflexivity.
Qed.
(** Two operators that do not go together become one that does not go with itself. *)
Definition t_cmp : fixities := [(plus_o, mkFix 4 ANeither); (minus_o, mkFix 4 ANeither)].
Definition t_cmp' : fixities := [(plus_o, mkFix 0 ANeither)].
Definition e_cmp : expr := Bin (vv "a") plus_o (Bin (vv "b") minus_o (vv "c")).
Example C105_ex_clash : agree (get t_cmp) (fun o => get t_cmp' (merge o)) (ops_in e_cmp) /\
  clash_in (get t_cmp) e_cmp plus_o (get t_cmp plus_o) minus_o (get t_cmp minus_o) /\
  clash_in (get t_cmp') (rename (fun l => l) (fun i => i) (fun p => p) merge e_cmp) plus_o (get t_cmp' plus_o) plus_o (get t_cmp' plus_o).
Proof.
  assert (A : agree (get t_cmp) (fun o => get t_cmp' (merge o)) (ops_in e_cmp)).
  { split; cbn [ops_in e_cmp vv app].
    - intros o [<-|[<-|[]]]; reflexivity.
    - intros o p [<-|[<-|[]]] [<-|[<-|[]]]; reflexivity. }
  assert (C : clash_in (get t_cmp) e_cmp plus_o (get t_cmp plus_o) minus_o (get t_cmp minus_o)).
  { apply ci_here. exists [Operand (vv "a")], [Operand (vv "b")], [Operand (vv "c")].
    split; [reflexivity|]. split; [reflexivity|]. split; [intros (X&_); discriminate X|]. split; [intros (X&_); discriminate X|].
    intros o [X|[]]; discriminate X. }
  split; [exact A|]. split; [exact C|].
  apply (C105_clashes (fun l => l) (fun i => i) (fun p => p) merge (get t_cmp) (get t_cmp') e_cmp); [reflexivity|exact A|].
  exists plus_o, minus_o. repeat split. exact C.
Qed.
