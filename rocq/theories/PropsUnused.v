(** C117: fixities of operators that do not occur do not matter. *)
From Coq Require Import List Arith NArith Bool String Lia.
From Verif Require Import Prelim Chars Syntax Fixity SpecFixity ProofTable ProofResolve ProofResolve2 ProofFixity Lexer ProofLexer2 Parser PropsFixity PropsOrder.
Import ListNotations.
Local Open Scope string_scope.
Local Open Scope list_scope.

Section On.
(** The operators that matter, by name. *)
Variable P : str -> Prop.

Definition tbl_on (t t' : fixities) : Prop := NoDup (keys t) /\ NoDup (keys t') /\ forall o, P (symbol o) -> get t o = get t' o.
Definition res_on (r r' : resolver) : Prop := tbl_on (r_fix r) (r_fix r') /\ r_errs r = r_errs r'.

Lemma put_on t t' o f : tbl_on t t' -> tbl_on (insert_tbl t o f) (insert_tbl t' o f).
Proof. intros (A&B&C). split; [now apply nodup_insert|]. split; [now apply nodup_insert|]. intros k Hk. rewrite !get_put, C by auto. reflexivity. Qed.
Definition saved_on (x y : infix * option fixity) : Prop :=
  fst x = fst y /\ (P (symbol (fst x)) -> match snd x with Some f => f | None => fix_default end = match snd y with Some f => f | None => fix_default end).
Lemma local_on f ops : forall t t', tbl_on t t' ->
  tbl_on (fst (push_local t f ops)) (fst (push_local t' f ops)) /\ Forall2 saved_on (snd (push_local t f ops)) (snd (push_local t' f ops)).
Proof.
  induction ops as [|o ops IH]; intros t t' Sh; cbn [push_local fst snd insert]; [split; auto|].
  pose proof (put_on _ _ o f Sh) as Sh1. specialize (IH _ _ Sh1).
  destruct (push_local (insert_tbl t o f) f ops), (push_local (insert_tbl t' o f) f ops). cbn [fst snd] in *.
  destruct IH as (A&B). split; auto. constructor; auto. split; auto. apply Sh.
Qed.
Lemma restore_on olds olds' : Forall2 saved_on olds olds' -> forall t t', tbl_on t t' -> tbl_on (restore t olds) (restore t' olds').
Proof.
  induction 1 as [|(o&x) (o'&y) olds olds' (E1&E2) F IH]; intros t t' Sh; auto. cbn [fst snd] in E1, E2. subst o'.
  assert (G : tbl_on (match x with Some f => insert_tbl t o f | None => remove_tbl t o end)
                     (match y with Some f => insert_tbl t' o f | None => remove_tbl t' o end)).
  { destruct Sh as (A&B&C). split; [destruct x; [now apply nodup_insert|now apply nodup_remove]|].
    split; [destruct y; [now apply nodup_insert|now apply nodup_remove]|].
    intros k Hk. destruct x, y; rewrite ?get_put, ?get_drop by auto; rewrite C by auto;
      destruct (infix_eqb_spec o k) as [Q|Q]; auto; rewrite <- Q in Hk; specialize (E2 Hk); congruence. }
  destruct x, y; cbn [restore]; apply IH, G.
Qed.

(** Every operator in a chain matters. *)
Definition covers (e : expr) : Prop := forall o, In o (ops_in e) -> P (symbol o).
Lemma push_op_on t t' (Sh : forall o, P (symbol o) -> get t o = get t' o) ops : (forall p, In p ops -> P (symbol p)) ->
  forall es o, P (symbol o) -> push_op t es ops o = push_op t' es ops o.
Proof.
  induction ops as [|p ops IH]; intros H es o Ho; cbn [push_op]; auto. rewrite (Sh p), (Sh o) by (auto; apply H; now left).
  destruct (from_fixities _ _); auto. destruct (reduce es (p :: ops)) as [(es'&x)| |] eqn:R; auto.
  assert (x = ops) as ->; [|apply IH; auto; intros q Q; apply H; now right].
  unfold reduce in R. destruct es as [|a [|b es]]; try discriminate. now injection R as _ <-.
Qed.
Lemma push_op_ops t ops : forall es o es' ops', push_op t es ops o = Ok (inl (es', ops')) -> forall p, In p ops' -> p = o \/ In p ops.
Proof.
  induction ops as [|q ops IH]; intros es o es' ops' E p Hp; cbn [push_op] in E.
  - injection E as _ <-. destruct Hp as [<-|[]]; auto.
  - destruct (from_fixities _ _); [injection E as _ <-; destruct Hp as [<-|Hp]; auto| |discriminate].
    destruct (reduce es (q :: ops)) as [(es1&x)| |]; try discriminate. destruct (IH _ _ _ _ E p Hp); cbn; auto.
Qed.
Lemma rewrite_on t t' (Sh : forall o, P (symbol o) -> get t o = get t' o) e : covers e -> forall es ops, (forall p, In p ops -> P (symbol p)) ->
  rewrite_loop t e es ops = rewrite_loop t' e es ops.
Proof.
  induction e as [l|i|a IHa b IHb|a IHa o b IHb|p a IHa|a IHa|a IHa|es0|es0|d a IHa]; intros C es ops H; cbn [rewrite_loop]; auto.
  assert (Po : P (symbol o)) by (apply C; cbn [ops_in]; apply in_or_app; right; now left).
  rewrite (push_op_on t t' Sh ops H) by exact Po. destruct (push_op t' _ _ _) as [[(es'&ops')|]| |] eqn:E; auto.
  apply IHb; [intros q Q; apply C; cbn [ops_in]; apply in_or_app; right; now right|].
  intros q Q. destruct (push_op_ops _ _ _ _ _ _ E q Q) as [->|]; auto.
Qed.

Definition out_on {A} (x y : outcome (resolver * A)) : Prop :=
  match x, y with
  | Ok (r, a), Ok (r', a') => res_on r r' /\ a = a'
  | Panic p, Panic q => p = q
  | NoFuel, NoFuel => True
  | _, _ => False
  end.
Lemma bind_on {A B} (x y : outcome (resolver * A)) (k k' : resolver * A -> outcome (resolver * B)) :
  out_on x y -> (forall r r' a, res_on r r' -> out_on (k (r, a)) (k' (r', a))) -> out_on (obind x k) (obind y k').
Proof.
  intros X K. destruct x as [(r&a)|p|], y as [(r'&a')|q|]; cbn in *; try contradiction; auto.
  destruct X as (X&->). apply K, X.
Qed.
Lemma visits_on v es : Forall covers es ->
  (forall e r r', covers e -> res_on r r' -> out_on (v r e) (v r' e)) ->
  forall r r', res_on r r' -> out_on (visit_list v r es) (visit_list v r' es).
Proof.
  intros C V. induction C as [|e es C Cs IH]; intros r r' R; cbn [visit_list].
  - now split.
  - apply bind_on; auto. intros r1 r1' a R1. apply bind_on; auto. intros r2 r2' b R2. cbn. now split.
Qed.
Lemma covers_list es : (forall o, In o (flat_map ops_in es) -> P (symbol o)) -> Forall covers es.
Proof. intros H. apply Forall_forall. intros e I o Io. apply H. apply in_flat_map. eauto. Qed.
Lemma walk_on v e : covers e ->
  (forall e r r', covers e -> res_on r r' -> out_on (v r e) (v r' e)) ->
  forall r r', res_on r r' -> out_on (walk_expr v r e) (walk_expr v r' e).
Proof.
  intros C V r r' R.
  destruct e as [l|i|a b|a o b|p a|a|a|es|es|d a]; cbn [walk_expr]; unfold covers in C; cbn [ops_in] in C;
    try (now split);
    try (apply bind_on; [apply V; auto|intros r1 r1' x R1; cbn; now split]);
    try (apply bind_on; [apply visits_on; auto using covers_list|intros r1 r1' x R1; cbn; now split]).
  - apply bind_on; [apply V; auto; intros k K; apply C; apply in_or_app; auto|]. intros r1 r1' x R1.
    apply bind_on; [apply V; auto; intros k K; apply C; apply in_or_app; auto|]. intros r2 r2' y R2. cbn. now split.
  - apply bind_on; [apply V; auto; intros k K; apply C; apply in_or_app; auto|]. intros r1 r1' x R1.
    apply bind_on; [apply V; auto; intros k K; apply C; apply in_or_app; right; now right|]. intros r2 r2' y R2. cbn. now split.
Qed.
Lemma ops_inorder e : ops_in e = flat_map (fun i => match i with Operand x => ops_in x | Operator o => [o] end) (inorder e).
Proof.
  induction e as [l|i|a IHa b IHb|a IHa o b IHb|p a IHa|a IHa|a IHa|es|es|d a IHa]; cbn [inorder];
    try (cbn [flat_map]; now rewrite app_nil_r). rewrite flat_map_app. cbn [flat_map ops_in app]. now rewrite <- IHa, <- IHb.
Qed.
Lemma fuel_on n : forall e r r', covers e -> res_on r r' -> out_on (visit_fuel n r e) (visit_fuel n r' e).
Proof.
  induction n as [|n IH]; intros e r r' C R; cbn [visit_fuel]; [exact I|].
  destruct e as [l|i|a b|a o b|p a|a|a|es|es|d a]; try (apply walk_on; auto; fail).
  - assert (RW : rewrite (r_fix r) (Bin a o b) = rewrite (r_fix r') (Bin a o b)).
    { unfold rewrite. apply rewrite_on; auto; [apply R|intros ? []]. }
    rewrite RW. destruct (rewrite (r_fix r') (Bin a o b)) as [[e'|err]|p|] eqn:E; cbn; auto.
    + apply walk_on; auto. intros k K. apply C. rewrite ops_inorder in *. now rewrite <- (C01_regroup_keeps_reading _ _ _ E).
    + split; auto. destruct R as (R1&R2). unfold store_error. rewrite R2. destruct (existsb _ _); split; auto.
  - destruct R as (R1&R2). destruct (local_on (d_fixity d) (d_infixes d) (r_fix r) (r_fix r') R1) as (L&F).
    destruct (push_local (r_fix r) _ _) as (t1&o1), (push_local (r_fix r') _ _) as (t2&o2). cbn [fst snd] in *.
    apply bind_on.
    + apply IH; [exact C|]. split; auto.
    + intros r1 r1' x (S1&S2). cbn. split; auto. split; auto. cbn [r_fix]. now apply (restore_on _ _ F).
Qed.
End On.

Lemma get_named t o k : symbol o = symbol k -> get t o = get t k.
Proof. intros E. unfold get. now rewrite (get_defined_sym t o k E). Qed.
Definition occurring (es : list expr) (s : str) : Prop := exists o, In o (flat_map ops_in es) /\ symbol o = s.

(** ** C117 *)

(** C117: programs with the same expressions whose operators, in the end, have the
    same fixities are resolved alike, whatever is known or declared about other
    operators. *)
Theorem C117_program : forall r r' a a', NoDup (keys (r_fix r)) -> NoDup (keys (r_fix r')) -> r_errs r = r_errs r' -> a_exprs a = a_exprs a' ->
  (forall o, In o (flat_map ops_in (a_exprs a)) -> declared (get (r_fix r)) (a_infxs a) o = declared (get (r_fix r')) (a_infxs a') o) ->
  exists r1 r2 b b' errs, resolve_ast r a = Ok (r1, b, errs) /\ resolve_ast r' a' = Ok (r2, b', errs) /\ a_exprs b = a_exprs b'.
Proof.
  intros r r' a a' D D' E X H. destruct (resolve_ast_total r a) as (r1&b&errs&R), (resolve_ast_total r' a') as (r2&b'&errs'&R').
  exists r1, r2, b, b', errs. rewrite R, R'. unfold resolve_ast, visit_ast in R, R'. rewrite <- X in R'.
  set (Q := occurring (a_exprs a)).
  assert (S0 : res_on Q (load_fixities r a) (load_fixities r' a')).
  { split; auto. split; [exact (nodup_loaded (a_infxs a) _ D)|]. split; [exact (nodup_loaded (a_infxs a') _ D')|].
    intros o (k&Ik&Sk). change (get (load_tbl (r_fix r) (a_infxs a)) o = get (load_tbl (r_fix r') (a_infxs a')) o).
    rewrite <- !(get_named _ k o Sk), !load_tbl_get. now apply H. }
  assert (C : Forall (covers Q) (a_exprs a)) by (apply covers_list; intros o Io; exists o; auto).
  pose proof (visits_on Q visit_expr (a_exprs a) C (fun e r r' => fuel_on Q (esize e) e r r') _ _ S0) as V.
  destruct (visit_list visit_expr (load_fixities r a) _) as [(r3&x)|p|], (visit_list visit_expr (load_fixities r' a') _) as [(r4&y)|q|];
    cbn in V, R, R'; try discriminate; try contradiction. injection R as <- <- <-. injection R' as <- <- <-.
  destruct V as ((_&V4)&->). rewrite V4. auto.
Qed.
Print Assumptions C117_program.

(** In particular declarations of operators that do not occur can be left out. *)
Definition used (es : list expr) (d : infix_decl) : bool := existsb (in_decl d) (flat_map ops_in es).
Theorem C117_declarations : forall r a, NoDup (keys (r_fix r)) ->
  exists r1 r2 b b' errs, resolve_ast r a = Ok (r1, b, errs) /\
    resolve_ast r (mkAst (a_kinds a) (filter (used (a_exprs a)) (a_infxs a)) (a_exprs a)) = Ok (r2, b', errs) /\ a_exprs b = a_exprs b'.
Proof.
  intros r a D. apply C117_program; auto. cbn [a_infxs a_exprs]. intros o Io.
  assert (U1 : forall d, in_decl d o = true -> used (a_exprs a) d = true) by (intros d K; apply existsb_exists; eauto).
  induction (a_infxs a) as [|d ds IH]; auto. cbn [declared filter].
  assert (Ex : existsb (fun d' => in_decl d' o) (filter (used (a_exprs a)) ds) = existsb (fun d' => in_decl d' o) ds).
  { apply eq_true_iff_eq. rewrite !existsb_exists. split; intros (x&Ix&K); exists x; split; auto; [now apply filter_In in Ix|].
    apply filter_In. auto. }
  destruct (used (a_exprs a) d) eqn:Ud; cbn [declared]; rewrite ?Ex.
  - now rewrite <- IH.
  - rewrite <- IH. destruct (in_decl d o) eqn:K; [rewrite (U1 d K) in Ud; discriminate|].
    destruct (existsb (fun d' => in_decl d' o) ds) eqn:J; auto. clear -J. symmetry. induction ds as [|d ds IHd]; auto.
    cbn [existsb] in J. apply orb_false_iff in J as (J1&J2). cbn [declared]. now rewrite J1, J2.
Qed.
Print Assumptions C117_declarations.

(** A let that declares nothing that occurs in its body groups the body as it is
    grouped without it. *)
Theorem C117_let : forall r d b, NoDup (keys (r_fix r)) -> (forall o, In o (ops_in b) -> in_decl d o = false) ->
  exists r1 r2 b', visit_expr r b = Ok (r1, b') /\ visit_expr r (Let d b) = Ok (r2, Let d b') /\ r_errs r1 = r_errs r2.
Proof.
  intros r d b D H. unfold visit_expr at 2. cbn [esize visit_fuel].
  pose proof (push_local_table (d_fixity d) (d_infixes d) (r_fix r)) as PT.
  destruct (push_local (r_fix r) (d_fixity d) (d_infixes d)) as (t1&olds) eqn:PL. cbn [fst] in PT. subst t1.
  set (Q := occurring [b]).
  assert (C : covers Q b) by (intros o Io; exists o; split; auto; cbn; now rewrite app_nil_r).
  assert (S0 : res_on Q r (mkResolver (insert_many (r_fix r) (d_fixity d) (d_infixes d)) (r_errs r))).
  { split; auto. split; auto. split.
    - cbn [r_fix]. pose proof (nodup_loaded [d] _ D) as N. exact N.
    - intros o (k&Ik&Sk). cbn in Ik. rewrite app_nil_r in Ik. cbn [r_fix]. rewrite <- !(get_named _ k o Sk), get_insert_many_scoped.
      unfold scoped. now rewrite (H k Ik). }
  pose proof (fuel_on Q (esize b) b _ _ C S0) as V. unfold visit_expr.
  destruct (visit_total (esize b) b r (le_n _)) as (r3&x&E). rewrite E in *.
  destruct (visit_fuel (esize b) (mkResolver _ _) b) as [(r4&y)|q|]; cbn in V; try contradiction. destruct V as ((_&V)&->).
  cbn [obind]. do 3 eexists. repeat split. exact V.
Qed.
Print Assumptions C117_let.

(** ** Examples *)

Local Existing Instance ucd_none.

Definition unused_a := lit "infixl 5 +; infixr 3 $; infix 9 *, -; let infixr 2 . in a $ b + c".
Definition unused_b := lit "infixl 5 +; infixr 3 $; let infixr 2 . in a $ b + c".

(** the third declaration goes: none of its operators occurs *)
Example C117_ex : exists a b l l', parse unused_a = POk a l /\ parse unused_b = POk b l' /\ a_exprs a = a_exprs b /\
  List.length (a_infxs a) = 3 /\ filter (used (a_exprs a)) (a_infxs a) = a_infxs b.
Proof. do 4 eexists. split; [vm_compute; reflexivity|]. split; [vm_compute; reflexivity|]. vm_compute. auto. Qed.
(** while one that is used makes a difference *)
Example C117_ex_used : exists a l r1 r2 b b', parse unused_a = POk a l /\
  resolve_ast (mkResolver [] []) a = Ok (r1, b, []) /\
  resolve_ast (mkResolver [] []) (mkAst (a_kinds a) [] (a_exprs a)) = Ok (r2, b', []) /\ a_exprs b <> a_exprs b'.
Proof. do 6 eexists. split; [vm_compute; reflexivity|]. split; [vm_compute; reflexivity|]. split; [vm_compute; reflexivity|]. vm_compute. discriminate. Qed.
Example C117_ex_let : exists a l d b, parse unused_b = POk a l /\ a_exprs a = [Let d b] /\ List.length (ops_in b) = 2 /\
  (forall o, In o (ops_in b) -> in_decl d o = false).
Proof.
  do 4 eexists. split; [vm_compute; reflexivity|]. split; [vm_compute; reflexivity|]. split; [reflexivity|].
  intros o [<-|[<-|[]]]; reflexivity.
Qed.
