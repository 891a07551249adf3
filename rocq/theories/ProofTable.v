(** Fixity tables: lookup, insertion, removal, save and restore. *)
From Coq Require Import List NArith ZArith Bool Lia.
From Verif Require Import Prelim Syntax Fixity SpecFixity.
Import ListNotations.

Lemma str_eqb_spec a b : reflect (a = b) (str_eqb a b).
Proof.
  revert b. induction a as [|x a IH]; intros [|y b]; simpl; try (constructor; congruence).
  destruct (N.eqb_spec x y) as [->|H]; simpl.
  - destruct (IH b) as [->|H]; constructor; congruence.
  - constructor; congruence.
Qed.

Lemma str_eqb_refl a : str_eqb a a = true.
Proof. destruct (str_eqb_spec a a); congruence. Qed.

Lemma infix_eqb_spec a b : reflect (symbol a = symbol b) (infix_eqb a b).
Proof. apply str_eqb_spec. Qed.

Lemma infix_eqb_refl a : infix_eqb a a = true.
Proof. apply str_eqb_refl. Qed.

Lemma get_defined_sym t a b : symbol a = symbol b -> get_defined t a = get_defined t b.
Proof.
  intros H. induction t as [|[k v] t IH]; simpl; auto.
  unfold infix_eqb. rewrite H. destruct (str_eqb (symbol k) (symbol b)); auto.
Qed.

Lemma get_insert_same t op f : get_defined (insert_tbl t op f) op = Some f.
Proof.
  induction t as [|[k v] t IH]; simpl.
  - now rewrite infix_eqb_refl.
  - destruct (infix_eqb k op) eqn:E; simpl; rewrite E; auto.
Qed.

Lemma get_insert_other t op f op' :
  symbol op <> symbol op' -> get_defined (insert_tbl t op f) op' = get_defined t op'.
Proof.
  intros H. induction t as [|[k v] t IH]; simpl.
  - destruct (infix_eqb_spec op op'); congruence.
  - destruct (infix_eqb_spec k op) as [E|E]; simpl.
    + destruct (infix_eqb_spec k op') as [E'|E']; congruence.
    + destruct (infix_eqb_spec k op') as [E'|E']; auto.
Qed.

Definition keys (t : fixities) : list str := map (fun p => symbol (fst p)) t.

Lemma get_none_keys t op : get_defined t op = None <-> ~ In (symbol op) (keys t).
Proof.
  induction t as [|[k v] t IH]; simpl; [tauto|].
  destruct (infix_eqb_spec k op) as [E|E].
  - split; [discriminate|]. intros H. exfalso. apply H; auto.
  - rewrite IH. tauto.
Qed.

Lemma keys_insert t op f :
  keys (insert_tbl t op f) = if has t op then keys t else keys t ++ [symbol op].
Proof.
  unfold has. induction t as [|[k v] t IH]; simpl; auto.
  destruct (infix_eqb_spec k op) as [E|E]; simpl; auto.
  rewrite IH. destruct (get_defined t op); auto.
Qed.

Lemma nodup_insert t op f : NoDup (keys t) -> NoDup (keys (insert_tbl t op f)).
Proof.
  intros H. rewrite keys_insert. unfold has.
  destruct (get_defined t op) eqn:E; auto.
  apply get_none_keys in E.
  apply NoDup_rev in H. rewrite <- rev_involutive. apply NoDup_rev.
  rewrite rev_app_distr. simpl. constructor; auto. rewrite <- in_rev. auto.
Qed.

Lemma get_remove_other t op op' :
  symbol op <> symbol op' -> get_defined (remove_tbl t op) op' = get_defined t op'.
Proof.
  intros H. induction t as [|[k v] t IH]; simpl; auto.
  destruct (infix_eqb_spec k op) as [E|E]; simpl.
  - destruct (infix_eqb_spec k op') as [E'|E']; congruence.
  - destruct (infix_eqb_spec k op'); auto.
Qed.

Lemma keys_remove_in t op x : In x (keys (remove_tbl t op)) -> In x (keys t).
Proof.
  induction t as [|[k v] t IH]; simpl; auto.
  destruct (infix_eqb k op); simpl; tauto.
Qed.

Lemma nodup_remove t op : NoDup (keys t) -> NoDup (keys (remove_tbl t op)).
Proof.
  induction t as [|[k v] t IH]; simpl; auto.
  inversion 1; subst. destruct (infix_eqb k op); simpl; auto.
  constructor; auto. intros X. apply keys_remove_in in X. tauto.
Qed.

Lemma get_remove_same t op : NoDup (keys t) -> get_defined (remove_tbl t op) op = None.
Proof.
  induction t as [|[k v] t IH]; simpl; auto.
  inversion 1 as [|? ? H1 H2]; subst. destruct (infix_eqb_spec k op) as [E|E].
  - apply get_none_keys. congruence.
  - simpl. destruct (infix_eqb_spec k op); [congruence|auto].
Qed.

Lemma remove_is_filter t op :
  NoDup (keys t) -> remove_tbl t op = filter (fun p => negb (infix_eqb (fst p) op)) t.
Proof.
  induction t as [|[k v] t IH]; simpl; auto.
  inversion 1 as [|? ? H1 H2]; subst. destruct (infix_eqb_spec k op) as [E|E]; simpl.
  - clear IH H. induction t as [|[k' v'] t IH]; simpl; auto.
    simpl in H1, H2. inversion H2; subst.
    destruct (infix_eqb_spec k' op) as [E'|E']; simpl.
    + exfalso. apply H1. left. congruence.
    + f_equal. apply IH; auto.
  - f_equal; auto.
Qed.

(** Saving and restoring *)
Definition undo (t : fixities) (op : infix) (old : option fixity) : fixities :=
  match old with Some f => insert_tbl t op f | None => remove_tbl t op end.

Lemma undo_insert t op f : undo (insert_tbl t op f) op (get_defined t op) = t.
Proof.
  unfold undo. destruct (get_defined t op) as [v|] eqn:E.
  - revert E. induction t as [|[k w] t IH]; simpl; [discriminate|].
    destruct (infix_eqb k op) eqn:K; simpl; rewrite K.
    + intros H; injection H as ->. reflexivity.
    + intros H. f_equal. auto.
  - revert E. induction t as [|[k w] t IH]; simpl.
    + now rewrite infix_eqb_refl.
    + destruct (infix_eqb k op) eqn:K; simpl; [discriminate|]. rewrite K.
      intros H. f_equal. auto.
Qed.

Lemma undo_commute t op old op' f :
  has t op = true -> symbol op <> symbol op' ->
  undo (insert_tbl t op' f) op old = insert_tbl (undo t op old) op' f.
Proof.
  unfold undo, has. intros H N. destruct old as [v|].
  - revert H. induction t as [|[k w] t IH]; simpl; [discriminate|].
    destruct (infix_eqb_spec k op) as [E|E], (infix_eqb_spec k op') as [E'|E'];
      simpl; try congruence;
      destruct (infix_eqb_spec k op) as [X|X], (infix_eqb_spec k op') as [X'|X'];
      simpl; try congruence; auto.
    intros H. f_equal; auto.
  - clear H. induction t as [|[k w] t IH]; simpl.
    + destruct (infix_eqb_spec op' op); congruence.
    + destruct (infix_eqb_spec k op) as [E|E], (infix_eqb_spec k op') as [E'|E'];
        simpl; try congruence;
        destruct (infix_eqb_spec k op) as [X|X], (infix_eqb_spec k op') as [X'|X'];
        simpl; try congruence; auto.
Qed.

Lemma has_insert_mono t op op' f : has t op = true -> has (insert_tbl t op' f) op = true.
Proof.
  unfold has. intros H. destruct (infix_eqb_spec op' op) as [E|E].
  - rewrite (get_defined_sym _ op op'); auto. rewrite get_insert_same. auto.
  - rewrite get_insert_other; auto.
Qed.

Lemma push_local_undo f op old : forall ops t,
  has t op = true -> ~ In (symbol op) (map symbol ops) ->
  push_local (undo t op old) f ops
  = (undo (fst (push_local t f ops)) op old, snd (push_local t f ops)).
Proof.
  induction ops as [|o ops IH]; intros t H N; simpl; auto.
  assert (Ne : symbol op <> symbol o) by (simpl in N; intros X; apply N; auto).
  rewrite <- undo_commute; auto.
  assert (G : get_defined (undo t op old) o = get_defined t o).
  { unfold undo. destruct old; [apply get_insert_other|apply get_remove_other]; auto. }
  rewrite G.
  rewrite IH; [|apply has_insert_mono; auto | simpl in N; tauto].
  destruct (push_local (insert_tbl t o f) f ops); reflexivity.
Qed.

Lemma restore_push_local f ops : forall t,
  NoDup (map symbol ops) ->
  restore (fst (push_local t f ops)) (snd (push_local t f ops)) = t.
Proof.
  induction ops as [|op ops IH]; intros t N; simpl; auto.
  simpl in N. inversion N as [|? ? N1 N2]; subst.
  destruct (push_local (insert_tbl t op f) f ops) as [t2 olds] eqn:E. simpl.
  pose proof (push_local_undo f op (get_defined t op) ops (insert_tbl t op f)) as P.
  rewrite undo_insert, E in P. simpl in P.
  assert (H : has (insert_tbl t op f) op = true)
    by (unfold has; rewrite get_insert_same; auto).
  specialize (P H N1). specialize (IH t N2). rewrite P in IH. simpl in IH.
  unfold undo in IH. destruct (get_defined t op); exact IH.
Qed.

Lemma push_local_table f ops : forall t, fst (push_local t f ops) = insert_many t f ops.
Proof.
  induction ops as [|op ops IH]; intros t; simpl; auto.
  specialize (IH (insert_tbl t op f)).
  destruct (push_local (insert_tbl t op f) f ops); simpl in *; auto.
Qed.

Lemma get_insert_many f o : forall ops t,
  get_defined (insert_many t f ops) o
  = if existsb (fun x => str_eqb (symbol x) (symbol o)) ops then Some f else get_defined t o.
Proof.
  induction ops as [|op ops IH]; intros t; simpl; auto.
  unfold insert_many in *. simpl. rewrite IH.
  destruct (existsb _ ops) eqn:E; [now rewrite orb_true_r|]. rewrite orb_false_r.
  destruct (str_eqb_spec (symbol op) (symbol o)) as [X|X].
  - rewrite (get_defined_sym _ o op); auto. apply get_insert_same.
  - apply get_insert_other; auto.
Qed.

Lemma get_insert_many_scoped t d o :
  get (insert_many t (d_fixity d) (d_infixes d)) o = scoped (get t) d o.
Proof.
  unfold get, scoped, in_decl. rewrite get_insert_many. destruct (existsb _ _); auto.
Qed.

Lemma insert_many_nodup f ops : forall t,
  NoDup (keys t) -> NoDup (keys (insert_many t f ops)).
Proof.
  unfold insert_many. induction ops as [|op ops IH]; intros t H; simpl; auto.
  apply IH. apply nodup_insert; auto.
Qed.
