(** The hash table refines the list of pairs. *)
From Coq Require Import List Arith NArith Bool String Lia Permutation.
From Verif Require Import Prelim Syntax Fixity Extras Hashed.
Import ListNotations.

(** * The list of pairs *)

Definition keys_distinct (t : fixities) : Prop := NoDup (map (fun p => symbol (fst p)) t).

Lemma str_eqb_eq a b : str_eqb a b = true <-> a = b.
Proof.
  revert b. induction a as [|x a IH]; intros [|y b]; cbn; split; try congruence.
  - rewrite andb_true_iff, N.eqb_eq, IH. intros (->&->). reflexivity.
  - intros E. injection E as -> ->. rewrite N.eqb_refl. now apply IH.
Qed.

Lemma infix_eqb_eq a b : infix_eqb a b = true <-> symbol a = symbol b.
Proof. apply str_eqb_eq. Qed.

Lemma infix_eqb_neq a b : infix_eqb a b = false <-> symbol a <> symbol b.
Proof. rewrite <- infix_eqb_eq. destruct (infix_eqb a b); intuition congruence. Qed.

Lemma distinct_tail k v t : keys_distinct ((k, v) :: t) ->
  keys_distinct t /\ forall i x w, nth_error t i = Some (x, w) -> infix_eqb k x = false.
Proof.
  unfold keys_distinct. cbn. intros H. inversion H as [|? ? N0 D]; subst. split; auto.
  intros i x w E. apply infix_eqb_neq. intros Es. apply N0. rewrite Es. apply nth_error_In in E.
  apply in_map_iff. exists (x, w). auto.
Qed.

Lemma found t : keys_distinct t -> forall i x w k, nth_error t i = Some (x, w) -> infix_eqb x k = true ->
  get_defined t k = Some w /\ (forall f, insert_tbl t k f = update i (fun p => (fst p, f)) t) /\ remove_tbl t k = remove_nth i t.
Proof.
  induction t as [|(k0, v0) t IH]; intros D i x w k E Ek; [destruct i; discriminate|].
  apply distinct_tail in D as (D&F). destruct i as [|i]; cbn in E.
  - injection E as -> ->. cbn. rewrite Ek. auto.
  - cbn [get_defined insert_tbl remove_tbl].
    assert (N0 : infix_eqb k0 k = false).
    { pose proof (F _ _ _ E) as G. apply infix_eqb_eq in Ek. apply infix_eqb_neq in G. apply infix_eqb_neq. congruence. }
    rewrite N0. destruct (IH D _ _ _ _ E Ek) as (->&I&->). split; auto. split; [|reflexivity].
    intros f. cbn. now rewrite I.
Qed.

Lemma missing t k : (forall i x w, nth_error t i = Some (x, w) -> infix_eqb x k = false) ->
  get_defined t k = None /\ (forall f, insert_tbl t k f = t ++ [(k, f)]) /\ remove_tbl t k = t.
Proof.
  induction t as [|(k0, v0) t IH]; intros F; cbn; auto.
  rewrite (F 0 k0 v0 eq_refl). destruct IH as (->&I&->); [intros i x w E; exact (F (S i) x w E)|].
  split; auto. split; auto. intros f. now rewrite I.
Qed.

(** * The invariant *)

(** The slots are the positions of the entries, each under the hash of its
    entry, in any order. *)
Definition slots_of (es : list (entry infix fixity)) : list (N * nat) :=
  combine (map n_hash es) (seq 0 (List.length es)).

Record holds (hash : infix -> N) (m : imap infix fixity) (t : fixities) : Prop := {
  h_iter : map_iter m = t;
  h_slots : Permutation (m_slots m) (slots_of (m_entries m));
  h_hash : Forall (fun e => n_hash e = hash (n_key e)) (m_entries m);
  h_distinct : keys_distinct t }.

Lemma combine_map_seq {A} (f : A -> N) es : forall o,
  combine (map f es) (seq o (List.length es)) = map (fun i => (f (snd i), fst i)) (combine (seq o (List.length es)) es).
Proof. induction es as [|e es IH]; intros o; cbn; auto. now rewrite IH. Qed.

Lemma In_slots es h i : In (h, i) (slots_of es) <-> exists e, nth_error es i = Some e /\ n_hash e = h.
Proof.
  unfold slots_of. enough (G : forall o, In (h, i) (combine (map n_hash es) (seq o (List.length es))) <-> exists e, nth_error es (i - o) = Some e /\ n_hash e = h /\ o <= i).
  { rewrite G. rewrite Nat.sub_0_r. split; intros (e&A&B); exists e; [destruct B as (B&_); auto|auto with arith]. }
  induction es as [|e es IH]; intros o; cbn [map List.length seq combine].
  - split; [intros []|]. intros (e&E&_). destruct (i - o); discriminate.
  - cbn [In]. rewrite IH. split.
    + intros [E|(e'&E&Hh&L)].
      * injection E as <- <-. exists e. rewrite Nat.sub_diag. auto.
      * exists e'. replace (i - o) with (S (i - S o)) by lia. cbn. repeat split; auto. lia.
    + intros (e'&E&Hh&L). destruct (Nat.eq_dec i o) as [->|Ne].
      * rewrite Nat.sub_diag in E. injection E as ->. left. congruence.
      * right. exists e'. replace (i - o) with (S (i - S o)) in E by lia. cbn in E. repeat split; auto. lia.
Qed.

Definition scan_ok (scan : N -> list (N * nat) -> list (N * nat)) : Prop :=
  forall h l, incl (scan h l) l /\ forall i, In (h, i) l -> In (h, i) (scan h l).

Lemma search_spec (es : list (entry infix fixity)) p ss : (forall h i, In (h, i) ss -> exists e, nth_error es i = Some e) ->
  match search es p ss with
  | None => False
  | Some (Some i) => exists e, nth_error es i = Some e /\ p (n_key e) = true
  | Some None => forall h i e, In (h, i) ss -> nth_error es i = Some e -> p (n_key e) = false
  end.
Proof.
  induction ss as [|(h, i) ss IH]; intros F; cbn [search].
  - intros h i e [].
  - destruct (F h i (or_introl eq_refl)) as (e&E). rewrite E. destruct (p (n_key e)) eqn:P; eauto.
    assert (G := IH (fun h' i' H => F h' i' (or_intror H))). destruct (search es p ss) as [[j|]|]; auto.
    intros h' i' e' [H|H] E'; [|eauto]. injection H as <- <-. congruence.
Qed.

Section Ops.
Variable hash : infix -> N.
Variable scan : N -> list (N * nat) -> list (N * nat).
Hypothesis consistent : forall a b, infix_eqb a b = true -> hash a = hash b.
Hypothesis S : scan_ok scan.

Lemma nth_iter (m : imap infix fixity) i : nth_error (map_iter m) i = option_map (fun e => (n_key e, n_val e)) (nth_error (m_entries m) i).
Proof. unfold map_iter. apply nth_error_map. Qed.

(** Which position a search gives, for a borrowed form of the keys. *)
Lemma index_by_spec m t h p : holds hash m t ->
  (forall k, p k = true -> hash k = h) ->
  match index_by scan m h p with
  | None => False
  | Some (Some i) => exists e, nth_error (m_entries m) i = Some e /\ p (n_key e) = true
  | Some None => forall i x w, nth_error t i = Some (x, w) -> p x = false
  end.
Proof.
  intros [I P H D] C. unfold index_by.
  assert (F : forall h' i, In (h', i) (scan h (m_slots m)) -> exists e, nth_error (m_entries m) i = Some e).
  { intros h' i B. apply (proj1 (S h (m_slots m))) in B. apply (Permutation_in _ P) in B. apply In_slots in B as (e&E&_). eauto. }
  pose proof (search_spec (m_entries m) p _ F) as G. destruct (search _ _ _) as [[i|]|]; auto.
  intros i x w E. rewrite <- I, nth_iter in E. destruct (nth_error (m_entries m) i) as [e|] eqn:Ee; [|discriminate].
  injection E as <- <-. destruct (p (n_key e)) eqn:Pe; auto. rewrite <- Pe.
  apply (G h i e); auto. apply (proj2 (S h (m_slots m))). apply (Permutation_in _ (Permutation_sym P)). apply In_slots.
  exists e. split; auto. rewrite Forall_forall in H. rewrite (H e) by (eapply nth_error_In; eauto). auto.
Qed.

Lemma get_by m t h p k : holds hash m t ->
  (forall x, p x = true -> hash x = h) -> (forall x, p x = infix_eqb x k) ->
  map_get_by scan m h p = Some (get_defined t k).
Proof.
  intros W C E. pose proof (index_by_spec m t h p W C) as G. unfold map_get_by. destruct W as [I P H D].
  destruct (index_by scan m h p) as [[i|]|]; cbn [value_at].
  - destruct G as (e&Ee&Pe). rewrite Ee. rewrite E in Pe. f_equal. symmetry.
    apply (found t D i (n_key e) (n_val e)); auto. rewrite <- I, nth_iter, Ee. reflexivity.
  - f_equal. symmetry. apply missing. intros i x w Ex. rewrite <- E. eauto.
  - contradiction.
Qed.

Lemma get_ok m t k : holds hash m t -> map_get infix_eqb hash scan m k = Some (get_defined t k).
Proof. intros W. apply get_by with (h := hash k); auto. Qed.

Lemma update_map {A B} (f : A -> B) g g' i l : (forall x, f (g x) = g' (f x)) -> map f (update i g l) = update i g' (map f l).
Proof. intros C. revert i. induction l as [|x l IH]; intros [|i]; cbn; auto; [now rewrite C|now rewrite IH]. Qed.

Lemma update_same {A B} (f : A -> B) g i l : (forall x, f (g x) = f x) -> map f (update i g l) = map f l.
Proof. intros C. revert i. induction l as [|x l IH]; intros [|i]; cbn; auto; [now rewrite C|now rewrite IH]. Qed.

Lemma insert_distinct t k f : keys_distinct t -> keys_distinct (insert_tbl t k f).
Proof.
  unfold keys_distinct. intros D. induction t as [|(x, w) t IH]; cbn in *; [repeat constructor; auto|].
  inversion D as [|? ? N0 D']; subst. destruct (infix_eqb x k) eqn:E; cbn; [constructor; auto|].
  constructor; [|apply IH; auto]. intros B. apply N0. clear IH D D' N0.
  induction t as [|(y, z) t IH]; cbn in *; [|destruct (infix_eqb y k) eqn:Ey; cbn in *; intuition].
  destruct B as [B|[]]. apply infix_eqb_neq in E. congruence.
Qed.

Lemma slots_app es e : Permutation (slots_of (es ++ [e])) ((n_hash e, List.length es) :: slots_of es).
Proof.
  unfold slots_of. rewrite map_app, app_length. cbn [List.length map]. rewrite Nat.add_1_r, seq_S.
  assert (G : forall (l1 l2 : list N) (r1 r2 : list nat), List.length l1 = List.length r1 -> combine (l1 ++ l2) (r1 ++ r2) = combine l1 r1 ++ combine l2 r2).
  { induction l1 as [|x l1 IH]; intros l2 [|y r1] r2 L; cbn in *; try discriminate; auto. now rewrite IH by lia. }
  rewrite G by now rewrite map_length, seq_length. cbn. symmetry. apply Permutation_cons_append.
Qed.

Lemma insert_ok m t k v : holds hash m t -> exists m',
  map_insert infix_eqb hash scan m k v = Some (m', snd (insert t k v)) /\ holds hash m' (fst (insert t k v)).
Proof.
  intros W. pose proof (index_by_spec m t (hash k) (fun x => infix_eqb x k) W (fun x E => consistent _ _ E)) as G.
  unfold map_insert, index_of. destruct W as [I P H D]. unfold insert. cbn [fst snd].
  destruct (index_by _ _ _ _) as [[i|]|]; [| |contradiction].
  - destruct G as (e&Ee&Pe). rewrite Ee.
    assert (Et : nth_error t i = Some (n_key e, n_val e)) by (rewrite <- I, nth_iter, Ee; reflexivity).
    destruct (found t D i _ _ k Et Pe) as (Eg&Ei&_). rewrite Eg. eexists. split; [reflexivity|]. constructor; cbn [m_entries m_slots].
    + rewrite Ei, <- I. unfold map_iter. cbn. apply update_map. reflexivity.
    + unfold slots_of. rewrite update_same by reflexivity. rewrite <- (map_length n_hash (update _ _ _)), update_same, map_length by reflexivity. exact P.
    + clear - H. revert i. induction H as [|e es He Hes IH]; intros [|i]; cbn; constructor; auto.
    + apply insert_distinct; auto.
  - destruct (missing t k G) as (Eg&Ei&_). rewrite Eg. eexists. split; [reflexivity|]. constructor; cbn [m_entries m_slots].
    + rewrite Ei, <- I. unfold map_iter. cbn. now rewrite map_app.
    + rewrite slots_app. cbn. now apply perm_skip.
    + apply Forall_app. split; auto.
    + apply insert_distinct; auto.
Qed.

Lemma filter_perm {A} (f : A -> bool) l l' : Permutation l l' -> Permutation (filter f l) (filter f l').
Proof.
  induction 1 as [|x l l' _ IH|x y l|l1 l2 l3 _ IH1 _ IH2]; cbn; auto.
  - destruct (f x); auto.
  - destruct (f x), (f y); auto using perm_swap.
  - now rewrite IH1.
Qed.

Definition lower (i : nat) (s : N * nat) : N * nat := (fst s, if Nat.ltb i (snd s) then Nat.pred (snd s) else snd s).

Lemma lower_gt j h o : j < o -> lower j (h, o) = (h, pred o).
Proof. intros L. unfold lower. cbn [fst snd]. destruct (Nat.ltb_spec j o); [reflexivity|lia]. Qed.

Lemma lower_le j h o : o <= j -> lower j (h, o) = (h, o).
Proof. intros L. unfold lower. cbn [fst snd]. destruct (Nat.ltb_spec j o); [lia|reflexivity]. Qed.

Lemma erase_cons j h o l : o <> j -> erase j ((h, o) :: l) = (h, o) :: erase j l.
Proof. intros L. unfold erase. cbn [filter snd]. destruct (Nat.eqb_spec o j); [lia|reflexivity]. Qed.

Lemma erase_here j h l : erase j ((h, j) :: l) = erase j l.
Proof. unfold erase. cbn [filter snd]. now rewrite Nat.eqb_refl. Qed.

Lemma later {A} (f : A -> N) es : forall j o, j < o ->
  map (lower j) (erase j (combine (map f es) (seq o (List.length es)))) = combine (map f es) (seq (pred o) (List.length es)).
Proof.
  induction es as [|e es IH]; intros j o L; [reflexivity|]. cbn [map List.length seq combine].
  rewrite erase_cons by lia. cbn [map]. rewrite lower_gt, IH by lia. destruct o; [lia|reflexivity].
Qed.

Lemma lowered {A} (f : A -> N) es : forall i o, i < List.length es ->
  map (lower (o + i)) (erase (o + i) (combine (map f es) (seq o (List.length es)))) =
  combine (map f (remove_nth i es)) (seq o (List.length (remove_nth i es))).
Proof.
  induction es as [|e es IH]; intros i o L; [cbn in L; lia|]. cbn [map List.length seq combine]. destruct i as [|i].
  - rewrite Nat.add_0_r, erase_here. apply (later f es o (Datatypes.S o)). lia.
  - cbn in L. rewrite erase_cons by lia. cbn [map]. rewrite lower_le by lia.
    change (remove_nth (Datatypes.S i) (e :: es)) with (e :: remove_nth i es). cbn [map List.length seq combine]. f_equal.
    rewrite <- (IH i (Datatypes.S o)) by lia. now rewrite Nat.add_succ_comm.
Qed.

Lemma remove_ok m t k : holds hash m t -> exists m',
  map_remove infix_eqb hash scan m k = Some (m', snd (remove t k)) /\ holds hash m' (fst (remove t k)).
Proof.
  intros W. pose proof (index_by_spec m t (hash k) (fun x => infix_eqb x k) W (fun x E => consistent _ _ E)) as G.
  unfold map_remove, index_of. pose proof W as W'. destruct W as [I P H D]. unfold remove. cbn [fst snd].
  destruct (index_by _ _ _ _) as [[i|]|]; [| |contradiction].
  - destruct G as (e&Ee&Pe). rewrite Ee.
    assert (Et : nth_error t i = Some (n_key e, n_val e)) by (rewrite <- I, nth_iter, Ee; reflexivity).
    destruct (found t D i _ _ k Et Pe) as (Eg&_&Er). rewrite Eg. eexists. split; [reflexivity|]. constructor; cbn [m_entries m_slots].
    + rewrite Er, <- I. unfold map_iter, remove_nth. cbn [m_entries]. now rewrite map_app, firstn_map, skipn_map.
    + unfold slots_of at 1. rewrite <- (lowered n_hash (m_entries m) i 0) by (apply nth_error_Some; congruence).
      apply Permutation_map. apply filter_perm. exact P.
    + rewrite Forall_forall in *. intros x B. apply H. unfold remove_nth in B. apply in_app_iff in B as [B|B].
      * rewrite <- (firstn_skipn i (m_entries m)). apply in_app_iff. auto.
      * rewrite <- (firstn_skipn (Datatypes.S i) (m_entries m)). apply in_app_iff. auto.
    + rewrite Er. unfold keys_distinct, remove_nth in *. rewrite map_app, <- firstn_map, <- skipn_map.
      assert (Em : nth_error (map (fun p => symbol (fst p)) t) i = Some (symbol (n_key e))) by (rewrite nth_error_map, Et; reflexivity).
      clear - D Em. revert D Em. generalize (symbol (n_key e)) as x. generalize (map (fun p : infix * fixity => symbol (fst p)) t) as l. clear.
      intros l x D E. apply nth_error_split in E as (a&b&->&<-). rewrite firstn_app, firstn_all, Nat.sub_diag, firstn_O, app_nil_r.
      rewrite skipn_app, skipn_all2 by lia. replace (Datatypes.S (List.length a) - List.length a) with 1 by lia. cbn. now apply NoDup_remove_1 in D.
  - destruct (missing t k G) as (Eg&_&Er). rewrite Eg, Er. exists m. auto.
Qed.

Lemma erase_last es (e : entry infix fixity) : erase (List.length es) (slots_of (es ++ [e])) = slots_of es.
Proof.
  unfold slots_of. rewrite map_app, app_length. cbn [List.length map]. rewrite Nat.add_1_r, seq_S.
  assert (G : forall (l1 l2 : list N) (r1 r2 : list nat), List.length l1 = List.length r1 -> combine (l1 ++ l2) (r1 ++ r2) = combine l1 r1 ++ combine l2 r2).
  { induction l1 as [|x l1 IH]; intros l2 [|y r1] r2 L; cbn in *; try discriminate; auto. now rewrite IH by lia. }
  rewrite G by now rewrite map_length, seq_length. unfold erase. rewrite filter_app. cbn. rewrite Nat.eqb_refl. cbn. rewrite app_nil_r.
  assert (F : forall l o n, o + List.length l <= n -> filter (fun s : N * nat => negb (Nat.eqb (snd s) n)) (combine l (seq o (List.length l))) = combine l (seq o (List.length l))).
  { induction l as [|x l IH]; intros o n L; cbn in *; auto. destruct (Nat.eqb_spec o n); [lia|]. cbn. now rewrite IH by lia. }
  specialize (F (map n_hash es) 0 (List.length es)). rewrite !map_length in F. apply F. lia.
Qed.

Lemma pop_ok m t : holds hash m t ->
  snd (map_pop m) = fst (pop t) /\ holds hash (fst (map_pop m)) (snd (pop t)).
Proof.
  intros W. pose proof W as W'. destruct W as [I P H D]. unfold map_pop, pop.
  assert (R : rev t = map (fun e => (n_key e, n_val e)) (rev (m_entries m))) by (rewrite <- I; unfold map_iter; now rewrite map_rev).
  rewrite R. destruct (rev (m_entries m)) as [|e r] eqn:E; cbn [map]; [auto|]. split; [reflexivity|]. cbn [fst snd].
  assert (Em : m_entries m = rev r ++ [e]) by (rewrite <- (rev_involutive (m_entries m)), E; reflexivity).
  constructor; cbn [m_entries m_slots].
  - unfold map_iter. cbn. now rewrite map_rev.
  - rewrite <- (erase_last (rev r) e), <- Em, <- (rev_length r). now apply filter_perm.
  - rewrite Em in H. now apply Forall_app in H as (H&_).
  - assert (Et : t = rev (map (fun e => (n_key e, n_val e)) r) ++ [(n_key e, n_val e)]) by (rewrite <- (rev_involutive t), R; reflexivity).
    unfold keys_distinct in *. rewrite Et, map_app in D. apply NoDup_remove_1 in D. now rewrite app_nil_r in D.
Qed.

Lemma rehash_ok m t f : (forall l, Permutation l (f l)) -> holds hash m t -> holds hash (rehash (f (m_slots m)) m) t.
Proof. intros F [I P H D]. constructor; auto. cbn. now rewrite <- (F (m_slots m)). Qed.
End Ops.

Lemma empty_ok hash : holds hash imap_empty [].
Proof. constructor; cbn; constructor. Qed.
