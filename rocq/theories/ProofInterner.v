(** Invariant of the interner. *)
From Coq Require Import List Arith NArith Bool Lia.
From Verif Require Import Prelim Interner SpecInterner ProofBytes ProofTable.
Import ListNotations.

(** Specification: the interned strings in order of first appearance. *)
Fixpoint index_of (s : str) (ss : list str) : option nat :=
  match ss with
  | [] => None
  | t :: ss' => if str_eqb t s then Some 0 else option_map S (index_of s ss')
  end.

Definition remember (ss : list str) (s : str) : list str :=
  match index_of s ss with Some _ => ss | None => ss ++ [s] end.

Definition num (i : nat) : N := N.modulo (N.of_nat i) 4294967296.

Record wf (x : lexicon) (ss : list str) : Prop := {
  wf_vec : Forall2 (fun r s => deref (live x) r = Some s) (x_vec x) ss;
  wf_map : x_map x = combine (x_vec x) (map num (seq 0 (length (x_vec x))));
  wf_nodup : NoDup ss;
  wf_ids : forall b, In b (live x) -> b_id b < x_next x;
  wf_ids_nodup : NoDup (map b_id (live x));
  wf_caps : forall b, In b (live x) -> blen (b_text b) <= b_cap b
}.

Lemma index_of_none s ss : index_of s ss = None <-> ~ In s ss.
Proof.
  induction ss as [|t ss IH]; simpl; [tauto|].
  destruct (str_eqb_spec t s) as [->|H].
  - split; [discriminate|]. intros H. exfalso. apply H. auto.
  - destruct (index_of s ss); simpl; split; try discriminate; try tauto.
    intros X. exfalso. destruct IH as [_ IH]. assert (Some n = None) by (apply IH; tauto). discriminate.
Qed.

Lemma index_of_some s ss i : NoDup ss -> (index_of s ss = Some i <-> nth_error ss i = Some s).
Proof.
  intros N. revert i. induction N as [|t ss Ht N IH]; intros i; simpl.
  - destruct i; split; discriminate.
  - destruct (str_eqb_spec t s) as [->|H].
    + destruct i as [|i]; simpl; [tauto|]. split; [discriminate|].
      intros X. exfalso. apply Ht. eapply nth_error_In; eauto.
    + destruct i as [|i]; simpl.
      * split; intros X; [destruct (index_of s ss); discriminate|congruence].
      * rewrite <- IH. destruct (index_of s ss) as [j|]; simpl; split; intros X; congruence.
Qed.

Lemma map_get_spec bs s : forall vec ss k,
  Forall2 (fun r s => deref bs r = Some s) vec ss ->
  match find (fun kv : sref * N => match deref bs (fst kv) with
                        | Some t => str_eqb t s
                        | None => false
                        end) (combine vec (map num (seq k (length vec)))) with
  | Some (_, id) => Some id
  | None => None
  end = option_map (fun i => num (k + i)) (index_of s ss).
Proof.
  intros vec ss k H. revert k. induction H as [|r t vec ss Hr H IH]; intros k; simpl; auto.
  rewrite Hr. destruct (str_eqb t s); simpl.
  - now rewrite Nat.add_0_r.
  - rewrite IH. destruct (index_of s ss) as [i|]; simpl; auto. do 2 f_equal. lia.
Qed.

Lemma Forall2_len {A B} (R : A -> B -> Prop) l m : Forall2 R l m -> length l = length m.
Proof. induction 1; simpl; auto. Qed.

Lemma Forall2_imp {A B} (R Q : A -> B -> Prop) l m :
  (forall a b, R a b -> Q a b) -> Forall2 R l m -> Forall2 Q l m.
Proof. induction 2; auto. Qed.

Lemma next_pow2_ge n : 0 < n -> n <= next_pow2 n.
Proof.
  intros H. unfold next_pow2. destruct (Nat.eq_dec n 1) as [->|E].
  - reflexivity.
  - apply (Nat.log2_up_spec n). lia.
Qed.

Section Alloc.
Variable grant : nat -> nat.
Hypothesis grant_ok : forall n, n <= grant n.

Lemma deref_cons_new b bs r : ~ In (s_id r) [b_id b] -> deref (b :: bs) r = deref bs r.
Proof.
  intros H. unfold deref. simpl. destruct (Nat.eqb_spec (b_id b) (s_id r)); auto.
  exfalso. apply H. left; auto.
Qed.

Lemma deref_id bs r s : deref bs r = Some s -> In (s_id r) (map b_id bs).
Proof.
  unfold deref. destruct (find _ bs) as [b|] eqn:E; [|discriminate]. intros _.
  apply find_some in E as [E1 E2]. apply Nat.eqb_eq in E2. rewrite <- E2. apply in_map; auto.
Qed.

Lemma deref_extend b bs r s z cap :
  deref (b :: bs) r = Some s -> deref (mkBuf (b_id b) cap (b_text b ++ z) :: bs) r = Some s.
Proof.
  unfold deref. simpl. destruct (Nat.eqb (b_id b) (s_id r)); auto. simpl. apply slice_app_r.
Qed.

(** What one allocation does. *)
Lemma alloc_spec x ss s : wf x ss ->
  let (x1, r) := alloc grant x s in
  x_map x1 = x_map x /\ x_vec x1 = x_vec x
  /\ deref (live x1) r = Some s
  /\ (forall r0 t, deref (live x) r0 = Some t -> deref (live x1) r0 = Some t)
  /\ (forall b, In b (live x) -> exists b' z, In b' (live x1)
        /\ b_id b' = b_id b /\ b_cap b' = b_cap b /\ b_text b' = b_text b ++ z)
  /\ (forall b, In b (live x1) -> b_id b < x_next x1)
  /\ NoDup (map b_id (live x1))
  /\ (forall b, In b (live x1) -> blen (b_text b) <= b_cap b).
Proof.
  intros W. destruct W as [Wv Wm Wn Wi Wd Wc]. unfold alloc.
  destruct (Nat.ltb_spec (b_cap (x_buf x)) (blen (b_text (x_buf x)) + blen s)) as [L|L]; simpl.
  - set (nc := next_pow2 (Nat.max (b_cap (x_buf x)) (blen s) + 1)).
    assert (C : blen s <= grant nc).
    { pose proof (next_pow2_ge (Nat.max (b_cap (x_buf x)) (blen s) + 1) ltac:(lia)).
      pose proof (grant_ok nc). unfold nc in *. lia. }
    unfold push_str. simpl.
    replace (Nat.leb (blen s) (grant nc)) with true by (symmetry; apply Nat.leb_le; auto). simpl.
    repeat split; auto.
    + unfold deref, live. simpl. rewrite Nat.eqb_refl. simpl.
      pose proof (slice_app [] s []) as S. rewrite app_nil_r in S. exact S.
    + intros r0 t H. unfold live; simpl. rewrite deref_cons_new; auto. simpl.
      apply deref_id in H. apply in_map_iff in H as (b & E & Hb). specialize (Wi b Hb). lia.
    + intros b Hb. exists b, []. rewrite app_nil_r. unfold live; simpl. auto.
    + intros b [<-|Hb]; simpl; [lia|]. specialize (Wi b Hb). lia.
    + change (NoDup (x_next x :: map b_id (live x))). constructor; auto.
      intros H. apply in_map_iff in H as (b & E & Hb).
      specialize (Wi b Hb). lia.
    + intros b [<-|Hb]; simpl; auto.
  - unfold push_str. replace (Nat.leb (blen (b_text (x_buf x)) + blen s) (b_cap (x_buf x))) with true
      by (symmetry; apply Nat.leb_le; auto). simpl.
    repeat split; auto.
    + unfold deref, live. simpl. rewrite Nat.eqb_refl. simpl. rewrite blen_app.
      pose proof (slice_app (b_text (x_buf x)) s []) as S. rewrite app_nil_r in S. exact S.
    + intros r0 t H. unfold live in *; simpl. apply deref_extend. exact H.
    + intros b [<-|Hb].
      * eexists _, s. split; [left; reflexivity|]. simpl. auto.
      * exists b, []. rewrite app_nil_r. split; [right; auto|auto].
    + intros b [<-|Hb]; simpl.
      * specialize (Wi _ (or_introl eq_refl)). lia.
      * specialize (Wi b (or_intror Hb)). lia.
    + intros b [<-|Hb]; simpl.
      * rewrite blen_app. auto.
      * apply Wc. right; auto.
Qed.

Lemma combine_app {A B} (l1 l2 : list A) (m1 m2 : list B) : length l1 = length m1 ->
  combine (l1 ++ l2) (m1 ++ m2) = combine l1 m1 ++ combine l2 m2.
Proof. revert m1. induction l1; intros [|b m1] H; simpl in *; try discriminate; auto. f_equal; auto. Qed.

Lemma intern_spec x ss s : wf x ss ->
  let (x1, id) := intern grant x s in
  wf x1 (remember ss s)
  /\ id = num (match index_of s ss with Some i => i | None => length ss end)
  /\ (forall r0 t, deref (live x) r0 = Some t -> deref (live x1) r0 = Some t)
  /\ (forall b, In b (live x) -> exists b' z, In b' (live x1)
        /\ b_id b' = b_id b /\ b_cap b' = b_cap b /\ b_text b' = b_text b ++ z).
Proof.
  intros W. pose proof W as [Wv Wm Wn Wi Wd Wc]. unfold intern, map_get, remember. rewrite Wm.
  rewrite (map_get_spec (live x) s _ _ 0 Wv).
  destruct (index_of s ss) as [i|] eqn:E; cbn [option_map].
  - repeat split; auto. intros b Hb. exists b, []. rewrite app_nil_r. auto.
  - pose proof (alloc_spec x ss s W) as A. destruct (alloc grant x s) as [x1 r].
    destruct A as (A1&A2&A3&A4&A5&A6&A7&A8).
    assert (L : length (x_vec x) = length ss) by (eapply Forall2_len; eauto).
    repeat split; simpl; auto.
    + change (live {| x_map := _; x_vec := _; x_buf := x_buf x1; x_all := x_all x1; x_next := _ |})
        with (live x1).
      rewrite A2. apply Forall2_app; [|constructor; auto].
      eapply Forall2_imp; [|exact Wv]. simpl. auto.
    + rewrite A1, A2, Wm, app_length. simpl. rewrite seq_app, map_app. simpl.
      rewrite combine_app by (rewrite map_length, seq_length; auto). simpl.
      do 3 f_equal. f_equal. unfold num. do 2 f_equal.
      rewrite combine_length, map_length, seq_length. lia.
    + apply index_of_none in E. apply NoDup_rev in Wn. rewrite <- (rev_involutive (ss ++ [s])).
      apply NoDup_rev. rewrite rev_app_distr. simpl. constructor; auto. rewrite <- in_rev. auto.
    + unfold num. do 2 f_equal. rewrite A1, Wm, combine_length, map_length, seq_length. lia.
Qed.

Lemma wf_start cap : wf (with_capacity grant cap) [].
Proof.
  split; simpl.
  - constructor.
  - reflexivity.
  - constructor.
  - intros b [<-|[]]. simpl. lia.
  - constructor; [intros []|constructor].
  - intros b [<-|[]]. simpl. lia.
Qed.

(** Histories *)
Local Notation run := (SpecInterner.run grant).
Local Notation state := (SpecInterner.state grant).
Local Notation symbol_of := (SpecInterner.symbol_of grant).

Lemma run_spec h : forall x ss, wf x ss ->
  wf (run x h) (fold_left remember h ss)
  /\ (forall r0 t, deref (live x) r0 = Some t -> deref (live (run x h)) r0 = Some t).
Proof.
  induction h as [|s h IH]; intros x ss W; simpl; auto.
  pose proof (intern_spec x ss s W) as I. destruct (intern grant x s) as [x1 id]. simpl.
  destruct I as (W1&_&D&_). destruct (IH x1 _ W1) as [W2 D2]. auto.
Qed.

Lemma remember_prefix h : forall ss, exists z, fold_left remember h ss = ss ++ z.
Proof.
  induction h as [|s h IH]; intros ss; simpl; [exists []; now rewrite app_nil_r|].
  destruct (IH (remember ss s)) as (z&E). rewrite E. unfold remember.
  destruct (index_of s ss); eauto. exists (s :: z). now rewrite <- app_assoc.
Qed.

Lemma remember_in ss s : In s (remember ss s).
Proof.
  unfold remember. destruct (index_of s ss) eqn:E.
  - destruct (in_dec (list_eq_dec N.eq_dec) s ss) as [H|H]; auto.
    apply index_of_none in H. congruence.
  - apply in_or_app. right; left; auto.
Qed.

Lemma remember_predefined : fold_left remember predefined [] = predefined.
Proof. vm_compute. reflexivity. Qed.

Opaque predefined.
Lemma wf_default : wf (lexicon_default grant) predefined.
Proof.
  destruct (run_spec predefined _ _ (wf_start (length predefined))) as [W _].
  rewrite remember_predefined in W. exact W.
Qed.

Definition strings (h : list str) : list str := fold_left remember h predefined.

Lemma state_wf h : wf (state h) (strings h).
Proof. apply run_spec, wf_default. Qed.

Lemma lookup_num h i s : (N.of_nat (length (strings h)) <= 4294967296)%N ->
  nth_error (strings h) i = Some s -> lookup (state h) (num i) = Ok (Some s).
Proof.
  intros B H. pose proof (state_wf h) as [Wv _ _ _ _ _].
  assert (L : i < length (strings h)) by (apply nth_error_Some; congruence).
  unfold lookup, num. rewrite N.mod_small by lia. rewrite Nat2N.id.
  revert i H L. clear B. induction Wv as [|r t vec ss Hr _ IH]; intros i H L; [destruct i; discriminate|].
  destruct i as [|i]; simpl in *.
  - injection H as ->. rewrite Hr. reflexivity.
  - apply IH; auto. lia.
Qed.

Lemma symbol_of_spec h s :
  symbol_of h s = num (match index_of s (strings h) with Some i => i | None => length (strings h) end).
Proof.
  unfold SpecInterner.symbol_of. pose proof (intern_spec _ _ s (state_wf h)) as I.
  destruct (intern grant (state h) s) as [x1 id]. simpl. tauto.
Qed.

Lemma strings_app h1 h2 : strings (h1 ++ h2) = fold_left remember h2 (strings h1).
Proof. unfold strings. apply fold_left_app. Qed.

Lemma symbol_index h s : exists i, symbol_of h s = num i
  /\ forall h', nth_error (strings (h ++ s :: h')) i = Some s.
Proof.
  rewrite symbol_of_spec. pose proof (wf_nodup _ _ (state_wf h)) as N.
  destruct (index_of s (strings h)) as [i|] eqn:E.
  - exists i. split; auto. intros h'. rewrite strings_app. simpl.
    replace (remember (strings h) s) with (strings h) by (unfold remember; now rewrite E).
    destruct (remember_prefix h' (strings h)) as (z&->).
    apply index_of_some in E; auto. rewrite nth_error_app1; auto. apply nth_error_Some. congruence.
  - exists (length (strings h)). split; auto. intros h'. rewrite strings_app. simpl.
    replace (remember (strings h) s) with (strings h ++ [s]) by (unfold remember; now rewrite E).
    destruct (remember_prefix h' (strings h ++ [s])) as (z&->).
    rewrite <- app_assoc. rewrite nth_error_app2 by lia. rewrite Nat.sub_diag. reflexivity.
Qed.

Lemma num_inj i j : (N.of_nat i < 4294967296)%N -> (N.of_nat j < 4294967296)%N -> num i = num j -> i = j.
Proof. unfold num. intros H1 H2. rewrite !N.mod_small by auto. apply Nat2N.inj. Qed.

Lemma strings_in h s : In s (strings h) <-> In s (predefined ++ h).
Proof.
  unfold strings. revert s. induction h as [|t h IH] using rev_ind; intros s.
  - rewrite app_nil_r. reflexivity.
  - rewrite fold_left_app. simpl. rewrite app_assoc, in_app_iff, <- IH.
    unfold remember at 1. destruct (index_of t (fold_left remember h predefined)) as [i|] eqn:E.
    + split; [tauto|]. intros [H|[->|[]]]; auto.
      destruct (in_dec (list_eq_dec N.eq_dec) s (fold_left remember h predefined)) as [H|H]; auto.
      apply index_of_none in H. congruence.
    + rewrite in_app_iff. reflexivity.
Qed.

Lemma strings_distinct h : length (strings h) = distinct h.
Proof.
  unfold distinct. pose proof (wf_nodup _ _ (state_wf h)) as N.
  apply Nat.le_antisymm; apply NoDup_incl_length; auto; try apply NoDup_nodup; intros s H.
  - apply nodup_In. apply (proj1 (strings_in h s)). exact H.
  - apply nodup_In in H. apply (proj2 (strings_in h s)). exact H.
Qed.
End Alloc.
