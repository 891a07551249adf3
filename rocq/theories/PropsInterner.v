(** The interner: C41 to C43. *)
From Coq Require Import List Arith NArith Bool Lia String.
From Verif Require Import Prelim Interner SpecInterner ProofBytes ProofTable ProofInterner.
Import ListNotations.
Local Open Scope string_scope.
Local Open Scope list_scope.

(** C41: two symbols handed out at any two moments of a history are equal
    exactly when the strings are. *)
Theorem C41_equal_symbols_iff_equal_strings : forall grant h1 s h2 t,
  allocator grant ->
  (N.of_nat (distinct (h1 ++ s :: h2 ++ [t])) <= limit)%N ->
  symbol_of grant h1 s = symbol_of grant (h1 ++ s :: h2) t <-> s = t.
Proof.
  intros grant h1 s h2 t G B.
  destruct (symbol_index grant G h1 s) as (i & Ei & Hi).
  destruct (symbol_index grant G (h1 ++ s :: h2) t) as (j & Ej & Hj).
  specialize (Hi (h2 ++ [t])). specialize (Hj []).
  rewrite <- app_assoc in Hj. simpl in Hj.
  pose proof (wf_nodup _ _ (state_wf grant G (h1 ++ s :: h2 ++ [t]))) as N.
  rewrite <- (strings_distinct grant G) in B. unfold limit in B.
  assert (Li : i < List.length (strings (h1 ++ s :: h2 ++ [t]))) by (apply nth_error_Some; congruence).
  assert (Lj : j < List.length (strings (h1 ++ s :: h2 ++ [t]))) by (apply nth_error_Some; congruence).
  rewrite Ei, Ej. split.
  - intros E. apply num_inj in E; try lia. subst j. congruence.
  - intros ->. f_equal. eapply NoDup_nth_error; eauto. congruence.
Qed.

(** C41: a symbol's text is the interned string, now and forever. *)
Theorem C41_text_is_permanent : forall grant h1 s h2,
  allocator grant ->
  (N.of_nat (distinct (h1 ++ s :: h2)) <= limit)%N ->
  lookup (state grant (h1 ++ s :: h2)) (symbol_of grant h1 s) = Ok (Some s).
Proof.
  intros grant h1 s h2 G B. destruct (symbol_index grant G h1 s) as (i & -> & Hi).
  apply lookup_num; auto. rewrite (strings_distinct grant G). exact B.
Qed.

(** C41: the bound is sharp: the next new string after 2^32 distinct ones
    gets the symbol of the empty string. *)
Theorem C41_wraps_at_the_limit : forall grant h s,
  allocator grant -> N.of_nat (distinct h) = limit -> ~ In s (predefined ++ h) ->
  symbol_of grant h s = symbol_of grant [] [].
Proof.
  intros grant h s G B H. rewrite !symbol_of_spec by auto.
  assert (E : index_of s (strings h) = None).
  { apply index_of_none. rewrite strings_in. exact H. }
  rewrite E, (strings_distinct grant G). unfold num. rewrite B. reflexivity.
Qed.

(** C42: predefined names have their fixed numbers in every history. *)
Theorem C42_predefined_symbols : forall grant h i name text,
  allocator grant ->
  nth_error predefined_table i = Some (name, text) ->
  symbol_of grant h (lit text) = N.of_nat i
  /\ lookup (state grant h) (N.of_nat i) = Ok (Some (lit text)).
Proof.
  intros grant h i name text G H.
  assert (P : nth_error predefined i = Some (lit text)).
  { unfold predefined. now rewrite nth_error_map, H. }
  assert (L : i < 28) by (change 28 with (List.length predefined_table); apply nth_error_Some; congruence).
  assert (S : nth_error (strings h) i = Some (lit text)).
  { unfold strings. destruct (remember_prefix h predefined) as (z & ->).
    rewrite nth_error_app1; [exact P|apply nth_error_Some; congruence]. }
  assert (Nm : num i = N.of_nat i) by (unfold num; apply N.mod_small; lia).
  pose proof (state_wf grant G h) as W.
  split.
  - rewrite symbol_of_spec by auto.
    apply (index_of_some _ _ _ (wf_nodup _ _ W)) in S. rewrite S. exact Nm.
  - unfold lookup. rewrite Nat2N.id. pose proof (wf_vec _ _ W) as V.
    revert S. generalize (x_vec (state grant h)) (strings h) V i. clear.
    induction 1 as [|r t vec ss Hr _ IH]; intros [|i] E; simpl in *; try discriminate.
    + injection E as ->. now rewrite Hr.
    + auto.
Qed.

(** C42: every other string gets a number beyond the predefined ones. *)
Theorem C42_others_are_not_predefined : forall grant h s,
  allocator grant -> (N.of_nat (distinct (h ++ [s])) <= limit)%N ->
  ~ In s predefined -> (28 <= symbol_of grant h s)%N.
Proof.
  intros grant h s G B H. destruct (symbol_index grant G h s) as (i & E & Hi).
  specialize (Hi []). rewrite E.
  assert (L : i < List.length (strings (h ++ [s]))) by (apply nth_error_Some; congruence).
  rewrite <- (strings_distinct grant G) in B. unfold limit in B.
  unfold num. rewrite N.mod_small by lia.
  unfold strings in Hi. destruct (remember_prefix (h ++ [s]) predefined) as (z & Z).
  rewrite Z in Hi. destruct (Nat.lt_ge_cases i (List.length predefined)) as [C|C].
  - rewrite nth_error_app1 in Hi by auto. apply nth_error_In in Hi. contradiction.
  - change (List.length predefined) with 28 in C. lia.
Qed.

(** C43: interning never reallocates: every live buffer keeps its place and
    capacity, its text is only extended, and fits in the capacity. *)
Theorem C43_buffers_stay_in_place : forall grant h s b,
  allocator grant ->
  In b (live (state grant h)) ->
  exists b' z, In b' (live (state grant (h ++ [s])))
    /\ b_id b' = b_id b /\ b_cap b' = b_cap b /\ b_text b' = (b_text b ++ z)%list
    /\ blen (b_text b') <= b_cap b'.
Proof.
  intros grant h s b G H. pose proof (state_wf grant G h) as W.
  pose proof (state_wf grant G (h ++ [s])) as W'.
  pose proof (intern_spec grant G _ _ s W) as I.
  assert (E : state grant (h ++ [s]) = fst (intern grant (state grant h) s)).
  { unfold state, run. now rewrite fold_left_app. }
  rewrite E in *. destruct (intern grant (state grant h) s) as [x1 id]. simpl in *.
  destruct I as (_&_&_&I). destruct (I b H) as (b'&z&I1&I2&I3&I4).
  exists b', z. repeat split; auto. apply (wf_caps _ _ W'); auto.
Qed.

(** C43: a slice handed out at any time points to live memory with the same
    text for the rest of the run. *)
Theorem C43_slices_stay_valid : forall grant h1 h2 id r,
  allocator grant ->
  slice_of (state grant h1) id = Some r ->
  exists t, deref (live (state grant h1)) r = Some t
    /\ deref (live (state grant (h1 ++ h2))) r = Some t.
Proof.
  intros grant h1 h2 id r G H. pose proof (state_wf grant G h1) as W.
  destruct (run_spec grant G h2 _ _ W) as [_ D].
  assert (E : state grant (h1 ++ h2) = run grant (state grant h1) h2).
  { unfold state, run. now rewrite fold_left_app. }
  rewrite E. unfold slice_of in H. pose proof (wf_vec _ _ W) as V.
  apply nth_error_In in H. clear - V H D.
  assert (X : exists t, deref (live (state grant h1)) r = Some t).
  { induction V as [|r' t vec ss Hr _ IH]; [contradiction|]. destruct H as [->|H]; eauto. }
  destruct X as (t&X). eauto.
Qed.

(** Non-vacuity. *)
Definition exact (n : nat) : nat := n.

Example C41_ex :
  allocator exact
  /\ symbol_of exact [lit "x"; lit "+"] (lit "yy") = 29%N
  /\ symbol_of exact [lit "x"; lit "yy"; lit "x"] (lit "x") = 28%N
  /\ lookup (state exact [lit "x"; lit "yy"; lit "a long name that fills a buffer"]) 29 = Ok (Some (lit "yy"))
  /\ (N.of_nat (distinct [lit "x"; lit "yy"; lit "x"]) <= limit)%N.
Proof. split; [unfold allocator, exact; lia|]. vm_compute. repeat split; auto; discriminate. Qed.

Example C43_ex :
  List.length (live (state exact [lit "x"; lit "a long name that fills a buffer"])) = 3
  /\ slice_of (state exact [lit "x"]) 28 <> None.
Proof. vm_compute. split; [reflexivity|discriminate]. Qed.

Print Assumptions C41_equal_symbols_iff_equal_strings.
Print Assumptions C41_text_is_permanent.
Print Assumptions C41_wraps_at_the_limit.
Print Assumptions C42_predefined_symbols.
Print Assumptions C42_others_are_not_predefined.
Print Assumptions C43_buffers_stay_in_place.
Print Assumptions C43_slices_stay_valid.
