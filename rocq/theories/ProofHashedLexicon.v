(** Invariant of the hashed interner. *)
From Coq Require Import List Arith NArith Bool Lia Permutation.
From Verif Require Import Prelim Interner SpecInterner ProofTable ProofInterner HashedLexicon.
Import ListNotations.

(** A search looks at slots of the table only, and at all with its hash. *)
Definition sees (scan : N -> list (N * (sref * N)) -> list (N * (sref * N))) : Prop :=
  forall h l, incl (scan h l) l /\ forall v, In (h, v) l -> In (h, v) (scan h l).

Section Proof.
Variable grant : nat -> nat.
Hypothesis grant_ok : allocator grant.
Variable hash : str -> N.
Variable scan : N -> list (N * (sref * N)) -> list (N * (sref * N)).
Hypothesis S : sees scan.

Record same (h : hlex) (x : lexicon) (ss : list str) : Prop := {
  sa_wf : wf x ss;
  sa_vec : x_vec (h_lex h) = x_vec x;
  sa_buf : x_buf (h_lex h) = x_buf x;
  sa_all : x_all (h_lex h) = x_all x;
  sa_next : x_next (h_lex h) = x_next x;
  sa_map : Permutation (map snd (h_slots h)) (x_map x);
  sa_hash : forall k r id, In (k, (r, id)) (h_slots h) -> exists u, deref (live x) r = Some u /\ k = hash u
}.

Lemma sa_live h x ss : same h x ss -> live (h_lex h) = live x.
Proof. intros W. unfold live. now rewrite (sa_buf _ _ _ W), (sa_all _ _ _ W). Qed.

Lemma sa_len h x ss : same h x ss -> length (h_slots h) = length (x_map x).
Proof. intros W. rewrite <- (Permutation_length (sa_map _ _ _ W)). now rewrite map_length. Qed.

Lemma entry bs vec ss : Forall2 (fun r s => deref bs r = Some s) vec ss -> forall k r id,
  In (r, id) (combine vec (map num (seq k (length vec)))) ->
  exists i s, nth_error ss i = Some s /\ deref bs r = Some s /\ id = num (k + i).
Proof.
  induction 1 as [|r0 s0 vec ss D _ IH]; intros k r id I; [destruct I|]. cbn in I. destruct I as [E|I].
  - injection E as -> <-. exists 0, s0. rewrite Nat.add_0_r. auto.
  - destruct (IH (Datatypes.S k) r id I) as (i&s&A&B&->). exists (Datatypes.S i), s.
    repeat split; auto. f_equal. lia.
Qed.

Lemma entry_of bs vec ss : Forall2 (fun r s => deref bs r = Some s) vec ss -> forall k s,
  In s ss -> exists r id, In (r, id) (combine vec (map num (seq k (length vec)))) /\ deref bs r = Some s.
Proof.
  induction 1 as [|r0 s0 vec ss D _ IH]; intros k s I; [destruct I|]. destruct I as [<-|I].
  - exists r0, (num k). cbn. auto.
  - destruct (IH (Datatypes.S k) s I) as (r&id&A&B). exists r, id. cbn. auto.
Qed.

Lemma index_nth s ss : NoDup ss -> forall i, nth_error ss i = Some s -> index_of s ss = Some i.
Proof.
  induction 1 as [|t ss Ni _ IH]; intros i E; [destruct i; discriminate|]. cbn.
  destruct i as [|i]; cbn in E.
  - injection E as ->. destruct (str_eqb_spec s s); congruence.
  - destruct (str_eqb_spec t s) as [->|Ne]; [elim Ni; eapply nth_error_In; eauto|]. now rewrite (IH i E).
Qed.

Lemma probe_ok bs s : forall l, (forall k r id, In (k, (r, id)) l -> exists u, deref bs r = Some u) ->
  exists a, probe bs s l = Some a /\
    match a with
    | Some id => exists k r, In (k, (r, id)) l /\ deref bs r = Some s
    | None => forall k r id, In (k, (r, id)) l -> deref bs r <> Some s
    end.
Proof.
  induction l as [|(k0, (r0, id0)) l IH]; intros H; cbn.
  - exists None. split; auto.
  - destruct (H k0 r0 id0 (or_introl eq_refl)) as (u&D). rewrite D.
    destruct (str_eqb_spec u s) as [->|Ne].
    + exists (Some id0). split; auto. exists k0, r0. auto.
    + destruct IH as (a&E&A); [intros; eapply H; right; eauto|]. exists a. split; auto. destruct a as [id|].
      * destruct A as (k&r&I&D'). exists k, r. auto.
      * intros k r id [X|I]; [|eauto]. injection X as <- <- <-. congruence.
Qed.

(** A search finds what the list finds. *)
Lemma search_ok h x ss s : same h x ss ->
  probe (live x) s (scan (hash s) (h_slots h)) = Some (option_map num (index_of s ss)).
Proof.
  intros W. destruct (S (hash s) (h_slots h)) as (I&A). pose proof (sa_wf _ _ _ W) as Wf.
  destruct (probe_ok (live x) s (scan (hash s) (h_slots h))) as (a&->&P).
  { intros k r id B. destruct (sa_hash _ _ _ W k r id (I _ B)) as (u&D&_). eauto. }
  f_equal. destruct a as [id|].
  - destruct P as (k&r&B&D). apply I in B. apply (in_map snd) in B.
    apply (Permutation_in _ (sa_map _ _ _ W)) in B. cbn in B. rewrite (wf_map _ _ Wf) in B.
    destruct (entry _ _ _ (wf_vec _ _ Wf) 0 r id B) as (i&t&E&D'&->).
    rewrite D in D'. injection D' as <-. now rewrite (index_nth s ss (wf_nodup _ _ Wf) i E).
  - destruct (index_of s ss) as [i|] eqn:E; auto. exfalso.
    assert (M : In s ss).
    { destruct (in_dec (list_eq_dec N.eq_dec) s ss) as [M|M]; auto. apply index_of_none in M. congruence. }
    destruct (entry_of _ _ _ (wf_vec _ _ Wf) 0 s M) as (r&id&B&D).
    rewrite <- (wf_map _ _ Wf) in B. apply (Permutation_in _ (Permutation_sym (sa_map _ _ _ W))) in B.
    apply in_map_iff in B as ((k, v)&Ev&B). cbn in Ev. subst v.
    destruct (sa_hash _ _ _ W k r id B) as (u&D'&->). rewrite D in D'. injection D' as <-.
    exact (P _ _ _ (A _ B) D).
Qed.

Lemma alloc_like (x y : lexicon) s :
  x_vec x = x_vec y -> x_buf x = x_buf y -> x_all x = x_all y -> x_next x = x_next y ->
  snd (alloc grant x s) = snd (alloc grant y s) /\
  x_vec (fst (alloc grant x s)) = x_vec (fst (alloc grant y s)) /\
  x_buf (fst (alloc grant x s)) = x_buf (fst (alloc grant y s)) /\
  x_all (fst (alloc grant x s)) = x_all (fst (alloc grant y s)) /\
  x_next (fst (alloc grant x s)) = x_next (fst (alloc grant y s)).
Proof.
  destruct x, y; cbn. intros -> -> -> ->. unfold alloc. cbn.
  match goal with |- context [if ?b then _ else _] => destruct b end; cbn; auto.
Qed.

Theorem hintern_ok h x ss s : same h x ss ->
  exists h', hintern grant hash scan h s = Some (h', snd (intern grant x s)) /\
    same h' (fst (intern grant x s)) (remember ss s).
Proof.
  intros W. pose proof (sa_wf _ _ _ W) as Wf. pose proof (intern_spec grant grant_ok x ss s Wf) as IS.
  unfold hintern. rewrite (sa_live _ _ _ W), (search_ok _ _ _ _ W).
  unfold intern, map_get, remember in *. rewrite (wf_map _ _ Wf) in *.
  rewrite (map_get_spec (live x) s _ _ 0 (wf_vec _ _ Wf)) in *.
  destruct (index_of s ss) as [i|] eqn:E; cbn [option_map] in *.
  - exists h. cbn [fst snd]. auto.
  - pose proof (alloc_spec grant grant_ok x ss s Wf) as A.
    destruct (alloc_like (h_lex h) x s (sa_vec _ _ _ W) (sa_buf _ _ _ W) (sa_all _ _ _ W) (sa_next _ _ _ W))
      as (L1&L2&L3&L4&L5).
    destruct (alloc grant (h_lex h) s) as (y1, r1), (alloc grant x s) as (x1, r). cbn [fst snd] in *. subst r1.
    destruct A as (A1&A2&A3&A4&_).
    assert (Lv : live y1 = live x1) by (unfold live; now rewrite L3, L4).
    assert (P : probe (live x1) s (scan (hash s) (h_slots h)) = Some None).
    { destruct (S (hash s) (h_slots h)) as (I&_).
      pose proof (search_ok _ _ _ s W) as Q. rewrite E in Q. cbn in Q. revert Q.
      assert (Al : forall k r0 id, In (k, (r0, id)) (scan (hash s) (h_slots h)) -> exists u, deref (live x) r0 = Some u).
      { intros k r0 id B. destruct (sa_hash _ _ _ W k r0 id (I _ B)) as (u&D&_). eauto. }
      revert Al. generalize (scan (hash s) (h_slots h)) as l.
      induction l as [|(k0, (r0, id0)) l IH]; intros Al Q; auto. cbn in *.
      destruct (Al k0 r0 id0 (or_introl eq_refl)) as (u&D). rewrite D in Q. rewrite (A4 _ _ D).
      destruct (str_eqb u s); [discriminate|]. apply IH; auto. intros; eapply Al; eauto. }
    unfold hinsert. rewrite Lv, P.
    assert (Len : length (h_slots h) = length (x_map x1)) by (rewrite A1; apply (sa_len _ _ _ W)).
    rewrite Len. eexists. split; [reflexivity|]. destruct IS as (IS&_). split; cbn; auto.
    + congruence.
    + rewrite A1. eapply Permutation_trans; [|apply Permutation_cons_append]. apply perm_skip. apply (sa_map _ _ _ W).
    + intros k r0 id [X|B].
      * injection X as <- <- _. exists s. split; auto.
      * destruct (sa_hash _ _ _ W k r0 id B) as (u&D&K). exists u. split; auto.
Qed.

Lemma hmove_ok f h x ss : (forall l, Permutation l (f l)) -> same h x ss -> same (hmove f h) x ss.
Proof.
  intros P W. destruct W as [W1 W2 W3 W4 W5 W6 W7]. split; cbn; auto.
  - eapply Permutation_trans; [|exact W6]. apply Permutation_map, Permutation_sym, P.
  - intros k r id B. apply (W7 k r id). eapply Permutation_in; [apply Permutation_sym, P|exact B].
Qed.

Lemma hempty_ok cap : same (hempty grant cap) (with_capacity grant cap) [].
Proof. split; cbn; auto; [apply wf_start|intros ? ? ? []]. Qed.

Lemma hinterns_ok l : forall h x ss, same h x ss ->
  exists h', hinterns grant hash scan h l = Some h' /\
    same h' (SpecInterner.run grant x l) (fold_left remember l ss).
Proof.
  induction l as [|s l IH]; intros h x ss W; cbn; [eauto|].
  destruct (hintern_ok h x ss s W) as (h1&->&W1). apply IH. exact W1.
Qed.

Lemma hlookup_ok h x ss id : same h x ss -> hlookup h id = lookup x id.
Proof. intros W. unfold hlookup, lookup. now rewrite (sa_vec _ _ _ W), (sa_live _ _ _ W). Qed.
End Proof.
