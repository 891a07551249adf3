(** The interner among threads. *)
From Coq Require Import List Arith NArith Bool Lia.
From Verif Require Import Prelim Interner SpecInterner ProofBytes ProofTable ProofInterner Threads SpecThreads.
Import ListNotations.

Notation dec := (list_eq_dec N.eq_dec).

(** * Numbers of texts *)

Notation remembered L := (fold_left remember L []).

Lemma remember_new ss s : ~ In s ss -> remember ss s = ss ++ [s].
Proof. intros H. apply index_of_none in H. unfold remember. now rewrite H. Qed.
Lemma remember_end ss s : exists z, remember ss s = ss ++ z.
Proof. unfold remember. destruct (index_of s ss); [exists []; now rewrite app_nil_r|eauto]. Qed.
Lemma remember_nodup ss s : NoDup ss -> NoDup (remember ss s).
Proof.
  intros N. unfold remember. destruct (index_of s ss) eqn:E; auto. apply index_of_none in E.
  rewrite <- (rev_involutive (ss ++ [s])), rev_unit. apply NoDup_rev. constructor; [now rewrite <- in_rev|now apply NoDup_rev].
Qed.
Lemma remember_members ss s t : In t (remember ss s) <-> In t ss \/ t = s.
Proof.
  unfold remember. destruct (index_of s ss) eqn:E.
  - split; auto. intros [H | ->]; auto. destruct (in_dec dec s ss) as [I|I]; auto. apply index_of_none in I. congruence.
  - rewrite in_app_iff. cbn. intuition.
Qed.
Lemma remembered_spec L : NoDup (remembered L) /\ (forall t, In t (remembered L) <-> In t L).
Proof.
  induction L as [|x L (N&M)] using rev_ind; [split; [constructor|tauto]|]. rewrite fold_left_app. cbn [fold_left]. split.
  - now apply remember_nodup.
  - intros t. rewrite remember_members, M, in_app_iff. cbn. intuition.
Qed.
Lemma remembered_length L : length (remembered L) = length (nodup dec L).
Proof.
  destruct (remembered_spec L) as (N&M).
  apply Nat.le_antisymm; apply NoDup_incl_length; auto; try apply NoDup_nodup; intros t I.
  - apply nodup_In. now apply M.
  - apply nodup_In in I. now apply M.
Qed.

Lemma remembered_nth L k s : nth_error (remembered L) k = Some s <->
  exists h1 h2, L = h1 ++ s :: h2 /\ ~ In s h1 /\ length (nodup dec h1) = k.
Proof.
  revert k s. induction L as [|x L IH] using rev_ind; intros k s.
  - split; [destruct k; discriminate|]. intros (h1&h2&E&_). destruct h1; discriminate.
  - rewrite fold_left_app. cbn [fold_left]. destruct (remembered_spec L) as (N&M). split.
    + intros H. assert (K : nth_error (remembered L) k = Some s \/ (~ In x L /\ x = s /\ k = length (remembered L))).
      { unfold remember at 1 in H. destruct (index_of x (remembered L)) eqn:E; [left; exact H|]. apply index_of_none in E. rewrite M in E.
        destruct (Nat.lt_ge_cases k (length (remembered L))) as [C|C].
        - rewrite nth_error_app1 in H by auto. auto.
        - rewrite nth_error_app2 in H by auto. destruct (k - length (remembered L)) as [|j] eqn:D; cbn in H.
          + injection H as ->. right. repeat split; auto. lia.
          + destruct j; discriminate. }
      destruct K as [K|(K1&<-&->)].
      * apply IH in K as (h1&h2&->&A&B). exists h1, (h2 ++ [x]). rewrite <- app_assoc. auto.
      * exists L, []. repeat split; auto. symmetry. apply remembered_length.
    + intros (h1&h2&E&A&B). destruct h2 as [|y h2 _] using rev_ind.
      * apply app_inj_tail in E as (->&->). rewrite remember_new by (rewrite M; exact A).
        rewrite <- B, <- remembered_length, nth_error_app2, Nat.sub_diag by auto. reflexivity.
      * change (s :: h2 ++ [y]) with ((s :: h2) ++ [y]) in E. rewrite app_assoc in E. apply app_inj_tail in E as (->&->).
        assert (K : nth_error (remembered (h1 ++ s :: h2)) k = Some s) by (apply IH; eauto).
        destruct (remember_end (remembered (h1 ++ s :: h2)) y) as (z&->). rewrite nth_error_app1; auto. apply nth_error_Some. congruence.
Qed.

Lemma strings_numbered h k s : nth_error (strings h) k = Some s <-> numbered h k s.
Proof.
  unfold numbered, strings. rewrite <- remember_predefined at 1. rewrite <- fold_left_app. apply remembered_nth.
Qed.

(** * One thread *)

Section Alloc.
Variable grant : nat -> nat.

Lemma items_state : forall is x, fst (intern_items grant x is) = run grant x (texts is).
Proof.
  induction is as [|[a|] is IH]; intros x; cbn [intern_items texts]; auto. destruct a as [s|id]; cbn [intern_arg]; auto.
  destruct (intern grant x s) as (x1&id) eqn:E. specialize (IH x1). destruct (intern_items grant x1 is) as (x2&ids).
  cbn [fst] in *. rewrite IH. unfold run. cbn [fold_left]. now rewrite E.
Qed.

Lemma items_ids : forall is h, snd (intern_items grant (state grant h) is) = None \/
  exists ss, is = map (fun s => Quiet (AText s)) ss /\ exists ids, snd (intern_items grant (state grant h) is) = Some ids /\
    length ids = length ss /\ forall k s, nth_error ss k = Some s -> nth_error ids k = Some (symbol_of grant (h ++ firstn k ss) s).
Proof.
  induction is as [|[a|] is IH]; intros h; cbn [intern_items]; auto.
  - right. exists []. split; auto. exists []. repeat split; auto. intros [|k] s; discriminate.
  - destruct a as [s|id]; cbn [intern_arg]; auto. destruct (intern grant (state grant h) s) as (x1&id) eqn:E.
    assert (X : x1 = state grant (h ++ [s])).
    { unfold state, run. rewrite fold_left_app. cbn [fold_left]. change (fold_left _ h _) with (state grant h). now rewrite E. }
    subst x1. specialize (IH (h ++ [s])). destruct (intern_items grant (state grant (h ++ [s])) is) as (x2&ids). cbn [snd] in *.
    destruct IH as [-> | (ss&->&ids'&->&L&H)]; auto. right. exists (s :: ss). split; auto. exists (id :: ids'). repeat split; [cbn; lia|].
    intros [|k] u; cbn [nth_error firstn].
    + intros [=<-]. rewrite app_nil_r. unfold symbol_of. now rewrite E.
    + intros K. rewrite (H _ _ K), <- app_assoc. reflexivity.
Qed.

Lemma items_none : forall is x, all_texts is -> snd (intern_items grant x is) <> None.
Proof.
  intros is x (ss&->). revert x. induction ss as [|s ss IH]; intros x; cbn [map intern_items intern_arg]; [discriminate|].
  destruct (intern grant x s) as (x1&id). specialize (IH x1). destruct (intern_items _ x1 _) as (x2&[ids|]); cbn in *; [discriminate|congruence].
Qed.

(** * All threads *)

Lemma happens_app w es fs : happens grant w (es ++ fs) =
  let (w1, r1) := happens grant w es in let (w2, r2) := happens grant w1 fs in (w2, r1 ++ r2).
Proof.
  revert w. induction es as [|e es IH]; intros w; cbn [happens app].
  - destruct (happens grant w fs). reflexivity.
  - destruct (happen grant w e) as (w1&a). rewrite IH. destruct (happens grant w1 es) as (w2&r). destruct (happens grant w2 fs). reflexivity.
Qed.
Lemma happens_snoc w es e : fst (happens grant w (es ++ [e])) = fst (happen grant (fst (happens grant w es)) e).
Proof.
  rewrite happens_app. destruct (happens grant w es) as (w1&r). cbn [fst happens]. destruct (happen grant w1 e). reflexivity.
Qed.

Definition ends (t : nat) (es : list event) : nat := length (filter (fun e => match e with End u => Nat.eqb u t | _ => false end) es).

Lemma serve_cell t c k : c_life (fst (serve grant t c k)) = c_life c /\
  c_lex (fst (serve grant t c k)) = Some (run grant (opened grant c) (texts (items k))).
Proof.
  unfold serve, of_ids. rewrite <- items_state. destruct k as [id|a|is|ss]; cbn [items]; [split; reflexivity|..];
    match goal with |- context [intern_items grant ?x ?i] => destruct (intern_items grant x i) end; split; reflexivity.
Qed.

Lemma seen_snoc t es e : seen_by t (es ++ [e]) = match e with
  | Call u k => if Nat.eqb u t then seen_by t es ++ texts (items k) else seen_by t es
  | End u => if Nat.eqb u t then [] else seen_by t es end.
Proof. unfold seen_by. rewrite fold_left_app. reflexivity. Qed.

Lemma put_same w t c : put w t c t = c. Proof. unfold put. now rewrite Nat.eqb_refl. Qed.
Lemma put_other w t c u : u <> t -> put w t c u = w u. Proof. intros H. unfold put. now rewrite (proj2 (Nat.eqb_neq u t) H). Qed.

Lemma world_is t es : let c := fst (happens grant start es) t in
  c_life c = ends t es /\ opened grant c = state grant (seen_by t es).
Proof.
  induction es as [|e es (L&O)] using rev_ind.
  { split; [reflexivity|]. unfold opened, state, run, seen_by, start. cbn [happens fst c_lex fold_left]. reflexivity. }
  rewrite happens_snoc. unfold ends. rewrite filter_app, app_length, seen_snoc. fold (ends t es).
  destruct e as [u k|u]; cbn [happen filter length].
  - destruct (serve_cell u (fst (happens grant start es) u) k) as (S1&S2).
    destruct (serve grant u (fst (happens grant start es) u) k) as (c&a). cbn [fst] in *. rewrite Nat.add_0_r.
    destruct (Nat.eqb_spec u t) as [->|N].
    + rewrite put_same. split; [congruence|]. unfold opened. rewrite S2, O. unfold state, run. now rewrite fold_left_app.
    + rewrite put_other by auto. auto.
  - cbn [fst]. destruct (Nat.eqb_spec u t) as [->|N].
    + rewrite put_same. cbn [c_life length]. split; [lia|]. unfold opened, state, run. cbn [c_lex fold_left]. reflexivity.
    + rewrite put_other by auto. cbn [length]. rewrite Nat.add_0_r. auto.
Qed.

(** Other threads do not matter. *)
Lemma world_own t es : fst (happens grant start es) t = fst (happens grant start (filter (of_thread t) es)) t.
Proof.
  induction es as [|e es IH] using rev_ind; [reflexivity|]. rewrite filter_app, happens_snoc. cbn [filter].
  destruct (of_thread t e) eqn:T; unfold of_thread in T.
  - apply Nat.eqb_eq in T. rewrite happens_snoc. destruct e as [u k|u]; cbn [thread_of] in T; subst u; cbn [happen]; rewrite <- IH.
    + destruct (serve grant t _ k). cbn [fst]. now rewrite !put_same.
    + cbn [fst]. now rewrite !put_same.
  - apply Nat.eqb_neq in T. rewrite app_nil_r, <- IH. destruct e as [u k|u]; cbn [thread_of] in T; cbn [happen].
    + destruct (serve grant u _ k). cbn [fst]. now rewrite put_other by auto.
    + cbn [fst]. now rewrite put_other by auto.
Qed.

Lemma asked_own t es k : asked grant es t k = asked grant (filter (of_thread t) es) t k.
Proof. unfold asked. now rewrite world_own. Qed.

(** * Looking up *)

Variable G : allocator grant.

Lemma vec_nth h id : match nth_error (x_vec (state grant h)) (N.to_nat id) with
  | Some r => exists s, nth_error (strings h) (N.to_nat id) = Some s /\ deref (live (state grant h)) r = Some s
  | None => nth_error (strings h) (N.to_nat id) = None end.
Proof.
  pose proof (wf_vec _ _ (state_wf grant G h)) as V. generalize (N.to_nat id).
  induction V as [|r s vec ss Hr V IH]; intros [|i]; cbn [nth_error]; try reflexivity; [exists s; auto|apply IH].
Qed.

End Alloc.
