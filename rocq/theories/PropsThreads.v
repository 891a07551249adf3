(** The interner among threads: C79 and C80. *)
From Coq Require Import List Arith NArith Bool Lia String.
From Verif Require Import Prelim Interner SpecInterner ProofBytes ProofTable ProofInterner PropsInterner Threads SpecThreads ProofThreads.
Import ListNotations.
Local Open Scope string_scope.
Local Open Scope list_scope.

Section Alloc.
Variable grant : nat -> nat.
Hypothesis G : allocator grant.

Lemma lookup_is es t id : asked grant es t (CLookup id) =
  match nth_error (x_vec (state grant (seen_by t es))) (N.to_nat id) with
  | Some r => AHanded (mkHanded t (ends t es) r) | None => Missing end.
Proof.
  unfold asked. destruct (world_is grant t es) as (L&O). destruct (fst (happens grant start es) t) as (life&lex) eqn:E.
  unfold serve. rewrite O. cbn [snd c_life] in *. now rewrite L.
Qed.

Lemma read_is es t life r : reads grant es (mkHanded t life r) =
  if Nat.eqb life (ends t es) then
    match c_lex (fst (happens grant start es) t) with Some _ => deref (live (state grant (seen_by t es))) r | None => None end
  else None.
Proof.
  unfold reads, read_handed. cbn [h_thread h_life h_ref]. destruct (world_is grant t es) as (L&O). rewrite L.
  destruct (Nat.eqb life (ends t es)); auto. unfold opened in O. destruct (c_lex (fst (happens grant start es) t)); auto. now rewrite O.
Qed.

Lemma asked_is es t k : (forall id, k <> CLookup id) -> asked grant es t k =
  match snd (intern_items grant (state grant (seen_by t es)) (items k)) with Some ids => Symbols ids | None => Borrowed end.
Proof.
  intros N. unfold asked. destruct (world_is grant t es) as (L&O). destruct (fst (happens grant start es) t) as (life&lex) eqn:E.
  unfold serve, of_ids. rewrite O. destruct k as [id|a|is|ss]; [destruct (N id eq_refl)|..]; cbn [items];
    destruct (intern_items grant _ _) as (x&[ids|]); reflexivity.
Qed.

Lemma open_after es t : existsb (fun e => match e with Call u _ => Nat.eqb u t | End _ => false end) es = true ->
  existsb (fun e => match e with End u => Nat.eqb u t | _ => false end) es = false ->
  forall w, c_lex (fst (happens grant w es) t) <> None.
Proof.
  induction es as [|e es IH] using rev_ind; [discriminate|]. rewrite !existsb_app. cbn [existsb]. rewrite !orb_false_r.
  intros A B w. apply orb_false_iff in B as (B1&B2). rewrite happens_snoc. destruct e as [u k|u]; cbn [happen].
  - pose proof (serve_cell grant u (fst (happens grant w es) u) k) as (_&S2). destruct (serve grant u (fst (happens grant w es) u) k) as (c&a). cbn [fst] in *.
    destruct (Nat.eqb_spec u t) as [->|N]; [rewrite put_same; congruence|]. rewrite put_other by auto.
    rewrite orb_false_r in A. auto.
  - cbn [fst]. apply Nat.eqb_neq in B2. rewrite put_other by auto. rewrite orb_false_r in A. auto.
Qed.

(** C79: what a thread is told depends only on what it has done itself, however
    the other threads interleave. *)
Theorem C79_isolated : forall es t k,
  asked grant es t k = asked grant (filter (of_thread t) es) t k.
Proof. intros. apply asked_own. Qed.

(** C79: a symbol means, in a thread, the text that is there the first one with
    this number; if there is none, looking it up panics. *)
Theorem C79_meaning : forall es t id,
  (forall s, means grant es t id s <-> numbered (seen_by t es) (N.to_nat id) s) /\
  (asked grant es t (CLookup id) = Missing <-> forall s, ~ numbered (seen_by t es) (N.to_nat id) s).
Proof.
  intros es t id. pose proof (vec_nth grant G (seen_by t es) id) as V. pose proof (lookup_is es t id) as L.
  assert (Sn : seen_by t (es ++ [Call t (CLookup id)]) = seen_by t es).
  { rewrite seen_snoc, Nat.eqb_refl. cbn. apply app_nil_r. }
  assert (En : ends t (es ++ [Call t (CLookup id)]) = ends t es).
  { unfold ends. rewrite filter_app. cbn. now rewrite app_nil_r. }
  assert (Op : c_lex (fst (happens grant start (es ++ [Call t (CLookup id)])) t) <> None).
  { rewrite happens_snoc. cbn [happen]. pose proof (serve_cell grant t (fst (happens grant start es) t) (CLookup id)) as (_&S2).
    destruct (serve grant t (fst (happens grant start es) t) (CLookup id)) as (c&a). cbn [fst] in *. rewrite put_same. congruence. }
  split.
  - intros s. rewrite <- strings_numbered. unfold means. rewrite L.
    destruct (nth_error (x_vec (state grant (seen_by t es))) (N.to_nat id)) as [r|].
    + destruct V as (u&V1&V2). rewrite V1. split.
      * intros (r'&[=<-]&R). rewrite read_is, En, Nat.eqb_refl, Sn in R.
        destruct (c_lex _); congruence.
      * intros [=<-]. eexists. split; [reflexivity|]. rewrite read_is, En, Nat.eqb_refl, Sn. destruct (c_lex _); congruence.
    + rewrite V. split; [intros (r'&[=]&_)|discriminate].
  - rewrite L. destruct (nth_error (x_vec (state grant (seen_by t es))) (N.to_nat id)) as [r|].
    + destruct V as (u&V1&_). split; [discriminate|]. intros H. apply strings_numbered in V1. destruct (H _ V1).
    + split; auto. intros _ s H. apply strings_numbered in H. congruence.
Qed.

Lemma symbol_numbered h s h' : (N.of_nat (distinct (h ++ s :: h')) <= limit)%N ->
  numbered (h ++ s :: h') (N.to_nat (symbol_of grant h s)) s.
Proof.
  intros B. destruct (symbol_index grant G h s) as (i&->&H). apply strings_numbered.
  rewrite <- (strings_distinct grant G) in B. unfold limit in B. specialize (H h').
  assert (i < List.length (strings (h ++ s :: h'))) by (apply nth_error_Some; congruence).
  unfold num. rewrite N.mod_small by lia. now rewrite Nat2N.id.
Qed.

(** C79: a text interned by a thread is what its symbol means there, until the
    thread ends; predefined symbols mean their text in every thread. *)
Theorem C79_own_symbols : forall es t s id fs,
  asked grant es t (CIntern (AText s)) = Symbols [id] ->
  ~ In (End t) fs ->
  (N.of_nat (distinct (seen_by t (es ++ Call t (CIntern (AText s)) :: fs))) <= limit)%N ->
  means grant (es ++ Call t (CIntern (AText s)) :: fs) t id s.
Proof.
  intros es t s id fs A N B. apply C79_meaning.
  assert (I : id = symbol_of grant (seen_by t es) s).
  { rewrite asked_is in A by discriminate. cbn [items intern_items intern_arg] in A. unfold symbol_of.
    destruct (intern grant (state grant (seen_by t es)) s) as (x&i). cbn [snd] in *. congruence. }
  subst id.
  assert (X : exists h', seen_by t (es ++ Call t (CIntern (AText s)) :: fs) = seen_by t es ++ s :: h').
  { clear B A. induction fs as [|e fs IH] using rev_ind.
    - exists []. rewrite seen_snoc, Nat.eqb_refl. reflexivity.
    - destruct IH as (h'&IH); [intros I; apply N, in_or_app; auto|].
      change (Call t (CIntern (AText s)) :: fs ++ [e]) with ((Call t (CIntern (AText s)) :: fs) ++ [e]). rewrite app_assoc, seen_snoc, IH.
      destruct e as [u k|u].
      + destruct (Nat.eqb u t); eauto. exists (h' ++ texts (items k)). now rewrite <- app_assoc.
      + destruct (Nat.eqb_spec u t) as [->|]; eauto. exfalso. apply N, in_or_app. right. now left. }
  destruct X as (h'&X). rewrite X in *. now apply symbol_numbered.
Qed.

Theorem C79_predefined : forall es t i name text, nth_error predefined_table i = Some (name, text) ->
  means grant es t (N.of_nat i) (lit text).
Proof.
  intros es t i name text H. apply C79_meaning. rewrite Nat2N.id. apply strings_numbered.
  destruct (remember_prefix (seen_by t es) predefined) as (z&E). unfold strings. rewrite E.
  assert (P : nth_error predefined i = Some (lit text)) by (unfold predefined; now rewrite nth_error_map, H).
  rewrite nth_error_app1; auto. apply nth_error_Some. congruence.
Qed.

(** C79: a symbol taken to another thread means the same text there exactly if
    that thread knows the text and gets the same symbol for it. *)
Theorem C79_carried_partial : forall es t u s id,
  asked grant es t (CIntern (AText s)) = Symbols [id] -> (N.of_nat (distinct (seen_by u es)) <= limit)%N ->
  (means grant es u id s <-> In s (predefined ++ seen_by u es) /\ asked grant es u (CIntern (AText s)) = Symbols [id]).
Proof.
  intros es t u s id A B. rewrite (proj1 (C79_meaning es u id) s), <- strings_numbered, <- strings_in.
  assert (Q : forall v, asked grant es v (CIntern (AText s)) = Symbols [symbol_of grant (seen_by v es) s]).
  { intros v. rewrite asked_is by discriminate. cbn [items intern_items intern_arg]. unfold symbol_of.
    destruct (intern grant (state grant (seen_by v es)) s). reflexivity. }
  assert (Lt : (id < limit)%N).
  { rewrite Q, symbol_of_spec in A by auto. injection A as <-. unfold num, limit. apply N.mod_lt. discriminate. }
  rewrite Q, (symbol_of_spec grant G). pose proof (wf_nodup _ _ (state_wf grant G (seen_by u es))) as N.
  rewrite <- (strings_distinct grant G) in B. unfold limit in *. split.
  - intros H. split; [eapply nth_error_In; eauto|]. apply (index_of_some _ _ _ N) in H. rewrite H. unfold num.
    rewrite N2Nat.id, N.mod_small by exact Lt. reflexivity.
  - intros (I&E). apply In_nth_error in I as (i&I). pose proof I as X. apply (index_of_some _ _ _ N) in X. rewrite X in E. injection E as <-.
    assert (i < List.length (strings (seen_by u es))) by (apply nth_error_Some; congruence).
    unfold num. rewrite N.mod_small by lia. now rewrite Nat2N.id.
Qed.

(** C79: a text handed out stays readable, unchanged, as long as the thread that
    handed it out lives; afterwards its memory is free. *)
Theorem C79_handed_out : forall es t id r fs,
  asked grant es t (CLookup id) = AHanded r ->
  (~ In (End t) fs -> exists s, means grant es t id s /\ reads grant (es ++ Call t (CLookup id) :: fs) r = Some s) /\
  (In (End t) fs -> reads grant (es ++ Call t (CLookup id) :: fs) r = None).
Proof.
  intros es t id r fs A. pose proof A as A0. rewrite lookup_is in A.
  pose proof (vec_nth grant G (seen_by t es) id) as V.
  destruct (nth_error (x_vec (state grant (seen_by t es))) (N.to_nat id)) as [rr|]; [|discriminate]. injection A as <-.
  destruct V as (s&V1&V2).
  assert (Ec : forall gs, ends t (es ++ gs) = ends t es + ends t gs).
  { intros gs. unfold ends. now rewrite filter_app, app_length. }
  rewrite read_is, Ec. split; intros I.
  - exists s. split; [apply C79_meaning, strings_numbered; auto|].
    assert (Z : forall gs, ~ In (End t) gs -> ends t gs = 0 /\ existsb (fun e => match e with End u => Nat.eqb u t | _ => false end) gs = false
      /\ exists h', seen_by t (es ++ gs) = seen_by t es ++ h').
    { clear. induction gs as [|e gs IH] using rev_ind; intros N.
      - split; [reflexivity|]. split; [reflexivity|]. exists []. now rewrite !app_nil_r.
      - destruct IH as (Z1&Z2&h'&Z3); [intros I; apply N, in_or_app; auto|].
        assert (Q : match e with End u => Nat.eqb u t | _ => false end = false).
        { destruct e as [|u]; auto. apply Nat.eqb_neq. intros ->. apply N, in_or_app. right. now left. }
        unfold ends in *. rewrite filter_app, app_length, existsb_app, Z1, Z2, app_assoc, seen_snoc, Z3. cbn [filter existsb]. rewrite Q. repeat split.
        destruct e as [u k|u]; [destruct (Nat.eqb u t)|rewrite Q]; eauto. exists (h' ++ texts (items k)). now rewrite <- app_assoc. }
    destruct (Z (Call t (CLookup id) :: fs)) as (Z1&Z2&h'&Z3); [intros [K|K]; [discriminate|auto]|].
    rewrite Z1, Nat.add_0_r, Nat.eqb_refl, Z3.
    assert (Op : c_lex (fst (happens grant start (es ++ Call t (CLookup id) :: fs)) t) <> None).
    { rewrite happens_app. destruct (happens grant start es) as (w1&r1). pose proof (open_after (Call t (CLookup id) :: fs) t) as K.
      cbn [existsb] in K. rewrite Nat.eqb_refl in K. specialize (K eq_refl Z2 w1). destruct (happens grant w1 _) as (w2&r2). exact K. }
    destruct (c_lex _); [|congruence]. destruct (run_spec grant G h' _ _ (state_wf grant G (seen_by t es))) as (_&D).
    unfold state, run in D |- *. rewrite fold_left_app. apply D. exact V2.
  - assert (K : ends t (Call t (CLookup id) :: fs) <> 0).
    { unfold ends. cbn [filter]. intros K. apply length_zero_iff_nil in K.
      assert (In (End t) (filter (fun e => match e with End u => Nat.eqb u t | _ => false end) fs)) as X by (apply filter_In; split; auto; apply Nat.eqb_refl).
      rewrite K in X. destruct X. }
    destruct (Nat.eqb_spec (ends t es) (ends t es + ends t (Call t (CLookup id) :: fs))); auto. lia.
Qed.

(** C80: interning texts never fails, singly or together, and gives the symbols
    that interning them one after the other gives; anything else panics, and
    leaves the texts before it interned. *)
Theorem C80_interning : forall es t k, (forall id, k <> CLookup id) ->
  (forall ss, items k = map (fun s => Quiet (AText s)) ss -> exists ids, asked grant es t k = Symbols ids /\ List.length ids = List.length ss /\
    forall i s, nth_error ss i = Some s -> nth_error ids i = Some (symbol_of grant (seen_by t es ++ firstn i ss) s)) /\
  (~ all_texts (items k) -> asked grant es t k = Borrowed) /\
  seen_by t (es ++ [Call t k]) = seen_by t es ++ texts (items k).
Proof.
  intros es t k N.
  pose proof (asked_is es t k N) as A.
  split; [|split].
  - intros ss E. rewrite A. destruct (items_ids grant (items k) (seen_by t es)) as [H|(ss'&E'&ids&H&Hl&Hn)].
    + exfalso. eapply items_none; [|exact H]. exists ss. exact E.
    + assert (ss = ss').
      { rewrite E in E'. clear - E'. revert ss' E'. induction ss as [|s ss IH]; intros [|s' ss'] E; try discriminate; auto.
        injection E as <- E. f_equal. auto. }
      subst ss'. rewrite H. eauto.
  - intros H. rewrite A. destruct (items_ids grant (items k) (seen_by t es)) as [->|(ss&E&_)]; auto. destruct H. exists ss. exact E.
  - rewrite seen_snoc, Nat.eqb_refl. reflexivity.
Qed.

(** C80: a [Symbol] can be passed wherever a text can, and always panics. *)
Theorem C80_symbol_refuted : forall es t id, asked grant es t (CIntern (ASymbol id)) = Borrowed.
Proof. intros es t id. apply C80_interning; [discriminate|]. intros ([|s [|]]&H); discriminate. Qed.

End Alloc.

(** C79, refuted in general: thread 1 interns [x], thread 2 interns [y]: they are
    the same symbol; thread 3 has interned nothing and panics. *)
Definition two : list event := [Call 1 (CIntern (AText (lit "x"))); Call 2 (CIntern (AText (lit "y")))].
Theorem C79_other_text_refuted :
  asked exact [] 1 (CIntern (AText (lit "x"))) = Symbols [28%N] /\
  asked exact [Call 1 (CIntern (AText (lit "x")))] 2 (CIntern (AText (lit "y"))) = Symbols [28%N] /\
  means exact two 1 28 (lit "x") /\ means exact two 2 28 (lit "y") /\
  asked exact two 3 (CLookup 28) = Missing.
Proof.
  split; [vm_compute; reflexivity|]. split; [vm_compute; reflexivity|]. unfold means.
  split; [eexists; vm_compute; split; reflexivity|]. split; [eexists; vm_compute; split; reflexivity|]. vm_compute. reflexivity.
Qed.

(** C79, refuted: a [&'static str] obtained in a thread that has ended. *)
Theorem C79_static_refuted : exists r,
  asked exact two 1 (CLookup 28) = AHanded r /\
  reads exact (two ++ [Call 1 (CLookup 28)]) r = Some (lit "x") /\
  reads exact (two ++ [Call 1 (CLookup 28); End 1]) r = None.
Proof. eexists. vm_compute. repeat split. Qed.

Example C79_own_ex : asked exact two 2 (CIntern (AText (lit "zz"))) = Symbols [29%N] /\
  ~ In (End 2) [End 1; Call 2 (CIntern (AText (lit "x")))] /\
  (N.of_nat (distinct (seen_by 2 (two ++ Call 2 (CIntern (AText (lit "zz"))) :: [End 1; Call 2 (CIntern (AText (lit "x")))]))) <= limit)%N.
Proof. split; [vm_compute; reflexivity|]. split; [cbn; intuition discriminate|]. vm_compute. discriminate. Qed.

Example C79_carried_ex :
  asked exact (two ++ [Call 3 (CIntern (AText (lit "x")))]) 1 (CIntern (AText (lit "x"))) = Symbols [28%N] /\
  means exact (two ++ [Call 3 (CIntern (AText (lit "x")))]) 3 28 (lit "x") /\
  ~ means exact (two ++ [Call 3 (CIntern (AText (lit "x")))]) 2 28 (lit "x").
Proof.
  split; [vm_compute; reflexivity|]. unfold means. split; [eexists; vm_compute; split; reflexivity|].
  intros (r&A&B). vm_compute in A. injection A as <-. vm_compute in B. discriminate.
Qed.

Example C80_ex :
  asked exact two 1 (CIter [Quiet (AText (lit "a")); Quiet (AText (lit "x")); Quiet (AText (lit "a"))]) = Symbols [29; 28; 29]%N /\
  asked exact two 1 (CArray [AText (lit "a"); ASymbol 28]) = Borrowed /\
  asked exact (two ++ [Call 1 (CArray [AText (lit "a"); ASymbol 28])]) 1 (CIntern (AText (lit "a"))) = Symbols [29%N] /\
  asked exact two 1 (CIter [Busy]) = Borrowed.
Proof. vm_compute. auto. Qed.

Print Assumptions C79_isolated.
Print Assumptions C79_meaning.
Print Assumptions C79_own_symbols.
Print Assumptions C79_predefined.
Print Assumptions C79_carried_partial.
Print Assumptions C79_handed_out.
Print Assumptions C79_other_text_refuted.
Print Assumptions C79_static_refuted.
Print Assumptions C80_interning.
Print Assumptions C80_symbol_refuted.
