(** Lemmas for C76 and C77. *)
From Coq Require Import List Arith NArith Bool String Lia.
From Verif Require Import Prelim Chars Syntax Lexer SpecLexer ProofLexer Parser SpecParser SpecViable SpecShape
  ProofParser ProofParser6 ProofParser7 ProofParser8 ProofParser11 ProofParser15.
Import ListNotations.
Local Open Scope string_scope.
Local Open Scope list_scope.

(** * Columns in the same order *)

Section Rel.
Variable R : nat -> nat -> Prop.
Variables lay lay' : nat -> nat -> bool.
Hypothesis HR : forall c c' k k', R c c' -> R k k' -> lay c k = lay' c' k'.

Definition rel (x y : ptok) : Prop := fst x = fst y /\ R (snd x) (snd y).
Notation rels := (Forall2 rel).

Lemma next_rel P r r' : rels r r' -> next_is P r' = next_is P r.
Proof. intros [|(t,k) (t',k') l l' (E&_) _]; auto. cbn in *. congruence. Qed.

Lemma rel_pair t k t' k' : rel (t, k) (t', k') -> t = t' /\ R k k'.
Proof. auto. Qed.

Ltac unrel := repeat match goal with
  | H : rels (_ ++ _) _ |- _ => apply Forall2_app_inv_l in H as (?&?&?&?&->)
  | H : rels (_ :: _) _ |- _ => inversion H; clear H; subst
  | H : rels [] _ |- _ => inversion H; clear H; subst
  | H : rel (_, _) ?y |- _ => destruct y; apply rel_pair in H as (<-&?)
  end.
Local Hint Resolve Forall2_app Forall2_cons : core.
Local Hint Unfold rel : core.

Lemma mk_rel t k k' : R k k' -> rel (t, k) (t, k').
Proof. split; auto. Qed.
Local Hint Resolve mk_rel : core.

Lemma rels_ne us us' : rels us us' -> us <> [] -> us' <> [].
Proof. intros F N ->. inversion F. subst. auto. Qed.
Local Hint Resolve rels_ne : core.

Lemma operators_rel ts is r : operators ts is r -> forall ts' r', rels ts ts' -> rels r r' -> operators ts' is r'.
Proof.
  induction 1; intros ts' r' F G; unrel.
  - apply os_one; auto. erewrite next_rel; eauto.
  - apply os_cons; auto.
Qed.
Lemma declares_rel ts d r : declares ts d r -> forall ts' r', rels ts ts' -> rels r r' -> declares ts' d r'.
Proof.
  intros H ts' r' F G. destruct H; unrel.
  - apply de_prec; auto. eapply operators_rel; eauto.
  - eapply de_default; eauto; [erewrite next_rel; eauto|eapply operators_rel; eauto].
Qed.

Lemma pats_rel q ts ps r : pats q ts ps r -> forall ts' r', rels ts ts' -> rels r r' -> pats q ts' ps r'.
Proof.
  induction 1; intros ts' r' F G; unrel;
    repeat match goal with H : next_is ?P ?x = _, G : rels ?x _ |- _ => rewrite <- (next_rel P _ _ G) in H end.
  - apply p_wild; auto.
  - apply p_var; auto.
  - apply p_as; auto.
  - apply p_con.
  - apply p_inner_con; auto.
  - apply p_lit.
  - apply p_minus; auto.
  - apply p_group; auto.
  - apply p_tuple; eauto 8.
  - apply p_empty; auto.
  - apply p_list; eauto 8.
  - apply h_op.
  - apply h_neg; auto.
  - apply h_con; auto.
  - apply h_pat; auto.
  - apply c_args; auto.
  - eapply c_tuple; eauto 8.
  - apply j_nil; auto.
  - eapply j_cons; eauto 8.
  - apply cs_nil; auto.
  - eapply cs_cons; eauto 8.
Qed.

Inductive krel : ekind -> ekind -> Prop :=
| kr_expr c c' : R c c' -> krel (KExpr c) (KExpr c')
| kr_app c c' : R c c' -> krel (KApp c) (KApp c')
| kr_args c c' f : R c c' -> krel (KArgs c f) (KArgs c' f)
| kr_atom : krel KAtom KAtom
| kr_items : krel KItems KItems
| kr_tail : krel KTail KTail.
Local Hint Constructors krel : core.

Lemma no_arg_rel c c' r r' : R c c' -> rels r r' -> no_arg lay c r -> no_arg lay' c' r'.
Proof. intros C [|(t,k) (t',k') l l' (E&K) _]; auto. cbn in *. subst. rewrite (HR _ _ _ _ C K). auto. Qed.

Lemma exprs_rel q ts es r : exprs lay q ts es r -> forall q' ts' r', krel q q' -> rels ts ts' -> rels r r' -> exprs lay' q' ts' es r'.
Proof.
  induction 1; intros q' ts' r' K F G; inversion K; subst; clear K;
    try match goal with H : rels ((_ :: _) ++ _) _ |- _ => apply Forall2_app_inv_l in H as (?&?&?&?&->) end; unrel;
    try (rewrite <- (next_rel is_op _ _ G) in *); try (rewrite <- (next_rel is_comma _ _ G) in *).
  - apply e_one; auto.
  - eapply e_bin; eauto 8.
  - eapply e_app; eauto 8.
  - apply a_nil. eapply no_arg_rel; eauto.
  - eapply a_cons; [auto|erewrite <- HR; eauto|apply IHexprs1; eauto|apply IHexprs2; eauto].
  - apply t_lit.
  - apply t_upper.
  - apply t_lower.
  - apply t_lam; eauto. eapply pats_rel; eauto 8.
  - apply t_unit.
  - apply t_op.
  - match goal with H : rels cs ?x |- _ => rename x into cs'; rename H into Fc end. cbn [app].
    assert (El : List.length cs = List.length cs') by (clear - Fc; induction Fc; cbn; auto). rewrite El. apply t_commas; eauto.
    revert H0. clear - Fc. induction Fc as [|a b l l' (E&_) _ IH]; intros X; inversion X; subst; constructor; auto; congruence.
  - apply t_group; auto.
  - apply t_tuple; eauto 8.
  - apply t_list; auto.
  - eapply t_let; eauto. eapply declares_rel; eauto 8.
  - apply tl_nil; auto.
  - eapply tl_cons; eauto 8.
  - apply i_nil.
  - apply i_comma; eauto 8.
  - apply i_plain; eauto 8. erewrite next_rel; [eauto|]. apply Forall2_app; auto.
Qed.

Lemma decl_rel ts d r : decl_of lay ts d r -> forall ts' r', rels ts ts' -> rels r r' -> decl_of lay' ts' d r'.
Proof.
  intros H ts' r' F G. destruct H.
  - apply do_infix. eapply declares_rel; eauto.
  - unrel. apply do_expr. eapply exprs_rel; eauto.
Qed.

Lemma program_rel ts ds : program lay ts ds -> forall ts', rels ts ts' -> program lay' ts' ds.
Proof.
  induction 1; intros ts' F; unrel.
  - constructor.
  - apply pr_semi; auto. eapply decl_rel; eauto.
  - match goal with G : rels us _ |- _ => rewrite <- (next_rel is_semi _ _ G) in * end. apply pr_plain; auto. eapply decl_rel; eauto.
Qed.
End Rel.

Lemma shape_program ts us ds : same_shape ts us -> program Nat.ltb ts ds -> program Nat.ltb us ds.
Proof.
  intros (E&O) P. apply (program_rel (fun c c' => exists i a b, nth_error ts i = Some a /\ nth_error us i = Some b /\ snd a = c /\ snd b = c')
    Nat.ltb Nat.ltb) with (ts := ts); auto.
  - intros c c' k k' (i&a&b&A&B&<-&<-) (j&a2&b2&A2&B2&<-&<-). specialize (O i j a a2 b b2 A A2 B B2).
    destruct (Nat.ltb_spec (snd a) (snd a2)), (Nat.ltb_spec (snd b) (snd b2)); auto; lia.
  - clear P O ds. set (Q := fun c c' => _).
    assert (X : forall ts0 us0 n, (forall i, nth_error ts0 i = nth_error ts (n + i)) -> (forall i, nth_error us0 i = nth_error us (n + i)) ->
      map fst ts0 = map fst us0 -> Forall2 (rel Q) ts0 us0).
    { induction ts0 as [|a ts0 IH]; intros [|b us0] n A B M; try discriminate; constructor.
      - cbn in M. injection M as M _. split; auto. exists n, a, b. specialize (A 0). specialize (B 0). rewrite Nat.add_0_r in *. auto.
      - apply (IH us0 (S n)).
        + intros i. specialize (A (S i)). cbn [nth_error] in A. rewrite A. f_equal. lia.
        + intros i. specialize (B (S i)). cbn [nth_error] in B. rewrite B. f_equal. lia.
        + cbn in M. congruence. }
    apply (X ts us 0); auto.
Qed.

Lemma shape_sym ts us : same_shape ts us -> same_shape us ts.
Proof. intros (E&O). split; auto. intros i j a b c d A B C D. symmetry. eauto. Qed.

Lemma ascending_nth ts : forall c, ascending c ts -> forall i a, nth_error ts i = Some a -> c < snd a.
Proof.
  induction ts as [|(t,k) ts IH]; intros c A i a E; destruct i; try discriminate; cbn in *; destruct A as (L&A).
  - injection E as <-. auto.
  - apply (IH _ A) in E. lia.
Qed.
Lemma ascending_lt ts : forall c, ascending c ts -> forall i j a b, nth_error ts i = Some a -> nth_error ts j = Some b ->
  (snd a < snd b <-> i < j).
Proof.
  induction ts as [|(t,k) ts IH]; intros c A i j a b E F; [destruct i; discriminate|]. destruct A as (L&A).
  destruct i, j; cbn [nth_error] in *.
  - rewrite E in F. injection F as ->. lia.
  - injection E as <-. pose proof (ascending_nth _ _ A _ _ F). cbn. lia.
  - injection F as <-. pose proof (ascending_nth _ _ A _ _ E). cbn. lia.
  - rewrite (IH _ A i j a b E F). lia.
Qed.

Lemma ascending_shape ts us c d : ascending c ts -> ascending d us -> map fst ts = map fst us -> same_shape ts us.
Proof.
  intros A B E. split; auto. intros i j a b x y Ha Hb Hx Hy.
  rewrite (ascending_lt _ _ A _ _ _ _ Ha Hb), (ascending_lt _ _ B _ _ _ _ Hx Hy). tauto.
Qed.

Lemma shift_shape n ts : same_shape ts (map (fun x => (fst x, snd x + n)) ts).
Proof.
  split; [rewrite map_map; cbn; auto|]. intros i j a b c d A B C D.
  unfold ptok in *. rewrite nth_error_map in C, D. rewrite A in C. rewrite B in D. cbn in *. injection C as <-. injection D as <-. cbn. lia.
Qed.

(** * Indentation *)

Section WithUcd.
Context {U : ucd}.

Definition ind (n : nat) (s : str) : str := flat_map (fun c => if N.eqb c 10 then 10%N :: repeat 32%N n else [c]) s.

Lemma ind_app n a b : ind n (a ++ b) = ind n a ++ ind n b.
Proof. apply flat_map_app. Qed.
Lemma ind_line n s : all not_lf s -> ind n s = s.
Proof. induction 1 as [|c s C _ IH]; auto. cbn. unfold not_lf in C. apply negb_true_iff in C. rewrite C. cbn. f_equal. auto. Qed.
Lemma ind_first n v : ind n v = [] <-> v = [].
Proof. destruct v as [|c v]; [tauto|]. cbn. destruct (N.eqb c 10); split; discriminate. Qed.
Lemma ind_stops n f v : stops f v -> stops f (ind n v).
Proof. destruct v as [|c v]; auto. cbn. destruct (N.eqb_spec c 10); cbn; subst; auto. Qed.
Lemma all_spaces n : all is_white (repeat 32%N n).
Proof. induction n; constructor; auto. Qed.
Lemma no_lf_spaces n : all not_lf (repeat 32%N n).
Proof. induction n; constructor; auto. Qed.

Lemma closes_spaces n d s : closes (S d) s -> closes (S d) (repeat 32%N n ++ s).
Proof. intros C. induction n; auto. cbn. apply cl_other; auto; discriminate. Qed.
Lemma closes_ind n d s : closes d s -> closes d (ind n s).
Proof.
  induction 1 as [|d s C IH|d s C IH|d c s C IH H1 H2].
  - constructor.
  - cbn. apply cl_close. auto.
  - cbn. apply cl_open. auto.
  - cbn [ind flat_map]. destruct (N.eqb_spec c 10) as [->|Nc].
    + cbn [app]. apply cl_other; [|discriminate|discriminate]. apply closes_spaces. auto.
    + cbn [app]. apply cl_other; auto; intros E; apply ind_stops; auto.
Qed.

Lemma gap_ind n g v : gap g v -> forall v', first v = first v' -> gap (ind n g) v'.
Proof.
  induction 1 as [v|c g v W G IH|b g v B S1 S2 S3 G IH|b x g v C L X G IH]; intros v' F.
  - constructor.
  - cbn [ind flat_map]. destruct (N.eqb_spec c 10) as [->|Nc].
    + cbn [app]. apply gap_white; auto. apply ProofLexer6.gap_whites; [apply all_spaces|]. apply IH. auto.
    + cbn [app]. apply gap_white; auto.
  - assert (Fg : first (ind n g ++ v') = first (g ++ v)).
    { destruct g as [|c g]; [cbn; auto|]. cbn. destruct (N.eqb_spec c 10); subst; auto. }
    change (126%N :: 126%N :: b ++ g) with (lit "~~" ++ b ++ g). rewrite !ind_app, (ind_line n b B).
    change (gap (126%N :: 126%N :: b ++ ind n g) v'). apply gap_line; auto.
    + eapply stops_first; [|exact S1]; auto.
    + eapply stops_first; [|exact S2]. apply first_app. auto.
    + eapply stops_first; [|exact S3]. apply first_app. auto.
  - change (126%N :: 123%N :: b ++ x ++ g) with (lit "~{" ++ b ++ x ++ g). rewrite !ind_app.
    change (gap (126%N :: 123%N :: ind n b ++ ind n x ++ ind n g) v').
    destruct x as [|c [|c' x]]; [|..|cbn in L; lia].
    + cbn [ind flat_map app].
      specialize (X eq_refl). destruct g; [|discriminate]. destruct v; [|discriminate]. destruct v'; [|discriminate].
      change (flat_map _ b) with (ind n b). apply (gap_block (ind n b) [] []); [apply closes_ind; auto|cbn; lia|auto|constructor].
    + cbn [ind flat_map]. destruct (N.eqb_spec c 10) as [->|Nc]; cbn [app].
      * change (10%N :: repeat 32%N n ++ []) with ([10%N] ++ repeat 32%N n ++ []). rewrite app_nil_r.
        change (10%N :: repeat 32%N n ++ ind n g) with ([10%N] ++ repeat 32%N n ++ ind n g).
        apply gap_block; [apply closes_ind; auto|cbn; lia|discriminate|].
        apply ProofLexer6.gap_whites; [apply all_spaces|]. apply IH; auto.
      * change (c :: ind n g) with ([c] ++ ind n g). apply gap_block; [apply closes_ind; auto|cbn; lia|discriminate|apply IH; auto].
Qed.

Lemma col_spaces n w : col_of (w ++ repeat 32%N n) = col_of w + n.
Proof.
  induction n as [|n IH]; [cbn; rewrite app_nil_r; lia|]. cbn [repeat]. rewrite repeat_cons, app_assoc, col_of_snoc. change (N.eqb 32 10) with false. cbv iota. rewrite IH. lia.
Qed.
Lemma col_ind n w : col_of (indented n w) = col_of w + n.
Proof.
  induction w as [|c w IH] using rev_ind.
  - unfold indented. cbn [flat_map]. rewrite app_nil_r. apply (col_spaces n []).
  - unfold indented in *. rewrite flat_map_app, app_assoc. cbn [flat_map]. rewrite app_nil_r, col_of_snoc.
    destruct (N.eqb_spec c 10) as [->|Nc].
    + change (10%N :: repeat 32%N n) with ([10%N] ++ repeat 32%N n). rewrite app_assoc, col_spaces, col_of_snoc. reflexivity.
    + rewrite col_of_snoc. destruct (N.eqb_spec c 10); [congruence|]. rewrite IH. lia.
Qed.

Hypothesis HU : letters U.

Lemma ind_tokens n w s ts : within_lines w s ts -> ctokens (indented n w) (ind n s) (map (fun x => (fst x, snd x + n)) ts).
Proof.
  induction 1 as [w g G|w g s t v ts G L A T IH].
  - cbn [map]. apply ct_end. eapply gap_ind; eauto.
  - cbn [map fst snd]. rewrite <- col_ind. rewrite !ind_app, (ind_line n s A).
    assert (Ew : indented n (w ++ g ++ s) = indented n w ++ ind n g ++ s).
    { unfold indented. rewrite !flat_map_app, !app_assoc. f_equal. apply ind_line. auto. }
    rewrite Ew in *. apply ct_cons; auto.
    + eapply gap_ind; eauto. destruct s; [destruct (lexeme_nonempty HU _ _ _ L eq_refl)|auto].
    + eapply lexeme_first; eauto. destruct v as [|c v]; auto. cbn. destruct (N.eqb_spec c 10); subst; auto.
Qed.

Lemma within_ctokens w s ts : within_lines w s ts -> ctokens w s ts.
Proof. induction 1; [apply ct_end|apply ct_cons]; auto. Qed.

Lemma ct_spaces n w s ts : ctokens (w ++ repeat 32%N n) s ts -> ctokens w (repeat 32%N n ++ s) ts.
Proof.
  intros T. destruct T as [g G|g s t v ts G L T].
  - apply ct_end. apply ProofLexer6.gap_whites; auto. apply all_spaces.
  - rewrite app_assoc. replace ((w ++ repeat 32%N n) ++ g ++ s) with (w ++ (repeat 32%N n ++ g) ++ s) in * by (rewrite <- !app_assoc; auto).
    apply ct_cons; auto. apply ProofLexer6.gap_whites; auto. apply all_spaces.
Qed.

Lemma indented_tokens n s ts : within_lines [] s ts -> ctokens [] (indented n s) (map (fun x => (fst x, snd x + n)) ts).
Proof.
  intros W. apply (ind_tokens n) in W. unfold indented. apply ct_spaces. cbn [app]. unfold indented in W. cbn [flat_map] in W.
  rewrite app_nil_r in W. auto.
Qed.
End WithUcd.
