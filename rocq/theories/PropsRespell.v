(** C110: what is read depends on the kinds of the tokens; other names in the
    text are other names in what is read. *)
From Coq Require Import List Arith NArith Bool String Lia.
From Verif Require Import Prelim Chars Syntax Fixity Lexer SpecLexer ProofLexer Parser SpecParser SpecFixity SpecViable SpecShape SpecRename SpecRespell
  ProofParser3 ProofParser7 ProofParser8 ProofShape PropsShape ProofParser9 ProofRespell PropsRename PropsRepl PropsLexer.
Import ListNotations.
Local Open Scope string_scope.
Local Open Scope list_scope.

Lemma shape_between ts us : same_kinds ts us -> exists ms, kinl ts ms /\ same_shape ms us.
Proof.
  intros (F&O). exists (combine (map fst us) (map snd ts)).
  assert (L : List.length us = List.length ts).
  { clear O. revert us F. induction ts as [|a ts IH]; intros [|b us] F; auto; inversion F; subst. cbn. f_equal. auto. }
  assert (Nth : forall i m, nth_error (combine (map fst us) (map snd ts)) i = Some m ->
    exists a c, nth_error ts i = Some a /\ nth_error us i = Some c /\ m = (fst c, snd a)).
  { clear F O. revert us L. induction ts as [|a ts IH]; intros [|c us] L i m E; try discriminate L.
    - destruct i; discriminate.
    - destruct i as [|i]; cbn in *; [injection E as <-; eauto|]. apply (IH us); auto. }
  split.
  - clear O Nth. revert us F L. induction ts as [|a ts IH]; intros [|c us] F L; try discriminate L; [constructor|].
    cbn in *. inversion F; subst. constructor; [split; auto|]. apply IH; auto.
  - split.
    + clear F O Nth. revert us L. induction ts as [|a ts IH]; intros [|c us] L; try discriminate L; auto. cbn. f_equal. apply IH. auto.
    + intros i j a b c d A B C D. apply Nth in A as (a1&c1&A1&C1&->). apply Nth in B as (b1&d1&B1&D1&->).
      assert (c1 = c) as -> by congruence. assert (d1 = d) as -> by congruence. cbn. eapply O; eauto.
Qed.

Lemma kind_sym t u : same_kind t u -> same_kind u t.
Proof. intros []; constructor; auto. Qed.
Lemma kinds_sym ts us : same_kinds ts us -> same_kinds us ts.
Proof.
  intros (F&O). split.
  - clear O. revert F. generalize (map fst ts), (map fst us). induction 1; constructor; auto using kind_sym.
  - intros i j a b c d A B C D. symmetry. eapply O; eauto.
Qed.
Lemma respelled_kinds nm lits ts us : keeps_reserved nm lits -> respelled nm lits ts us -> same_kinds ts us.
Proof.
  intros (_&_&K) (E&O). split; auto. rewrite E. clear E O. induction (map fst ts) as [|t l IH]; cbn; constructor; auto.
  destruct t as [| | | | | | | | | | | | | | | | | | | | | |x| |]; cbn; try (apply sk_same || apply sk_upper || apply sk_lower || apply sk_affix).
  assert (D : forall y, (exists n, y = LInt n) \/ (forall n, y <> LInt n)) by (intros []; (left; eexists; reflexivity) || (right; discriminate)).
  destruct (D x) as [(n&->)|Nx]; [rewrite (proj2 (K (LInt n) n) eq_refl); constructor|].
  apply sk_lit; auto. intros n Ex. exact (Nx n (proj1 (K x n) Ex)).
Qed.
Lemma respelled_shape nm lits ts us : respelled nm lits ts us -> same_shape (rts nm lits ts) us.
Proof.
  intros (E&O). split.
  - rewrite E. unfold rts. rewrite !map_map. auto.
  - intros i j a b c d A B C D. unfold rts in A, B. rewrite nth_error_map in A, B. unfold ptok in *.
    destruct (nth_error ts i) as [a1|] eqn:A1; cbn [option_map] in A; [|discriminate A]. destruct (nth_error ts j) as [b1|] eqn:B1; cbn [option_map] in B; [|discriminate B].
    injection A as <-. injection B as <-. cbn. eapply O; eauto.
Qed.

Section WithUcd.
Context {U : ucd}.
Hypothesis HU : letters U.

Lemma kinds_accepted s s' ts us : no_lfcr s -> no_lfcr s' -> ctokens [] s ts -> ctokens [] s' us -> same_kinds ts us ->
  (exists a l, parse s = POk a l) -> (exists a l, parse s' = POk a l).
Proof.
  intros N N' T T' K (a&P). apply (parse_iff HU) in P as (xs&ds&X&Pr&->); auto. rewrite (tokens_once HU _ _ _ N X T) in Pr.
  destruct (shape_between _ _ K) as (ms&K1&Sh). destruct (program_k _ _ Pr _ K1) as (ds'&Pr'). exists (fold_left ast_push ds' ast_empty).
  apply (parse_iff HU); auto. exists us, ds'. split; auto. split; auto. eapply shape_program; eauto.
Qed.

(** Whether a text is a program does not depend on the names in it, nor on the
    characters and strings. *)
Theorem C110_kinds : forall s s' ts us, no_lfcr s -> no_lfcr s' -> ctokens [] s ts -> ctokens [] s' us -> same_kinds ts us ->
  ((exists a l, parse s = POk a l) <-> (exists a l, parse s' = POk a l)).
Proof. intros s s' ts us N N' T T' K. split; eapply kinds_accepted; eauto using kinds_sym. Qed.
Print Assumptions C110_kinds.

(** With other names and literals in the text the program read has those too,
    everywhere, and is otherwise the same. *)
Theorem C110_respelled : forall nm lits s s' ts us, keeps_reserved nm lits -> no_lfcr s -> no_lfcr s' ->
  ctokens [] s ts -> ctokens [] s' us -> respelled nm lits ts us ->
  forall b, (exists l, parse s' = POk b l) <-> exists a l, parse s = POk a l /\ b = respell nm lits a.
Proof.
  intros nm lits s s' ts us K N N' T T' R.
  assert (Fw : forall a l, parse s = POk a l -> exists l', parse s' = POk (respell nm lits a) l').
  { intros a l P. destruct (proj1 (parse_iff HU s a N) (ex_intro _ l P)) as (xs&ds&X&Pr&->). rewrite (tokens_once HU _ _ _ N X T) in Pr.
    apply (parse_iff HU); auto. exists us, (map (rdecl nm lits) ds). split; auto. split; [|symmetry; apply program_ast].
    eapply shape_program; [apply respelled_shape; eauto|]. now apply program_r. }
  intros b. split.
  - intros (l&P). destruct (kinds_accepted s' s us ts N' N T' T (kinds_sym _ _ (respelled_kinds _ _ _ _ K R)) (ex_intro _ b (ex_intro _ l P))) as (a&l1&Q).
    exists a, l1. split; auto. destruct (Fw a l1 Q) as (l2&Q2). rewrite P in Q2. now injection Q2.
  - intros (a&l&P&->). eauto.
Qed.
Print Assumptions C110_respelled.

(** On one line the names may be longer or shorter as well. *)
Corollary C110_one_line : forall nm lits s s' ts us, keeps_reserved nm lits -> all not_lf s -> all not_lf s' ->
  ctokens [] s ts -> ctokens [] s' us -> map fst us = map (respell_token nm lits) (map fst ts) ->
  forall b, (exists l, parse s' = POk b l) <-> exists a l, parse s = POk a l /\ b = respell nm lits a.
Proof.
  intros nm lits s s' ts us K A A' T T' E. apply (C110_respelled nm lits s s' ts us); auto using one_line_clean. split; auto.
  assert (Sh : same_shape (rts nm lits ts) us).
  { apply (ascending_shape _ _ (col_of []) (col_of [])); [|exact (ctokens_ascending HU [] s' us T' A')|rewrite E; unfold rts; rewrite !map_map; auto].
    generalize (ctokens_ascending HU [] s ts T A). generalize (col_of []). clear. induction ts as [|(t,k) ts IH]; intros c; cbn; auto. intuition. }
  intros i j a b c d A1 B1 C1 D1. destruct Sh as (_&O).
  apply (O i j (respell_token nm lits (fst a), snd a) (respell_token nm lits (fst b), snd b) c d); auto; unfold rts; rewrite nth_error_map; unfold ptok in *; rewrite ?A1, ?B1; auto.
Qed.
Print Assumptions C110_one_line.

(** And if different operators have different names after, resolution gives
    the same result and the same errors, but for the names. *)
Corollary C110_resolved : forall nm lits s s' ts us a l r, keeps_reserved nm lits -> (forall x y, nm x = nm y -> x = y) -> no_lfcr s -> no_lfcr s' ->
  ctokens [] s ts -> ctokens [] s' us -> respelled nm lits ts us -> parse s = POk a l ->
  exists b l', parse s' = POk b l' /\
  match resolve_ast r a with
  | Ok (r', a', errs) => resolve_ast (rename_resolver (respell_infix nm) r) b
      = Ok (rename_resolver (respell_infix nm) r', respell nm lits a', map (rename_error (respell_infix nm)) errs)
  | Panic p => resolve_ast (rename_resolver (respell_infix nm) r) b = Panic p
  | NoFuel => resolve_ast (rename_resolver (respell_infix nm) r) b = NoFuel
  end.
Proof.
  intros nm lits s s' ts us a l r K Inj N N' T T' R P.
  destruct (proj2 (C110_respelled nm lits s s' ts us K N N' T T' R (respell nm lits a)) (ex_intro _ a (ex_intro _ l (conj P eq_refl)))) as (l'&Q).
  exists (respell nm lits a), l'. split; auto. apply C96_resolve.
  intros x y. destruct x, y; cbn; split; auto; congruence.
Qed.
Print Assumptions C110_resolved.
End WithUcd.

(** ** Examples *)

Local Existing Instance ucd_none.

Definition nm_ (s : str) : str := if str_eqb s (lit "+") then lit "<>" else if str_eqb s (lit "x") then lit "value" else s.
Definition id_ (x : literal) : literal := x.
Definition old_ : str := lit "infixr 4 +; \x -> x + (+) - 1".
Definition new_ : str := lit "infixr 4 <>; \value -> value <> (<>) - 1".

Ltac look_ := match goal with
  | |- sees _ [] => eexists; vm_compute; reflexivity
  | |- sees _ (_ :: _) => eexists; split; [vm_compute; reflexivity|split; [vm_compute; reflexivity|split; [reflexivity|]]]
  end.

Definition old_t : list ptok := [(TInfixR, 7); (TLit (LInt 4), 9); (TAffix (lit "+") false, 11); (TSemi, 12); (TLambda, 14); (TLower (lit "x"), 15); (TArrow, 18);
  (TLower (lit "x"), 20); (TAffix (lit "+") false, 22); (TParenL, 24); (TAffix (lit "+") false, 25); (TParenR, 26); (TDash, 28); (TLit (LInt 1), 30)].
Definition new_t : list ptok := [(TInfixR, 7); (TLit (LInt 4), 9); (TAffix (lit "<>") false, 12); (TSemi, 13); (TLambda, 15); (TLower (lit "value"), 20); (TArrow, 23);
  (TLower (lit "value"), 29); (TAffix (lit "<>") false, 32); (TParenL, 34); (TAffix (lit "<>") false, 36); (TParenR, 37); (TDash, 39); (TLit (LInt 1), 41)].

Example C110_ex : keeps_reserved nm_ id_ /\ ctokens [] old_ old_t /\ ctokens [] new_ new_t /\
  map fst new_t = map (respell_token nm_ id_) (map fst old_t) /\
  exists a l l', parse old_ = POk a l /\ parse new_ = POk (respell nm_ id_ a) l' /\ respell nm_ id_ a <> a.
Proof.
  split; [split; [reflexivity|split; [reflexivity|intros x n; split; auto]]|].
  split; [apply (sees_source letters_none); [apply clean_ok; vm_compute; reflexivity|unfold old_t; repeat look_]|].
  split; [apply (sees_source letters_none); [apply clean_ok; vm_compute; reflexivity|unfold new_t; repeat look_]|].
  split; [vm_compute; reflexivity|].
  do 3 eexists. split; [vm_compute; reflexivity|]. split; [vm_compute; reflexivity|]. vm_compute. discriminate.
Qed.

(** The names of the two reserved operators cannot be other ones: the text
    then has other tokens.  And an integer in a declaration must stay. *)
Example C110_ex_integer : (exists a l, parse (lit "infixl 9 +") = POk a l) /\ ~ exists a l, parse (lit "infixl 10 +") = POk a l.
Proof. split; [vm_compute; eauto|]. intros (a&l&E). vm_compute in E. discriminate E. Qed.
