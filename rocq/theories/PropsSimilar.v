(** C111: tokens of the same kinds are rejected alike. *)
From Coq Require Import List Arith NArith Bool String Lia.
From Verif Require Import Prelim Chars Syntax Lexer SpecLexer ProofLexer Parser SpecParser SpecShape SpecRespell SpecSimilar
  ProofParser3 ProofParser7 ProofParser8 ProofShape PropsShape ProofSimilar PropsParser PropsRespell PropsRepl PropsLexer.
Import ListNotations.
Local Open Scope string_scope.
Local Open Scope list_scope.

Section WithUcd.
Context {U : ucd}.
Hypothesis HU : letters U.

Lemma look_at i ts : look (skipn i ts) = token_at i ts.
Proof.
  unfold token_at. revert ts. induction i as [|i IH]; intros [|(t,k) ts]; auto. cbn [skipn map nth]. apply IH.
Qed.

Lemma alike_results s s' ts us : no_lfcr s -> no_lfcr s' -> ctokens [] s ts -> ctokens [] s' us -> same_kinds ts us ->
  res ts us (@T ast ast) (parse s) (parse s').
Proof.
  intros N N' C C' K. apply (p_parse_sim HU ts us K 0). split; cbn [skipn]; apply (sees_source HU); auto.
Qed.

(** If one of two texts with tokens of the same kinds is rejected, so is the
    other, with the same message about the token at the same place. *)
Theorem C111_rejected : forall s s' ts us e l, no_lfcr s -> no_lfcr s' -> ctokens [] s ts -> ctokens [] s' us -> same_kinds ts us ->
  parse s = PErr e l -> exists e' l' i, parse s' = PErr e' l' /\ same_complaint ts us i e e'.
Proof.
  intros s s' ts us e l N N' C C' K P. pose proof (alike_results s s' ts us N N' C C' K) as R. rewrite P in R.
  pose proof (proj1 (C34_parsing_terminates HU s')) as F.
  destruct (parse s') as [a l'|e' l'|p|] eqn:P'; cbn in R; try contradiction.
  destruct R as ((M&i&A&A')&_). exists e', l', i. split; auto. rewrite look_at in A, A'.
  destruct e as [x a t|t a], e' as [x' a' t'|t' a']; cbn in M, A, A'; try contradiction; subst; constructor.
Qed.
Print Assumptions C111_rejected.

(** And if the program stops at one, it stops at the other for the same
    reason. *)
Theorem C111_stops : forall s s' ts us p, no_lfcr s -> no_lfcr s' -> ctokens [] s ts -> ctokens [] s' us -> same_kinds ts us ->
  (parse s = PPanic p <-> parse s' = PPanic p).
Proof.
  assert (G : forall s s' ts us p, no_lfcr s -> no_lfcr s' -> ctokens [] s ts -> ctokens [] s' us -> same_kinds ts us ->
    parse s = PPanic p -> parse s' = PPanic p).
  { intros s s' ts us p N N' C C' K P. pose proof (alike_results s s' ts us N N' C C' K) as R. rewrite P in R.
    pose proof (proj1 (C34_parsing_terminates HU s')) as F.
    destruct (parse s') as [a l'|e' l'|q|] eqn:P'; cbn in R; try contradiction. subst. auto. }
  intros s s' ts us p N N' C C' K. split; eapply G; eauto using kinds_sym.
Qed.
Print Assumptions C111_stops.

(** With the same tokens, differently laid out, the message is the same
    altogether: about the same token. *)
Corollary C111_layout : forall s s' ts us e l, no_lfcr s -> no_lfcr s' -> ctokens [] s ts -> ctokens [] s' us -> same_shape ts us ->
  parse s = PErr e l -> exists e' l' i, parse s' = PErr e' l' /\ same_complaint ts us i e e' /\ token_at i us = token_at i ts.
Proof.
  intros s s' ts us e l N N' C C' (E&O) P.
  assert (K : same_kinds ts us).
  { split; auto. rewrite E. clear. induction (map fst us); constructor; auto. constructor. }
  destruct (C111_rejected s s' ts us e l N N' C C' K P) as (e'&l'&i&P'&M). exists e', l', i. split; auto. split; auto.
  unfold token_at. now rewrite E.
Qed.
Print Assumptions C111_layout.
End WithUcd.

(** ** Examples *)

Local Existing Instance ucd_none.

Definition bad_ : str := lit "f (x + ]".
Definition bad_t : list ptok := [(TLower (lit "f"), 2); (TParenL, 4); (TLower (lit "x"), 5); (TAffix (lit "+") false, 7); (TBrackR, 9)].
Definition bad2_ : str := lit "longer (value   <> ]".
Definition bad2_t : list ptok := [(TLower (lit "longer"), 7); (TParenL, 9); (TLower (lit "value"), 14); (TAffix (lit "<>") false, 19); (TBrackR, 21)].

Example C111_ex : ctokens [] bad_ bad_t /\ ctokens [] bad2_ bad2_t /\ same_kinds bad_t bad2_t /\
  exists e l e' l', parse bad_ = PErr e l /\ parse bad2_ = PErr e' l' /\ same_complaint bad_t bad2_t 4 e e' /\ error_loc e <> error_loc e'.
Proof.
  split; [apply (sees_source letters_none); [apply clean_ok; vm_compute; reflexivity|unfold bad_t; repeat look_]|].
  split; [apply (sees_source letters_none); [apply clean_ok; vm_compute; reflexivity|unfold bad2_t; repeat look_]|].
  split.
  - split; [repeat constructor|].
    intros i j a b c d A B C D.
    do 5 (destruct i as [|i]; [cbn in A, C; injection A as <-; injection C as <-; do 5 (destruct j as [|j]; [cbn in B, D; injection B as <-; injection D as <-; cbn; lia|]); destruct j; discriminate B|]).
    destruct i; discriminate A.
  - do 4 eexists. split; [vm_compute; reflexivity|]. split; [vm_compute; reflexivity|]. split; [apply sc_unexpected|]. cbn. discriminate.
Qed.
Example C111_ex_stops : @parse ucd_none (lit "infixl 10 +") = PPanic PTodoPrec /\ @parse ucd_none (lit "infixl 10  ***") = PPanic PTodoPrec.
Proof. split; vm_compute; reflexivity. Qed.
