(** C115: a program is at most twice as large as the text it is read from, so
    resolving it takes at most quadratic time in the length of the text. *)
From Coq Require Import List Arith NArith Bool String Lia.
From Verif Require Import Prelim Chars Syntax Fixity Costs Lexer SpecLexer ProofLexer Parser SpecParser SpecFixity
  ProofResolve ProofParser3 ProofParser7 ProofParser8 ProofParser9 ProofParser11 PropsParser PropsLexer PropsRepl PropsCosts.
Import ListNotations.
Local Open Scope string_scope.
Local Open Scope list_scope.

Lemma patterns_size q ts ps r : pats q ts ps r -> List.length ps <= List.length ts.
Proof. induction 1; cbn [List.length] in *; rewrite ?app_length in *; cbn [List.length] in *; lia. Qed.
Lemma lams_size ps e : esize (fold_right Lam e ps) = List.length ps + esize e.
Proof. induction ps as [|p ps IH]; auto. cbn [fold_right esize List.length]. rewrite IH. reflexivity. Qed.
Lemma sizes_cons e es : sizes (e :: es) = esize e + sizes es.
Proof. reflexivity. Qed.
Lemma sizes_app es es' : sizes (es ++ es') = sizes es + sizes es'.
Proof. unfold sizes. rewrite map_app. apply list_sum_app. Qed.
Definition head_size (q : ekind) : nat := match q with KArgs _ f => S (esize f) | _ => 0 end.
Lemma exprs_size lay q ts es r : exprs lay q ts es r -> sizes es + List.length es <= 2 * List.length ts + head_size q.
Proof.
  assert (Z : sizes [] = 0) by reflexivity.
  induction 1 as [c ts e r A IA N|c ts x o i k t k' us e r A IA I B IB|c ts f us e r A IA B IB|c f r N
    |c f t k ts x us e r T L A IA B IB|x k r|s k r|s k r|k ts p ps k' us e r A B IB|k k' r|k s b k1 k' r
    |k cs k' r N F|k t k1 ts e k' r A IA|k t k1 ts e us es k' r A IA B IB N|k ts es k' r A IA|k ts d k' us e r A B IB
    |r N|k ts e us es r A IA B IB|k r|t k ts e k' us es r A IA B IB|t k ts e us es r A IA N B IB];
    try (apply patterns_size in A);
    cbn [head_size List.length] in *; rewrite ?sizes_cons, ?Z, ?app_length, ?lams_size in *;
    cbn [esize List.length] in *; rewrite ?sizes_cons, ?Z, ?app_length in *; cbn [List.length] in *; try lia.
  all: repeat match goal with |- context [list_sum (map esize ?x)] => change (list_sum (map esize x)) with (sizes x) end;
    rewrite ?sizes_cons, ?Z; unfold ptok in *; lia.
Qed.
Lemma decls_size lay ts ds : program lay ts ds -> let a := fold_left ast_push ds ast_empty in
  sizes (a_exprs a) + List.length (a_exprs a) <= 2 * List.length ts.
Proof.
  intros P. cbn. 
  assert (G : forall ts ds, program lay ts ds -> forall a, sizes (a_exprs (fold_left ast_push ds a)) + List.length (a_exprs (fold_left ast_push ds a))
    <= sizes (a_exprs a) + List.length (a_exprs a) + 2 * List.length ts); [|apply (G _ _ P ast_empty)].
  assert (D : forall us d r a, decl_of lay us d r -> sizes (a_exprs (ast_push a d)) + List.length (a_exprs (ast_push a d))
    <= sizes (a_exprs a) + List.length (a_exprs a) + 2 * List.length us).
  { intros us d r a [vs i r0 H|t k vs e r0 E]; destruct a as [ks is es]; cbn [ast_push a_exprs]; [lia|].
    apply exprs_size in E. rewrite sizes_app, app_length, sizes_cons in *. cbn [head_size] in E. cbn [List.length] in *. lia. }
  clear P ts ds. induction 1 as [|ts d k us ds H P IH|ts d us ds H N P IH]; intros a; cbn [fold_left]; [cbn; lia| |];
    specialize (IH (ast_push a d)); specialize (D _ _ _ a H); rewrite app_length; cbn [List.length]; lia.
Qed.
Lemma counts_size : forall es, 2 * counts es + List.length es <= sizes es.
Proof.
  assert (G : forall n e, esize e <= n -> 2 * count e + 1 <= esize e).
  { induction n as [|n IH]; intros e S; [pose proof (esize_pos e); lia|].
    assert (Bs : forall es, list_sum (map esize es) <= n -> 2 * List.length (flat_map ops_in es) <= list_sum (map esize es)).
    { induction es as [|y es IHes]; intros Ss; [cbn; lia|].
      change (list_sum (map esize (y :: es))) with (esize y + list_sum (map esize es)) in *. cbn [flat_map]. rewrite app_length.
      specialize (IH y ltac:(lia)). unfold count in IH. specialize (IHes ltac:(lia)). lia. }
    unfold count in *. destruct e as [l|i|a b|a o b|p a|a|a|es|es|d a]; cbn [esize ops_in] in *; rewrite ?app_length; cbn [List.length];
      try (specialize (Bs es ltac:(lia))); try (pose proof (IH a ltac:(lia))); try (pose proof (IH b ltac:(lia))); lia. }
  induction es as [|e es IH]; [cbn; lia|]. rewrite counts_cons, sizes_cons. cbn [List.length]. specialize (G _ e (le_n _)). lia.
Qed.

(** ** C115 *)

Section WithUcd.
Context {U : ucd}.
Hypothesis HU : letters U.

Lemma tokens_length w s ts : ctokens w s ts -> List.length ts <= List.length s.
Proof.
  induction 1 as [w g G|w g s t v ts G L T IH]; [cbn; lia|]. apply (lexeme_nonempty HU) in L. rewrite !app_length. cbn [List.length].
  destruct s; [congruence|]. cbn [List.length]. lia.
Qed.

(** C115: with [n] tokens, the expressions of a program have less than [2 * n]
    nodes together and less than [n] operators. *)
Theorem C115_size : forall src ts a l, no_lfcr src -> ctokens [] src ts -> parse src = POk a l ->
  sizes (a_exprs a) + List.length (a_exprs a) <= 2 * List.length ts /\
  counts (a_exprs a) + List.length (a_exprs a) <= List.length ts /\
  List.length ts <= List.length src.
Proof.
  intros src ts a l N T P. destruct (proj1 (C35_parse_is_grammar HU src a N)) as (us&ds&T'&Pr&->); [eauto|].
  pose proof (tokens_length _ _ _ T) as Len.
  apply (sees_source HU) in T; auto. apply (sees_source HU) in T'; auto. rewrite (sees_unique _ _ _ T' T) in Pr.
  apply decls_size in Pr. cbn in Pr. pose proof (counts_size (a_exprs (fold_left ast_push ds ast_empty))). lia.
Qed.

(** So the work of resolving a text is at most quadratic in its length, with any
    table of fixities. *)
Theorem C115_work : forall src a l r, no_lfcr src -> parse src = POk a l ->
  comparisons r a <= List.length src * List.length src /\ copies r a <= 2 * (List.length src * List.length src).
Proof.
  intros src a l r N P. destruct (proj1 (C35_parse_is_grammar HU src a N)) as (ts&ds&T&_); [eauto|].
  destruct (C115_size src ts a l N T P) as (A&B&C). destruct (C98_bound r a) as (D&E). split; nia.
Qed.
End WithUcd.
Print Assumptions C115_size.
Print Assumptions C115_work.

(** ** Examples *)

Local Existing Instance ucd_none.

Ltac look_ := match goal with
  | |- sees _ [] => eexists; vm_compute; reflexivity
  | |- sees _ (_ :: _) => eexists; split; [vm_compute; reflexivity|split; [vm_compute; reflexivity|split; [reflexivity|]]]
  end.

(** The bounds are reached. *)
Example C115_ex_size : exists src ts a l, no_lfcr src /\ ctokens [] src ts /\ parse src = POk a l /\
  sizes (a_exprs a) + List.length (a_exprs a) = 2 * List.length ts /\ List.length ts = 4.
Proof.
  exists (lit "f x 1 y"), [(TLower (lit "f"), 2); (TLower (lit "x"), 4); (TLit (LInt 1), 6); (TLower (lit "y"), 8)].
  do 2 eexists. split; [apply clean_ok; vm_compute; reflexivity|]. split.
  - apply (sees_source letters_none); [apply clean_ok; vm_compute; reflexivity|repeat look_].
  - split; [vm_compute; reflexivity|]. split; reflexivity.
Qed.
Example C115_ex_work : exists a l, parse (lit "a $ b $ c $ d") = POk a l /\
  comparisons (mkResolver [(Standard (lit "$"), mkFix 0 ARight)] []) a = 3.
Proof. vm_compute. eauto. Qed.
