(** C113: what is printed in answer to a typed expression says what was typed. *)
From Coq Require Import List Arith NArith Bool String Lia.
From Verif Require Import Prelim Chars Syntax Fixity Lexer SpecLexer Parser SpecParser SpecFixity SpecPrinter Style SpecStyle Printer SpecTyped SpecSaid
  ProofResolve ProofFixity ProofTable ProofParser3 ProofTyped ProofTyped2 PropsMirror PropsFixity PropsParser PropsLexer PropsRepl PropsTyped PropsSaid.
Import ListNotations.
Local Open Scope string_scope.
Local Open Scope list_scope.

Definition free_item (i : item) : bool := match i with Operand x => let_free x | Operator _ => true end.
Lemma free_build its : alternates its -> let_free (build its) = forallb free_item its.
Proof.
  induction 1 as [e|e o its A IH]; [cbn; now rewrite andb_true_r|].
  change (build (Operand e :: Operator o :: its)) with (Bin e o (build its)). cbn. now rewrite IH.
Qed.
Lemma free_words : forall n e, esize e <= n -> let_free (build (words e)) = let_free e.
Proof.
  induction n as [|n IH]; intros e S; [pose proof (esize_pos e); lia|].
  assert (Bs : forall es, list_sum (map esize es) <= n -> forallb let_free (map (fun x => build (words x)) es) = forallb let_free es).
  { induction es as [|y es IHes]; intros Ss; cbn [map forallb]; auto;
      change (list_sum (map esize (y :: es))) with (esize y + list_sum (map esize es)) in Ss.
    rewrite IH, IHes by lia. reflexivity. }
  destruct e as [l|i|a b|a o b|p a|a|a|es|es|d a]; cbn [esize] in S;
    try (cbn [words build let_free]; rewrite ?IH by lia; reflexivity); try (cbn [words build let_free]; apply Bs; lia).
  rewrite free_build by apply alternates_words. cbn [words]. rewrite forallb_app. cbn [forallb free_item andb].
  rewrite <- !free_build by apply alternates_words. rewrite !IH by lia. reflexivity.
Qed.
Lemma free_visit r e r' e' : visit_expr r e = Ok (r', e') -> let_free e' = let_free e.
Proof.
  intros V. apply C01_visit_keeps_reading in V. rewrite <- (free_words _ e' (le_n _)), <- (free_words _ e (le_n _)). now rewrite V.
Qed.
Lemma free_bare : forall n e, esize e <= n -> let_free e = true -> said (bare e) = said e.
Proof.
  induction n as [|n IH]; intros e S F; [pose proof (esize_pos e); lia|].
  assert (Bs : forall es, list_sum (map esize es) <= n -> forallb let_free es = true -> flat_map said (map bare es) = flat_map said es).
  { induction es as [|y es IHes]; intros Ss Fs; cbn [map flat_map]; auto;
      change (list_sum (map esize (y :: es))) with (esize y + list_sum (map esize es)) in Ss.
    cbn [forallb] in Fs. apply andb_true_iff in Fs as (F1&F2). rewrite IH, IHes by (auto; lia). reflexivity. }
  destruct e as [l|i|a b|a o b|p a|a|a|es|es|d a]; cbn [esize let_free bare said] in *; auto; try discriminate;
    try (apply andb_true_iff in F as (F1&F2)); rewrite ?IH by (auto; lia); auto; apply Bs; auto; lia.
Qed.

Section WithUcd.
Context {U : ucd}.

(** A typed expression without lets that is plain (C78) is answered, with any
    fixities, by a text whose names, operators and literals are those of the text
    typed, in the same order. *)
Theorem C113_answer : letters U -> scripts U -> forall src a l r r' a' errs e t, no_lfcr src -> parse src = POk a l ->
  a_kinds a = [Syntax.KExpr] -> a_exprs a = [e] -> plain_expr e = true -> let_free e = true -> resolve_ast r a = Ok (r', a', errs) ->
  exists e' s ts us, a_exprs a' = [e'] /\ print_expr t e' = Ok s /\ ctokens [] src ts /\ ctokens [] (visible s) us /\
    said_in (map fst us) = said_in (map fst ts).
Proof.
  intros HU HS src a l r r' a' errs e t N P K E Pl F R.
  destruct (parse_made src a l HU N P) as (M&_). destruct (C36_surface_form HU src a l P) as (S&_).
  destruct (C113_read HU src a l N P) as (ts&T&W).
  pose proof (resolve_stays _ _ _ _ _ R) as St. unfold resolve_ast, visit_ast in R. rewrite E in *.
  inversion St as [|? e' ? ys (Rd&_) Y E1 E2]; subst. inversion Y; subst. inversion M; inversion S; subst.
  cbn [visit_list] in R. destruct (visit_expr (load_fixities r a) e) as [(r1&e1)| |] eqn:V; try discriminate. cbn [obind] in R.
  injection R as _ <- _. cbn [a_exprs] in *. injection E2 as <-.
  assert (R2 : readable e') by (apply Rd; eapply plain_readable; eauto).
  destruct (C113_printed HU t e' R2) as (s&us&P'&T'&W'). exists e', s, ts, us. repeat (split; auto).
  rewrite W', (free_bare _ e' (le_n _)) by (rewrite (free_visit _ _ _ _ V); exact F).
  rewrite (C113_regrouped_expr _ _ _ _ V), <- W. unfold said_program. rewrite K, E. cbn [said_kinds]. destruct (a_infxs a); now rewrite app_nil_r.
Qed.
End WithUcd.
Print Assumptions C113_answer.

(** ** Examples *)

Local Existing Instance ucd_none.

Definition answer_ex : str := lit "f (a + 1) * b + \x -> x [y, 'c']".
Example C113_ex_answer : exists a l e r' a' errs, parse answer_ex = POk a l /\ a_kinds a = [Syntax.KExpr] /\ a_exprs a = [e] /\
  plain_expr e = true /\ let_free e = true /\ no_lfcr answer_ex /\
  resolve_ast (mkResolver [(Standard (lit "+"), mkFix 6 ALeft); (Standard (lit "*"), mkFix 7 ALeft)] []) a = Ok (r', a', errs) /\ a_exprs a' <> a_exprs a.
Proof.
  assert (N : no_lfcr answer_ex) by (apply clean_ok; vm_compute; reflexivity). revert N. generalize (no_lfcr answer_ex). intros Q N.
  vm_compute. do 6 eexists. repeat (split; [reflexivity|]). split; [exact N|]. split; [reflexivity|discriminate].
Qed.
