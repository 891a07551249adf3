(** What of a text matters, and texts one after the other: C76 and C77. *)
From Coq Require Import List Arith NArith Bool String Lia.
From Verif Require Import Prelim Chars Syntax Lexer SpecLexer ProofLexer Parser SpecParser SpecFixity SpecViable SpecShape
  SpecFixity ProofFixity ProofParser ProofParser3 ProofParser6 ProofParser7 ProofParser8 ProofParser9 ProofParser11 ProofParser15 ProofRepl3
  ProofShape ProofShape2 PropsLexer PropsParser.
Import ListNotations.
Local Open Scope string_scope.
Local Open Scope list_scope.

Section WithUcd.
Context {U : ucd}.

Lemma tokens_once : letters U -> forall s ts us, no_lfcr s -> ctokens [] s ts -> ctokens [] s us -> ts = us.
Proof.
  intros HU s ts us N T T'. apply (sees_source HU) in T; auto. apply (sees_source HU) in T'; auto. eapply sees_unique; eauto.
Qed.

(** ** C76 *)

(** Two texts with the same tokens, whose ends are in the same order from left
    to right, are the same program. *)
Theorem C76_shape : letters U -> forall s s' ts us, no_lfcr s -> no_lfcr s' ->
  ctokens [] s ts -> ctokens [] s' us -> same_shape ts us ->
  forall a, (exists l, parse s = POk a l) <-> (exists l, parse s' = POk a l).
Proof.
  intros HU s s' ts us N N' T T' Sh a. rewrite !C35_parse_is_grammar by auto.
  split; intros (xs&ds&X&P&->).
  - rewrite (tokens_once HU _ _ _ N X T) in P. exists us, ds. split; auto. split; auto. eapply shape_program; eauto.
  - rewrite (tokens_once HU _ _ _ N' X T') in P. exists ts, ds. split; auto. split; auto. eapply shape_program; [|eauto]. apply shape_sym; auto.
Qed.

(** On one line only the tokens matter. *)
Theorem C76_one_line : letters U -> forall s s' ts us, all not_lf s -> all not_lf s' ->
  ctokens [] s ts -> ctokens [] s' us -> map fst ts = map fst us ->
  forall a, (exists l, parse s = POk a l) <-> (exists l, parse s' = POk a l).
Proof.
  intros HU s s' ts us A A' T T' E. eapply C76_shape; eauto; try (apply one_line_clean; auto).
  eapply ascending_shape; [exact (ctokens_ascending HU [] s ts T A)|exact (ctokens_ascending HU [] s' us T' A')|auto].
Qed.

Lemma clean_cons (c : chr) r : no_lfcr (c :: r) <-> (c = 10%N -> forall x, r <> 13%N :: x) /\ no_lfcr r.
Proof.
  split.
  - intros N. split.
    + intros -> x ->. apply (N [] x). auto.
    + apply (no_lfcr_app_r [c]). auto.
  - intros (H&N) a b E. destruct a as [|d a]; cbn [app] in E; injection E as -> E.
    + apply (H eq_refl b). auto.
    + apply (N a b). auto.
Qed.
Lemma clean_ind n s : no_lfcr s -> no_lfcr (ind n s).
Proof.
  intros N. induction s as [|c s IH]; [apply one_line_clean; constructor|]. apply clean_cons in N as (H&N). specialize (IH N).
  cbn [ind flat_map]. change (flat_map _ s) with (ind n s). destruct (N.eqb_spec c 10) as [->|Nc].
  - cbn [app]. destruct n as [|n].
    + cbn [repeat app]. apply clean_cons. split; auto. intros _ x E. destruct s as [|d s]; [discriminate|].
      cbn in E. destruct (N.eqb_spec d 10); injection E as E; [discriminate|]. subst d. apply (H eq_refl s). auto.
    + apply clean_cons. split; [intros _ x; discriminate|].
      generalize (S n) at 1. intros k. induction k as [|k IHk]; auto. cbn [repeat app]. apply clean_cons. split; [discriminate|auto].
  - cbn [app]. apply clean_cons. split; [congruence|auto].
Qed.

(** Moving all lines to the right together changes nothing, as long as no token
    spans lines. *)
Theorem C76_indent : letters U -> forall n s ts, no_lfcr s -> within_lines [] s ts ->
  forall a, (exists l, parse s = POk a l) <-> (exists l, parse (indented n s) = POk a l).
Proof.
  intros HU n s ts N W. eapply C76_shape; eauto.
  - unfold indented. change (flat_map _ s) with (ind n s). generalize (clean_ind n s N). generalize (ind n s). intros z Z.
    clear - Z. induction n as [|n IH]; auto. cbn [repeat app]. apply clean_cons. split; [discriminate|auto].
  - apply within_ctokens; eauto.
  - apply (indented_tokens HU n s ts W).
  - apply shift_shape.
Qed.

(** ** C77 *)

Lemma both_fold ds es C : both (fold_left ast_push ds ast_empty) (fold_left ast_push es ast_empty) C <->
  C = fold_left ast_push (ds ++ es) ast_empty.
Proof.
  unfold both. rewrite !ast_of_exprs, !ast_of_infxs, !ast_of_kinds. cbn [ast_empty a_exprs a_infxs a_kinds app].
  split.
  - intros (E&I&K). destruct C as [ck ci ce]. cbn in *.
    destruct (fold_left ast_push (ds ++ es) ast_empty) as [fk fi fe] eqn:F.
    pose proof (f_equal a_exprs F) as F1. pose proof (f_equal a_infxs F) as F2. pose proof (f_equal a_kinds F) as F3.
    rewrite ast_of_exprs in F1. rewrite ast_of_infxs in F2. rewrite ast_of_kinds in F3. cbn in F1, F2, F3.
    unfold input_exprs, infix_decls in *. rewrite ?flat_map_app, ?map_app in *. congruence.
  - intros ->. rewrite !ast_of_exprs, !ast_of_infxs, !ast_of_kinds. cbn.
    unfold input_exprs, infix_decls. rewrite ?flat_map_app, ?map_app. auto.
Qed.

(** A program closed by a semicolon and a newline can be followed by any text:
    together they are a program iff that text is, and the declarations are
    those of both. *)
Theorem C77_concatenation : letters U -> forall a b A l, no_lfcr (a ++ b) -> closed a -> parse a = POk A l ->
  forall C, (exists l', parse (a ++ b) = POk C l') <-> exists B l', parse b = POk B l' /\ both A B C.
Proof.
  intros HU a b A l N (E&ts&k&T) Pa C.
  assert (Na : no_lfcr a) by (eapply no_lfcr_app_l; eauto). assert (Nb : no_lfcr b) by (eapply no_lfcr_app_r; eauto).
  assert (Ga : exists ds, program Nat.ltb (ts ++ [(TSemi, k)]) ds /\ A = fold_left ast_push ds ast_empty).
  { destruct (proj1 (C35_parse_is_grammar HU a A Na) (ex_intro _ l Pa)) as (xs&ds&X&P&->).
    rewrite (tokens_once HU _ _ _ Na X T) in P. eauto. }
  destruct Ga as (ds&P&->).
  assert (J : forall us, ctokens [] b us -> ctokens [] (a ++ b) ((ts ++ [(TSemi, k)]) ++ us)).
  { intros us Tb. apply ctokens_join; auto. cbn [app]. rewrite <- (app_nil_r a). apply ctokens_after; auto. }
  split.
  - intros H. apply (C35_parse_is_grammar HU _ _ N) in H as (xs&cs&X&Q&->).
    assert (Tb : exists us, ctokens [] b us /\ xs = (ts ++ [(TSemi, k)]) ++ us) by
      (destruct (ctokens_unjoin HU _ _ _ T (or_intror E) _ _ N X) as (us&->&Y); exists us; split; auto;
       apply (ctokens_before a b []); auto; rewrite app_nil_r; auto).
    destruct Tb as (us&Tb&->).
    pose proof (proj2 (sees_source HU _ _ N) X) as S0.
    destruct (program_split HU _ _ P _ _ eq_refl _ _ _ S0 Q) as (es&->&Pe).
    exists (fold_left ast_push es ast_empty).
    destruct (proj2 (C35_parse_is_grammar HU b _ Nb) (ex_intro _ us (ex_intro _ es (conj Tb (conj Pe eq_refl))))) as (l'&Eb).
    exists l'. split; auto. apply both_fold. auto.
  - intros (B&l'&Eb&Bo). destruct (proj1 (C35_parse_is_grammar HU b B Nb) (ex_intro _ l' Eb)) as (us&es&Tb&Pe&->).
    apply both_fold in Bo as ->. apply (C35_parse_is_grammar HU _ _ N). eexists. exists (ds ++ es). split; [apply J; exact Tb|]. split; auto.
    eapply program_join; eauto.
Qed.
End WithUcd.

(** * Cases *)

Lemma one_letter c v : is_lower (U := ucd_none) c = true -> is_upper (U := ucd_none) c = false -> word_char (U := ucd_none) c = true ->
  ~ In [c] (map fst reserved) -> stops (word_char (U := ucd_none)) v -> stops script v -> @lexeme ucd_none [c] (TLower [c]) v.
Proof. intros. apply (le_name c [] [] v); auto; repeat constructor; auto. Qed.

Ltac letter := apply one_letter; try reflexivity; cbn; intuition discriminate.

(** An argument on the next line, as it is and moved to the right. *)
Definition two_lines : str := lit "f" ++ 10%N :: lit "  a".
Example C76_ex_lines : @within_lines ucd_none [] two_lines [(TLower (lit "f"), 2); (TLower (lit "a"), 4)].
Proof.
  apply (wl_cons [] [] (lit "f") (TLower (lit "f")) (10%N :: lit "  a") [(TLower (lit "a"), 4)]); [constructor|letter|repeat constructor|].
  apply (wl_cons (lit "f") (10%N :: lit "  ") (lit "a") (TLower (lit "a")) [] []); [repeat constructor|letter|repeat constructor|].
  constructor. constructor.
Qed.
Example C76_ex : p two_lines = p (indented 3 two_lines) /\ p two_lines = Some ([], [App (v "f") (v "a")]).
Proof. split; vm_compute; reflexivity. Qed.
(** The order of columns matters, not their distance. *)
Example C76_ex_shape : same_shape [(TLower (lit "f"), 2); (TLower (lit "a"), 4)] [(TLower (lit "f"), 7); (TLower (lit "a"), 8)].
Proof.
  split; [reflexivity|]. intros i j a b c d A B C D.
  destruct i as [|[|i]], j as [|[|j]]; cbn in *; try discriminate;
    try (destruct i; discriminate); try (destruct j; discriminate);
    injection A as <-; injection B as <-; injection C as <-; injection D as <-; cbn; lia.
Qed.

Definition one : str := lit "x;" ++ [10%N].
Example C77_ex_closed : @closed ucd_none one.
Proof.
  split; [exists (lit "x;"); reflexivity|]. exists [(TLower (lit "x"), 2)], 3.
  apply (ct_cons [] [] (lit "x") (TLower (lit "x")) (lit ";" ++ [10%N]) [(TSemi, 3)]); [constructor|letter|].
  apply (ct_cons (lit "x") [] (lit ";") TSemi [10%N] []); [constructor|apply le_punct; cbn; tauto|].
  constructor. repeat constructor.
Qed.
Example C77_ex : p one = Some ([], [v "x"]) /\ p (lit "  y") = Some ([], [v "y"]) /\ p (one ++ lit "  y") = Some ([], [v "x"; v "y"]).
Proof. repeat split; vm_compute; reflexivity. Qed.
(** Without the semicolon the second text becomes an argument. *)
Example C77_ex_open : p ((lit "x" ++ [10%N]) ++ lit "  y") = Some ([], [App (v "x") (v "y")]).
Proof. vm_compute. reflexivity. Qed.

Print Assumptions C76_shape.
Print Assumptions C76_one_line.
Print Assumptions C76_indent.
Print Assumptions C77_concatenation.
