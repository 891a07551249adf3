(** C78: what is typed, printed and typed again. *)
From Coq Require Import List Arith NArith Bool Lia String.
From Verif Require Import Prelim Chars Syntax Fixity SpecFixity Style SpecStyle Lexer SpecLexer Parser SpecParser Printer SpecPrinter SpecTyped.
From Verif Require Import ProofTable ProofFixity ProofPrinter ProofPrinter3 ProofRepl3 ProofTyped ProofTyped2 PropsLexer PropsParser PropsPrinter.
Import ListNotations.

Section WithUcd.
Context {U : ucd}.

(** Of a program that is parsed and resolved, every expression that is plain
    (decided on the expression as typed) is printed in a way that can be typed
    again: it is read as one expression, equal to the resolved one up to
    grouping parentheses and local declarations, and that no table of operators
    changes any more. *)
Theorem C78_expressions : letters U -> scripts U -> forall src a l r r' a' errs,
  no_lfcr src -> parse src = POk a l -> resolve_ast r a = Ok (r', a', errs) ->
  Forall2 (fun e e' => plain_expr e = true -> forall t, exists s e'',
    print_expr t e' = Ok s /\
    (exists l', parse (visible s) = POk (ast_push ast_empty (DExpr e'')) l') /\
    bare e'' = bare e' /\
    forall q, r_errs q = [] -> exists q', resolve_ast q (ast_push ast_empty (DExpr e'')) = Ok (q', ast_push ast_empty (DExpr e''), []))
  (a_exprs a) (a_exprs a').
Proof.
  intros HU HS src a l r r' a' errs C P R.
  destruct (parse_made src a l HU C P) as (M&_). destruct (C36_surface_form HU src a l P) as (S&_).
  apply resolve_stays in R. revert M S. induction R as [|x y xs ys (K&_) R IH]; intros M S; [constructor|].
  inversion M; inversion S; subst. constructor; [|apply IH; auto].
  intros Pl t. apply (C19_reads_back_partial HU t y). apply K. eapply plain_readable; eauto.
Qed.

Lemma entries_made es : Forall (fun p => Forall op_made (snd p) /\ (fx_prec (fst p) <= 9)%N) es ->
  forall t, Forall entry_made t -> Forall entry_made (load_entries t es).
Proof.
  unfold load_entries. induction 1 as [|(f,os) es (H1&H2) H IH]; intros t T; cbn; auto. apply IH. now apply many_made.
Qed.

Lemma made_std u : u <> [] -> all op_char u -> ~ In u (map fst symbols) -> u <> lit "~~" -> op_made (Standard u).
Proof.
  intros N A B C. exists (TAffix u false). split; [|constructor]. exists u, [].
  assert (K : lexeme (u ++ []) (TAffix (u ++ []) false) []).
  { apply le_op; rewrite ?app_nil_r; auto; cbn; auto. constructor. }
  now rewrite app_nil_r in K.
Qed.

Ltac op := first
  [ apply made_std; [discriminate|repeat constructor; reflexivity| |discriminate];
    cbn; intros K; repeat (destruct K as [K|K]; [discriminate|]); exact K
  | exists TDash; split; [exists (lit "-"), []; apply le_symbol; [cbn; tauto|exact I|exact I]|constructor] ].

Lemma elem_made : op_made (Promoted (lit "elem")).
Proof.
  exists (TAffix (lit "elem") true). split; [|constructor]. exists (39%N :: lit "elem"), [].
  apply (le_quoted 101%N (lit "lem") [] []); try exact I; try reflexivity; repeat constructor; reflexivity.
Qed.

Lemma prelude_made : Forall (fun p => Forall op_made (snd p) /\ (fx_prec (fst p) <= 9)%N) prelude_entries.
Proof.
  unfold prelude_entries.
  repeat (apply Forall_cons; [split; [|cbn; lia]; cbn [snd]; repeat (apply Forall_cons; [first [exact elem_made|unfold std; op]|]); apply Forall_nil|]).
  apply Forall_nil.
Qed.
Lemma arithmetic_made : Forall (fun p => Forall op_made (snd p) /\ (fx_prec (fst p) <= 9)%N) arithmetic_entries.
Proof.
  unfold arithmetic_entries.
  repeat (apply Forall_cons; [split; [|cbn; lia]; cbn [snd]; repeat (apply Forall_cons; [first [exact elem_made|unfold std; op]|]); apply Forall_nil|]).
  apply Forall_nil.
Qed.

Lemma arrived_made r : letters U -> arrived r -> Forall entry_made (r_fix r) /\ NoDup (keys (r_fix r)).
Proof.
  intros HU. induction 1 as [|r H (IH1&IH2)|r H (IH1&IH2)|r H (IH1&IH2)|r src a l r' a' errs H (IH1&IH2) C P R]; cbn [r_fix fst load_hs_prelude load_arithmetic clear].
  - split; constructor.
  - split; [apply entries_made; auto; exact prelude_made|now apply load_entries_nodup].
  - split; [apply entries_made; auto; exact arithmetic_made|now apply load_entries_nodup].
  - split; constructor.
  - destruct (parse_made src a l HU C P) as (M1&M2). split.
    + eapply resolve_made; eauto.
    + apply (resolve_settled _ _ _ _ _ R IH2).
Qed.

(** Whatever programs have been read: if the operators made of names are plain,
    the listing of the table is a program that declares exactly that table. *)
Theorem C78_tables : letters U -> scripts U -> forall r, arrived r ->
  (forall o f, In (o, f) (r_fix r) -> plain_op o = true) ->
  exists a l, parse (visible (print_fixities (r_fix r))) = POk a l /\ a_exprs a = [] /\
    forall q o, get_defined (r_fix (load_fixities q a)) o =
      match get_defined (r_fix r) o with Some f => Some f | None => get_defined (r_fix q) o end.
Proof.
  intros HU HS r A P. destruct (arrived_made r HU A) as (M&N).
  apply (C22_reads_back_partial HU); auto. intros o f I. rewrite Forall_forall in M. destruct (M _ I) as (M1&M2). cbn [fst snd] in *.
  assert (Q : plain_op o = true) by (eapply P; eauto).
  split; [|split; auto]; apply op_back; auto; repeat split; try reflexivity; discriminate.
Qed.

End WithUcd.

(** * Examples *)

Lemma scripts_none : scripts ucd_none.
Proof. intros c _. split; reflexivity. Qed.

Local Open Scope string_scope.
Local Open Scope list_scope.

(** A program with a declaration and two expressions, one of them with a local
    declaration; both are plain, the resolver regroups both, and the result is
    printed and read back. *)
Definition typed_ex : str := lit "infixl 6 +, 'mod; infixl 7 *; \x -> f x * 2 + 'a' * y ; let infixl 8 + in (a + 1) * b + g (c, [1,2])".

Example C78_expressions_ex : match @parse ucd_none typed_ex with
  | POk a _ => forallb (@plain_expr ucd_none) (a_exprs a) = true /\ List.length (a_exprs a) = 2
      /\ match resolve_ast (mkResolver [] []) a with Ok (_, a', _) => a_exprs a <> a_exprs a' | _ => False end
  | _ => False
  end.
Proof. vm_compute. repeat split; discriminate. Qed.

Example C78_expressions_clean : no_lfcr typed_ex.
Proof. apply no_cr_clean. vm_compute. intuition discriminate. Qed.

(** Not plain: a name of one letter between backquotes, an applied lambda, the
    empty list as a pattern, a name in parentheses as an operator. *)
Example C78_not_plain : match @parse ucd_none (lit "(\x -> x) 1; a `f` b; \[]] -> 1; (+) a; ('div) a") with
  | POk a _ => map (@plain_expr ucd_none) (a_exprs a) = [true; false; false; true; false]
  | _ => False
  end.
Proof. vm_compute. auto. Qed.

Example C78_tables_ex : exists r, @arrived ucd_none r /\ (forall o f, In (o, f) (r_fix r) -> plain_op o = true)
  /\ List.length (r_fix r) = 25 /\ get_defined (r_fix r) (Promoted (lit "mod")) = Some (mkFix 6 ALeft)
  /\ get_defined (r_fix r) (std "*") = Some (mkFix 7 ALeft).
Proof.
  destruct (@parse ucd_none typed_ex) as [a l|e l|p|] eqn:P; try (vm_compute in P; discriminate).
  destruct (resolve_ast (fst (load_hs_prelude (mkResolver [] []))) a) as [((r'&a')&errs)|p|] eqn:R;
    [|exfalso; vm_compute in P; injection P as <- <-; vm_compute in R; discriminate..].
  exists r'. split.
  - eapply ar_program; [apply ar_prelude, ar_new|apply C78_expressions_clean|exact P|exact R].
  - vm_compute in P. injection P as <- <-. vm_compute in R. injection R as <- _ _. cbn [r_fix]. split.
    + intros o f I. cbn in I. repeat (destruct I as [I|I]; [injection I as <- <-; vm_compute; reflexivity|]). destruct I.
    + vm_compute. auto.
Qed.

Print Assumptions C78_expressions.
Print Assumptions C78_tables.
