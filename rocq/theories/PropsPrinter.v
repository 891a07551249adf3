(** The printer: C18 to C22. *)
From Coq Require Import List Arith NArith ZArith Bool Lia String.
From Verif Require Import Prelim Chars Syntax Fixity SpecFixity Style SpecStyle Lexer SpecLexer Parser SpecParser Printer SpecPrinter.
From Verif Require Import ProofTable ProofFixity ProofStyle ProofParser7 ProofParser8 ProofPrinter ProofPrinter2 ProofPrinter3 ProofPrinter5.
From Verif Require Import ProofPrinter6 ProofPrinter7 ProofPrinter8 ProofPrinter9 PropsFixity PropsLexer PropsParser.
Import ListNotations.

Section WithUcd.
Context {U : ucd}.

(** ** C18 *)

Theorem C18_table_irrelevant : forall t t' e, print_expr t e = print_expr t' e.
Proof. intros t t' e. apply print_same. Qed.

(** ** C19 *)

(** Read back under any fixities in force, the printed line is one expression,
    the same up to parentheses and the declarations of [let], and resolving it
    changes nothing.  This is for [readable] expressions; the expressions below
    ([C19_..._refuted]) are not readable and are not read back. *)
Theorem C19_reads_back_partial : letters U -> forall t e, readable e -> exists s e',
  print_expr t e = Ok s /\
  (exists l, parse (visible s) = POk (ast_push ast_empty (DExpr e')) l) /\
  bare e' = bare e /\
  forall r, r_errs r = [] ->
    exists r', resolve_ast r (ast_push ast_empty (DExpr e')) = Ok (r', ast_push ast_empty (DExpr e'), []).
Proof.
  intros HU t e R. destruct (print_reads_back t e HU R) as (s&e'&E&P&B&S1). exists s, e'. repeat split; auto.
  intros r Hr. apply print_back_resolved; auto.
Qed.

(** ** C20 *)

(** Printing fails exactly on expressions that contain a negation. *)
Theorem C20_panics_iff_negation : forall t e,
  (positive e -> exists s, print_expr t e = Ok s) /\ (~ positive e -> print_expr t e = Panic PTodoNeg).
Proof. intros t e. split; [apply print_ok|apply print_panic]. Qed.

(** Everything that is parsed can be printed after resolution, also when the
    resolver complains. *)
Theorem C20_parsed_prints : letters U -> forall src a l r r' a' errs, parse src = POk a l ->
  resolve_ast r a = Ok (r', a', errs) ->
  forall e t, In e (a_exprs a') -> exists s, print_expr t e = Ok s.
Proof.
  intros HU src a l r r' a' errs P E e t I. apply print_ok.
  assert (Q : Forall positive (a_exprs a)).
  { destruct (C36_surface_form HU _ _ _ P) as (S1&_). eapply Forall_impl; [|exact S1]. intros x. apply surface_positive. }
  apply (resolve_keeps (fun _ => [])) in E. apply keeps_list in E as (K&_). specialize (K Q).
  rewrite Forall_forall in K. auto.
Qed.

(** Also before resolution. *)
Theorem C20_parsed_prints_unresolved : letters U -> forall src a l, parse src = POk a l ->
  forall e t, In e (a_exprs a) -> exists s, print_expr t e = Ok s.
Proof.
  intros HU src a l P e t I. apply print_ok. destruct (C36_surface_form HU _ _ _ P) as (S1&_).
  rewrite Forall_forall in S1. eapply surface_positive; eauto.
Qed.

(** ** C21 *)

(** Whatever the texts of names and literals, the brackets outside them are
    matched, the two of a pair look the same, everything else is plain, and so
    is the terminal afterwards.  (An escape character in a name would reach the
    terminal; in a literal it would not.) *)
Theorem C21_nested_and_plain : forall t e, positive e -> (forall s, texts (fun _ => []) e s -> no_esc s) ->
  exists s, print_expr t e = Ok s /\ after s plain = Some plain /\
    nested (texts show_lit e) (shown s plain).
Proof.
  intros t e P N. destruct (print_shows (texts show_lit e) t e P (fun s H => H) N) as (s&o&E&R&_&Ne).
  exists s. split; auto. unfold after, shown. rewrite R. auto.
Qed.

(** If no name or literal contains a bracket, all brackets on the screen match. *)
Theorem C21_matched : forall t e, positive e -> (forall s, texts (fun _ => []) e s -> no_esc s) ->
  (forall s, texts show_lit e s -> Forall (fun c => is_bracket c = false) s) ->
  exists s, print_expr t e = Ok s /\ matched [] (visible s) = true.
Proof.
  intros t e P N B. destruct (C21_nested_and_plain t e P N) as (s&E&_&Ne). exists s. split; auto.
  unfold visible. rewrite <- (app_nil_r (map fst _)). rewrite (nested_matched _ _ B Ne). reflexivity.
Qed.

(** So for everything parsed from a source without escape characters, before
    and after resolution. *)
Theorem C21_parsed : letters U -> forall src a l r r' a' errs, no_lfcr src -> ~ In 27%N src ->
  parse src = POk a l -> resolve_ast r a = Ok (r', a', errs) ->
  forall e t, In e (a_exprs a) \/ In e (a_exprs a') ->
  exists s, print_expr t e = Ok s /\ after s plain = Some plain /\ nested (texts show_lit e) (shown s plain).
Proof.
  intros HU src a l r r' a' errs C N P E e t I.
  assert (Q : Forall positive (a_exprs a)).
  { destruct (C36_surface_form HU _ _ _ P) as (S1&_). eapply Forall_impl; [|exact S1]. intros x. apply surface_positive. }
  assert (T : Forall (expr_named (Forall (fun c => c <> 27%N))) (a_exprs a)).
  { eapply parse_named; eauto; try discriminate. apply Forall_forall. intros c Ic ->. auto. }
  assert (X : Forall positive (a_exprs a') /\ Forall (expr_named (Forall (fun c => c <> 27%N))) (a_exprs a')).
  { apply (resolve_keeps (fun _ => [])) in E. apply keeps_list in E as (K1&K2). split; auto.
    apply Forall_forall. intros y Iy s Ts. destruct (K2 _ _ Iy Ts) as (x&Ix&Tx). rewrite Forall_forall in T. eapply T; eauto. }
  destruct X as (X1&X2). rewrite Forall_forall in Q, T, X1, X2.
  assert (NE : forall s, Forall (fun c => c <> 27%N) s -> no_esc s).
  { intros s F J. rewrite Forall_forall in F. apply (F _ J). reflexivity. }
  destruct I as [I|I]; apply C21_nested_and_plain; auto; intros s Ts; apply NE; [eapply T|eapply X2]; eauto.
Qed.

End WithUcd.

(** ** C22 *)

(** One line per distinct fixity, in the order of their first operators. *)
Theorem C22_listing : forall t,
  (forall o f, In (o, f) t -> no_esc (symbol o) /\ o <> Promoted (lit "'")) ->
  visible (write_fixities t) = lines (map (fun f => listing_line f (with_fixity t f)) (firsts (map snd t))) /\
  after (write_fixities t) plain = Some plain /\
  visible (print_fixities t) = visible (write_fixities t) ++ [10%N] /\
  visible (write_entries t) = visible (write_fixities t) /\ after (write_entries t) plain = Some plain.
Proof.
  intros t H. destruct (listing_reads t) as ((o&R&M)&(o'&R'&M')).
  { apply Forall_forall. intros (o,f) I. apply (H o f I). }
  unfold visible, shown, after, print_fixities. rewrite read_app, R, R'. cbn [snd].
  rewrite read_text by (intros [E|[]]; discriminate). cbn [snd]. rewrite map_app. repeat split; auto. congruence.
Qed.

(** The lines: every operator on exactly one, with its fixity. *)
Theorem C22_complete : forall t o f, NoDup (keys t) -> In (o, f) t ->
  exists a b, firsts (map snd t) = a ++ f :: b /\ ~ In f (a ++ b) /\
    (exists x y, with_fixity t f = x ++ o :: y /\ forall o', In o' (x ++ y) -> symbol o' <> symbol o) /\
    forall g o', In g (a ++ b) -> In o' (with_fixity t g) -> symbol o' <> symbol o.
Proof.
  intros t o f N I.
  assert (U1 : forall o' g, In (o', g) t -> symbol o' = symbol o -> (o', g) = (o, f)).
  { intros o' g I' E. clear - N I I' E. induction t as [|(k,h) t IH]; [destruct I|]. cbn in N. inversion N as [|? ? H1 H2]; subst.
    assert (K : forall a b, In (a, b) t -> In (symbol a) (map (fun p => symbol (fst p)) t)).
    { intros a b X. apply in_map_iff. exists (a, b). auto. }
    destruct I as [I|I], I' as [I'|I']; try (injection I as <- <-); try (injection I' as <- <-); auto.
    - exfalso. apply H1. rewrite <- E. eapply K; eauto.
    - exfalso. apply H1. rewrite E. eapply K; eauto. }
  assert (If : In f (firsts (map snd t))) by (apply firsts_in; apply in_map_iff; exists (o, f); auto).
  destruct (in_split _ _ If) as (a&b&E). exists a, b. split; auto.
  assert (Nf : ~ In f (a ++ b)) by (apply NoDup_remove_2; rewrite <- E; apply firsts_nodup).
  split; auto. split.
  - assert (Io : In o (with_fixity t f)) by (apply with_fixity_in; auto).
    destruct (in_split _ _ Io) as (x&y&Ex). exists x, y. split; auto. intros o' I' Es.
    assert (NDk : NoDup (with_fixity t f)).
    { unfold with_fixity. apply (NoDup_map_inv symbol). rewrite map_map. clear - N. unfold keys in N.
      induction t as [|(k,h) t IH]; [constructor|]. cbn in N. inversion N as [|? ? H1 H2]; subst. cbn [filter snd].
      destruct (fixity_dec f h); auto. cbn [map fst]. constructor; auto. intros X. apply H1.
      apply in_map_iff in X as (z&Ez&Iz). apply filter_In in Iz as (Iz&_). apply in_map_iff. exists z. auto. }
    rewrite Ex in NDk. apply NoDup_remove_2 in NDk. apply NDk.
    assert (In o' (with_fixity t f)) by (rewrite Ex; apply in_or_app; apply in_app_or in I'; cbn; tauto).
    apply with_fixity_in in H. apply U1 in H; auto. injection H as ->. auto.
  - intros g o' Ig Io' Es. apply with_fixity_in in Io'. apply U1 in Io'; auto. injection Io' as _ ->. auto.
Qed.

Section WithUcd.
Context {U : ucd}.

(** The listing of a table, read as a program, declares the same fixities. *)
Theorem C22_reads_back_partial : letters U -> forall t, NoDup (keys t) ->
  (forall o f, In (o, f) t -> an_operator o 44 /\ an_operator o 10 /\ (fx_prec f <= 9)%N) ->
  exists a l, parse (visible (print_fixities t)) = POk a l /\ a_exprs a = [] /\
    forall r o, get_defined (r_fix (load_fixities r a)) o =
      match get_defined t o with Some f => Some f | None => get_defined (r_fix r) o end.
Proof.
  intros HU t N H.
  destruct (C22_listing t) as (V&_&V'&_).
  { intros o f I. destruct (H o f I) as (A&B&_). apply (listed_ok o). split; auto. }
  rewrite V', V. set (fs := firsts (map snd t)).
  assert (Ff : Forall (fun f => (fx_prec f <= 9)%N /\ Forall listed (with_fixity t f) /\ with_fixity t f <> []) fs).
  { apply Forall_forall. intros f I. unfold fs in I. apply (proj1 (firsts_in _ _)) in I. split; [|split].
    - apply in_map_iff in I as ((o,g)&<-&I). apply (H _ _ I).
    - apply Forall_forall. intros o Io. apply with_fixity_in in Io. destruct (H _ _ Io) as (A&B&_). split; auto.
    - apply with_fixity_some; auto. }
  assert (T : exists ts, ctokens [] (lines (map (fun f => listing_line f (with_fixity t f)) fs) ++ [10%N]) ts /\
    program Nat.ltb ts (map (fun f => DInfix (mkInfixDecl (with_fixity t f) f)) fs)).
  { destruct fs as [|f fs'] eqn:E.
    - exists []. split; [|constructor]. apply ct_end. apply gap_white; [reflexivity|constructor].
    - destruct (lines_back t (f :: fs') ltac:(discriminate) Ff []) as (ts&A&_&_&B). eauto. }
  assert (Cl : no_lfcr (lines (map (fun f => listing_line f (with_fixity t f)) fs) ++ [10%N])).
  { apply listing_clean. auto. }
  destruct T as (ts&T&P). set (a := fold_left ast_push (map (fun f => DInfix (mkInfixDecl (with_fixity t f) f)) fs) ast_empty).
  destruct (proj2 (parse_iff HU _ a Cl)) as (l&E); [eauto|]. exists a, l. split; auto.
  unfold a. rewrite ast_of_exprs. split.
  { clear. induction fs; auto. }
  intros r o. unfold load_fixities. rewrite ast_of_infxs. cbn [r_fix ast_empty a_infxs app].
  apply listing_loads; auto. intros f Hf. apply firsts_in; auto.
Qed.

End WithUcd.

(** * Examples *)

(** What is on the screen for the expressions of a source, before resolution. *)
Definition screens (src : str) : option (list str) :=
  match @parse ucd_none src with
  | POk a _ => Some (map (fun e => match @print_expr ucd_none [] e with Ok s => visible s | _ => [] end) (a_exprs a))
  | _ => None
  end.

(** C18, C19 *)

Definition ex19 : expr :=
  bin (v "a") "+" (Let (mkInfixDecl [Standard (lit "+")] (mkFix 2 ARight))
    (Lam (PVar (lit "x")) (App (v "f") (Grp (bin (Lit (LStr (lit "A"))) "*" (Tup [v "x"; Lit (LInt 1)])))))).

Lemma name_none s : match s with c :: u => @is_lower ucd_none c = true /\ @is_upper ucd_none c = false /\
    forallb (@word_char ucd_none) s = true /\ script c = false | [] => False end ->
  forallb (fun r => negb (str_eqb (fst r) s)) reserved = true -> @a_name ucd_none s.
Proof.
  destruct s as [|c u]; [intros []|]. intros (A&B&C&D) R. split; [|exact D].
  rewrite <- (app_nil_r u) at 1 2. apply (@le_name ucd_none c u [] []); auto.
  - apply Forall_forall. rewrite forallb_forall in C. exact C.
  - constructor.
  - exact I.
  - exact I.
  - rewrite app_nil_r. intros J. apply in_map_iff in J as (r&E&J). rewrite forallb_forall in R. specialize (R _ J).
    rewrite E in R. rewrite str_eqb_refl in R. discriminate.
Qed.

Example C19_ex_readable : @readable ucd_none ex19.
Proof.
  assert (N : forall s, match s with c :: u => @is_lower ucd_none c = true /\ @is_upper ucd_none c = false /\
    forallb (@word_char ucd_none) s = true /\ script c = false | [] => False end ->
    forallb (fun r => negb (str_eqb (fst r) s)) reserved = true -> @readable ucd_none (Var (ILower s))).
  { intros s A B. apply re_name. apply name_none; auto. }
  assert (O : forall s, In s (map lit ["+"; "*"]%string) -> @an_operator ucd_none (Standard s) 32).
  { intros s J. split; [|cbn in J; destruct J as [<-|[<-|[]]]; split; cbn; intuition discriminate].
    exists (TAffix s false). split; [|constructor].
    cbn in J; destruct J as [<-|[<-|[]]]; cbn [op_text];
    lazymatch goal with |- lexeme ?s _ _ => apply (@le_op ucd_none s [] [32%N]) end; try reflexivity; try discriminate; try (repeat constructor; fail);
      cbn; intuition discriminate. }
  unfold ex19, bin, v. apply re_bin; [apply O; cbn; auto|apply N; vm_compute; auto|]. apply re_let. apply re_lam.
  { apply rp_var. apply name_none; vm_compute; auto. }
  apply re_app; auto; [apply N; vm_compute; auto|]. apply re_grp. apply re_bin; [apply O; cbn; auto| |].
  - apply re_lit. apply rl_str. constructor; [|constructor]. right. left. split; [discriminate|reflexivity].
  - apply re_tup; [discriminate|]. constructor; [apply N; vm_compute; auto|]. constructor; [|constructor].
    apply re_lit. apply rl_int. reflexivity.
Qed.
Example C19_ex_letters : letters ucd_none.
Proof. exact letters_none. Qed.
Example C19_ex_text : match @print_expr ucd_none [] ex19 with Ok s => Some (visible s) | _ => None end =
  Some (lit "  a + ((\x -> f (""A"" * (x, 1))))" ++ [10%N]).
Proof. vm_compute. reflexivity. Qed.

(** A lambda applied to an argument, which layout allows: printed without the
    parentheses it needs. *)
Theorem C19_applied_lambda_refuted :
  p (lit "\x -> x" ++ 10%N :: lit "  y") = Some ([], [App (Lam (PVar (lit "x")) (v "x")) (v "y")]) /\
  screens (lit "\x -> x" ++ 10%N :: lit "  y") = Some [lit "  \x -> x y" ++ [10%N]] /\
  p (lit "  \x -> x y" ++ [10%N]) = Some ([], [Lam (PVar (lit "x")) (App (v "x") (v "y"))]).
Proof. vm_compute. auto. Qed.

(** An operator made of a name of one letter: the space becomes part of it. *)
Theorem C19_short_name_refuted :
  p (lit "a `f` b") = Some ([], [Bin (v "a") (Promoted (lit "f")) (v "b")]) /\
  screens (lit "a `f` b") = Some [lit "  a 'f b" ++ [10%N]] /\
  p (lit "  a 'f b" ++ [10%N]) = Some ([], [Bin (v "a") (Promoted (lit "f ")) (v "b")]).
Proof. vm_compute. auto. Qed.

(** A section of an operator made of a name: read back as the name in
    parentheses. *)
Theorem C19_section_refuted :
  p (lit "(`mod`)") = Some ([], [Var (IInfix (lit "mod"))]) /\
  screens (lit "(`mod`)") = Some [lit "  (mod)" ++ [10%N]] /\
  p (lit "  (mod)" ++ [10%N]) = Some ([], [Grp (v "mod")]).
Proof. vm_compute. auto. Qed.

(** A control character in a literal is printed as an escape that the lexer does
    not have. *)
Theorem C19_control_refuted :
  p [34; 1; 34]%N = Some ([], [Lit (LStr [1%N])]) /\
  screens [34; 1; 34]%N = Some [lit "  ""\u{1}""" ++ [10%N]] /\
  p (lit "  ""\u{1}""" ++ [10%N]) <> Some ([], [Lit (LStr [1%N])]).
Proof. vm_compute. repeat split; discriminate. Qed.

(** The empty list pattern. *)
Theorem C19_empty_pattern_refuted :
  p (lit "\[]] -> a") = Some ([], [Lam (PArr []) (v "a")]) /\
  screens (lit "\[]] -> a") = Some [lit "  \[] -> a" ++ [10%N]] /\
  p (lit "  \[] -> a" ++ [10%N]) = None.
Proof. vm_compute. auto. Qed.

(** Each printing adds a pair of parentheses to a lambda that is an operand. *)
Theorem C19_not_idempotent_refuted :
  screens (lit "a + \x -> x") = Some [lit "  a + ((\x -> x))" ++ [10%N]] /\
  screens (lit "a + ((\x -> x))") = Some [lit "  a + (((\x -> x)))" ++ [10%N]].
Proof. vm_compute. auto. Qed.

(** C20 *)

Example C20_ex : positive ex19 /\ ~ positive (Grp (Neg (v "a"))) /\
  @print_expr ucd_none [] (Grp (Neg (v "a"))) = Panic PTodoNeg.
Proof. split; [repeat constructor|split; [|reflexivity]]. intros H. inversion H as [| | | | |? H1| | |]. inversion H1. Qed.

(** Resolution fails here, and the expression is printed all the same. *)
Example C20_ex_unresolved : exists a l r' a' err, @parse ucd_none (lit "a == b == c") = POk a l /\
  resolve_ast (mkResolver [(Standard (lit "=="), mkFix 4 ANeither)] []) a = Ok (r', a', [err]) /\
  a_exprs a' = [bin (v "a") "==" (bin (v "b") "==" (v "c"))].
Proof. do 5 eexists. vm_compute. repeat split. Qed.

(** C21 *)

(** The brackets of one level are of one colour, those inside of another. *)
Example C21_ex : match @print_expr ucd_none [] (bin (v "a") "+" (bin (v "b") "*" (bin (v "c") "^" (Lit (LInt 2))))) with
  | Ok s => Some (visible s, map (fun x => t_fg (snd x)) (filter (fun x => is_bracket (fst x)) (shown s plain)))
  | _ => None
  end = Some (lit "  a + (b * (c ^ 2))" ++ [10%N],
    map (fun c => Some (Rgb c)) [mkRgb 255 140 0; mkRgb 255 237 0; mkRgb 255 237 0; mkRgb 255 140 0]).
Proof. vm_compute. reflexivity. Qed.

Example C21_ex_texts : forall s, texts (fun _ => []) ex19 s -> no_esc s.
Proof. intros s H. eapply (@readable_texts ucd_none); eauto. exact C19_ex_readable. Qed.

(** An escape character in the source: a name cannot contain one, but after an
    apostrophe any character is taken. *)
Example C21_escape_passes :
  p (lit "a '" ++ [27%N] ++ lit " b") = Some ([], [Bin (v "a") (Promoted [27%N; 32%N]) (v "b")]).
Proof. vm_compute. reflexivity. Qed.

(** C22 *)

Definition ex22 : fixities :=
  [(Standard (lit "+"), mkFix 6 ALeft); (Promoted (lit "div"), mkFix 7 ALeft); (Standard (lit "-"), mkFix 6 ALeft);
   (Standard (lit "=="), mkFix 4 ANeither)].

Example C22_ex : visible (print_fixities ex22) =
  lit "infixl 6 +, -" ++ 10%N :: lit "infixl 7 'div" ++ 10%N :: lit "infix  4 ==" ++ [10%N].
Proof. vm_compute. reflexivity. Qed.

Example C22_ex_keys : NoDup (keys ex22).
Proof. vm_compute. repeat constructor; cbn; intuition discriminate. Qed.

Example C22_ex_operators : forall o f, In (o, f) ex22 ->
  @an_operator ucd_none o 44 /\ @an_operator ucd_none o 10 /\ (fx_prec f <= 9)%N.
Proof.
  assert (O : forall s c, In s (map lit ["+"; "-"; "=="; "div"]%string) -> In c [44; 10]%N ->
    @an_operator ucd_none (if str_eqb s (lit "div") then Promoted s else Standard s) c).
  { intros s c J K. split; [|cbn in J; destruct J as [<-|[<-|[<-|[<-|[]]]]]; split; cbn; intuition discriminate].
    cbn in J, K. destruct J as [<-|[<-|[<-|[<-|[]]]]].
    - exists (TAffix (lit "+") false). split; [|constructor].
      apply (@le_op ucd_none (lit "+") [] [c]); destruct K as [<-|[<-|[]]]; try reflexivity; try discriminate; try (repeat constructor; fail);
        cbn; intuition discriminate.
    - exists TDash. split; [|constructor]. apply (@le_symbol ucd_none (lit "-")); destruct K as [<-|[<-|[]]]; try reflexivity; cbn; tauto.
    - exists (TAffix (lit "==") false). split; [|constructor].
      apply (@le_op ucd_none (lit "==") [] [c]); destruct K as [<-|[<-|[]]]; try reflexivity; try discriminate; try (repeat constructor; fail);
        cbn; intuition discriminate.
    - exists (TAffix (lit "div") true). split; [|constructor].
      apply (@le_quoted ucd_none 100%N (lit "iv") [] [c]); destruct K as [<-|[<-|[]]]; try reflexivity; repeat constructor. }
  intros o f J. cbn in J. destruct J as [J|[J|[J|[J|[]]]]]; injection J as <- <-; (split; [|split; [|discriminate]]).
  - apply (O (lit "+")); cbn; auto.
  - apply (O (lit "+")); cbn; auto.
  - apply (O (lit "div")); cbn; auto.
  - apply (O (lit "div")); cbn; auto.
  - apply (O (lit "-")); cbn; auto.
  - apply (O (lit "-")); cbn; auto.
  - apply (O (lit "==")); cbn; auto.
  - apply (O (lit "==")); cbn; auto.
Qed.

(** An operator made of a name of one letter, last on its line. *)
Theorem C22_short_name_refuted :
  visible (print_fixities [(Promoted (lit "f"), mkFix 6 ALeft)]) = lit "infixl 6 'f" ++ [10%N] /\
  p (lit "infixl 6 'f" ++ [10%N]) = Some ([mkInfixDecl [Promoted (lit "f" ++ [10%N])] (mkFix 6 ALeft)], []).
Proof. vm_compute. auto. Qed.

Print Assumptions C18_table_irrelevant.
Print Assumptions C19_reads_back_partial.
Print Assumptions C20_panics_iff_negation.
Print Assumptions C20_parsed_prints.
Print Assumptions C20_parsed_prints_unresolved.
Print Assumptions C21_nested_and_plain.
Print Assumptions C21_matched.
Print Assumptions C21_parsed.
Print Assumptions C22_listing.
Print Assumptions C22_complete.
Print Assumptions C22_reads_back_partial.
Print Assumptions C19_applied_lambda_refuted.
Print Assumptions C19_short_name_refuted.
Print Assumptions C19_section_refuted.
Print Assumptions C19_control_refuted.
Print Assumptions C19_empty_pattern_refuted.
Print Assumptions C19_not_idempotent_refuted.
Print Assumptions C22_short_name_refuted.
