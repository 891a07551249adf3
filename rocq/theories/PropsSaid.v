(** C113: the names, operators and literals of a text are those of the program
    read and of its resolution, in the same order. *)
From Coq Require Import List Arith NArith Bool String Lia.
From Verif Require Import Prelim Chars Syntax Fixity Lexer SpecLexer ProofLexer Parser SpecParser SpecFixity SpecPrinter Style SpecStyle Printer SpecSaid
  ProofResolve ProofFixity PropsMirror ProofParser3 ProofParser7 ProofParser8 ProofParser9 PropsFixity PropsParser PropsLexer PropsRepl
  ProofStyle ProofPrinter ProofPrinter2 ProofPrinter3 ProofPrinter5 ProofPrinter6 ProofPrinter7 PropsPrinter.
Import ListNotations.
Local Open Scope string_scope.
Local Open Scope list_scope.

Ltac even := cbn [map fst app said_from leave said_pat said flat_map said_decl d_infixes]; rewrite ?map_app, ?flat_map_app, ?app_nil_r, <- ?app_assoc;
  cbn [map fst app said_from leave said_pat said flat_map said_decl d_infixes].

Lemma said_operators ts is r : operators ts is r -> forall p r', p <> Params ->
  said_from p (map fst ts ++ r') = map said_infix is ++ said_from Elsewhere r'.
Proof.
  assert (L : forall p, p <> Params -> leave p = Elsewhere) by (intros [] H; try reflexivity; now destruct H).
  induction 1 as [t i k r O N|t i k k' ts is r O H IH]; intros p r' P; destruct O; cbn [map fst app said_from];
    try (destruct p; try congruence; cbn [leave said_infix map app]; try rewrite IH by discriminate; reflexivity).
Qed.
Lemma said_declares ts d r : declares ts d r -> forall p r', said_from p (map fst ts ++ r') = said_decl d ++ said_from Elsewhere r'.
Proof.
  intros [t a k n k' us is r0 A L O|t a k us is r0 A N O] p r'; destruct A; cbn [map fst app said_from];
    apply (said_operators _ _ _ O); discriminate.
Qed.
Lemma said_pats q ts ps r : pats q ts ps r -> forall r', said_from Params (map fst ts ++ r') = flat_map said_pat ps ++ said_from Params r'.
Proof.
  induction 1; intros r'; even; auto; try (rewrite IHpats; even; auto);
    try (rewrite IHpats1; even; rewrite IHpats2; even; auto).
Qed.
Lemma said_commas (cs : list ptok) r' : Forall (fun x => fst x = TComma) cs -> said_from Elsewhere (map fst cs ++ r') = said_from Elsewhere r'.
Proof. induction 1 as [|x cs E F IH]; auto. cbn [map app]. rewrite E. exact IH. Qed.
Lemma said_lams ps e : said (fold_right Lam e ps) = flat_map said_pat ps ++ said e.
Proof. induction ps as [|p ps IH]; auto. cbn [fold_right said flat_map]. rewrite IH. now rewrite app_assoc. Qed.
Definition before (q : ekind) : list word := match q with KArgs _ f => said f | _ => [] end.
Lemma said_exprs lay q ts es r : exprs lay q ts es r -> forall r',
  before q ++ said_from Elsewhere (map fst ts ++ r') = flat_map said es ++ said_from Elsewhere r'.
Proof.
  assert (O : forall o i r', operator o i -> said_from Elsewhere (o :: r') = said_infix i :: said_from Elsewhere r') by (intros o i r' []; reflexivity).
  assert (M : forall (xs ys : list ptok) r', map fst (xs ++ ys) ++ r' = map fst xs ++ map fst ys ++ r')
    by (intros; now rewrite map_app, app_assoc).
  assert (C : forall t k (ys : list ptok) r', map fst ((t, k) :: ys) ++ r' = t :: map fst ys ++ r') by reflexivity.
  induction 1 as [c ts e r A IA N|c ts x o i k t k' us e r A IA I B IB|c ts f us e r A IA B IB|c f r N
    |c f t k ts x us e r T L A IA B IB|x k r|s k r|s k r|k ts p ps k' us e r A B IB|k k' r|k s b k1 k' r
    |k cs k' r N F|k t k1 ts e k' r A IA|k t k1 ts e us es k' r A IA B IB N|k ts es k' r A IA|k ts d k' us e r A B IB
    |r N|k ts e us es r A IA B IB|k r|t k ts e k' us es r A IA B IB|t k ts e us es r A IA N B IB]; intros r';
    cbn [before flat_map] in *; rewrite ?app_nil_l, ?app_nil_r.
  - specialize (IA r'). rewrite app_nil_r in IA. exact IA.
  - rewrite M. specialize (IA (map fst ((o, k) :: (t, k') :: us) ++ r')). cbn [app flat_map] in IA. rewrite ?app_nil_r in IA. rewrite IA, C, (O _ _ _ I).
    specialize (IB r'). cbn [app flat_map] in IB. rewrite ?app_nil_r in IB. rewrite IB.
    cbn [said]. rewrite <- app_assoc. reflexivity.
  - rewrite M. specialize (IA (map fst us ++ r')). cbn [app flat_map] in IA. rewrite ?app_nil_r in IA. rewrite IA. specialize (IB r').
    cbn [app flat_map] in IB. rewrite ?app_nil_r in IB. exact IB.
  - reflexivity.
  - rewrite M. specialize (IA (map fst us ++ r')). cbn [app flat_map] in IA. rewrite ?app_nil_r in IA.
    rewrite IA. specialize (IB r').
    cbn [app flat_map said] in IB. rewrite ?app_nil_r, <- ?app_assoc in IB. exact IB.
  - reflexivity.
  - reflexivity.
  - reflexivity.
  - rewrite C. cbn [said_from]. rewrite M, (said_pats _ _ _ _ A), C. cbn [said_from]. specialize (IB r').
    cbn [app flat_map] in IB. rewrite ?app_nil_r in IB. rewrite IB, said_lams, <- app_assoc. reflexivity.
  - reflexivity.
  - reflexivity.
  - rewrite C. cbn [said_from leave]. rewrite M, said_commas by exact F. reflexivity.
  - rewrite C. cbn [said_from leave]. rewrite M. specialize (IA (map fst [(TParenR, k')] ++ r')). cbn [app flat_map] in IA.
    rewrite ?app_nil_r in IA. rewrite IA. reflexivity.
  - rewrite C. cbn [said_from leave]. rewrite M. specialize (IA (map fst (us ++ [(TParenR, k')]) ++ r')). cbn [app flat_map] in IA.
    rewrite ?app_nil_r in IA. rewrite IA, M. specialize (IB (map fst [(TParenR, k')] ++ r')). cbn [app] in IB. rewrite IB. cbn [said flat_map]. rewrite <- app_assoc. reflexivity.
  - rewrite C. cbn [said_from leave]. rewrite M. specialize (IA (map fst [(TBrackR, k')] ++ r')). cbn [app] in IA. rewrite IA. reflexivity.
  - rewrite C. cbn [said_from leave]. rewrite M, (said_declares _ _ _ A), C. cbn [said_from leave]. specialize (IB r').
    cbn [app flat_map] in IB. rewrite ?app_nil_r in IB. rewrite IB. cbn [said]. rewrite <- app_assoc. reflexivity.
  - reflexivity.
  - rewrite C. cbn [said_from leave]. rewrite M. specialize (IA (map fst us ++ r')). cbn [app flat_map] in IA. rewrite ?app_nil_r in IA.
    specialize (IB r'). cbn [app] in IB. rewrite IA, IB. now rewrite <- app_assoc.
  - reflexivity.
  - rewrite M. specialize (IA (map fst ((TComma, k') :: us) ++ r')). cbn [app flat_map] in IA. rewrite ?app_nil_r in IA.
    rewrite IA, C. cbn [said_from leave]. specialize (IB r'). cbn [app] in IB. rewrite IB. now rewrite <- app_assoc.
  - rewrite M. specialize (IA (map fst us ++ r')). cbn [app flat_map] in IA. rewrite ?app_nil_r in IA.
    specialize (IB r'). cbn [app] in IB. rewrite IA, IB. now rewrite <- app_assoc.
Qed.

Definition said_of (d : decl) : list word := match d with DInfix i => said_decl i | DExpr e => said e end.
Lemma said_decl_of lay ts d r r' : decl_of lay ts d r -> said_from Elsewhere (map fst ts ++ r') = said_of d ++ said_from Elsewhere r'.
Proof.
  intros [us i r0 D|t k us e r0 E]; [now apply (said_declares _ _ _ D)|].
  pose proof (said_exprs _ _ _ _ _ E r') as S1. cbn [before app flat_map] in S1. rewrite app_nil_r in S1. exact S1.
Qed.
Lemma said_decls lay ts ds : program lay ts ds -> said_in (map fst ts) = flat_map said_of ds.
Proof.
  unfold said_in. induction 1 as [|ts d k us ds D P IH|ts d us ds D N P IH]; auto; rewrite map_app, (said_decl_of _ _ _ _ _ D); cbn [flat_map].
  - change (map fst ((TSemi, k) :: us)) with (TSemi :: map fst us). cbn [said_from leave]. now rewrite IH.
  - f_equal. exact IH.
Qed.
Lemma said_kinds_app ks is es ks' is' es' :
  List.length is = List.length (filter (fun k => match k with Syntax.KInfix => true | _ => false end) ks) ->
  List.length es = List.length (filter (fun k => match k with Syntax.KInfix => false | _ => true end) ks) ->
  said_kinds (ks ++ ks') (is ++ is') (es ++ es') = said_kinds ks is es ++ said_kinds ks' is' es'.
Proof.
  revert is es. induction ks as [|k ks IH]; intros is es I E.
  - destruct is, es; try discriminate. reflexivity.
  - destruct k; cbn [filter List.length] in I, E.
    + destruct is as [|i is]; [discriminate|]. cbn [app said_kinds]. rewrite IH by (cbn in *; congruence). now rewrite app_assoc.
    + destruct es as [|e es]; [discriminate|]. injection E as E.
      change ((Syntax.KExpr :: ks) ++ ks') with (Syntax.KExpr :: ks ++ ks'). change ((e :: es) ++ es') with (e :: es ++ es').
      destruct is as [|i is]; cbn [app said_kinds]; rewrite <- app_assoc; f_equal; [destruct is' as [|i is']|].
      * now rewrite <- (IH [] es I E).
      * now rewrite <- (IH [] es I E).
      * now rewrite <- (IH (i :: is) es I E).
Qed.
Lemma said_pushed ds : said_program (fold_left ast_push ds ast_empty) = flat_map said_of ds.
Proof.
  assert (G : forall ds a, List.length (a_infxs a) = List.length (filter (fun k => match k with Syntax.KInfix => true | _ => false end) (a_kinds a)) ->
    List.length (a_exprs a) = List.length (filter (fun k => match k with Syntax.KInfix => false | _ => true end) (a_kinds a)) ->
    said_program (fold_left ast_push ds a) = said_program a ++ flat_map said_of ds); [|now apply (G ds ast_empty)].
  induction ds0 as [|d ds0 IH]; intros a I E; cbn [fold_left flat_map]; [now rewrite app_nil_r|].
  rewrite IH.
  - rewrite app_assoc. f_equal. destruct a as [ks is es], d as [i|e]; unfold said_program; cbn [ast_push a_kinds a_infxs a_exprs kind said_of] in *.
    + rewrite <- (app_nil_r es) at 1. rewrite said_kinds_app by auto. cbn [said_kinds]. now rewrite app_nil_r.
    + rewrite <- (app_nil_r is) at 1. rewrite said_kinds_app by auto. cbn [said_kinds]. now rewrite app_nil_r.
  - destruct a as [ks is es], d as [i|e]; cbn [ast_push a_kinds a_infxs a_exprs kind] in *; rewrite filter_app, !app_length, ?I; cbn; lia.
  - destruct a as [ks is es], d as [i|e]; cbn [ast_push a_kinds a_infxs a_exprs kind] in *; rewrite filter_app, !app_length, ?E; cbn; lia.
Qed.

(** ** Resolution *)

Definition said_item (i : item) : list word := match i with Operand x => said x | Operator o => [said_infix o] end.
Lemma said_build its : alternates its -> said (build its) = flat_map said_item its.
Proof.
  induction 1 as [e|e o its A IH]; [cbn; now rewrite app_nil_r|].
  change (build (Operand e :: Operator o :: its)) with (Bin e o (build its)). cbn. now rewrite IH.
Qed.
Lemma said_words : forall n e, esize e <= n -> said (build (words e)) = said e.
Proof.
  induction n as [|n IH]; intros e S; [pose proof (esize_pos e); lia|].
  assert (Bs : forall es, list_sum (map esize es) <= n -> flat_map said (map (fun x => build (words x)) es) = flat_map said es).
  { induction es as [|y es IHes]; intros Ss; cbn [map flat_map]; auto;
      change (list_sum (map esize (y :: es))) with (esize y + list_sum (map esize es)) in Ss.
    rewrite IH, IHes by lia. reflexivity. }
  destruct e as [l|i|a b|a o b|p a|a|a|es|es|d a]; cbn [esize] in S;
    try (cbn [words build said]; rewrite ?IH by lia; reflexivity); try (cbn [words build said]; apply Bs; lia).
  rewrite said_build by apply alternates_words. cbn [words]. rewrite flat_map_app. cbn [flat_map said_item].
  rewrite <- !said_build by apply alternates_words. rewrite !IH by lia. reflexivity.
Qed.
Lemma said_visit r e r' e' : visit_expr r e = Ok (r', e') -> said e' = said e.
Proof.
  intros V. apply C01_visit_keeps_reading in V. rewrite <- (said_words _ e' (le_n _)), <- (said_words _ e (le_n _)). now rewrite V.
Qed.
Lemma said_kinds_exprs ks : forall is es es', map said es' = map said es -> said_kinds ks is es' = said_kinds ks is es.
Proof.
  induction ks as [|[] ks IH]; intros is es es' E; auto.
  - destruct is as [|i is]; auto. cbn [said_kinds]. f_equal. now apply IH.
  - destruct es as [|e es], es' as [|e' es']; try discriminate; [destruct is; auto|]. injection E as E1 E2.
    destruct is; cbn [said_kinds]; rewrite E1; f_equal; now apply IH.
Qed.
Lemma said_visits : forall es r r' es', visit_list visit_expr r es = Ok (r', es') -> map said es' = map said es.
Proof.
  induction es as [|e es IH]; intros r r' es' V; cbn [visit_list] in V; [now injection V as <- <-|].
  destruct (visit_expr r e) as [[r1 e1]| |] eqn:V1; try discriminate. cbn [obind] in V.
  destruct (visit_list visit_expr r1 es) as [[r2 es2]| |] eqn:V2; try discriminate. injection V as <- <-.
  cbn [map]. f_equal; [now apply said_visit in V1|eauto].
Qed.

(** ** C113 *)

Section WithUcd.
Context {U : ucd}.
Hypothesis HU : letters U.

(** C113: a program that has been read says the same as its text, in the same
    order: nothing is lost, added, repeated or moved. *)
Theorem C113_read : forall src a l, no_lfcr src -> parse src = POk a l ->
  exists ts, ctokens [] src ts /\ said_program a = said_in (map fst ts).
Proof.
  intros src a l N P. destruct (proj1 (C35_parse_is_grammar HU src a N)) as (ts&ds&T&Pr&->); [eauto|].
  exists ts. split; auto. rewrite said_pushed. symmetry. exact (said_decls _ _ _ Pr).
Qed.

(** Of an expression at the start of a text, what it says comes first, the rest is not read. *)
Theorem C113_read_expr : forall src ts e l, no_lfcr src -> ctokens [] src ts -> parse_expr src = POk e l ->
  exists us r, ts = us ++ r /\ said_in (map fst ts) = said e ++ said_in (map fst r).
Proof.
  intros src ts e l N T P. destruct (proj1 (C35_parse_expr_is_grammar HU src ts e N T)) as (us&r&ws&v&_&_&_&->&E); [eauto|].
  exists us, r. split; auto. unfold said_in. rewrite map_app.
  pose proof (said_exprs _ _ _ _ _ E (map fst r)) as S1. cbn [before app flat_map] in S1. now rewrite app_nil_r in S1.
Qed.
Lemma printed_clean t e s : readable e -> print_expr t e = Ok s -> no_lfcr (visible s).
Proof.
  intros R P. destruct (print_shows (fun _ => True) t e (readable_positive _ R) (fun _ _ => I) (readable_texts _ R)) as (s'&o&E&Rd&M&_).
  rewrite P in E. injection E as <-. unfold visible, shown. rewrite Rd. cbn [snd]. rewrite M.
  replace ([32%N; 32%N] ++ fexpr false e ++ [10%N]) with ((32%N :: 32%N :: fexpr false e) ++ [10%N]) by reflexivity.
  apply clean_last. apply line_cons; [discriminate|]. apply line_cons; [discriminate|]. eapply expr_line; eauto.
Qed.
Lemma said_bare : forall e, single e -> said (bare e) = said e.
Proof.
  fix IH 2. intros e H.
  assert (L : forall es, Forall single es -> flat_map said (map bare es) = flat_map said es).
  { clear H e. fix IHl 2. intros es H. destruct H as [|x es H Hs]; [reflexivity|]. cbn [map flat_map]. now rewrite (IH _ H), (IHl _ Hs). }
  destruct H as [x|i|f x Hf Hx|a o b Na Nb Ha Hb|p e He|e He|es Hs|es Hs]; cbn [bare said]; auto;
    [rewrite (IH _ Hf), (IH _ Hx)|rewrite (IH _ Ha), (IH _ Hb)|rewrite (IH _ He)]; reflexivity.
Qed.

(** What is printed says what the expression says, but for the declarations of
    its lets; for expressions that can be read back (C19). *)
Theorem C113_printed : forall t e, readable e -> exists s ts, print_expr t e = Ok s /\ ctokens [] (visible s) ts /\
  said_in (map fst ts) = said (bare e).
Proof.
  intros t e R. destruct (print_reads_back t e HU R) as (s&e'&E&(l&P)&B&S1).
  destruct (C113_read (visible s) _ l (printed_clean t e s R E) P) as (ts&T&W). exists s, ts. split; auto. split; auto.
  rewrite <- W, <- B, (said_bare _ S1). cbn. apply app_nil_r.
Qed.
End WithUcd.
Print Assumptions C113_printed.
Print Assumptions C113_read.
Print Assumptions C113_read_expr.

(** Regrouping keeps all of it, with or without errors, and also the declarations. *)
Theorem C113_regrouped : forall r a r' a' errs, resolve_ast r a = Ok (r', a', errs) -> said_program a' = said_program a.
Proof.
  intros r a r' a' errs R. unfold resolve_ast, visit_ast in R.
  destruct (visit_list visit_expr (load_fixities r a) (a_exprs a)) as [[r1 es]| |] eqn:V; try discriminate.
  cbn [obind] in R. injection R as <- <- <-. apply said_kinds_exprs. cbn [a_exprs]. now apply said_visits in V.
Qed.
Print Assumptions C113_regrouped.

Theorem C113_regrouped_expr : forall r e r' e', visit_expr r e = Ok (r', e') -> said e' = said e.
Proof. exact said_visit. Qed.
Print Assumptions C113_regrouped_expr.

Theorem C113_text : forall {U : ucd}, letters U -> forall src a l r r' a' errs, no_lfcr src -> parse src = POk a l ->
  resolve_ast r a = Ok (r', a', errs) -> exists ts, ctokens [] src ts /\ said_program a' = said_in (map fst ts).
Proof.
  intros U HU src a l r r' a' errs N P R. destruct (C113_read HU src a l N P) as (ts&T&E). exists ts. split; auto.
  now rewrite (C113_regrouped _ _ _ _ _ R).
Qed.
Print Assumptions C113_text.

(** ** Examples *)

Local Existing Instance ucd_none.

Definition said_ex : str := lit "infixl 5 +, *; f (a + 1) * b + \x (-y) -> x - [a b, 2]; g".
Definition said_ex_words : list word :=
  map (fun s => Said (lit s)) ["+"; "*"; "f"; "a"; "+"] ++ Value (LInt 1) ::
  map (fun s => Said (lit s)) ["*"; "b"; "+"; "x"; "y"; "x"; "-"; "a"; "b"] ++ [Value (LInt 2); Said (lit "g")].
Example C113_ex : exists a l, parse said_ex = POk a l /\ said_program a = said_ex_words.
Proof. vm_compute. eauto. Qed.
Example C113_ex_tokens : exists ts, ctokens [] said_ex ts /\ said_in (map fst ts) = said_ex_words.
Proof.
  destruct C113_ex as (a&l&P&E). destruct (C113_read letters_none said_ex a l) as (ts&T&W); auto; [apply clean_ok; vm_compute; reflexivity|].
  exists ts. split; auto. now rewrite <- W.
Qed.
Example C113_ex_regrouped : exists a l r' a' errs, parse said_ex = POk a l /\
  resolve_ast (mkResolver [] []) a = Ok (r', a', errs) /\ a' <> a /\ said_program a' = said_ex_words.
Proof.
  destruct (parse said_ex) as [a l| | |] eqn:P; try (vm_compute in P; discriminate P).
  destruct (resolve_ast (mkResolver [] []) a) as [[[r' a'] errs]| |] eqn:R.
  - exists a, l, r', a', errs. repeat split; auto.
    + intros ->. vm_compute in P. injection P as <- _. vm_compute in R. discriminate R.
    + rewrite (C113_regrouped _ _ _ _ _ R). destruct C113_ex as (b&k&Q&W). congruence.
  - vm_compute in P. injection P as <- _. vm_compute in R. discriminate R.
  - vm_compute in P. injection P as <- _. vm_compute in R. discriminate R.
Qed.
Example C113_ex_printed : exists s ts, print_expr [] ex19 = Ok s /\ ctokens [] (visible s) ts /\
  said_in (map fst ts) = map (fun s => Said (lit s)) ["a"; "+"; "x"; "f"] ++
    Value (LStr (lit "A")) :: map (fun s => Said (lit s)) ["*"; "x"] ++ [Value (LInt 1)].
Proof. exact (C113_printed letters_none [] ex19 C19_ex_readable). Qed.
