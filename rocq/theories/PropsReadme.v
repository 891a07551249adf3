(** What the README promises: C83 to C86. *)
From Coq Require Import List Arith NArith Bool String Lia.
From Verif Require Import Prelim Chars Syntax Fixity SpecFixity Lexer SpecLexer SpecLexRun Parser SpecParser SpecViable SpecOutcome SpecReadme SpecRepl.
From Verif Require Import ProofLexer4 ProofTable ProofParser7 ProofParser9 ProofReadme ProofReadme2 ProofReadme3 ProofReadme4.
From Verif Require Import Grapheme Style Printer Messages Repl PropsLexer PropsParser PropsOutcome PropsRepl PropsTyped ProofRepl2 ProofRepl9.
Import ListNotations.
Open Scope string_scope.
Open Scope list_scope.

Section WithUcd.
Context {U : ucd}.

(** ** C83 *)

(** Where the program does not follow: a lone backslash or arrow is not an
    operator for it; without a number, the first operator cannot be a minus or
    an at sign. *)
Definition followed (given : bool) (os : list infix) : Prop :=
  ~ In (Standard (lit "\")) os /\ ~ In (Standard (lit "->")) os /\
  (given = true \/ hd_error os <> Some (Standard (lit "-")) /\ hd_error os <> Some (Standard (lit "@"))).

Lemma followed_iff g d : d_infixes d <> [] -> readable_decl g d = true <-> followed g (d_infixes d).
Proof.
  destruct d as [os f]. cbn [d_infixes]. intros Ne. unfold readable_decl, followed. cbn [d_infixes].
  assert (K : forall os, existsb reserved_op os = false <-> ~ In (Standard (lit "\")) os /\ ~ In (Standard (lit "->")) os).
  { clear. induction os as [|o os IH]; [cbn; tauto|]. cbn [existsb In]. rewrite orb_false_iff, IH.
    assert (X : reserved_op o = false <-> o <> Standard (lit "\") /\ o <> Standard (lit "->")).
    { destruct o as [s|s]; cbn [reserved_op].
      - rewrite orb_false_iff. destruct (str_eqb_spec s (lit "\")) as [E1|E1]; destruct (str_eqb_spec s (lit "->")) as [E2|E2]; split; intros (A&B); try congruence; split; congruence.
      - split; auto. split; discriminate. }
    rewrite X. intuition. }
  rewrite andb_true_iff, negb_true_iff, K. destruct os as [|o os]; [congruence|]. cbn [hd_error].
  destruct g; [cbn; tauto|]. cbn [orb].
  assert (X : o <> Standard (lit "\") -> o <> Standard (lit "->") ->
    (is_affix (token_of o) = true <-> Some o <> Some (Standard (lit "-")) /\ Some o <> Some (Standard (lit "@")))).
  { intros N1 N2. destruct o as [s|s]; cbn [token_of]; [|split; auto; split; discriminate].
    destruct (str_eqb_spec s (lit "\")) as [->|]; [congruence|]. destruct (str_eqb_spec s (lit "->")) as [->|]; [congruence|].
    destruct (str_eqb_spec s (lit "-")) as [->|]; [split; [discriminate|intros (A&B); congruence]|].
    destruct (str_eqb_spec s (lit "@")) as [->|]; [split; [discriminate|intros (A&B); congruence]|].
    split; auto. intros _. split; congruence. }
  cbn [In]. split.
  - intros ((A&B)&C). split; auto. split; auto. right. apply X; auto.
  - intros (A&B&[C|C]); [discriminate|]. split; auto. apply X; auto.
Qed.

(** A declaration of the README is read as what it says, exactly under this
    condition. *)
Theorem C83_declarations_partial : letters U -> forall given d s, fixity_text given d s -> no_lfcr s ->
  ((exists l, parse s = POk (ast_push ast_empty (DInfix d)) l) <-> followed given (d_infixes d)).
Proof.
  intros HU g d s F N. rewrite (fixity_parse HU g d s F N). apply followed_iff.
  destruct F as [g a n p w w' os r _ _ _ _ R]. destruct R; discriminate.
Qed.

(** The same for several declarations, with white space between them or none. *)
Lemma fixities_some ds r : fixities_text ds r -> Forall (fun x => followed (fst x) (d_infixes (snd x))) ds ->
  Forall (fun x => readable_decl (fst x) (snd x) = true) ds.
Proof.
  induction 1 as [w0 W0|w g d s ds r W F R IH]; intros H; [constructor|]. inversion H as [|x xs H1 H2]; subst. constructor; auto.
  apply followed_iff; auto. destruct F as [g a n p w1 w' os r1 _ _ _ _ X]. destruct X; discriminate.
Qed.

Theorem C83_programs_partial : letters U -> forall ds s, fixities_text ds s -> no_lfcr s ->
  Forall (fun x => followed (fst x) (d_infixes (snd x))) ds ->
  exists l, parse s = POk (fold_left ast_push (map (fun x => DInfix (snd x)) ds) ast_empty) l.
Proof.
  intros HU ds s F N H. apply (parse_iff HU); auto. destruct (fixities_program HU ds s F (fixities_some _ _ F H) []) as (ts&T&_&_&P).
  exists ts. eexists. eauto.
Qed.

(** ** C54 *)

(** The lines of a Haskell file that are declarations of the README.  Missing:
    lines with comments, and operators spelled with an apostrophe. *)
Theorem C54_readme_partial : letters U -> forall w s l c arg p q x ls xs ds,
  reached s -> SpecRepl.reads l (Command c) -> s_buf s = [] -> command c ":load" arg -> word_list arg [p] ->
  arg <> lit "--prelude" -> arg <> lit "--math" -> path_of p q -> hs_path q ->
  w_read w 0 q = inl x -> text_lines x ls -> fixity_lines ls xs ->
  Forall2 (fun t x => fixity_text (fst x) (snd x) t /\ followed (fst x) (d_infixes (snd x))) xs ds ->
  exists n m s', decimal (List.length ds) n /\
    step s (Line w l) = ([ARead q; AOut (n ++ lit " fixities read from `" ++ q ++ lit "`" ++ [10%N]); AOut m], Running s') /\
    s_buf s' = [] /\ s_hist s' = s_hist s /\
    forall o, in_force s' o = declared (in_force s) (map snd ds) o.
Proof.
  intros HU w s l c arg p q x ls xs ds Re R B C W N1 N2 Pq H Rd T F D.
  rewrite (run_load w s l c arg p q) by assumption.
  assert (D' : fixities_text ds (List.concat xs) /\ Forall (fun x => followed (fst x) (d_infixes (snd x))) ds).
  { clear - D. induction D as [|t [g d] xs ds (F1&F2) D (IH1&IH2)]; [split; repeat constructor|].
    split; [|constructor; auto]. apply (fs_more [] g d t ds (List.concat xs)); auto. constructor. }
  destruct D' as (D1&D2). destruct (fixities_program HU ds _ D1 (fixities_some _ _ D1 D2) []) as (ts&Tk&_&_&Pr).
  destruct (read_file_declarations HU w 0 s q x (List.concat xs) (map snd ds)) as (s'&E&Bf&Hi&G).
  - apply reached_settled; auto.
  - auto.
  - econstructor; eauto.
  - assert (Lf : all not_lf (List.concat xs)); [|intros a b Eq; rewrite Eq in Lf; apply Forall_app in Lf as (_&Lf); inversion Lf as [|? ? D3 _]; discriminate D3].
    destruct T as (_&_&Fl). clear - F Fl. induction F as [|l x ls xs Tr F IH|l ls xs Tr F IH]; cbn [List.concat].
    + constructor.
    + inversion Fl as [|? ? Fl1 Fl2]; subst. apply Forall_app. split; [|exact (IH Fl2)]. destruct Tr as (a&b&->&_). match goal with X : all not_lf (_ ++ _) |- _ => apply Forall_app in X as (_&X); apply Forall_app in X as (X&_); exact X end.
    + inversion Fl as [|? ? Fl1 Fl2]; subst; exact (IH Fl2).
  - exists ts. split; auto. rewrite map_map. exact Pr.
  - rewrite map_length in E. exists (show_nat (List.length ds)). eexists. exists s'. split; [apply show_nat_decimal|].
    rewrite E. unfold outln. rewrite <- !app_assoc. split; [reflexivity|]. rewrite Bf. auto.
Qed.

(** ** C84 *)

(** A sentence of the README on one line is one expression exactly if a lambda
    or [let] stands directly after an operand only within the brackets of a list, and a
    minus or at sign neither after an opening parenthesis nor after the keyword
    of a declaration. *)
Theorem C84_expressions_partial : letters U -> forall src ts, all not_lf src -> tokens src ts -> derives Expr ts ->
  ((exists e l, parse src = POk (ast_push ast_empty (DExpr e)) l) <-> tame ts).
Proof.
  intros HU src ts A T D.
  assert (C : forall w, exists cts, ctokens w src cts /\ map fst cts = ts).
  { clear - T. induction T as [g G|g s t v ts G L T IH]; intros w.
    - exists []. split; auto. apply ct_end; auto.
    - destruct (IH (w ++ g ++ s)) as (cts&C&E). eexists. split; [apply ct_cons; eauto|]. cbn. now rewrite E. }
  destruct (C []) as (cts&C'&E). split.
  - intros (e&X). apply C40_one_line in X as (cts'&ds&T'&P&Ea); auto. symmetry in Ea. apply pushed_expr in Ea as ->.
    assert (cts' = cts) as ->.
    { pose proof (one_line_clean _ A) as N. apply (sees_source HU) in T', C'; auto. eapply sees_unique; eauto. }
    eapply one_expr_tame; eauto.
  - intros Ta. destruct (readme_expr ts cts D Ta E) as (e&P). exists e. apply C40_one_line; auto. exists cts, [DExpr e]. auto.
Qed.

(** ** C85 *)

(** One token that is a whole expression. *)
Lemma one_token : letters U -> forall s t e, no_lfcr s -> lexeme s t [] -> exprs Nat.ltb KAtom [(t, col_of ([] ++ [] ++ s))] [e] [] ->
  exists l, parse s = POk (ast_push ast_empty (DExpr e)) l.
Proof.
  intros HU s t e N L X. apply (parse_iff HU); auto. eexists [_], [DExpr e]. split; [|split; [|reflexivity]].
  - rewrite <- (app_nil_r s) at 1. apply (ct_cons [] [] s t []); auto; [constructor|apply ct_end; constructor].
  - rewrite <- (app_nil_r [_]). apply pr_plain; [|reflexivity|constructor]. apply do_expr.
    apply e_one; [|reflexivity]. rewrite <- (app_nil_r [_]). eapply e_app; [exact X|]. apply a_nil. exact I.
Qed.

Lemma ident_clean s : ident s -> letters U -> no_lfcr s.
Proof.
  intros (c&u&t&->&C&A&T) HU. apply one_line_clean. constructor.
  - assert (X : all not_lf [c]); [|inversion X; auto]. apply (no_lf word_start); [reflexivity|]. repeat constructor. apply ident_start; auto.
  - apply Forall_app. split; [apply (no_lf name_char); [reflexivity|auto]|].
    apply (no_lf script); [reflexivity|]. eapply all_sub; [apply trail_script|auto].
Qed.

(** Identifiers that start with a lower case letter are variables, unless they
    are reserved words. *)
Theorem C85_names_partial : letters U -> forall s, ident s -> (exists c r, s = c :: r /\ is_lower c = true) ->
  ~ In s [lit "infixl"; lit "infixr"; lit "infix"; lit "let"; lit "in"] ->
  exists l, parse s = POk (ast_push ast_empty (DExpr (Var (ILower s)))) l.
Proof.
  intros HU s I (c0&r0&E0&Lo) R. pose proof (ident_clean s I HU) as N. destruct I as (c&u&t&->&_&A&T). injection E0 as <- <-.
  destruct (resplit (U := U) u t) as (u'&t'&E&A'&T'&St).
  { eapply all_sub; [apply (name_word HU)|exact A]. } { eapply all_sub; [apply trail_script|exact T]. }
  rewrite E in *. apply (one_token HU _ (TLower (c :: u' ++ t'))); auto; [|apply t_lower].
  apply le_name; auto.
  - destruct (N.ltb_spec c 128) as [H|H].
    + unfold is_lower, is_upper in *. apply N.ltb_lt in H. rewrite H in *. unfold ascii_lower, ascii_upper in *.
      apply andb_true_iff in Lo as (L1&L2). apply N.leb_le in L1, L2. apply andb_false_iff. right. apply N.leb_gt. lia.
    + destruct (HU c) as (_&_&X). unfold is_lower, is_upper in *. apply N.ltb_ge in H. rewrite H in *. auto.
  - constructor; auto. apply (word_start_char HU). unfold word_start. rewrite Lo. now rewrite orb_true_r.
  - rewrite app_nil_r. auto.
  - exact I.
  - cbn [map fst reserved In] in *. intros [X|X]; [|tauto]. injection X as <- X. discriminate Lo.
Qed.

(** All others stop the program, except the wildcard alone. *)
Theorem C85_names_refuted : letters U -> forall s, ident s -> (forall c r, s = c :: r -> is_lower c = false) -> s <> lit "_" ->
  parse s = PPanic PIdentStart.
Proof.
  intros HU s I Lo N. apply (C73_crashes HU). { apply ident_clean; auto. }
  assert (O : odd_name s).
  { destruct I as (c&u&t&->&C&A&T). exists c, (u ++ t). split; auto. split; [apply ident_start; auto|]. split; [eapply Lo; eauto|].
    intros -> (S1&S2). destruct u as [|d u].
    - destruct T as [|d t X T]; [apply N; reflexivity|]. change (script d = false) in S2. apply trail_script in X. congruence.
    - inversion A; subst. change (word_char d = false) in S1. match goal with X : name_char d = true |- _ => apply (name_word HU) in X end. congruence. }
  apply (ju_name s [] [] s [] [] s).
  - constructor.
  - apply (co_odd [] [] s); auto. constructor.
  - exists [], [], []. split; [intros a b X; destruct a; discriminate|]. repeat constructor.
Qed.

Lemma cut (f : chr -> bool) v : exists a b, v = a ++ b /\ all f a /\ stops f b.
Proof.
  induction v as [|c v (a&b&->&A&B)]; [exists [], []; repeat constructor|].
  destruct (f c) eqn:F; [exists (c :: a), b; repeat constructor; auto|exists [], (c :: a ++ b); repeat constructor; auto].
Qed.

Lemma clean_more c v : no_lfcr v -> c <> 10%N -> no_lfcr (c :: v).
Proof. intros N C a b E. destruct a as [|x a]; injection E as -> E; [congruence|]. apply (N a b). auto. Qed.

Lemma tildes_gap b g v : all not_lf b -> stops not_lf (g ++ v) -> stops op_char (b ++ g ++ v) -> stops script (b ++ g ++ v) ->
  gap g v -> gap ((lit "~~" ++ b) ++ g) v.
Proof. intros A S1 S2 S3 G. apply (gap_line b g v); auto. Qed.

Lemma tildes_comes b r g s i v w : all not_lf b -> stops not_lf r -> stops op_char (b ++ r) -> stops script (b ++ r) ->
  comes (w ++ lit "~~" ++ b) r g s i v -> comes w ((lit "~~" ++ b) ++ r) ((lit "~~" ++ b) ++ g) s i v.
Proof.
  intros A S1 S2 S3 C. destruct C as [g G|g s t v G L|g s e v G M|g r G O]; try rewrite (app_assoc _ g).
  - apply co_end. apply tildes_gap; auto; rewrite app_nil_r; auto.
  - apply co_token; auto. apply tildes_gap; auto.
  - apply co_mistake; auto. { apply tildes_gap; auto. } now rewrite (app_assoc w).
  - apply co_odd; auto. apply tildes_gap; auto.
Qed.

(** Two tildes are a comment up to the end of the line, unless an operator
    character or a script follows; then they are the beginning of an operator. *)
Theorem C85_tildes : letters U -> forall v, no_lfcr v ->
  match v with
  | c :: _ =>
      if op_char c || script c then exists s r, s <> [] /\ v = s ++ r /\
        all (fun c => op_char c || script c) s /\
        forall ts, tokens r ts -> tokens (lit "~~" ++ v) (TAffix (lit "~~" ++ s) false :: ts)
      else exists b r, v = b ++ r /\ all not_lf b /\ stops not_lf r /\
        forall ts, tokens (lit "~~" ++ v) ts <-> tokens r ts
  | [] => tokens (lit "~~") []
  end.
Proof.
  intros HU v N. destruct v as [|c v9] eqn:Ev.
  { apply tk_end. apply (tildes_gap [] [] []); cbn; auto; constructor. }
  rewrite <- Ev in *. destruct (op_char c || script c) eqn:Oc.
  - destruct (cut op_char v) as (u&r1&E1&A1&S1). destruct (cut script r1) as (t&r&E2&A2&S2). subst r1. exists (u ++ t), r.
    assert (Ne : u ++ t <> []).
    { intros X. apply app_eq_nil in X as (->&->). cbn [app] in *. subst r. rewrite Ev in S1, S2. cbn [stops] in *. rewrite S1, S2 in Oc. discriminate. }
    split; auto. split; [rewrite <- app_assoc; auto|]. split.
    { apply Forall_app. split; [apply (all_sub op_char); auto|apply (all_sub script); auto]; intros x ->; rewrite ?orb_true_r; auto. }
    intros ts T. rewrite E1. replace (lit "~~" ++ u ++ t ++ r) with ([] ++ ((lit "~~" ++ u) ++ t) ++ r) by (cbn; now rewrite <- app_assoc).
    replace (lit "~~" ++ u ++ t) with ((lit "~~" ++ u) ++ t) by now rewrite <- app_assoc.
    apply tk_cons; [constructor| |exact T]. apply le_op; auto.
    + discriminate.
    + apply Forall_app. split; auto. repeat constructor.
    + intros X. cbn in X. repeat (destruct X as [X|X]; [discriminate X|]). destruct X.
    + rewrite <- app_assoc. intros X. apply Ne. change (lit "~~") with (lit "~~" ++ []) in X at 2. apply app_inv_head in X. auto.
    + rewrite <- app_assoc. intros X. discriminate X.
  - apply orb_false_iff in Oc as (O1&O2). destruct (cut not_lf v) as (b&r&E1&A1&S1). exists b, r. split; auto. split; auto. split; auto.
    assert (S2 : stops op_char (b ++ r)) by (rewrite <- E1, Ev; exact O1).
    assert (S3 : stops script (b ++ r)) by (rewrite <- E1, Ev; exact O2).
    rewrite E1, app_assoc. intros ts. split.
    + intros T. destruct (C72_something_comes HU (lit "~~" ++ b) r) as (g&s&i&v1&C).
      { rewrite E1 in N. eapply ProofLexer.no_lfcr_app_r; eauto. }
      pose proof (tildes_comes b r g s i v1 [] A1 S1 S2 S3 C) as C'.
      assert (N' : no_lfcr ((lit "~~" ++ b) ++ r)).
      { rewrite <- app_assoc, <- E1. cbn [app lit]. repeat (apply clean_more; [|discriminate]). exact N. }
      remember ((lit "~~" ++ b) ++ r) as z eqn:Ez. destruct T as [g0 G|g0 s0 t v8 ts G L T].
      * destruct (C72_one_thing_comes HU _ _ _ _ _ _ _ _ _ _ N' C' (co_end [] g0 G)) as (_&_&->&_).
        inversion C; subst. now apply tk_end.
      * destruct (C72_one_thing_comes HU _ _ _ _ _ _ _ _ _ _ N' C' (co_token [] g0 s0 t v8 G L)) as (_&->&->&->).
        inversion C; subst. now apply tk_cons.
    + intros T. destruct T as [g G|g s t v1 ts G L T].
      * apply tk_end. apply tildes_gap; auto; rewrite app_nil_r; auto.
      * rewrite app_assoc. apply tk_cons; auto. apply tildes_gap; auto.
Qed.

(** A name of more than one character after an apostrophe and the name between
    backquotes are the same operator. *)
Theorem C85_promoted : letters U -> forall s v, ident s -> 2 <= List.length s -> stops word_char v -> stops script v ->
  forall ts, tokens v ts -> tokens (39%N :: s ++ v) (TAffix s true :: ts) /\ tokens (96%N :: s ++ 96%N :: v) (TAffix s true :: ts).
Proof.
  intros HU s v (c&u&t&->&C&A&T) Le V1 V2 ts Ts.
  destruct (resplit (U := U) u t) as (u'&t'&E&A'&T'&St).
  { eapply all_sub; [apply (name_word HU)|exact A]. } { eapply all_sub; [apply trail_script|exact T]. }
  assert (H : forall f, (forall d, name_char d = true -> f d = false) -> (forall d, trail d = true -> f d = false) -> stops f (u' ++ t' ++ v)).
  { intros f F1 F2. rewrite app_assoc, <- E. destruct u as [|d u]; [|inversion A; subst; apply F1; auto].
    destruct t as [|d t]; [cbn in Le; lia|inversion T; subst; apply F2; auto]. }
  rewrite E in *. clear A T E u t. pose proof (ident_start c C) as Ws.
  assert (S0 : stops word_char (t' ++ v)) by (destruct t'; auto).
  split.
  - change (tokens ([] ++ (39%N :: c :: u' ++ t') ++ v) (TAffix (c :: u' ++ t') true :: ts)).
    apply tk_cons; [constructor| |exact Ts]. apply le_quoted; auto.
    + apply H; intros d X; apply N.eqb_neq; intros <-; discriminate X.
    + apply H; intros d X; destruct (is_white d) eqn:W; auto; exfalso.
      * apply (name_word HU) in X. apply (white_word HU) in W. congruence.
      * apply trail_script in X. apply white_script in W. congruence.
  - replace (96%N :: (c :: u' ++ t') ++ 96%N :: v) with ([] ++ (96%N :: c :: u' ++ t' ++ [96%N]) ++ v) by (cbn; now rewrite <- !app_assoc).
    apply tk_cons; [constructor| |exact Ts]. apply le_backquoted; auto.
Qed.

(** ** C86 *)

(** Between apostrophes every spelling of a character stands for it. *)
Theorem C86_characters_partial : letters U -> forall u p h, u = 117%N \/ u = 85%N -> p = [] \/ p = [43%N] ->
  h <> [] -> all hexdigit h -> List.length h <= 6 -> scalar (value 16 h) ->
  exists l, parse (39%N :: 92%N :: u :: p ++ h ++ [39%N]) = POk (ast_push ast_empty (DExpr (Lit (LChar (value 16 h))))) l.
Proof.
  intros HU u p h Hu Hp Nh A Lh Sc. apply (one_token HU _ (TLit (LChar (value 16 h)))); [| |apply t_lit].
  - apply one_line_clean. assert (X : all not_lf h) by (apply (no_lf hexdigit); [reflexivity|auto]).
    constructor; [reflexivity|]. constructor; [reflexivity|]. constructor; [destruct Hu as [->| ->]; reflexivity|].
    apply Forall_app. split; [destruct Hp as [->| ->]; repeat constructor|]. apply Forall_app. split; [exact X|repeat constructor].
  - apply le_unicode; auto.
Qed.

(** Between double quotes none does: the backslash is dropped and the rest stays. *)
Theorem C86_strings_refuted : letters U -> forall u p h, u = 117%N \/ u = 85%N -> p = [] \/ p = [43%N] -> all hexdigit h ->
  exists l, parse (34%N :: 92%N :: u :: p ++ h ++ [34%N]) = POk (ast_push ast_empty (DExpr (Lit (LStr (u :: p ++ h))))) l.
Proof.
  intros HU u p h Hu Hp A. apply (one_token HU _ (TLit (LStr (u :: p ++ h)))); [| |apply t_lit].
  - apply one_line_clean. assert (X : all not_lf h) by (apply (no_lf hexdigit); [reflexivity|auto]).
    constructor; [reflexivity|]. constructor; [reflexivity|]. constructor; [destruct Hu as [->| ->]; reflexivity|].
    apply Forall_app. split; [destruct Hp as [->| ->]; repeat constructor|]. apply Forall_app. split; [exact X|repeat constructor].
  - replace (34%N :: 92%N :: u :: p ++ h ++ [34%N]) with (34%N :: (92%N :: u :: p ++ h) ++ [34%N]) by (cbn; now rewrite <- app_assoc).
    apply le_string. 
    assert (C : contents h h).
    { clear - A. induction A as [|c h H A IH]; [constructor|]. apply co_char; auto; intros ->; discriminate H. }
    assert (C' : contents (p ++ h) (p ++ h)) by (destruct Hp as [->| ->]; [exact C|apply co_char; auto; discriminate]).
    apply SpecLexer.co_other; auto.
    + intros (d&I). cbn in I. destruct Hu as [->| ->]; repeat (destruct I as [I|I]; [discriminate I|]); destruct I.
    + destruct Hu as [->| ->]; discriminate.
Qed.

End WithUcd.

(** * Examples, and where the README is not followed *)

(** C83 *)

Example C83_ex : @fixity_text ucd_none true (mkInfixDecl [Standard (lit "+"); Promoted (lit "In_1" ++ [8322%N]); Standard (lit "~~+" ++ [178%N])] (mkFix 4 ARight))
    (lit "infixr" ++ [10%N] ++ lit " 4+ ,`In_1" ++ [8322%N] ++ lit "`,  ~~+" ++ [178%N]) /\
  p (lit "infixr" ++ [10%N] ++ lit " 4+ ,`In_1" ++ [8322%N] ++ lit "`,  ~~+" ++ [178%N]) =
    Some ([mkInfixDecl [Standard (lit "+"); Promoted (lit "In_1" ++ [8322%N]); Standard (lit "~~+" ++ [178%N])] (mkFix 4 ARight)], []).
Proof.
  split; [|vm_compute; reflexivity].
  apply (@fx_text ucd_none true ARight 4 [52%N] [10; 32]%N []); try discriminate; try (repeat constructor; fail).
  { apply (pc_digit 4). lia. }
  apply (@is_more ucd_none _ (lit "+") [32%N] []); try (repeat constructor; fail). { apply (in_op (lit "+") []); repeat constructor; discriminate. }
  apply (@is_more ucd_none _ (96%N :: (lit "In_1" ++ [8322%N]) ++ [96%N]) [] [32; 32]%N); try (repeat constructor; fail).
  { apply in_name. exists 73%N, (lit "n_1"), [8322%N]. repeat split; auto; repeat constructor. }
  apply is_one. apply (in_op (lit "~~+") [178%N]); try discriminate; repeat constructor.
Qed.

Theorem C83_reserved_refuted :
  (@fixity_text ucd_none true (mkInfixDecl [Standard (lit "->")] (mkFix 6 ALeft)) (lit "infixl 6 ->") /\ p (lit "infixl 6 ->") = None) /\
  (@fixity_text ucd_none false (mkInfixDecl [Standard (lit "-")] (mkFix 9 ANeither)) (lit "infix -") /\ p (lit "infix -") = None) /\
  p (lit "infix 9 -") = Some ([mkInfixDecl [Standard (lit "-")] (mkFix 9 ANeither)], []).
Proof.
  split; [split|split; [split|]]; try (vm_compute; reflexivity).
  - apply (@fx_text ucd_none true ALeft 6 [54%N] [32%N] [32%N]); try discriminate; try (repeat constructor; fail).
    { apply (pc_digit 6). lia. } apply is_one. apply (in_op (lit "->") []); try discriminate; repeat constructor.
  - apply (@fx_text ucd_none false ANeither 9 [] [32%N] []); try discriminate; try (repeat constructor; fail).
    apply is_one. apply (in_op (lit "-") []); try discriminate; repeat constructor.
Qed.

Example C83_ex_program : @fixities_text ucd_none [(true, mkInfixDecl [Standard (lit "+")] (mkFix 6 ALeft)); (false, mkInfixDecl [Standard (lit "*")] (mkFix 9 ARight))] (lit "infixl 6 +infixr *" ++ [10%N]) /\
  p (lit "infixl 6 +infixr *" ++ [10%N]) = Some ([mkInfixDecl [Standard (lit "+")] (mkFix 6 ALeft); mkInfixDecl [Standard (lit "*")] (mkFix 9 ARight)], []).
Proof.
  split; [|vm_compute; reflexivity].
  apply (@fs_more ucd_none [] true _ (lit "infixl 6 +") _ (lit "infixr *" ++ [10%N])); [constructor| |].
  { apply (@fx_text ucd_none true ALeft 6 [54%N] [32%N] [32%N]); try discriminate; try (repeat constructor; fail).
    { apply (pc_digit 6). lia. } apply is_one. apply (in_op (lit "+") []); try discriminate; repeat constructor. }
  apply (@fs_more ucd_none [] false _ (lit "infixr *") _ [10%N]); [constructor| |constructor; repeat constructor].
  apply (@fx_text ucd_none false ARight 9 [] [32%N] []); try discriminate; try (repeat constructor; fail).
  apply is_one. apply (in_op (lit "*") []); try discriminate; repeat constructor.
Qed.

(** A Haskell file in a spelling of the README. *)
Example C54_ex_readme : screen (run0 [Line (holding ["module M where"; "  infixl 6+ ,`mod`"; "x = 1"; "infixr  *"]) (lit ":load a.hs")]) =
  [(true, lit "2 fixities read from `a.hs`" ++ [10%N]); (true, lit "infixl 6 +, 'mod" ++ 10%N :: lit "infixr 9 *" ++ [10%N])].
Proof. vm_compute. reflexivity. Qed.

(** C84 *)

(** The tokens of a text, computed. *)
Fixpoint all_tokens (n : nat) (l : lexer) : option (list token) :=
  match n with
  | 0 => None
  | S n => match @lx_next ucd_none l with
           | Ok (Some (TError _, _), _) => None
           | Ok (Some (t, _), l') => option_map (cons t) (all_tokens n l')
           | Ok (None, _) => Some []
           | _ => None
           end
  end.

Lemma computed n src ts : no_lfcr src -> all_tokens n (lexer_new src) = Some ts -> @tokens ucd_none src ts.
Proof.
  intros N E. apply (C56_lexer_is_grammar letters_none); auto. clear N. revert ts E. generalize (lexer_new src) as l.
  induction n as [|n IH]; intros l ts E; [discriminate|]. cbn [all_tokens] in E.
  destruct (@lx_next ucd_none l) as [[[[t x]|] l']| |] eqn:El; try discriminate.
  - assert (K : (forall e, t <> TError e) /\ option_map (cons t) (all_tokens n l') = Some ts) by (destruct t; try discriminate E; split; auto; discriminate).
    destruct K as (K&E'). destruct (all_tokens n l') as [us|] eqn:Eu; [|discriminate]. injection E' as <-.
    destruct (IH _ _ Eu) as (xs&l2&S1&F&M&NE). exists ((t, x) :: xs), l2. split; [econstructor; eauto|]. split; auto. split; [cbn; now rewrite M|].
    intros e [X|X]; [apply (K e); auto|apply (NE e); auto].
  - injection E as <-. exists [], l. split; [constructor|]. split; eauto.
Qed.

Local Ltac reads := apply (computed 40); [apply no_cr_clean; vm_compute; intuition discriminate|vm_compute; reflexivity].

Definition f_lambda : list token :=
  [TLower (lit "f"); TLambda; TLower (lit "x"); TArrow; TLower (lit "x"); TAffix (lit "+") false; TLower (lit "y")].
Lemma variable s : derives Expr [TLower s].
Proof. apply r_fexp, r_one, r_ident. Qed.
Lemma f_lambda_derives : derives Expr f_lambda.
Proof.
  apply r_fexp, (r_app [TLower (lit "f")]); [apply r_one, r_ident|].
  apply (r_binary [TLambda; TLower (lit "x"); TArrow; TLower (lit "x")] (TAffix (lit "+") false) [TLower (lit "y")]); try apply variable; auto.
  apply (r_lambda [TLower (lit "x")]); try apply variable; [discriminate|repeat constructor].
Qed.

(** Texts of which the README's grammar makes one expression: the program takes
    them apart, refuses them, or makes a list of two. *)
Theorem C84_expressions_refuted :
  (exists s ts, @tokens ucd_none s ts /\ derives Expr ts /\ all not_lf s /\
     p s = Some ([], [v "f"; Lam (PVar (lit "x")) (bin (v "x") "+" (v "y"))])) /\
  (exists s ts, @tokens ucd_none s ts /\ derives Expr ts /\ all not_lf s /\
     p s = Some ([], [Syntax.List [v "f"; Lam (PVar (lit "x")) (bin (v "x") "+" (v "y"))]])) /\
  (exists s ts, @tokens ucd_none s ts /\ derives Expr ts /\ all not_lf s /\ s = lit "(f \x -> x + y)" /\ p s = None) /\
  (exists s ts, @tokens ucd_none s ts /\ derives Expr ts /\ all not_lf s /\ s = lit "(-)" /\ p s = None) /\
  (exists s ts, @tokens ucd_none s ts /\ derives Expr ts /\ all not_lf s /\ s = lit "let infixl - in a" /\ p s = None) /\
  (exists s ts, @tokens ucd_none s ts /\ derives Expr ts /\ tame ts /\ s = lit "f" ++ 10%N :: lit "x" /\ p s = Some ([], [v "f"; v "x"])).
Proof.
  pose proof f_lambda_derives as D. repeat split.
  - exists (lit "f \x -> x + y"). eexists. split; [reads|]. split; [exact D|]. split; [repeat constructor|vm_compute; reflexivity].
  - exists (lit "[f \x -> x + y]"). eexists. split; [reads|]. split; [|split; [repeat constructor|vm_compute; reflexivity]].
    apply r_fexp, r_one, (r_list f_lambda []); auto. constructor.
  - exists (lit "(f \x -> x + y)"). eexists. split; [reads|]. split; [|split; [repeat constructor|split; [reflexivity|vm_compute; reflexivity]]].
    apply r_fexp, r_one, (r_group f_lambda); auto.
  - exists (lit "(-)"). eexists. split; [reads|]. split; [|split; [repeat constructor|split; [reflexivity|vm_compute; reflexivity]]].
    apply r_fexp, r_one, r_section. reflexivity.
  - exists (lit "let infixl - in a"). eexists. split; [reads|]. split; [|split; [repeat constructor|split; [reflexivity|vm_compute; reflexivity]]].
    apply (r_let [TInfixL; TDash] [TLower (lit "a")]); [|apply variable]. apply ft_none; [reflexivity|]. apply ix_one. reflexivity.
  - exists (lit "f" ++ 10%N :: lit "x"). eexists. split; [reads|]. split; [|split; [|split; [reflexivity|vm_compute; reflexivity]]].
    + apply r_fexp, (r_app [TLower (lit "f")] [TLower (lit "x")]); [apply r_one|]; apply r_ident.
    + apply tame_fine. reflexivity.
Qed.

(** The README's own expressions. *)
Example C84_ex : (exists ts, @tokens ucd_none (lit "[x, 1, (\f -> f x) id]") ts /\ derives Expr ts /\ tame ts) /\
  p (lit "[x, 1, (\f -> f x) id]") = Some ([], [Syntax.List [v "x"; Lit (LInt 1); App (Grp (Lam (PVar (lit "f")) (App (v "f") (v "x")))) (v "id")]]) /\
  p (lit "(+) a b") = Some ([], [App (App (Var (IInfix (lit "+"))) (v "a")) (v "b")]) /\
  p (lit "(a, b)") = Some ([], [Tup [v "a"; v "b"]]) /\
  p (lit "let infixl 4 +; infixr 6 ? in a") = None /\ p (lit "let infixl 4 + infixr 6 ? in a") = None.
Proof.
  split; [|repeat split; vm_compute; reflexivity]. eexists. split; [reads|]. split.
  - apply r_fexp, r_one, (r_list [TLower (lit "x")] (TComma :: [TLit (LInt 1)] ++ TComma :: [TParenL; TLambda; TLower (lit "f"); TArrow; TLower (lit "f"); TLower (lit "x"); TParenR; TLower (lit "id")] ++ [])); [apply variable|].
    apply r_more; [apply r_fexp, r_one, r_literal|]. apply r_more; [|constructor].
    apply r_fexp, (r_app [TParenL; TLambda; TLower (lit "f"); TArrow; TLower (lit "f"); TLower (lit "x"); TParenR] [TLower (lit "id")]); [|apply r_ident].
    apply r_one, (r_group [TLambda; TLower (lit "f"); TArrow; TLower (lit "f"); TLower (lit "x")]).
    apply (r_lambda [TLower (lit "f")] [TLower (lit "f"); TLower (lit "x")]); [discriminate|repeat constructor|].
    apply r_fexp, (r_app [TLower (lit "f")]); [apply r_one|]; apply r_ident.
  - apply tame_fine. reflexivity.
Qed.

(** The README's session: as the average calculator does. *)
Example C84_ex_session : screen (run0 (typed ["infixl 6 +, -"; "infixl 7 *, /"; "infixr 8 ^"; "a + b * c ^ e - f / g";
    "let infixl 4 + in let infixr 6 ? in a + b ? c + d"; "x 'elem y"; "e `elem` y"])) =
  map (fun m => (true, lit m ++ [10%N])) ["  (a + (b * (c ^ e))) - (f / g)"; "  (a + (b ? c)) + d"; "  x 'elem y"; "  e 'elem y"].
Proof. vm_compute. reflexivity. Qed.

(** C85 *)

Example C85_ex_name : @ident ucd_none (lit "fOo_1" ++ [8322; 178]%N) /\ @ident ucd_none (lit "_") /\ @ident ucd_none (lit "_a") /\ @ident ucd_none (lit "Foo") /\
  p (lit "fOo_1" ++ [8322; 178]%N) = Some ([], [Var (ILower (lit "fOo_1" ++ [8322; 178]%N))]) /\
  @parse ucd_none (lit "Foo") = PPanic PIdentStart /\ @parse ucd_none (lit "f _a") = PPanic PIdentStart.
Proof.
  split; [|split; [|split; [|split; [|repeat split; vm_compute; reflexivity]]]].
  - exists 102%N, (lit "Oo_1"), [8322; 178]%N. repeat split; auto; repeat constructor.
  - exists 95%N, [], []. repeat split; auto; repeat constructor.
  - exists 95%N, (lit "a"), []. repeat split; auto; repeat constructor.
  - exists 70%N, (lit "oo"), []. repeat split; auto; repeat constructor.
Qed.
Example C85_ex_tildes : @tokens ucd_none (lit "a ~~+ b ~~ c + d" ++ 10%N :: lit "+~~ e ~~" ++ [178%N]) [TLower (lit "a"); TAffix (lit "~~+") false; TLower (lit "b");
    TAffix (lit "+~~") false; TLower (lit "e"); TAffix (lit "~~" ++ [178%N]) false].
Proof. reads. Qed.
Example C85_ex_promoted : @tokens ucd_none (lit "x 'elem y") [TLower (lit "x"); TAffix (lit "elem") true; TLower (lit "y")] /\
  @tokens ucd_none (lit "e `elem` y") [TLower (lit "e"); TAffix (lit "elem") true; TLower (lit "y")] /\
  @tokens ucd_none (lit "`f` 'f' 'f x") [TAffix (lit "f") true; TLit (LChar 102); TAffix (lit "f ") true; TLower (lit "x")].
Proof. repeat split; reads. Qed.

(** C86 *)

Example C86_ex : p (lit "'\U+0041'") = Some ([], [Lit (LChar 65)]) /\ p (lit "'\u+7FA'") = Some ([], [Lit (LChar 2042)]).
Proof. split; vm_compute; reflexivity. Qed.
(** The README: all of these print A. *)
Example C86_ex_strings : p (34%N :: lit "A" ++ [34%N]) = Some ([], [Lit (LStr (lit "A"))]) /\
  p (34%N :: lit "\U+0041" ++ [34%N]) = Some ([], [Lit (LStr (lit "U+0041"))]) /\
  p (34%N :: lit "\u+41" ++ [34%N]) = Some ([], [Lit (LStr (lit "u+41"))]) /\
  p (34%N :: lit "\u41" ++ [34%N]) = Some ([], [Lit (LStr (lit "u41"))]).
Proof. repeat split; vm_compute; reflexivity. Qed.

Print Assumptions C83_declarations_partial.
Print Assumptions C83_programs_partial.
Print Assumptions C54_readme_partial.
Print Assumptions C83_reserved_refuted.
Print Assumptions C84_expressions_partial.
Print Assumptions C84_expressions_refuted.
Print Assumptions C85_names_partial.
Print Assumptions C85_names_refuted.
Print Assumptions C85_tildes.
Print Assumptions C85_promoted.
Print Assumptions C86_characters_partial.
Print Assumptions C86_strings_refuted.
