(** Reading into a program: C81.  Items between separators: C82. *)
From Coq Require Import List Arith NArith Bool String Lia.
From Verif Require Import Prelim Chars Syntax Lexer SpecLexer SpecLexRun ProofLexer Parser SpecParser SpecShape Into SpecInto
  ProofParser ProofParser2 ProofParser3 ProofParser4 ProofParser5 ProofParser6 ProofParser7 ProofParser13 ProofShape ProofShape2 ProofInto
  Messages SpecPrinter SpecRepl SpecOutput ProofRepl9 ProofOutput ProofOutput2 Printer PropsLexer PropsParser PropsShape.
Import ListNotations.
Local Open Scope string_scope.
Local Open Scope list_scope.

Section WithUcd.
Context {U : ucd}.

(** ** C81 *)

(** What a text adds to a program is decided by its tokens: the declarations
    before the first obstacle, whatever the program was. *)
Theorem C81_added : letters U -> forall src ts, no_lfcr src -> ctokens [] src ts ->
  exists ds whole, (forall es b, keeps ts es b <-> es = ds /\ b = whole) /\
  forall a, added a ds (fst (parse_into a src)) /\ (whole = true <-> exists l, snd (parse_into a src) = POk tt l).
Proof.
  intros HU src ts N T. pose proof (proj2 (sees_source HU _ _ N) T) as S0.
  assert (G : forall a, exists ds b, keeps ts ds b /\ fst (parse_into a src) = fold_left ast_push ds a /\
    (b = true <-> exists l', snd (parse_into a src) = POk tt l')).
  { intros a. apply (into_keeps HU src ts S0); auto; [constructor|]. pose proof (sees_budget HU _ _ S0). lia. }
  destruct (G ast_empty) as (ds&b&K&_). exists ds, b. split.
  - intros es c. split; [|intros (->&->); auto]. intros K'. destruct (keeps_once HU _ _ _ K _ _ _ S0 K') as (->&->). auto.
  - intros a. destruct (G a) as (es&c&K'&F&O). destruct (keeps_once HU _ _ _ K _ _ _ S0 K') as (->&->). rewrite F. split; auto. apply pushed_added.
Qed.

(** On every text the outcome is that of [parse]: success at the same place,
    the same error, the same panic. *)
Theorem C81_outcome : forall a src,
  match parse src, snd (parse_into a src) with
  | POk _ l, POk tt l' => l = l'
  | PErr e l, PErr e' l' => e = e' /\ l = l'
  | PPanic p, PPanic p' => p = p'
  | PFuel, PFuel => True
  | _, _ => False
  end.
Proof. intros a src. rewrite into_parse. destruct (parse src); cbn; auto. Qed.

(** When the text is a program, its declarations come after those there. *)
Theorem C81_program : forall a src b l, parse src = POk b l -> both a b (fst (parse_into a src)).
Proof.
  intros a src b l H. unfold parse, p_parse in H. apply bind_ok in H as (ds&l1&E&H). injection H as <- ->.
  unfold parse_into, p_into. rewrite (proj2 (into_many _ a _) _ _ E).
  destruct (pushed_added ds a) as (I&X&K), (pushed_added ds ast_empty) as (I'&X'&K'). unfold both. rewrite I, X, K, I', X', K'. auto.
Qed.

(** Nothing that was there is lost or moved, on any text. *)
Theorem C81_kept : forall a src, exists ds, added a ds (fst (parse_into a src)).
Proof. intros a src. destruct (into_grows (budget (lexer_new src)) a (lexer_new src)) as (ds&E). exists ds. unfold parse_into, p_into. rewrite E. apply pushed_added. Qed.

(** A parser that has read its text adds nothing more. *)
Theorem C81_again : letters U -> forall a l a' l', p_into a l = (a', POk tt l') -> forall b, exists l2, p_into b l' = (b, POk tt l2).
Proof.
  intros HU a l a' l' H b.
  assert (D : exists l0, is_done l0 = POk true l').
  { unfold p_into in H. remember (budget l) as n eqn:En. clear En. revert a l H. induction n as [|n IH]; intros a l H; cbn [into_f] in H;
      destruct (is_done l) as [[]l1|e l1|p|] eqn:E; try discriminate.
    - injection H as _ ->. eauto.
    - injection H as _ ->. eauto.
    - destruct (p_decl l1) as [d l2|e l2|p|]; try discriminate. destruct (ignore TSemi l2) as [u l3|e l3|p|]; try discriminate. eauto. }
  destruct D as (l0&E). assert (E' : exists l2, is_done l' = POk true l2).
  { apply bind_ok in E as (t&l1&E&H1). injection H1 as Hs ->. apply same_eq in Hs as ->. unfold peek in E.
    destruct (lx_peek l0) as [[[t|] l2]| |] eqn:P; try discriminate; unfold is_done, bind, peek.
    - injection E as -> ->. destruct (peek_some _ _ _ P) as (_&P'). rewrite P'. cbn. eauto.
    - injection E as ->. destruct (peek_none HU _ _ P) as (_&_&l3&P'). rewrite P'. cbn. eauto. }
  destruct E' as (l2&E'). exists l2. unfold p_into. destruct (budget l'); cbn [into_f]; rewrite E'; auto.
Qed.

(** A closed program and a text after it can be read in one go or in two. *)
Theorem C81_two_goes : letters U -> forall x a b A l us, no_lfcr (a ++ b) -> closed a -> parse a = POk A l -> ctokens [] b us ->
  fst (parse_into x (a ++ b)) = fst (parse_into (fst (parse_into x a)) b) /\
  ((exists l, snd (parse_into x (a ++ b)) = POk tt l) <-> exists l, snd (parse_into x b) = POk tt l).
Proof.
  intros HU x a b A l us N (E&ts&k&T) Pa Tb.
  assert (Na : no_lfcr a) by (eapply no_lfcr_app_l; eauto). assert (Nb : no_lfcr b) by (eapply no_lfcr_app_r; eauto).
  destruct (proj1 (C35_parse_is_grammar HU a A Na) (ex_intro _ l Pa)) as (xs&ds&X&P&_).
  rewrite (tokens_once HU _ _ _ Na X T) in P. clear xs X.
  assert (J : ctokens [] (a ++ b) ((ts ++ [(TSemi, k)]) ++ us)).
  { apply ctokens_join; auto. cbn [app]. rewrite <- (app_nil_r a). apply ctokens_after; auto. }
  destruct (C81_added HU _ _ Na T) as (d1&w1&K1&F1). destruct (C81_added HU _ _ Nb Tb) as (d2&w2&K2&F2). destruct (C81_added HU _ _ N J) as (d3&w3&K3&F3).
  destruct (proj1 (K1 ds true) (proj2 (keeps_program _ _) P)) as (->&<-).
  destruct (proj1 (K3 _ _) (keeps_join _ _ P _ _ eq_refl _ _ _ (proj2 (K2 _ _) (conj eq_refl eq_refl)))) as (<-&<-).
  split.
  - apply (added_once x (d1 ++ d2)); [apply F3|]. destruct (proj1 (F1 x)) as (I&Ex&K), (proj1 (F2 (fst (parse_into x a)))) as (I'&Ex'&K').
    unfold added. rewrite I', Ex', K', I, Ex, K. unfold fixities, inputs. rewrite !flat_map_app, !map_app, <- !app_assoc. auto.
  - rewrite <- (proj2 (F3 x)), <- (proj2 (F2 x)). tauto.
Qed.

(** ** C60: the third way to write an error, after the message the place in a file *)

Theorem C60_with_path : letters U -> forall src e l q, no_lfcr src -> parse src = PErr e l ->
  match show_perror_with_path e q with
  | Ok m => exists b a y z, blames show_lit src b a /\ decimal (l_line a) y /\ decimal (l_col a) z /\
      m = b ++ [10%N] ++ lit " @ " ++ q ++ lit ":" ++ y ++ lit ":" ++ z
  | Panic p => p = PTodoEmptyChar /\ show_perror e = Panic p
  | NoFuel => False
  end.
Proof.
  intros HU src e l q N P. unfold show_perror_with_path. destruct (show_perror_without_loc e) as [b|p|] eqn:Eb; cbn [obind].
  - destruct (blames_shown HU _ _ _ _ N P Eb) as (Bl&_). exists b, (error_loc e), (show_nat (l_line (error_loc e))), (show_nat (l_col (error_loc e))).
    split; [exact Bl|]. split; [apply show_nat_decimal|]. split; [apply show_nat_decimal|]. reflexivity.
  - assert (T : forall t x, show_token t = x -> match x with Ok _ => True | Panic p => p = PTodoEmptyChar | NoFuel => False end).
    { intros t x <-. destruct t as [| | | | | | | | | | | | | | | | | | | | | | | |[]]; cbn; auto. destruct (int_error_text e0); exact I. }
    destruct e as [t a f|t a]; cbn in Eb |- *.
    + pose proof (T t _ eq_refl). pose proof (T f _ eq_refl). destruct (show_token t); cbn in *; try discriminate; [destruct (show_token f); cbn in *; try discriminate|]; injection Eb as <-; auto.
    + pose proof (T t _ eq_refl). destruct (show_token t); cbn in *; try discriminate. injection Eb as <-; auto.
  - assert (T : forall t, show_token t <> NoFuel).
    { intros t. destruct t as [| | | | | | | | | | | | | | | | | | | | | | | |[]]; cbn; try discriminate. destruct (int_error_text e0); discriminate. }
    destruct e as [t a f|t a]; cbn in Eb; pose proof (T t); try pose proof (T f); destruct (show_token t); try destruct (show_token f); cbn in *; congruence.
Qed.

(** ** C82 *)

(** The parser [f] reads exactly the items of [item]. *)
Definition items_of {A} (f : parser A) (item : list ptok -> A -> list ptok -> Prop) : Prop :=
  (forall src l, driven src l -> match f l with POk _ l' => driven src l' | _ => True end) /\
  (forall l x l' rest, f l = POk x l' -> sees l' rest -> exists cs, sees l (cs ++ rest) /\ item cs x rest) /\
  (forall cs x rest, item cs x rest -> forall l, sees l (cs ++ rest) -> exists l', f l = POk x l' /\ sees l' rest).

Definition separator (t : token) : Prop :=
  In t [TParenL; TParenR; TBrackL; TBrackR; TComma; TSemi; TLambda; TArrow; TAt; TIn].

Lemma sep_driven {A} (f : parser A) item sep src l xs l' : letters U -> items_of f item -> sentinel sep = false -> driven src l ->
  sep_by1 sep f l = POk xs l' -> driven src l'.
Proof.
  intros HU (G&_) Hs D H. unfold sep_by1, many in H. apply bind_ok in H as (x&l1&E&H). apply bind_ok in H as (ys&l2&H&R). injection R as <- ->.
  assert (D1 : driven src l1) by (specialize (G _ _ D); rewrite E in G; auto). clear x E D l. revert H. generalize (budget l1) as n. intros n. revert l1 D1 ys.
  induction n as [|n IH]; intros l D ys H; cbn [many_f] in H; apply bind_ok in H as (b&l2&Eb&H);
    (assert (D2 : driven src l2) by (pose proof (bump_on_top HU src l sep D Hs) as Q; rewrite Eb in Q; apply Q)); destruct b.
  - discriminate.
  - injection H as <- ->. auto.
  - apply bind_ok in H as (y&l3&Ey&H). apply bind_ok in H as (zs&l4&Ez&H). injection H as <- ->.
    eapply IH; [|exact Ez]. specialize (G _ _ D2). rewrite Ey in G. auto.
  - injection H as <- ->. auto.
Qed.

Theorem C82_separated : letters U -> forall A (f : parser A) item sep src ts, items_of f item -> separator sep -> no_lfcr src -> ctokens [] src ts ->
  forall xs, (exists l, sep_by1 sep f (lexer_new src) = POk xs l) <-> exists us rest, ts = us ++ rest /\ separated item sep us xs rest.
Proof.
  intros HU A f item sep src ts R Sp N T xs. pose proof (proj2 (sees_source HU _ _ N) T) as S0.
  assert (Hs : same sep sep = true /\ sep <> TEof /\ sentinel sep = false) by (cbn in Sp; decompose [or] Sp; subst; cbn; try tauto; repeat split; auto; discriminate).
  destruct Hs as (Hs&He&Hn). split.
  - intros (l&E). pose proof (sep_driven f item sep src _ _ _ HU R Hn (dr_new src) E) as D. destruct (driven_sees HU _ _ _ D S0) as (_&rest&_&S1).
    destruct R as (_&B&_). destruct (sep_back HU f item sep B Hs He _ _ _ _ E S1) as (us&S2&X). exists us, rest. split; auto. eapply sees_unique; eauto.
  - intros (us&rest&->&X). destruct R as (_&B&C). destruct (sep_run HU f item sep B C Hs He _ _ _ _ X S0) as (l'&E&_). eauto.
Qed.

(** Declarations and operators are such items. *)
Theorem C82_declarations : letters U -> items_of p_decl (decl_of Nat.ltb).
Proof.
  intros HU. repeat split.
  - intros src l D. pose proof (good_decl HU src (S (left_ l)) l D ltac:(lia)) as G. destruct (p_decl l); auto. apply G.
  - intros l x l' rest. apply (decl_back HU).
  - intros cs x rest. apply (decl_run HU).
Qed.

Theorem C82_operators : letters U -> items_of p_infix (fun ts i _ => exists t k, ts = [(t, k)] /\ operator t i).
Proof.
  intros HU. repeat split.
  - intros src l D. pose proof (good_infix HU src (S (left_ l)) l D ltac:(lia)) as G. destruct (p_infix l); auto. apply G.
  - intros l x l' rest E S0. destruct (infix_back HU _ _ _ _ E S0) as (t&k&S1&O&_). exists [(t, k)]. eauto.
  - intros cs x rest (t&k&->&O) l S0. destruct (infix_run HU _ _ _ _ _ O S0) as (l'&E&S1&_). eauto.
Qed.
End WithUcd.

(** * Cases *)

Definition made (r : ast * parsed unit) : list infix_decl * list expr * option (option perror) :=
  (a_infxs (fst r), a_exprs (fst r), match snd r with POk _ _ => None | PErr e _ => Some (Some e) | _ => Some None end).

(** A program with an input of its own, and a text with a mistake after two
    inputs and a declaration. *)
Example C81_ex : made (@parse_into ucd_none (ast_push ast_empty (DExpr (v "q"))) (lit "x; infixl 3 +; y )"))
  = ([mkInfixDecl [Standard (lit "+")] (mkFix 3 ALeft)], [v "q"; v "x"; v "y"], Some (Some (Unexpected TParenR (mkLoc 1 19 18)))).
Proof. vm_compute. reflexivity. Qed.
Example C81_ex_tokens : @ctokens ucd_none [] (lit "x;)") [(TLower (lit "x"), 2); (TSemi, 3); (TParenR, 4)] /\
  keeps [(TLower (lit "x"), 2); (TSemi, 3); (TParenR, 4)] [DExpr (v "x")] false.
Proof.
  split.
  - apply (ct_cons [] [] (lit "x") (TLower (lit "x")) (lit ";)") [(TSemi, 3); (TParenR, 4)]); [constructor|letter|].
    apply (ct_cons (lit "x") [] (lit ";") TSemi (lit ")") [(TParenR, 4)]); [constructor|apply le_punct; cbn; tauto|].
    apply (ct_cons (lit "x;") [] (lit ")") TParenR [] []); [constructor|apply le_punct; cbn; tauto|]. constructor. constructor.
  - apply (ke_semi [(TLower (lit "x"), 2)] (DExpr (v "x")) 3 [(TParenR, 4)] [] false).
    + apply do_expr, e_one; auto. apply (e_app _ _ [(TLower (lit "x"), 2)] (v "x") [] (v "x")); constructor. reflexivity.
    + apply ke_bad; [discriminate|]. intros us d vs E D. destruct D as [us d vs D|t k us e vs D].
      * destruct (declares_start _ _ _ D) as (t&k&us'&->&T). injection E as <- _ _. intuition discriminate.
      * destruct (exprs_start _ _ _ _ _ D) as (t0&k0&ts0&Et&B). injection Et as <- <- <-. injection E as <- _ _. discriminate B.
Qed.
Example C81_ex_program : made (@parse_into ucd_none (ast_push ast_empty (DExpr (v "q"))) one) = ([], [v "q"; v "x"], None) /\ @closed ucd_none one.
Proof. split; [vm_compute; reflexivity|exact C77_ex_closed]. Qed.

Example C60_ex_path : match @parse ucd_none (lit "x )") with PErr e _ => @show_perror_with_path ucd_none e (lit "a.hs") | _ => NoFuel end
  = Ok (lit "unexpected token `)`" ++ 10%N :: lit " @ a.hs:1:4").
Proof. vm_compute. reflexivity. Qed.

(** Operators with arrows between them, and what follows. *)
Example C82_ex : match sep_by1 (U := ucd_none) TArrow (@p_infix ucd_none) (lexer_new (lit "+ -> * -> - ;")) with POk xs _ => Some xs | _ => None end
  = Some [Standard (lit "+"); Standard (lit "*"); Standard (lit "-")].
Proof. vm_compute. reflexivity. Qed.
Example C82_ex_separated : separated (fun ts i _ => exists t k, ts = [(t, k)] /\ operator t i) TArrow
  [(TDash, 1); (TArrow, 4); (TAt, 6)] [Standard (lit "-"); Standard (lit "@")] [(TSemi, 8)].
Proof.
  apply (sep_more _ _ [(TDash, 1)] (Standard (lit "-")) 4 [(TAt, 6)] [Standard (lit "@")] [(TSemi, 8)]).
  - exists TDash, 1. split; constructor.
  - apply sep_last; [|discriminate]. exists TAt, 6. split; constructor.
Qed.

Print Assumptions C81_added.
Print Assumptions C81_outcome.
Print Assumptions C81_program.
Print Assumptions C81_kept.
Print Assumptions C81_again.
Print Assumptions C81_two_goes.
Print Assumptions C60_with_path.
Print Assumptions C82_separated.
Print Assumptions C82_declarations.
Print Assumptions C82_operators.
