(** Everything in the grammar is accepted by the parser. *)
From Coq Require Import List Arith NArith Bool String Lia.
From Verif Require Import Prelim Chars Syntax Lexer SpecLexer SpecLexRun Parser SpecParser.
From Verif Require Import ProofLexer ProofLexer7 ProofParser ProofParser3.
Import ListNotations.

Section WithUcd.
Context {U : ucd}.
Context (HU : letters U).

(** * Runs *)

Lemma bind_run {A B} (m : parser A) (f : A -> parser B) l a l1 : m l = POk a l1 -> bind m f l = f a l1.
Proof. unfold bind. intros ->. auto. Qed.

Lemma look_run {A} l ts (f : loc -> token -> parser A) : sees l ts ->
  exists l1, (a <- here ;; t <- peek ;; f a t) l = f (curr_loc l) (look ts) l1 /\ peek l = POk (look ts) l1 /\ sees l1 ts /\
    match ts with [] => True | (t, k) :: ts' => lx_curr l1 = Some t /\ lx_col l1 = k /\ sees (snd (lx_bump l1)) ts' end.
Proof.
  intros S. destruct (peek_run HU l ts S) as (l1&E&S1&H). exists l1. split; auto.
  unfold here, bind at 1. rewrite (bind_run _ _ _ _ _ E). auto.
Qed.

Lemma bump_then_run {A} (f : token -> parser A) l t : lx_curr l = Some t -> bind bump f l = f t (snd (lx_bump l)).
Proof. intros C. apply bind_run, bump_run, C. Qed.

Lemma peek_on_run l ts x : sees l ts -> exists l1, peek_on x l = POk (same (look ts) x) l1 /\ sees l1 ts /\
  match ts with [] => True | (t, k) :: ts' => lx_curr l1 = Some t /\ lx_col l1 = k /\ sees (snd (lx_bump l1)) ts' end.
Proof.
  intros S. destruct (peek_run HU l ts S) as (l1&E&S1&H). exists l1. split; auto.
  unfold peek_on. rewrite (bind_run _ _ _ _ _ E). auto.
Qed.

Lemma bump_on_run l x k ts : same x x = true -> sees l ((x, k) :: ts) ->
  exists l1, bump_on x l = POk true l1 /\ sees l1 ts /\ lx_col l1 = k.
Proof.
  intros X S. destruct (peek_on_run l _ x S) as (l1&E&S1&C&K&S2). exists (snd (lx_bump l1)). split; [|split; auto].
  - unfold bump_on. rewrite (bind_run _ _ _ _ _ E). cbn [look]. rewrite X. rewrite (bump_then_run _ _ _ C). auto.
  - rewrite bump_col. auto.
Qed.
Lemma bump_on_stop l x ts : same (look ts) x = false -> sees l ts ->
  exists l1, bump_on x l = POk false l1 /\ sees l1 ts.
Proof.
  intros X S. destruct (peek_on_run l _ x S) as (l1&E&S1&_). exists l1. split; auto.
  unfold bump_on. rewrite (bind_run _ _ _ _ _ E), X. auto.
Qed.
Lemma no_comma ts : next_is is_comma ts = false -> same (look ts) TComma = false.
Proof. intros H. rewrite same_comma, look_next; auto. Qed.

Lemma eat_run l x k ts : same x x = true -> sees l ((x, k) :: ts) ->
  exists l1, eat x l = POk tt l1 /\ sees l1 ts /\ lx_col l1 = k.
Proof.
  intros X S. destruct (look_run l _ (fun a t => if same t x then bump;;; ret tt else fail (Expected x a t)) S) as (l1&E&_&S1&C&K&S2).
  exists (snd (lx_bump l1)). split; [|split; auto].
  - unfold eat. rewrite E. cbn [look]. rewrite X. rewrite (bump_then_run _ _ _ C). auto.
  - rewrite bump_col. auto.
Qed.

Lemma sees_length ts : forall l, sees l ts -> List.length ts <= left_ l.
Proof.
  induction ts as [|(t,k) ts IH]; intros l S; cbn [List.length]; [lia|].
  destruct S as (l1&E&_&N&S). apply IH in S. pose proof (peek_left HU _ _ _ E).
  destruct (peek_some _ _ _ E) as (C&_). unfold left_ at 1 in S. unfold left_ at 1 in H.
  unfold lx_bump in S. rewrite C in *. cbn [snd set_curr lx_curr lx_rest] in S. rewrite N in H. lia.
Qed.
Lemma sees_budget ts l : sees l ts -> List.length ts < budget l.
Proof. intros S. apply sees_length in S. pose proof (budget_left l). lia. Qed.

(** * Fixity declarations *)

Lemma infix_run l t k i ts : operator t i -> sees l ((t, k) :: ts) ->
  exists l1, p_infix l = POk i l1 /\ sees l1 ts /\ lx_col l1 = k.
Proof.
  intros O S. unfold p_infix.
  match goal with |- context [(a <- here ;; t <- peek ;; @?f a t) l] => destruct (look_run l _ f S) as (l1&E&_&S1&C&K&S2) end.
  rewrite E. cbn [look]. exists (snd (lx_bump l1)). split; [|split; [auto|rewrite bump_col; auto]].
  destruct O; rewrite (bump_then_run _ _ _ C); auto.
Qed.
Lemma infix_stop l ts : next_is is_op ts = false -> sees l ts -> exists e l1, p_infix l = PErr e l1 /\ sees l1 ts.
Proof.
  intros O S. unfold p_infix.
  match goal with |- context [(a <- here ;; t <- peek ;; @?f a t) l] => destruct (look_run l _ f S) as (l1&E&_&S1&_) end.
  rewrite E. rewrite <- look_next in O by auto. exists (Unexpected (look ts) (curr_loc l)), l1. split; auto.
  destruct (look ts); auto; discriminate.
Qed.

Lemma many_stop {A} m (cond : parser bool) (body : parser A) l l1 : cond l = POk false l1 -> many_f m cond body l = POk [] l1.
Proof. intros E. destruct m; cbn [many_f]; rewrite (bind_run _ _ _ _ _ E); auto. Qed.
Lemma many_go {A} m (cond : parser bool) (body : parser A) l l1 x l2 xs l3 : cond l = POk true l1 -> body l1 = POk x l2 ->
  many_f m cond body l2 = POk xs l3 -> many_f (S m) cond body l = POk (x :: xs) l3.
Proof. intros E1 E2 E3. cbn [many_f]. rewrite (bind_run _ _ _ _ _ E1), (bind_run _ _ _ _ _ E2), (bind_run _ _ _ _ _ E3). auto. Qed.

Lemma many_run {A} (cond : parser bool) (body : parser A) l xs l' :
  many_f (budget l) cond body l = POk xs l' -> many cond body l = POk xs l'.
Proof. auto. Qed.

Lemma operators_run ts is r : operators ts is r -> forall l, sees l (ts ++ r) ->
  exists l1 i is' us, p_infix l = POk i l1 /\ is = i :: is' /\ sees l1 (us ++ r) /\ List.length us <= List.length ts /\
    forall m, List.length us <= m -> exists l2, many_f m (bump_on TComma) p_infix l1 = POk is' l2 /\ sees l2 r.
Proof.
  induction 1 as [t k i r O N|t k i k' ts is r O H IH]; intros l S.
  - destruct (infix_run _ _ _ _ _ O S) as (l1&E1&S1&_). destruct (bump_on_stop _ _ _ (no_comma _ N) S1) as (l2&E2&S2).
    exists l1, i, [], []. split; auto. split; auto. split; auto. split; [cbn; lia|]. intros m _. exists l2. split; auto.
    apply many_stop; auto.
  - destruct (infix_run _ _ _ _ _ O S) as (l1&E1&S1&_). destruct (bump_on_run l1 TComma k' _ eq_refl S1) as (l2&E2&S2&_).
    destruct (IH l2 S2) as (l3&j&js&us&E3&->&S3&Lu&E4).
    exists l1, i, (j :: js), ((TComma, k') :: ts). split; auto. split; auto. split; auto. split; [cbn; lia|].
    intros m L. destruct m as [|m]; cbn [List.length] in L; [lia|]. destruct (E4 m ltac:(lia)) as (l4&E5&S4).
    exists l4. split; auto. eapply many_go; eauto.
Qed.

Lemma assoc_run l t a k ts : associativity t a -> sees l ((t, k) :: ts) ->
  exists l1, p_assoc l = POk a l1 /\ sees l1 ts.
Proof.
  intros O S. unfold p_assoc.
  match goal with |- context [(a <- here ;; t <- peek ;; @?f a t) l] => destruct (look_run l _ f S) as (l1&E&_&S1&C&K&S2) end.
  rewrite E. cbn [look]. exists (snd (lx_bump l1)). split; auto. destruct O; rewrite (bump_then_run _ _ _ C); auto.
Qed.

Lemma infix_decl_run ts d r : declares ts d r -> forall l, sees l (ts ++ r) ->
  exists l1, p_infix_decl l = POk d l1 /\ sees l1 r.
Proof.
  intros D l S. unfold p_infix_decl, p_fixity.
  assert (G : exists f l1 us is, (s <- p_assoc;; p <- p_prec;; ret {| fx_prec := p; fx_assoc := s |}) l = POk f l1 /\
     operators us is r /\ sees l1 (us ++ r) /\ d = mkInfixDecl is f).
  { destruct D as [t a k n k' ts is r A Ln O|t a k ts is r A N O].
    - destruct (assoc_run _ _ _ _ _ A S) as (l1&E1&S1). rewrite (bind_run _ _ _ _ _ E1). unfold p_prec. unfold bind at 1.
      match goal with |- context [(a <- here ;; t <- peek ;; @?f a t) l1] => destruct (look_run l1 _ f S1) as (l2&E&_&S2&C&K&S3) end.
      rewrite E. cbn [look]. rewrite (bump_then_run _ _ _ C). destruct (N.leb_spec n 9); [|lia]. cbn [ret].
      eexists _, _, ts, is. split; [reflexivity|]. auto.
    - destruct (assoc_run _ _ _ _ _ A S) as (l1&E1&S1). rewrite (bind_run _ _ _ _ _ E1). unfold p_prec. unfold bind at 1.
      match goal with |- context [(a <- here ;; t <- peek ;; @?f a t) l1] => destruct (look_run l1 _ f S1) as (l2&E&_&S2&_) end.
      rewrite E. destruct ts as [|(t1,k1) ts]; [discriminate N|]. cbn [app look]. destruct t1; try discriminate N. cbn [ret].
      eexists _, _, _, is. split; [reflexivity|]. repeat split; eauto. }
  destruct G as (f&l1&us&is&E&O&S1&->). rewrite (bind_run _ _ _ _ _ E).
  destruct (operators_run _ _ _ O l1 S1) as (l2&i&is'&vs&E2&->&S2&_&E3).
  assert (L : List.length vs <= budget l2). { apply sees_budget in S2. rewrite app_length in S2. lia. }
  destruct (E3 _ L) as (l3&E4&S3). rewrite (bind_run _ _ _ _ _ E2). rewrite (bind_run _ _ _ _ _ (many_run _ _ _ _ _ E4)).
  exists l3. split; auto.
Qed.

(** [ptok] and the pair type are different for [lia]. *)
Ltac len := unfold ptok in *; lia.

(** * Patterns *)

(** What [paren_pat] does after the parenthesis. *)
Definition head_pat (pattern : parser pat) (a : loc) (t : token) : parser pat :=
  match t with
  | TAffix s _ => bump ;;; ret (PVar s)
  | TUpper s => upper_pat pattern s
  | TDash => bump ;;; p <- pattern ;; ret (PNeg p)
  | t => if begins_pat t true then pattern else fail (Unexpected t a)
  end.

Definition inner_of (q : pkind) : bool := match q with Inner => true | _ => false end.

Definition one (p : parser pat) (ts : list ptok) (ps : list pat) (r : list ptok) : Prop :=
  forall l, sees l (ts ++ r) -> exists x l', ps = [x] /\ p l = POk x l' /\ sees l' r.

Definition accepts (q : pkind) (ts : list ptok) (ps : list pat) (r : list ptok) : Prop :=
  match q with
  | Plain | Inner => forall n, List.length ts <= n -> one (pat_f n (inner_of q)) ts ps r
  | Head => forall n l a l1, List.length ts <= n -> sees l (ts ++ r) -> peek l = POk (look (ts ++ r)) l1 ->
      exists x l', ps = [x] /\ head_pat (pat_f n false) a (look (ts ++ r)) l1 = POk x l' /\ sees l' r
  | Con => forall n l s, List.length ts <= S n -> lx_curr l = Some (TUpper s) -> sees l (ts ++ r) ->
      exists x l', ps = [x] /\ upper_pat (pat_f n false) s l = POk x l' /\ sees l' r
  | Juxt => forall n m l, List.length ts <= n -> List.length ts <= m -> sees l (ts ++ r) ->
      exists l', many_f m at_pat (pat_f n false) l = POk ps l' /\ sees l' r
  | Commas q => forall n m l, List.length ts <= n -> List.length ts <= m -> sees l (ts ++ r) ->
      exists l', many_f m (bump_on TComma) (pat_f n (inner_of q)) l = POk ps l' /\ sees l' r
  end.

Lemma pats_nonempty q ts ps r : pats q ts ps r -> match q with Juxt | Commas _ => True | _ => ts <> [] end.
Proof.
  induction 1; auto; try discriminate;
    repeat match goal with H : _ \/ _ |- _ => destruct H; subst end; try discriminate; try exact I.
Qed.

(** The first token of a pattern. *)
Lemma plain_start ts p r : pats Plain ts p r -> pat_start (look ts) = true.
Proof.
  intros H. remember Plain as q eqn:Q. destruct H; try discriminate Q; auto.
Qed.

Lemma look_app (ts r : list ptok) : ts <> [] -> look (ts ++ r) = look ts.
Proof. destruct ts as [|(t,k) ts]; congruence || auto. Qed.

Ltac lookat E := match goal with |- context [(a <- here ;; t <- peek ;; @?f a t) ?l] =>
  match goal with S : sees l _ |- _ =>
  let l1 := fresh "l" in let P := fresh "P" in let S1 := fresh "S" in let C := fresh "C" in
  let K := fresh "K" in let S2 := fresh "S" in
  destruct (look_run l _ f S) as (l1&E&P&S1&C&K&S2); rewrite E; cbn [app look] end end.

Lemma con_start ts p r : pats Con ts p r -> exists s k ts', ts = (TUpper s, k) :: ts'.
Proof.
  intros H. inversion H; subst; eauto; match goal with X : _ \/ _ |- _ => destruct X; discriminate end.
Qed.
Lemma inner_not_closed ts p r : pats Inner ts p r -> same (look ts) TBrackR = false.
Proof.
  intros H. inversion H; subst; auto. match goal with X : pats Con _ _ _ |- _ => destruct (con_start _ _ _ X) as (s&k&t&->) end. auto.
Qed.
Lemma commas_start q ts p r : pats (Commas q) ts p r -> ts <> [] -> exists k ts', ts = (TComma, k) :: ts'.
Proof.
  intros H. inversion H; subst; eauto; try congruence; match goal with X : _ \/ _ |- _ => destruct X; discriminate end.
Qed.

Lemma bump_sees l t k ts : lx_curr l = Some t -> sees l ((t, k) :: ts) -> sees (snd (lx_bump l)) ts.
Proof. intros C (l1&E&_&_&S). unfold lx_peek in E. rewrite C in E. injection E as <-. auto. Qed.

Lemma pats_run q ts ps r : pats q ts ps r -> accepts q ts ps r.
Proof.
  induction 1 as [q k r Q|q s k r Q N|q s k k' ts p r Q H IH|s k r|ts p r H IH|x k r|k ts p r H IH
    |q k k' ts p r Q H IH|q k k' ts p us ps r Q H IH H1 IH1 Nu|q k k1 k2 r Q|q k k' ts p us ps r Q H IH H1 IH1
    |s b k r|k ts p r H IH|ts p r H IH|ts p r H IH N|s k ts ps r H IH N|s k ts ps us qs r H IH H1 IH1 Nu
    |r N|ts p us ps r H IH H1 IH1|q r N|q k ts p us ps r Q H IH H1 IH1]; cbn [accepts inner_of] in *.
  - assert (G : forall n b, List.length [(TUnderscore, k)] <= n -> one (pat_f n b) [(TUnderscore, k)] [PWild] r).
    { intros n b L l S. destruct n as [|n]; [cbn in L; len|]. cbn [pat_f]. lookat E.
      rewrite (bump_then_run _ _ _ C). exists PWild. eexists. repeat split; auto. }
    destruct Q; subst; intros n L; apply G; auto.
  - assert (G : forall n b, List.length [(TLower s, k)] <= n -> one (pat_f n b) [(TLower s, k)] [PVar s] r).
    { intros n b L l S. destruct n as [|n]; [cbn in L; len|]. cbn [pat_f]. lookat E.
      unfold lower_pat. rewrite (bump_then_run _ _ _ C).
      assert (N' : same (look r) TAt = false).
      { rewrite <- look_next in N by auto. destruct (look r); auto; discriminate. }
      destruct (bump_on_stop _ _ _ N' S1) as (l2&E2&S2).
      rewrite (bind_run _ _ _ _ _ E2). exists (PVar s), l2. auto. }
    destruct Q; subst; intros n L; apply G; auto.
  - assert (G : forall n b, List.length ((TLower s, k) :: (TAt, k') :: ts) <= n -> one (pat_f n b) ((TLower s, k) :: (TAt, k') :: ts) [PAs s p] r).
    { intros n b L l S. destruct n as [|n]; cbn [List.length] in L; [len|]. cbn [pat_f]. lookat E.
      unfold lower_pat. rewrite (bump_then_run _ _ _ C).
      destruct (bump_on_run _ TAt k' (ts ++ r) eq_refl S1) as (l2&E2&S2&_).
      rewrite (bind_run _ _ _ _ _ E2). destruct (IH n ltac:(len) l2 S2) as (x&l3&Ex&E3&S3).
      rewrite (bind_run _ _ _ _ _ E3). injection Ex as <-. exists (PAs s p), l3. auto. }
    destruct Q; subst; intros n L; apply G; auto.
  - intros n L l S. destruct n as [|n]; cbn [List.length] in L; [len|]. cbn [pat_f inner_of]. lookat E.
    rewrite (bump_then_run _ _ _ C). exists (PCon s []). eexists. repeat split; auto.
  - intros n L l S. pose proof (pats_nonempty _ _ _ _ H) as Ne. cbn in Ne.
    destruct n as [|n]; [destruct ts; [congruence|cbn in L; len]|]. cbn [pat_f inner_of].
    destruct (con_start _ _ _ H) as (s&k&ts'&->). cbn [app] in S. lookat E. apply IH; auto.
  - intros n L l S. destruct n as [|n]; cbn [List.length] in L; [len|]. cbn [pat_f inner_of]. lookat E.
    rewrite (bump_then_run _ _ _ C). exists (PLit x). eexists. repeat split; auto.
  - intros n L l S. destruct n as [|n]; cbn [List.length] in L; [len|]. cbn [pat_f inner_of]. lookat E.
    rewrite (bump_then_run _ _ _ C). apply (IH n); auto. len.
  - assert (G : forall n b, List.length ((TParenL, k) :: ts ++ [(TParenR, k')]) <= n -> one (pat_f n b) ((TParenL, k) :: ts ++ [(TParenR, k')]) [p] r).
    { intros n b L l S. destruct n as [|n]; cbn [List.length] in L; [len|]. rewrite app_length in L. cbn [List.length] in L.
      cbn [app] in S. rewrite <- !app_assoc in S. cbn [app] in S. cbn [pat_f]. lookat E. unfold paren_pat.
      destruct (eat_run l0 TParenL k _ eq_refl S0) as (l2&E2&S2&_). rewrite (bind_run _ _ _ _ _ E2).
      match goal with |- context [(a <- here ;; t <- peek ;; @?f a t) l2] => destruct (look_run l2 _ f S2) as (l3&E3&P3&S3&_) end.
      rewrite E3. destruct (IH n l2 (curr_loc l2) l3 ltac:(len) S2 P3) as (x&l4&Ex&E4&S4). injection Ex as <-.
      unfold head_pat in E4. rewrite (bind_run _ _ _ _ _ E4). clear E3 E4.
      destruct (peek_on_run l4 _ TComma S4) as (l5&E5&S5&_). rewrite (bind_run _ _ _ _ _ E5). cbn [look same].
      rewrite (bind_run _ _ _ _ _ eq_refl). destruct (eat_run l5 TParenR k' _ eq_refl S5) as (l6&E6&S6&_).
      rewrite (bind_run _ _ _ _ _ E6). exists p, l6. auto. }
    destruct Q; subst; intros n L; apply G; auto.
  - assert (G : forall n b, List.length ((TParenL, k) :: ts ++ us ++ [(TParenR, k')]) <= n -> one (pat_f n b) ((TParenL, k) :: ts ++ us ++ [(TParenR, k')]) [PTup (p :: ps)] r).
    { intros n b L l S. destruct n as [|n]; cbn [List.length] in L; [len|]. rewrite !app_length in L. cbn [List.length] in L.
      cbn [app] in S. rewrite <- !app_assoc in S. cbn [app] in S. cbn [pat_f]. lookat E. unfold paren_pat.
      destruct (eat_run l0 TParenL k _ eq_refl S0) as (l2&E2&S2&_). rewrite (bind_run _ _ _ _ _ E2).
      match goal with |- context [(a <- here ;; t <- peek ;; @?f a t) l2] => destruct (look_run l2 _ f S2) as (l3&E3&P3&S3&_) end.
      rewrite E3. destruct (IH n l2 (curr_loc l2) l3 ltac:(len) S2 P3) as (x&l4&Ex&E4&S4). injection Ex as <-.
      unfold head_pat in E4. rewrite (bind_run _ _ _ _ _ E4). clear E3 E4.
      pose proof (commas_start _ _ _ _ H1 Nu) as Hu.
      destruct (peek_on_run l4 _ TComma S4) as (l5&E5&S5&_). rewrite (bind_run _ _ _ _ _ E5).
      replace (same (look (us ++ (TParenR, k') :: r)) TComma) with true by (destruct Hu as (c&us'&->); auto).
      pose proof (sees_budget _ _ S5) as Lb. rewrite app_length in Lb.
      destruct (IH1 n (budget l5) l5 ltac:(len) ltac:(len) S5) as (l6&E6&S6). cbn [inner_of] in E6.
      unfold collection_tail. unfold bind at 1. rewrite (bind_run _ _ _ _ _ (many_run _ _ _ _ _ E6)). cbn [ret].
      destruct (eat_run l6 TParenR k' _ eq_refl S6) as (l7&E7&S7&_).
      rewrite (bind_run _ _ _ _ _ E7). exists (PTup (p :: ps)), l7. auto. }
    destruct Q; subst; intros n L; apply G; auto.
  - assert (G : forall n b, List.length [(TBrackL, k); (TBrackR, k1); (TBrackR, k2)] <= n -> one (pat_f n b) [(TBrackL, k); (TBrackR, k1); (TBrackR, k2)] [PArr []] r).
    { intros n b L l S. destruct n as [|n]; cbn [List.length] in L; [len|]. cbn [pat_f]. lookat E. unfold brack_pat.
      destruct (eat_run l0 TBrackL k _ eq_refl S0) as (l2&E2&S2&_). rewrite (bind_run _ _ _ _ _ E2).
      destruct (bump_on_run l2 TBrackR k1 _ eq_refl S2) as (l3&E3&S3&_). rewrite (bind_run _ _ _ _ _ E3).
      rewrite (bind_run _ _ _ _ _ eq_refl). destruct (eat_run l3 TBrackR k2 _ eq_refl S3) as (l4&E4&S4&_).
      rewrite (bind_run _ _ _ _ _ E4). exists (PArr []), l4. auto. }
    destruct Q; subst; intros n L; apply G; auto.
  - assert (G : forall n b, List.length ((TBrackL, k) :: ts ++ us ++ [(TBrackR, k')]) <= n -> one (pat_f n b) ((TBrackL, k) :: ts ++ us ++ [(TBrackR, k')]) [PArr (p :: ps)] r).
    { intros n b L l S. destruct n as [|n]; cbn [List.length] in L; [len|]. rewrite !app_length in L. cbn [List.length] in L.
      cbn [app] in S. rewrite <- !app_assoc in S. cbn [app] in S. cbn [pat_f]. lookat E. unfold brack_pat.
      destruct (eat_run l0 TBrackL k _ eq_refl S0) as (l2&E2&S2&_). rewrite (bind_run _ _ _ _ _ E2).
      assert (N' : same (look (ts ++ us ++ (TBrackR, k') :: r)) TBrackR = false).
      { pose proof (pats_nonempty _ _ _ _ H) as Ne. cbn in Ne. rewrite look_app by auto. eapply inner_not_closed; eauto. }
      destruct (bump_on_stop _ _ _ N' S2) as (l3&E3&S3).
      rewrite (bind_run _ _ _ _ _ E3). destruct (IH n ltac:(len) l3 S3) as (x&l4&Ex&E4&S4). injection Ex as <-.
      unfold bind at 1. cbn [inner_of] in E4. rewrite (bind_run _ _ _ _ _ E4).
      pose proof (sees_budget _ _ S4) as Lb. rewrite app_length in Lb.
      destruct (IH1 n (budget l4) l4 ltac:(len) ltac:(len) S4) as (l6&E6&S6). cbn [inner_of] in E6.
      unfold collection_tail. rewrite (bind_run _ _ _ _ _ (many_run _ _ _ _ _ E6)). cbn [ret].
      destruct (eat_run l6 TBrackR k' _ eq_refl S6) as (l7&E7&S7&_).
      rewrite (bind_run _ _ _ _ _ E7). exists (PArr (p :: ps)), l7. auto. }
    destruct Q; subst; intros n L; apply G; auto.
  - intros n l a l1 L S P. cbn [app look head_pat] in *. destruct (peek_run HU l _ S) as (l2&P2&_&C&_&S2). cbn [look] in P2.
    rewrite P in P2. injection P2 as <-. rewrite (bump_then_run _ _ _ C). exists (PVar s). eexists. repeat split; auto.
  - intros n l a l1 L S P. cbn [app look head_pat List.length] in *. destruct (peek_run HU l _ S) as (l2&P2&_&C&_&S2). cbn [look] in P2.
    rewrite P in P2. injection P2 as <-. rewrite (bump_then_run _ _ _ C).
    destruct (IH n ltac:(len) _ S2) as (x&l4&Ex&E4&S4). injection Ex as <-. cbn [inner_of] in E4.
    rewrite (bind_run _ _ _ _ _ E4). exists (PNeg p), l4. auto.
  - intros n l a l1 L S P.
    destruct (con_start _ _ _ H) as (s&k&ts'&->). cbn [app look head_pat] in *. destruct (peek_run HU l _ S) as (l2&P2&S1&C&_&S2). cbn [look] in P2.
    rewrite P in P2. injection P2 as <-. apply (IH n l1 s); auto.
  - intros n l a l1 L S P. pose proof (plain_start _ _ _ H) as St. pose proof (pats_nonempty _ _ _ _ H) as Ne. cbn in Ne.
    apply (peek_sees HU _ _ _ P) in S. rewrite look_app in * by auto.
    assert (Eh : head_pat (pat_f n false) a (look ts) = pat_f n false).
    { rewrite <- look_next in N by auto. unfold head_pat. destruct (look ts); auto; discriminate. }
    rewrite Eh. apply (IH n); auto.
  - intros n l s0 L C S. cbn [List.length app] in *. destruct S as (l1&E&Ek&_&S). unfold lx_peek in E. rewrite C in E. injection E as <- <-.
    unfold upper_pat. rewrite (bump_then_run _ _ _ C).
    pose proof (sees_budget _ _ S) as Lb. rewrite app_length in Lb.
    destruct (IH n (budget (snd (lx_bump l))) _ ltac:(len) ltac:(len) S) as (l2&E2&S2).
    rewrite (bind_run _ _ _ _ _ (many_run _ _ _ _ _ E2)). destruct (peek_on_run l2 _ TComma S2) as (l3&E3&S3&_).
    rewrite (bind_run _ _ _ _ _ E3), no_comma by auto. exists (PCon s0 ps), l3. auto.
  - intros n l s0 L C S. cbn [List.length app] in *. destruct S as (l1&E&Ek&_&S). unfold lx_peek in E. rewrite C in E. injection E as <- <-.
    unfold upper_pat. rewrite (bump_then_run _ _ _ C). rewrite <- app_assoc in S. rewrite app_length in L.
    pose proof (sees_budget _ _ S) as Lb. rewrite app_length in Lb.
    destruct (IH n (budget (snd (lx_bump l))) _ ltac:(len) ltac:(len) S) as (l2&E2&S2).
    rewrite (bind_run _ _ _ _ _ (many_run _ _ _ _ _ E2)). destruct (peek_on_run l2 _ TComma S2) as (l3&E3&S3&_).
    pose proof (commas_start _ _ _ _ H1 Nu) as Hu.
    rewrite (bind_run _ _ _ _ _ E3). replace (same (look (us ++ r)) TComma) with true by (destruct Hu as (c&us'&->); auto).
    pose proof (sees_budget _ _ S3) as Lb3. rewrite app_length in Lb3.
    destruct (IH1 n (budget l3) l3 ltac:(len) ltac:(len) S3) as (l6&E6&S6). cbn [inner_of] in E6.
    unfold collection_tail. rewrite (bind_run _ _ _ _ _ (many_run _ _ _ _ _ E6)).
    exists (PTup (PCon s0 ps :: qs)), l6. auto.
  - intros n m l L Lm S. cbn [app] in S. destruct (peek_run HU l _ S) as (l1&E&S1&_). exists l1. split; auto. apply many_stop.
    unfold at_pat. rewrite (bind_run _ _ _ _ _ E). unfold ret. f_equal. rewrite <- look_next in N by auto.
    destruct (look r); auto.
  - intros n m l L Lm S. rewrite app_length in L, Lm. rewrite <- app_assoc in S.
    pose proof (plain_start _ _ _ H) as St. pose proof (pats_nonempty _ _ _ _ H) as Ne. cbn in Ne.
    assert (0 < List.length ts) by (destruct ts; [congruence|cbn; len]). destruct m as [|m]; [len|].
    destruct (peek_run HU l _ S) as (l1&E&S1&_). rewrite look_app in E by auto.
    destruct (IH n ltac:(len) l1 S1) as (x&l2&Ex&E2&S2). injection Ex as <-. cbn [inner_of] in E2.
    destruct (IH1 n m l2 ltac:(len) ltac:(len) S2) as (l3&E3&S3). exists l3. split; auto. eapply many_go; eauto.
    unfold at_pat. rewrite (bind_run _ _ _ _ _ E). unfold ret. f_equal. destruct (look ts); auto; discriminate.
  - intros n m l L Lm S. cbn [app] in S. destruct (bump_on_stop _ _ _ (no_comma _ N) S) as (l2&E2&S2). exists l2. split; auto.
    apply many_stop; auto.
  - intros n m l L Lm S. cbn [List.length app] in *. rewrite app_length in L, Lm. rewrite <- app_assoc in S.
    destruct m as [|m]; [len|]. destruct (bump_on_run l TComma k _ eq_refl S) as (l1&E1&S1&_).
    assert (G : exists l2, pat_f n (inner_of q) l1 = POk p l2 /\ sees l2 (us ++ r)).
    { destruct Q; subst q; destruct (IH n ltac:(len) l1 S1) as (x&l2&Ex&E2&S2); injection Ex as <-; eauto. }
    destruct G as (l2&E2&S2). destruct (IH1 n m l2 ltac:(len) ltac:(len) S2) as (l3&E3&S3). exists l3. split; auto. eapply many_go; eauto.
Qed.

Lemma pattern_run ts p r : pats Plain ts [p] r -> forall l, sees l (ts ++ r) ->
  exists l', pattern l = POk p l' /\ sees l' r.
Proof.
  intros H l S. pose proof (sees_budget _ _ S) as L. rewrite app_length in L.
  destruct (pats_run _ _ _ _ H (budget l) ltac:(len) l S) as (x&l'&Ex&E&S'). injection Ex as <-. exists l'. auto.
Qed.

Lemma juxt_run ts ps r : pats Juxt ts ps r -> forall m l, List.length ts <= m -> sees l (ts ++ r) ->
  exists l', many_f m at_pat pattern l = POk ps l' /\ sees l' r.
Proof.
  intros H. remember Juxt as q eqn:Q. induction H; try discriminate Q; try (subst; destruct H; discriminate); clear Q.
  - intros m l Lm S. cbn [app] in S. destruct (peek_run HU l _ S) as (l1&E&S1&_). exists l1. split; auto. apply many_stop.
    unfold at_pat. rewrite (bind_run _ _ _ _ _ E). unfold ret. f_equal. rewrite <- look_next in H by auto.
    destruct (look r); auto.
  - intros m l Lm S. rewrite app_length in Lm. rewrite <- app_assoc in S.
    pose proof (plain_start _ _ _ H) as St. pose proof (pats_nonempty _ _ _ _ H) as Ne. cbn in Ne.
    assert (0 < List.length ts) by (destruct ts; [congruence|cbn; lia]). destruct m as [|m]; [len|].
    destruct (peek_run HU l _ S) as (l1&E&S1&_). rewrite look_app in E by auto.
    destruct (pattern_run _ _ _ H l1 S1) as (l2&E2&S2).
    destruct (IHpats2 eq_refl m l2 ltac:(len) S2) as (l3&E3&S3). exists l3. split; auto. eapply many_go; eauto.
    unfold at_pat. rewrite (bind_run _ _ _ _ _ E). unfold ret. f_equal. destruct (look ts); auto; discriminate.
Qed.

End WithUcd.
