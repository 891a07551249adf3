(** From texts to trees. *)
From Coq Require Import List Arith NArith Bool String Lia.
From Verif Require Import Prelim Chars Syntax SpecFixity Lexer SpecLexer SpecLexRun Parser SpecParser.
From Verif Require Import ProofLexer ProofLexer2 ProofLexer6 ProofLexer7 ProofLexer8.
From Verif Require Import ProofParser ProofParser2 ProofParser3 ProofParser4 ProofParser5 ProofParser6.
Import ListNotations.

Section WithUcd.
Context {U : ucd}.
Context (HU : letters U).

(** * Texts and tokens *)

Lemma peek_lex l o l1 : lx_curr l = None -> lx_peek l = Ok (o, l1) -> exists t l', lex l = Ok (t, l') /\
  (t = TEof /\ o = None /\ l1 = l' \/ t <> TEof /\ o = Some t /\ l1 = set_curr (Some t) l').
Proof.
  intros C E. unfold lx_peek in E. rewrite C in E. destruct (lex l) as [[t r]| |]; cbn [obind] in E; try discriminate.
  exists t, r. split; auto. destruct t; injection E as <- <-; auto; right; repeat split; discriminate.
Qed.

Lemma lexeme_plain s t v : lexeme s t v -> sentinel t = false.
Proof.
  destruct 1; auto; repeat match goal with I : In (_, _) _ |- _ => cbn in I; repeat (destruct I as [I|I]; [injection I as <- <-; reflexivity|]); destruct I end.
Qed.

Lemma sees_text : forall ts w r p, no_lfcr (w ++ r) -> sees (lexer_at w r None p) ts <-> ctokens w r ts.
Proof.
  induction ts as [|(t,k) ts IH]; intros w r p N; split; intros H.
  - cbn [sees] in H. destruct H as (l1&E). destruct (peek_lex (lexer_at w r None p) _ _ eq_refl E) as (t&l'&L&[(->&_&_)|(_&X&_)]); [|discriminate].
    assert (Nx : lx_next (lexer_at w r None p) = Ok (None, l')) by (unfold lx_next; rewrite L; auto).
    apply step in Nx as [(_&G&_)|(g&s&v&t&q&_&_&X&_)]; auto; [|discriminate]. constructor. auto.
  - inversion H; subst. cbn [sees]. unfold lx_peek. cbn [lexer_at lx_curr].
    change (mkLexer _ _ _ _ _ _ _) with (lexer_at w r None p). rewrite lex_end; auto; [|eapply no_lfcr_app_r; eauto].
    cbn [obind]. eauto.
  - cbn [sees] in H. destruct H as (l1&E&K&Sn&S). destruct (peek_lex (lexer_at w r None p) _ _ eq_refl E) as (t'&l'&L&[(_&X&_)|(Nt&X&->)]); [discriminate|].
    injection X as <-. assert (Nx := next_ok _ _ _ L Nt).
    apply step in Nx as [(X&_)|(g&s&v&t'&q&Er&G&X&El&_&H)]; auto; [discriminate|]. injection X as <- _ _.
    destruct H as [(Le&_)|(e&->&_)]; [|discriminate]. subst l' r.
    change (snd (lx_bump (set_curr (Some t) (lexer_at (w ++ g ++ s) v None q)))) with (lexer_at (w ++ g ++ s) v None q) in S.
    cbn [set_curr lexer_at lx_col] in K. subst k. apply ct_cons; auto. apply IH in S; auto.
    rewrite <- !app_assoc. auto.
  - inversion H as [|g s t' v ts' G Le T]; subst.
    destruct (lex_token HU g s t v w None p G Le) as (q&E&_). { eapply no_lfcr_app_r; eauto. }
    cbn [sees]. unfold lx_peek. cbn [lexer_at lx_curr].
    change (mkLexer _ _ _ _ _ _ _) with (lexer_at w (g ++ s ++ v) None p). rewrite E. cbn [obind].
    pose proof (lexeme_plain _ _ _ Le) as Sn. exists (set_curr (Some t) (lexer_at (w ++ g ++ s) v None q)).
    split; [destruct t; auto; discriminate|]. split; [reflexivity|]. split; auto.
    change (snd (lx_bump (set_curr (Some t) (lexer_at (w ++ g ++ s) v None q)))) with (lexer_at (w ++ g ++ s) v None q).
    apply IH; auto. rewrite <- !app_assoc. auto.
Qed.

Lemma new_none src : no_lfcr src -> exists ws v p, src = ws ++ v /\ all is_white ws /\ stops is_white v /\
  lexer_new src = lexer_at ws v None p.
Proof.
  intros N. destruct (span is_white src) as (ws&v&->&A&S). unfold lexer_new, eat_whitespace. cbv zeta.
  change (mkLexer (ws ++ v) (ws ++ v) None 1 1 0 loc_default) with (lexer_at [] (ws ++ v) None loc_default).
  rewrite eat_while_at by auto. cbn [app]. rewrite setprev_at. eauto 10.
Qed.

Lemma ctokens_white ws v ts : all is_white ws -> stops is_white v -> (ctokens ws v ts <-> ctokens [] (ws ++ v) ts).
Proof.
  intros A S. split; intros T.
  - inversion T as [g G|g s t v' ts' G L T' E1]; subst.
    + constructor. apply gap_whites; auto.
    + rewrite app_assoc. replace (ws ++ g ++ s) with ([] ++ (ws ++ g) ++ s) in * by (cbn [app]; rewrite <- app_assoc; auto).
      apply ct_cons; auto. apply gap_whites; auto.
  - remember (ws ++ v) as r eqn:E. destruct T as [g G|g s t v' ts G L T].
    + rewrite <- (app_nil_r g) in E. destruct (gap_white_inv ws A g [] G v (eq_sym E) S) as (g'&->&G'); auto.
      rewrite <- app_assoc in E. apply app_inv_head in E. rewrite app_nil_r in E. subst. constructor. auto.
    + destruct (gap_white_inv ws A g (s ++ v') G v (eq_sym E) S) as (g'&->&G').
      { right. destruct (lexeme_start HU s t v' L) as (c&s'&->&W). exact W. }
      rewrite <- app_assoc in E. apply app_inv_head in E. subst. cbn [app] in *. rewrite <- app_assoc in *. apply ct_cons; auto.
Qed.

Lemma sees_source src ts : no_lfcr src -> sees (lexer_new src) ts <-> ctokens [] src ts.
Proof.
  intros N. destruct (new_none src N) as (ws&v&p&->&A&S&->). rewrite sees_text by auto. apply ctokens_white; auto.
Qed.

(** * Where the parser leaves the lexer *)

Lemma many_end {A} (cond : parser bool) (body : parser A) : forall n l xs l', many_f n cond body l = POk xs l' ->
  exists l0, cond l0 = POk false l'.
Proof.
  induction n as [|n IH]; intros l xs l' H; cbn [many_f] in H; apply bind_ok in H as (b&l1&E&H); destruct b.
  - discriminate.
  - injection H as <- <-. eauto.
  - apply bind_ok in H as (x&l2&E2&H). apply bind_ok in H as (ys&l3&E3&H). injection H as <- <-. eauto.
  - injection H as <- <-. eauto.
Qed.

Lemma driven_reachable src l : driven src l -> reachable src l.
Proof. induction 1; [apply re_new|eapply re_peek; eauto|apply re_bump; auto]. Qed.

Lemma driven_curr src l : driven src l -> lx_curr l <> Some TEof.
Proof.
  induction 1 as [|l x l' D IH E|l D IH].
  - unfold lexer_new. match goal with |- context [eat_whitespace ?l] => destruct (eat_whitespace_goes l) as (u&_&Hc&_) end.
    rewrite Hc. discriminate.
  - unfold lx_peek in E. destruct (lx_curr l) as [t|] eqn:C. { injection E as <- <-. congruence. }
    pose proof (lex_goes HU l) as G. destruct (lex l) as [[t r]| |]; cbn [obind] in E; try discriminate.
    destruct (G t r eq_refl) as (u&_&Hc&_). rewrite C in Hc.
    destruct t; injection E as <- <-; cbn [set_curr lx_curr]; try discriminate. rewrite Hc. discriminate.
  - unfold lx_bump. destruct (lx_curr l) eqn:C; cbn [snd set_curr lx_curr]; congruence.
Qed.

Lemma parse_done l ds l' src : driven src l' -> p_decls l = POk ds l' -> sees l' [].
Proof.
  intros D H. apply many_end in H as (l0&H). apply bind_ok in H as (d&l1&E&H). injection H as Hd ->.
  apply bind_ok in E as (t&l2&E&H). injection H as <- ->. destruct (same t TEof) eqn:Q; [|discriminate].
  apply same_eq in Q. subst t. unfold peek in E. destruct (lx_peek l0) as [[[t|] l2]| |] eqn:P; try discriminate.
  - injection E as -> ->. destruct (peek_some _ _ _ P) as (C&_). destruct (driven_curr _ _ D C).
  - injection E as ->. destruct (peek_none HU _ _ P) as (_&_&l3&P'). cbn. eauto.
Qed.

Lemma parse_iff src a : no_lfcr src -> ((exists l, parse src = POk a l) <->
  exists ts ds, ctokens [] src ts /\ program Nat.ltb ts ds /\ a = fold_left ast_push ds ast_empty).
Proof.
  intros N. split.
  - intros (l&H). unfold parse, p_parse in H. apply bind_ok in H as (ds&l1&E&H). injection H as <- <-.
    pose proof (good_decls HU src (lexer_new src) (dr_new src)) as G. rewrite E in G. destruct G as (D&_).
    pose proof (parse_done _ _ _ _ D E) as S. destruct (decls_back HU _ _ _ E S) as (ts&S1&P).
    apply sees_source in S1; auto. eauto.
  - intros (ts&ds&T&P&->). apply sees_source in T; auto. destruct (decls_run HU _ _ P _ T) as (l'&E&_).
    exists l'. unfold parse, p_parse. rewrite (bind_run _ _ _ _ _ E). auto.
Qed.

Lemma driven_sees src l ts : driven src l -> sees (lexer_new src) ts -> exists cs r, ts = cs ++ r /\ sees l r.
Proof.
  induction 1 as [|l x l' D IH E|l D IH]; intros S.
  - exists [], ts. auto.
  - destruct (IH S) as (cs&r&->&S1). exists cs, r. split; auto.
    assert (P : exists t, peek l = POk t l') by (unfold peek; rewrite E; destruct x; eauto).
    destruct P as (t&P). apply (peek_sees HU _ _ _ P). auto.
  - destruct (IH S) as (cs&r&->&S1). unfold lx_bump. destruct (lx_curr l) as [t|] eqn:C; [|exists cs, r; auto].
    destruct r as [|(t',k) r].
    + cbn in S1. unfold lx_peek in S1. rewrite C in S1. destruct S1 as (l1&X). discriminate.
    + exists (cs ++ [(t', k)]), r. rewrite <- app_assoc. split; auto. destruct S1 as (l1&E&_&_&S1).
      unfold lx_peek in E. rewrite C in E. injection E as <- <-. unfold lx_bump in S1. rewrite C in S1. auto.
Qed.

Lemma sees_unique : forall ts us l, sees l ts -> sees l us -> ts = us.
Proof.
  induction ts as [|(t,k) ts IH]; intros [|(t',k') us] l S S'; auto; cbn [sees] in *.
  - destruct S as (?&S), S' as (?&S'&_). congruence.
  - destruct S as (?&S&_), S' as (?&S'). congruence.
  - destruct S as (l1&E&K&_&S), S' as (l2&E'&K'&_&S'). rewrite E in E'. injection E' as <- <-. subst. f_equal. eauto.
Qed.

Lemma white_unique : forall ws ws' v v', ws ++ v = ws' ++ v' -> all is_white ws -> all is_white ws' ->
  stops is_white v -> stops is_white v' -> ws' = ws.
Proof.
  induction ws as [|c ws IH]; intros [|c' ws'] v v' E A A' S S'; auto; cbn [app] in E.
  - subst v. apply Forall_inv in A'. cbn in S. congruence.
  - subst v'. apply Forall_inv in A. cbn in S'. congruence.
  - injection E as -> E. f_equal. inversion A; inversion A'; subst. eauto.
Qed.

Lemma parse_expr_iff src ts e : no_lfcr src -> ctokens [] src ts -> ((exists l, parse_expr src = POk e l) <->
  exists us r ws v, src = ws ++ v /\ all is_white ws /\ stops is_white v /\
    ts = us ++ r /\ exprs Nat.ltb (KExpr (col_of ws)) us [e] r).
Proof.
  intros N T. apply sees_source in T; auto. destruct (new_none src N) as (ws&v&p&E0&A&St&E1).
  assert (Kc : lx_col (lexer_new src) = col_of ws) by (rewrite E1; auto). unfold parse_expr. split.
  - intros (l&E).
    pose proof (good_expression HU src (S (left_ (lexer_new src))) (lexer_new src) (dr_new src) ltac:(lia)) as G.
    rewrite E in G. destruct G as (D&_). destruct (driven_sees _ _ _ D T) as (cs&r&_&S).
    destruct (expression_back HU _ _ _ _ E S) as (us&S1&X&_).
    exists us, r, ws, v. repeat split; auto.
    + exact (sees_unique _ _ _ T S1).
    + rewrite <- Kc. exact X.
  - intros (us&r&ws'&v'&E'&A'&S'&->&X).
    assert (ws' = ws). { rewrite E0 in E'. eapply white_unique; eauto. } subst ws'. eapply expression_run in X; eauto. destruct X as (l'&X&_). eauto.
Qed.

End WithUcd.
