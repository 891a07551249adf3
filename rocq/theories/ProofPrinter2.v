(** What the printer puts on the screen: expressions. *)
From Coq Require Import List Arith NArith ZArith Bool String Lia.
From Verif Require Import Prelim Chars Syntax Fixity Style SpecStyle ProofStyle SpecLexer SpecParser Printer SpecPrinter ProofPrinter.
Import ListNotations.

Lemma wseq_assoc a b c st : (a ;; (b ;; c)) st = ((a ;; b) ;; c) st.
Proof.
  unfold wseq. destruct (a st) as [(s,st1)|p|]; cbn; auto.
  destruct (b st1) as [(u,st2)|p|]; cbn; auto. destruct (c st2) as [(v,st3)|p|]; cbn; auto.
  rewrite app_assoc. reflexivity.
Qed.
Lemma wseq_ext a a' b b' st : a st = a' st -> (forall st', b st' = b' st') -> (a ;; b) st = (a' ;; b') st.
Proof.
  intros E F. unfold wseq. rewrite E. destruct (a' st) as [(s,st1)|p|]; cbn; auto. rewrite F. reflexivity.
Qed.
Lemma wr_app s u st : wr (s ++ u) st = (wr s ;; wr u) st.
Proof. reflexivity. Qed.

Lemma wr_split s u x st : (wr (s ++ u) ;; x) st = (wr s ;; wr u ;; x) st.
Proof.
  unfold wseq, wr. cbn. destruct (x st) as [(v,st1)|p|]; cbn; auto. rewrite app_assoc. reflexivity.
Qed.

Definition inside (st : list fixity) : bool := match st with [] => false | _ => true end.

Section WithUcd.
Context {U : ucd}.
Context (leaf : str -> Prop).

(** [w] shows [s] and takes the stack from [st] to [st']. *)
Definition puts_to (w : writer) (st st' : list fixity) (s : str) : Prop :=
  exists o, shows w st st' o /\ map fst o = s /\ nested leaf o.

Lemma to_puts w st s : puts_to w st st s = puts leaf w st s.
Proof. reflexivity. Qed.
Lemma to_seq a b st st1 st2 s u : puts_to a st st1 s -> puts_to b st1 st2 u -> puts_to (a ;; b) st st2 (s ++ u).
Proof.
  intros (o&S&M&N) (o'&S'&M'&N'). exists (o ++ o'). split; [eapply shows_seq; eauto|].
  rewrite map_app, M, M'. split; auto. apply nested_app; auto.
Qed.
Lemma to_set st st' : puts_to (wset st') st st' [].
Proof. exists []. split; [apply shows_set|]. split; auto. constructor. Qed.
Lemma to_push f st : puts_to (wpush f) st (f :: st) [].
Proof. exists []. split; [apply shows_push|]. split; auto. constructor. Qed.
Lemma to_pop f st : puts_to wpop (f :: st) st [].
Proof. exists []. split; [apply shows_pop|]. split; auto. constructor. Qed.
Lemma to_ext w w' st st' s : w st = w' st -> puts_to w st st' s -> puts_to w' st st' s.
Proof. intros E (o&(u&E'&R)&M). exists o. split; auto. exists u. split; auto. congruence. Qed.
Lemma to_eq w st st' s s' : puts_to w st st' s -> s = s' -> puts_to w st st' s'.
Proof. intros H <-. auto. Qed.
Lemma to_pair w st l r s : In (l, r) brackets -> l <> 27%N -> r <> 27%N -> forall st1 st2, puts_to w st st1 s -> st1 = st2 ->
  puts_to (wr [l] ;; w ;; wr [r]) st st2 (l :: s ++ [r]).
Proof.
  intros I Nl Nr st1 ? (o&S&M&N) <-. exists (plainly [l] ++ o ++ plainly [r]). split.
  - eapply shows_seq; [apply shows_wr|]. { intros [|[]]. congruence. }
    eapply shows_seq; eauto. apply shows_wr. intros [|[]]. congruence.
  - rewrite !map_app, !plainly_fst, M. split; auto. apply nested_pair2; auto.
Qed.

Lemma expr_lam t p body st : write_expr t (Lam p body) st =
  (wr ((if inside st then [40%N] else []) ++ [92%N]) ;; wset [] ;; write_pat p ;; wlams t st body
   ;; wr (if inside st then [41%N] else [])) st.
Proof. destruct st; reflexivity. Qed.
Lemma fexpr_lam b p body : fexpr b (Lam p body) = fparens b (92%N :: fpat p ++ flams b body).
Proof. reflexivity. Qed.

Lemma punct s st : Forall (fun c => is_bracket c = false /\ c <> 27%N) s -> puts_to (wr s) st st s.
Proof. apply puts_punct. Qed.

Lemma show_infix_puts o st : leaf (symbol o) -> no_esc (symbol o) -> puts_to (wr (show_infix o)) st st (show_infix o).
Proof.
  intros L N. destruct o as [s|s]; cbn [show_infix].
  - apply puts_text; auto.
  - destruct (_ && _).
    + apply (to_ext (wr [96%N] ;; wr s ;; wr [96%N])); [reflexivity|].
      apply to_seq with st; [apply punct; repeat constructor; discriminate|].
      apply to_seq with st; [apply puts_text; auto|apply punct; repeat constructor; discriminate].
    + apply (to_ext (wr [39%N] ;; wr s)); [reflexivity|]. change (39%N :: s) with ([39%N] ++ s).
      apply to_seq with st; [apply punct; repeat constructor; discriminate|apply puts_text; auto].
Qed.

Lemma write_expr_puts t : forall n e, esize e <= n -> positive e -> (forall s, texts show_lit e s -> leaf s) ->
  (forall s, texts nolits e s -> no_esc s) -> forall st, puts_to (write_expr t e) st st (fexpr (inside st) e).
Proof.
  induction n as [|n IH]; intros e Sz P L N st; [destruct e; cbn in Sz; lia|].
  assert (Seq : forall es, Forall (fun x => esize x <= n) es -> Forall positive es ->
    (forall x s, In x es -> texts show_lit x s -> leaf s) ->
    (forall x s, In x es -> texts nolits x s -> no_esc s) -> 
    puts_to (write_sequence (write_expr t) es) [] [] (commas (map (fexpr false) es))).
  { intros es F Ps Ls Ns. apply puts_sequence. rewrite Forall_forall in *. intros x Hx.
    apply (IH x (F x Hx) (Ps x Hx) (fun s H => Ls x s Hx H) (fun s H => Ns x s Hx H) []). }
  assert (Szs : forall es, list_sum (map esize es) <= n -> Forall (fun x => esize x <= n) es).
  { induction es as [|x es IHes]; intros H; [constructor|]. change (esize x + list_sum (map esize es) <= n) in H. constructor; [lia|apply IHes; lia]. }
  destruct P as [l|i|f x Pf Px|a o b Pa Pb|p e Pe|e Pe|es Ps|es Ps|d e Pe].
  - apply puts_text; [apply show_lit_no_esc|apply L; constructor].
  - cbn [write_expr fexpr].
    assert (W : forall s, show_ident i = s -> ident_is_infix i = false -> leaf s -> no_esc s ->
      puts_to (if ident_is_infix i then wr ([40%N] ++ show_ident i ++ [41%N]) else wr (show_ident i)) st st
        (fparens (ident_is_infix i) (show_ident i))).
    { intros s <- -> Hl Hn. apply puts_text; auto. }
    destruct i as [|k|s|s|s]; try (apply (W s); auto; [apply L|apply N]; constructor).
    + cbn [ident_is_infix fparens show_ident].
      apply (to_ext (wr [91%N] ;; wr [] ;; wr [93%N])); [reflexivity|]. change (lit "[]") with (91%N :: [] ++ [93%N]).
      eapply to_pair; [cbn; auto|discriminate|discriminate|apply punct; constructor|auto].
    + cbn [ident_is_infix fparens show_ident].
      apply (to_ext (wr [40%N] ;; wr (repeat 44%N k) ;; wr [41%N])); [reflexivity|].
      eapply to_pair; [cbn; auto|discriminate|discriminate|apply punct|auto].
      apply Forall_forall. intros c H. apply repeat_spec in H. subst. split; [reflexivity|discriminate].
    + cbn [ident_is_infix fparens show_ident].
      apply (to_ext (wr [40%N] ;; wr s ;; wr [41%N])); [reflexivity|].
      eapply to_pair; [cbn; auto|discriminate|discriminate|apply puts_text; [apply N|apply L]; constructor|auto].
  - cbn [write_expr fexpr]. cbn [esize] in Sz. apply to_seq with st.
    { apply IH; auto; [lia| |]; intros s H; [apply L|apply N]; constructor; auto. }
    change (32%N :: fexpr (inside st) x) with ([32%N] ++ fexpr (inside st) x).
    apply to_seq with st; [apply punct; repeat constructor; discriminate|].
    apply IH; auto; [lia| |]; intros s H; [apply L|apply N]; apply tx_app_x; auto.
  - cbn [write_expr]. cbn [esize] in Sz.
    assert (H : forall e, e = a \/ e = b -> puts_to (if no_paren e then write_expr t e else write_grouped (write_expr t e))
      (get t o :: st) (get t o :: st) (fparens (negb (no_paren e)) (fexpr true e))).
    { intros e He. assert (G : puts_to (write_expr t e) (get t o :: st) (get t o :: st) (fexpr true e)).
      { apply (IH e); auto; [destruct He; subst; lia|destruct He; subst; auto| |]; intros s H; [apply L|apply N];
          destruct He; subst; [apply tx_bin_l|apply tx_bin_r|apply tx_bin_l|apply tx_bin_r]; auto. }
      destruct (no_paren e); cbn [negb]; auto. apply puts_grouped. exact G. }
    eapply to_eq; [eapply to_seq; [apply to_push|]|].
    { eapply to_seq; [apply H; auto|]. eapply to_seq with (st1 := get t o :: st).
      - apply (to_ext (wr [32%N] ;; wr (show_infix o) ;; wr [32%N])); [reflexivity|].
        apply to_seq with (get t o :: st); [apply punct; repeat constructor; discriminate|].
        apply to_seq with (get t o :: st); [|apply punct; repeat constructor; discriminate].
        apply show_infix_puts; [apply L|apply N]; apply tx_bin_o.
      - eapply to_seq; [apply H; auto|apply to_pop]. }
    cbn [fexpr]. cbn [app]. rewrite app_nil_r. rewrite <- app_assoc. reflexivity.
  - assert (Hp : forall st, puts_to (write_pat p) st st (fpat p)).
    { apply write_pat_puts; intros s H; [apply L|apply N]; constructor; auto. }
    cbn [esize] in Sz.
    assert (Hb : forall b, esize b <= n -> positive b -> (forall s, texts show_lit b s -> leaf s) ->
      (forall s, texts nolits b s -> no_esc s) -> puts_to (wlams t st b) [] st (flams (inside st) b)).
    { clear Pe L N Sz Hp. intros b.
      assert (D : esize b <= n -> positive b -> (forall s, texts show_lit b s -> leaf s) ->
        (forall s, texts nolits b s -> no_esc s) ->
        puts_to (wr (lit " -> ") ;; wset st ;; write_expr t b) [] st (lit " -> " ++ fexpr (inside st) b)).
      { intros Szb Pb Lb Nb. apply to_seq with []; [apply punct; repeat constructor; discriminate|].
        change (fexpr (inside st) b) with ([] ++ fexpr (inside st) b). eapply to_seq; [apply to_set|]. apply IH; auto. }
      induction b; try exact D. clear D. intros Szb Pb Lb Nb. cbn [esize] in Szb.
      change (puts_to (wr [32%N] ;; write_pat p0 ;; wlams t st b) [] st ([32%N] ++ fpat p0 ++ flams (inside st) b)).
      apply to_seq with []; [apply punct; repeat constructor; discriminate|]. apply to_seq with [].
      { apply write_pat_puts; intros s H; [apply Lb|apply Nb]; constructor; auto. }
      apply IHb; [|lia| | |].
      - intros S1 P1 L1 N1. apply to_seq with []; [apply punct; repeat constructor; discriminate|].
        change (fexpr (inside st) b) with ([] ++ fexpr (inside st) b). eapply to_seq; [apply to_set|]. apply IH; auto.
      - inversion Pb; auto.
      - intros s H. apply Lb. apply tx_lam. auto.
      - intros s H. apply Nb. apply tx_lam. auto. }
    assert (B : puts_to (wr [92%N] ;; wset [] ;; write_pat p ;; wlams t st e) st st (92%N :: fpat p ++ flams (inside st) e)).
    { change (92%N :: fpat p ++ flams (inside st) e) with ([92%N] ++ [] ++ fpat p ++ flams (inside st) e).
      eapply to_seq; [apply punct; repeat constructor; discriminate|]. eapply to_seq; [apply to_set|].
      eapply to_seq; [apply Hp|]. apply Hb; auto; [lia| |]; intros s H; [apply L|apply N]; apply tx_lam; auto. }
    rewrite fexpr_lam.
    destruct (inside st) eqn:I; cbn [fparens].
    + eapply (to_ext (wr [40%N] ;; (wr [92%N] ;; wset [] ;; write_pat p ;; wlams t st e) ;; wr [41%N])).
      { rewrite expr_lam, I. rewrite wr_split. apply wseq_ext; auto. intros st0.
        rewrite <- wseq_assoc. apply wseq_ext; auto. intros st1.
        rewrite <- wseq_assoc. apply wseq_ext; auto. intros st2. rewrite <- wseq_assoc. auto. }
      eapply to_pair; [cbn; auto|discriminate|discriminate|exact B|auto].
    + eapply (to_ext ((wr [92%N] ;; wset [] ;; write_pat p ;; wlams t st e) ;; wr [])).
      { rewrite expr_lam, I. cbn [app]. rewrite <- wseq_assoc. apply wseq_ext; auto. intros st1.
        rewrite <- wseq_assoc. apply wseq_ext; auto. intros st2. rewrite <- wseq_assoc. auto. }
      eapply to_eq; [eapply to_seq; [exact B|apply punct; constructor]|apply app_nil_r].
  - cbn [write_expr fexpr]. cbn [esize] in Sz. apply puts_grouped. apply IH; auto; [lia| |]; intros s H; [apply L|apply N]; constructor; auto.
  - cbn [write_expr fexpr]. cbn [esize] in Sz.
    eapply (to_ext (wset [] ;; (wr [40%N] ;; write_sequence (write_expr t) es ;; wr [41%N]) ;; wset st)).
    { apply wseq_ext; auto. intros st'. rewrite <- wseq_assoc. apply wseq_ext; auto. intros st''. rewrite <- wseq_assoc. auto. }
    change (fparens true (commas (map (fexpr false) es))) with ([] ++ 40%N :: commas (map (fexpr false) es) ++ [41%N]).
    eapply to_seq; [apply to_set|]. eapply to_eq; [|apply app_nil_r]. eapply to_seq; [|apply to_set].
    eapply to_pair; [cbn; auto|discriminate|discriminate| |auto]. apply Seq; auto; [apply Szs; lia| |]; intros x s I H; [apply L|apply N];
      econstructor; eauto.
  - cbn [write_expr fexpr]. cbn [esize] in Sz.
    eapply (to_ext (wset [] ;; (wr [91%N] ;; write_sequence (write_expr t) es ;; wr [93%N]) ;; wset st)).
    { apply wseq_ext; auto. intros st'. rewrite <- wseq_assoc. apply wseq_ext; auto. intros st''. rewrite <- wseq_assoc. auto. }
    change (91%N :: commas (map (fexpr false) es) ++ [93%N]) with ([] ++ 91%N :: commas (map (fexpr false) es) ++ [93%N]).
    eapply to_seq; [apply to_set|]. eapply to_eq; [|apply app_nil_r]. eapply to_seq; [|apply to_set].
    eapply to_pair; [cbn; auto|discriminate|discriminate| |auto]. apply Seq; auto; [apply Szs; lia| |]; intros x s I H; [apply L|apply N];
      econstructor; eauto.
  - cbn [write_expr fexpr]. cbn [esize] in Sz. apply IH; auto; [lia| |]; intros s H; [apply L|apply N]; constructor; auto.
Qed.

End WithUcd.
