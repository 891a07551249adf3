(** The responses to commands. *)
From Coq Require Import List Arith NArith Bool String Lia.
From Verif Require ProofLexer2.
From Verif Require Import ProofLexer8.
From Verif Require Import Prelim Chars Syntax Fixity Style Lexer Parser Printer Grapheme Messages Repl
  SpecGrapheme SpecLexer SpecParser SpecFixity SpecStyle SpecPrinter SpecRepl ProofGrapheme ProofTable ProofRewrite ProofResolve ProofResolve2 ProofFixity ProofParser8 PropsParser PropsPrinter
  ProofRepl ProofRepl2 ProofRepl3 ProofRepl4 ProofRepl5 ProofRepl6 ProofRepl8 ProofRepl9 SpecOutput ProofOutput.
Import ListNotations.
Local Open Scope string_scope.
Local Open Scope list_scope.

Section WithUcd.
Context {U : ucd}.

Lemma entries_listed t : lists t (write_entries t).
Proof. intros H. destruct (C22_listing t H) as (V&_&_&V'&A). split; [|exact A]. now rewrite V'. Qed.
Lemma table_listed t : lists t (write_fixities t).
Proof. intros H. destruct (C22_listing t H) as (V&A&_). split; [exact V|exact A]. Qed.

Lemma table_is t : NoDup (keys t) -> table_of (get_defined t) t.
Proof.
  intros N. split; [exact N|]. intros o f. induction t as [|(k,v) t IH]; cbn [get_defined].
  - split; [discriminate|]. intros (o'&[]&_).
  - cbn in N. inversion N as [|? ? N1 N2]; subst. specialize (IH N2). destruct (infix_eqb_spec k o) as [E|E].
    + split.
      * intros X. injection X as <-. exists k. split; [now left|auto].
      * intros (o'&[X|I]&E'); [congruence|]. elim N1. rewrite E, <- E'. apply in_map_iff. exists (o', f). auto.
    + rewrite IH. split; intros (o'&I&E').
      * exists o'. split; [now right|auto].
      * destruct I as [X|I]; [injection X as -> ->; congruence|]. eauto.
Qed.

Lemma names_are t : NoDup (keys t) -> names_of (get_defined t) (keys t).
Proof.
  intros N. split; auto. intros o. rewrite get_none_keys. split; [tauto|]. intros H.
  destruct (in_dec (list_eq_dec N.eq_dec) (symbol o) (keys t)); tauto.
Qed.

Lemma keys_length t : List.length (keys t) = List.length t.
Proof. apply map_length. Qed.

(** * Words *)

Lemma word_list_around a l z ws : white a -> white z -> word_list (a ++ l ++ z) ws <-> word_list l ws.
Proof.
  intros Wa Wz.
  assert (H : forall l ws, word_list l ws -> word_list (a ++ l) ws).
  { intros l0 ws0 H. destruct H as [l0 W|l0 x p d ws0 (->&Wx&Wp&Sd) W].
    - constructor. apply Forall_app; auto.
    - apply (wl_cons _ (a ++ x) p d); [|eauto]. split; [apply app_assoc|]. split; auto. apply Forall_app; auto. }
  assert (G : forall l ws, word_list l ws -> word_list (l ++ z) ws).
  { induction 1 as [l0 W|l0 x p d ws0 (->&Wx&Wp&Sd) W IH].
    - constructor. apply Forall_app; auto.
    - apply (wl_cons _ x p (d ++ z)); [|exact IH]. split; [rewrite <- !app_assoc; reflexivity|]. repeat split; auto; try apply Wp.
      destruct d; auto. destruct z; cbn; auto. inversion Wz; auto. }
  split; intros W.
  - destruct (words_total l) as (ws'&W'). pose proof (H _ _ (G _ _ W')) as X.
    apply split_whitespace_iff in X, W. congruence.
  - auto.
Qed.

Lemma white_filter f l : white l -> white (filter f l).
Proof. intros H. apply Forall_forall. intros c I. apply filter_In in I as (I&_). eapply Forall_forall in H; eauto. Qed.

Lemma filter_around (f : chr -> bool) b ws : word_list (filter f b) ws -> word_list (filter f (trim b)) ws.
Proof.
  destruct (trim_spec b) as (x&y&E&Wx&Wy&_). rewrite E at 1. rewrite !filter_app. apply word_list_around; now apply white_filter.
Qed.

Lemma operators_meant s : Forall2 operator_of (split_whitespace s) (map as_infix (split_whitespace s)).
Proof.
  assert (W : word_list s (split_whitespace s)) by now apply split_whitespace_iff.
  induction W as [|s a p b ws (E&Wa&(Np&Wp)&Sb) W IH]; cbn [map]; constructor; auto.
  destruct p; [congruence|]. reflexivity.
Qed.

Lemma picks t os : picked (get_defined t) os (filter (has t) os) (filter (fun o => negb (has t o)) os).
Proof.
  induction os as [|o os IH]; cbn [filter]; [constructor|]. assert (H : has t o = match get_defined t o with Some _ => true | None => false end) by reflexivity.
  rewrite H. destruct (get_defined t o) eqn:E; cbn [negb].
  - apply pk_found; auto. congruence.
  - apply pk_missing; auto.
Qed.

Lemma entry_found t o f : get_defined t o = Some f -> exists k, get_entry t o = Some (k, f) /\ In (k, f) t /\ symbol k = symbol o.
Proof.
  induction t as [|(k,v) t IH]; cbn [get_defined get_entry]; [discriminate|]. destruct (infix_eqb_spec k o) as [E|E].
  - intros X. injection X as ->. exists k. cbn. auto.
  - intros X. destruct (IH X) as (k'&A&B&C). exists k'. cbn. auto.
Qed.

Lemma entries_found t os : Forall2 (fun o x => In x t /\ symbol (fst x) = symbol o) (filter (has t) os) (entries_for t (filter (has t) os)).
Proof.
  induction os as [|o os IH]; cbn [filter]; [constructor|]. assert (H : has t o = match get_defined t o with Some _ => true | None => false end) by reflexivity.
  rewrite H. destruct (get_defined t o) eqn:E; auto.
  unfold entries_for. cbn [flat_map]. destruct (entry_found t o _ E) as (k&->&I&S1). cbn [app]. constructor; auto.
Qed.

Lemma commaed_shown o os : show_infix o ++ flat_map (fun o => lit ", " ++ show_infix o) os = commaed (map show_infix (o :: os)).
Proof.
  revert o. induction os as [|p os IH]; intros o; cbn [flat_map map commaed]; [apply app_nil_r|].
  specialize (IH p). cbn [map commaed] in IH. rewrite <- IH. rewrite <- !app_assoc. reflexivity.
Qed.

Lemma operators_shown os : Forall2 operator_text os (map show_infix os).
Proof. induction os; constructor; auto using operator_shown. Qed.

(** * Files *)

Lemma blue_text s : in_blue s = esc "[34m" ++ s ++ esc "[0m".
Proof. reflexivity. Qed.
Lemma label_text : error_label = esc "[31m[Error]:" ++ esc "[0m ".
Proof. reflexivity. Qed.

Lemma rejected_shown (HU : letters U) src e l q m : no_lfcr src -> parse src = PErr e l -> show_error_with_path (ErrParser e) q = Ok m ->
  file_complaint show_lit q src m.
Proof.
  intros C P. unfold show_error_with_path. destruct (show_perror_without_loc e) as [b| |] eqn:Eb; try discriminate. cbn [obind].
  destruct (blames_shown HU _ _ _ _ C P Eb) as (Bl&_). intros E.
  apply (f_equal (fun o => match o with Ok m => m | _ => [] end)) in E. cbv beta iota in E. subst m.
  exists (error_loc e), b, (show_nat (l_line (error_loc e))), (show_nat (l_col (error_loc e))).
  split; [exact Bl|]. split; [apply show_nat_decimal|]. split; [apply show_nat_decimal|].
  rewrite label_text, blue_text. rewrite <- !app_assoc. reflexivity.
Qed.

Lemma report_written F q ds r res acts s :
  let G := declared F (infix_decls ds) in
  match res with
  | inl a => exists es', Forall2 (resolves G) (input_exprs ds) es' /\
      a = mkAst (a_kinds (fold_left ast_push ds ast_empty)) (infix_decls ds) es'
  | inr (ErrParser _) => False
  | inr (ErrResolver xs) => xs <> [] /\ dup_free xs /\ forall x, In x xs -> exists e, In e (input_exprs ds)
        /\ clash_in G e (e_prev x) (e_prev_fix x) (e_curr x) (e_curr_fix x)
  end ->
  (forall es', Forall2 (resolves G) (input_exprs ds) es' -> exists a, res = inl a) ->
  match res with
  | inl a =>
      ([outln (show_nat (List.length (a_infxs a)) ++ lit " fixities read from `" ++ q ++ lit "`");
        outln (write_entries (declared_entries a))], Running (set_res s r))
  | inr e => answer [] (show_error_with_path e q) (fun t => ([outln t], Running (set_res s r)))
  end = (acts, Running (set_res s r)) -> file_report F q ds acts.
Proof.
  intros G R Cp. destruct res as [a|[e|xs]]; [|destruct R|].
  - destruct R as (es'&Rs&->). cbn [a_infxs]. intros X.
    apply (f_equal fst) in X. cbn [fst] in X. subst acts. left. split; [eauto|].
    eexists; eexists. split; [apply show_nat_decimal|]. split; [apply entries_listed|].
    unfold outln. rewrite <- !app_assoc. reflexivity.
  - destruct R as (Nx&Df&Cl). cbn [show_error_with_path obind answer]. intros X.
    apply (f_equal fst) in X. cbn [fst app] in X. subst acts. right. split.
    { intros es' Rs. destruct (Cp es' Rs). discriminate. }
    exists xs, (map show_assoc_error xs). split; [clear; induction xs; constructor; auto using clash_shown|].
    split; auto. split; [|split; [now apply dup_free_nodup|exact Cl]].
    unfold outln. rewrite label_text, blue_text. f_equal. f_equal.
    assert (K : flat_map (fun s => [10; 32; 32]%N ++ s) (map show_assoc_error xs) = flat_map (fun e => 10%N :: 32%N :: 32%N :: show_assoc_error e) xs)
      by (clear; induction xs as [|x xs IH]; cbn [map flat_map]; [reflexivity|rewrite IH; reflexivity]).
    rewrite K. change (40%N :: q ++ [41%N]) with ([40%N] ++ q ++ lit ")").
    rewrite <- !app_assoc. reflexivity.
Qed.

Lemma loading_spec (HU : letters U) w ps : forall k s acts s' F,
  (forall i p q x t, nth_error ps i = Some p -> path_of p q -> w_read w (k + i) q = inl x -> loaded_text q x t -> tidy t) ->
  settled (s_res s) -> (forall o, get (r_fix (s_res s)) o = F o) ->
  read_files w k s ps = (acts, Running s') -> loading show_lit w k F ps acts.
Proof.
  induction ps as [|p ps IH]; intros k s acts s' F Ty St HF; cbn [read_files].
  - intros E. injection E as <- _. constructor.
  - destruct (unquote_total p) as (q&Q). rewrite Q, answer_nil. apply unquote_iff in Q.
    destruct (read_file w k s q) as (a1&st1) eqn:R. destruct st1 as [s1| | |]; try discriminate.
    destruct (read_files w (S k) s1 ps) as (a2&st2) eqn:R2. intros E. injection E as <- ->.
    pose proof (read_file_settled _ _ _ _ _ _ R St) as St1.
    assert (Ty' : forall i p q x t, nth_error ps i = Some p -> path_of p q -> w_read w (S k + i) q = inl x -> loaded_text q x t -> tidy t).
    { intros i p0 q0 x t N P0 Rd L. eapply (Ty (S i)); eauto. now rewrite <- plus_n_Sm. }
    unfold read_file in R. destruct (w_read w k q) as [x|err] eqn:Rd.
    + assert (T : tidy (relevant q x)).
      { eapply (Ty 0); eauto; [reflexivity|rewrite Nat.add_0_r; eauto|now apply relevant_iff]. }
      destruct T as (C&Nd).
      destruct (parses_dec HU (relevant q x) C) as [(ds&P)|N].
      * destruct (feed_parsed HU _ _ _ St C P (Nd _ P)) as (r'&res&Fd&St'&G&Tb&Rs&Cp).
        rewrite Fd in R. cbn [answer] in R.
        destruct (match res with inl a => _ | inr e => _ end) as (a3&st3) eqn:M in R. 
        injection R as <- ->.
        assert (Es : s1 = set_res s r').
        { destruct res as [a|e]; [injection M as _ <-; reflexivity|].
          destruct (show_error_with_path e q); cbn in M; try discriminate. injection M as _ <-. reflexivity. }
        subst s1. cbn [app]. eapply lo_read; eauto; [now apply relevant_iff| |].
        { eapply (report_written F q ds r' res); [| |exact M].
          - destruct res as [a|[e|xs]].
            + destruct Rs as (es'&Rs&Ea). exists es'. split; auto. eapply Forall2_impl'; [|exact Rs]. intros e e' Re. eapply resolves_ext; eauto. intros o. apply declared_ext. auto.
            + exact Rs.
            + destruct Rs as (A&B&D). split; [exact A|]. split; [exact B|]. intros y I. destruct (D y I) as (e&I'&Cl). exists e. split; auto. eapply clash_in_ext; eauto. intros o. apply declared_ext. auto.
          - intros es' Fs. apply (Cp es'). eapply Forall2_impl'; [|exact Fs]. intros e e' Re. eapply resolves_ext; eauto. intros o. apply declared_ext. auto. }
        eapply IH; eauto. intros o. cbn [s_res set_res]. rewrite G. apply declared_ext. auto.
      * destruct (feed_unparsed HU (s_res s) _ C N) as [(e&l&P&Fd)|(pp&_&Fd)]; rewrite Fd in R; cbn [answer] in R; [|discriminate].
        destruct (show_error_with_path (ErrParser e) q) as [m| |] eqn:Em; cbn [answer] in R; try discriminate.
        injection R as <- <-. cbn [app]. eapply lo_rejected; [exact Q|exact Rd|now apply relevant_iff|exact N|eapply rejected_shown; eauto|eapply IH; eauto].
    + injection R as <- <-.
      change (loading show_lit w k F (p :: ps) (ARead q :: errln (lit "unable to read `" ++ q ++ lit "`") :: errln err :: a2)).
      unfold errln. rewrite <- !app_assoc. eapply lo_missing; eauto.
Qed.
End WithUcd.
