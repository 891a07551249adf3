(** Uniqueness of the fixities in force over a session, and what a line that is
    evaluated does. *)
From Coq Require Import List Arith NArith Bool String Lia.
From Verif Require ProofLexer2.
From Verif Require Import Prelim Chars Syntax Fixity Style Lexer Parser Printer Grapheme Messages Repl
  SpecGrapheme SpecLexer SpecParser SpecFixity SpecRepl ProofBytes ProofTable ProofRewrite ProofResolve ProofResolve2
  ProofFixity ProofGrapheme ProofPrinter8 PropsGrapheme PropsPrinter ProofRepl ProofRepl2 ProofRepl3 ProofRepl4 ProofRepl5 ProofRepl6 ProofRepl7.
Import ListNotations.
Local Open Scope string_scope.
Local Open Scope list_scope.

Section WithUcd.
Context {U : ucd}.

(** * Numbers *)

Lemma show_nat_decimal n : decimal n (show_nat n).
Proof.
  exists (map (fun c => (c - 48)%N) (show_N (N.of_nat n))). split; [apply show_N_digits|].
  unfold show_nat. destruct (ProofDigits.show_N_spec (N.of_nat n)) as (_&F&_). rewrite map_map.
  symmetry. transitivity (map (fun c : N => c) (show_N (N.of_nat n))); [|apply map_id].
  apply map_ext_in. intros c I. rewrite Forall_forall in F. specialize (F c I). unfold ProofDigits.dec_digit in F. lia.
Qed.

Lemma table_count t names : NoDup (keys t) -> names_of (get_defined t) names -> List.length t = List.length names.
Proof.
  intros N (ND&H). assert (E : List.length (keys t) = List.length t) by (unfold keys; apply map_length).
  rewrite <- E. apply Nat.le_antisymm; apply NoDup_incl_length; auto; intros s I.
  - assert (X : In (symbol (Standard s)) names); [|exact X]. apply H.
    intros G. apply (proj1 (get_none_keys _ (Standard s)) G). exact I.
  - change s with (symbol (Standard s)) in *. apply H in I.
    destruct (in_dec (list_eq_dec N.eq_dec) (symbol (Standard s)) (keys t)) as [|Nk]; auto.
    destruct I. apply get_none_keys. exact Nk.
Qed.

(** * Uniqueness *)

Lemma grouped_unique b es is b' : grouped b es is b' -> forall js c', grouped b es js c' -> js = is /\ c' = b'.
Proof.
  induction 1 as [b|b msg es is b' G IH|b w l es is b' R G IH|b w l t es is b' R G IH
                 |b w l t es is b' R G IH|w l c es is b' R G IH|b w l c es is b' Nb R G IH];
    intros js c' H; inversion H as [|? ? ? ? ? G'|? ? ? ? ? ? R' G'|? ? ? ? ? ? ? R' G'|? ? ? ? ? ? ? R' G'|? ? ? ? ? ? R' G'|? ? ? ? ? ? ? Nb' R' G']; subst;
    auto; try (pose proof (reads_unique _ _ _ R R') as Q; try discriminate Q; try (injection Q as <-)); try congruence;
    try (destruct (IH _ _ G') as (->&->); auto).
Qed.

Lemma loaded_unique p t u v : loaded_text p t u -> loaded_text p t v -> u = v.
Proof. intros A B. apply relevant_iff in A. apply relevant_iff in B. congruence. Qed.
Lemma path_unique p q r : path_of p q -> path_of p r -> q = r.
Proof. intros A B. apply unquote_iff in A. apply unquote_iff in B. congruence. Qed.

Lemma command_unique c n arg arg' : command c n arg -> command c n arg' -> arg = arg'.
Proof.
  intros (b&->&_&T) (b'&E&_&T'). apply app_inv_head in E. subst. eapply trimmed_unique; eauto.
Qed.
Lemma command_names c n m arg arg' : is_word n = true -> is_word m = true -> command c n arg -> command c m arg' -> lit n = lit m.
Proof.
  intros Wn Wm (b&->&Sb&_) (b'&E&Sb'&_). apply is_word_spec in Wn, Wm. apply (word_app_unique _ _ _ _ Wn Wm Sb Sb') in E. apply E.
Qed.
Lemma exact_command n : command (lit n) n [].
Proof. exists []. rewrite app_nil_r. repeat split. exists [], []. repeat split; constructor. Qed.

Lemma clears_not_load c arg : clears_fixities c -> command c ":load" arg -> False.
Proof.
  intros [->|[->|[H|[H|[H|H]]]]] C;
    match goal with
    | C : command (lit ?n) _ _ |- _ => pose proof (command_names _ n ":load" _ _ eq_refl eq_refl (exact_command n) C)
    | H : command ?c ":clear" _ |- _ => pose proof (command_names _ ":clear" ":load" _ _ eq_refl eq_refl H C)
    end; discriminate.
Qed.

Lemma evaluates_unique (HU : letters U) F G t F' G' : tidy t -> (forall o, F o = G o) ->
  evaluates F t F' -> evaluates G t G' -> forall o, F' o = G' o.
Proof.
  intros (C&_) E [ds P|P] [ds' P'|P'] o.
  - rewrite (parses_unique HU t ds ds' C P P'). now apply declared_ext.
  - elim (P' _ P).
  - elim (P _ P').
  - auto.
Qed.

Lemma loads_unique (HU : letters U) w k F ps F' : loads w k F ps F' -> forall G G',
  (forall i p q x t, nth_error ps i = Some p -> path_of p q -> w_read w (k + i) q = inl x -> loaded_text q x t -> tidy t) ->
  (forall o, F o = G o) -> loads w k G ps G' -> forall o, F' o = G' o.
Proof.
  induction 1 as [k F|k F p q e ps F' P R L IH|k F p q c t F1 ps F' P R Lt Ev L IH]; intros G G' Ty E H.
  - inversion H; subst. auto.
  - assert (Ty' : forall i p q x t, nth_error ps i = Some p -> path_of p q -> w_read w (S k + i) q = inl x -> loaded_text q x t -> tidy t).
    { intros i p0 q0 x t N P0 R0 L0. apply (Ty (S i) p0 q0 x t); auto. rewrite <- plus_n_Sm. auto. }
    inversion H as [|? ? ? q' e' ? ? P' R' L'|? ? ? q' c' t' ? ? ? P' R' Lt' Ev' L']; subst; rewrite <- (path_unique _ _ _ P P') in *.
    + eapply IH; eauto.
    + congruence.
  - assert (Ty' : forall i p q x t, nth_error ps i = Some p -> path_of p q -> w_read w (S k + i) q = inl x -> loaded_text q x t -> tidy t).
    { intros i p0 q0 x t0 N P0 R0 L0. apply (Ty (S i) p0 q0 x t0); auto. rewrite <- plus_n_Sm. auto. }
    inversion H as [|? ? ? q' e' ? ? P' R' L'|? ? ? q' c' t' ? ? ? P' R' Lt' Ev' L']; subst; rewrite <- (path_unique _ _ _ P P') in *.
    + congruence.
    + rewrite R in R'. injection R' as <-. rewrite <- (loaded_unique _ _ _ _ Lt Lt') in *.
      eapply IH; [exact Ty'| |exact L']. eapply evaluates_unique; eauto.
      apply (Ty 0 p q c t); auto. now rewrite Nat.add_0_r.
Qed.

Lemma evolves_unique (HU : letters U) F G i F' G' : (forall t, evaluated [i] t -> tidy t) -> (forall o, F o = G o) ->
  evolves F i F' -> evolves G i G' -> forall o, F' o = G' o.
Proof.
  intros Ty E H H'.
  assert (Loads : forall c a, command c ":load" a -> a <> [] -> loads_something c) by (intros c a C N; exists a; auto).
  destruct H as [t F' Ev|w c Cl|w c C|w c C|w c arg ps F' C N1 N2 Wl L|w c Nc Nl| |msg];
    inversion H' as [t' ? Ev'|w' c' Cl'|w' c' C'|w' c' C'|w' c' arg' ps' ? C' N1' N2' Wl' L'|w' c' Nc' Nl'| |msg']; subst; intros o; auto;
    try (exfalso; eapply clears_not_load; eauto; fail);
    try (exfalso; apply Nl'; eapply Loads; eauto; discriminate);
    try (exfalso; apply Nl; eapply Loads; eauto; discriminate);
    try (exfalso; pose proof (command_unique _ _ _ _ C C') as Q; first [discriminate Q | congruence]);
    try (exfalso; auto; fail).
  - eapply evaluates_unique; eauto. apply Ty. left. left. reflexivity.
  - apply over_ext; auto.
  - apply over_ext; auto.
  - pose proof (command_unique _ _ _ _ C C') as <-.
    assert (ps' = ps) as -> by (apply split_whitespace_iff in Wl, Wl'; congruence).
    eapply loads_unique; eauto. intros i p q x t N P R Lt. apply Ty. right. exists w, c, i, q, x.
    split; [left; auto|]. split; auto. exists arg, ps, p. auto 10.
  - destruct (list_eq_dec N.eq_dec arg []) as [->|Na]; [|exfalso; apply Nl'; eapply Loads; eauto].
    apply split_whitespace_iff in Wl. cbn in Wl. subst. inversion L; subst. auto.
  - destruct (list_eq_dec N.eq_dec arg' []) as [->|Na]; [|exfalso; apply Nl; eapply Loads; eauto].
    apply split_whitespace_iff in Wl'. cbn in Wl'. subst. inversion L'; subst. auto.
Qed.

Lemma evolution_unique (HU : letters U) F is F' : evolution F is F' -> forall G G', (forall t, evaluated is t -> tidy t) ->
  (forall o, F o = G o) -> evolution G is G' -> forall o, F' o = G' o.
Proof.
  induction 1 as [F|F i F1 is F' Ev En IH]; intros G G' Ty E H; inversion H as [|? G1 ? ? Ev' En']; subst; auto.
  assert (T1 : forall t, evaluated [i] t -> tidy t).
  { intros t [I|(w&c&k&q&x&I&A)]; apply Ty; [left|right; exists w, c, k, q, x]; destruct I as [->|[]]; cbn; auto. }
  assert (T2 : forall t, evaluated is t -> tidy t).
  { intros t [I|(w&c&k&q&x&I&A)]; apply Ty; [left|right; exists w, c, k, q, x]; cbn; auto. }
  apply (IH G1 G' T2); auto. exact (evolves_unique HU F G i F1 G1 T1 E Ev Ev').
Qed.

(** * Lines *)

Lemma operator_shown o : operator_text o (show_infix o).
Proof.
  destruct o as [s|s]; cbn; auto. intros N. destruct (str_eqb s [39%N]) eqn:E; [apply ProofLexer2.str_eqb_eq in E; congruence|].
  now rewrite andb_false_r.
Qed.
Lemma clash_shown x : clash_text x (show_assoc_error x).
Proof.
  exists (show_infix (e_prev x)), (show_infix (e_curr x)). split; [apply operator_shown|]. split; [apply operator_shown|].
  unfold show_assoc_error. destruct (fx_assoc (e_prev_fix x)), (fx_assoc (e_curr_fix x)); reflexivity.
Qed.
Lemma clashes_shown xs : exists m, clashes_text xs m /\ show_error (ErrResolver xs) = Ok (error_prefix ++ m).
Proof.
  assert (F : Forall2 clash_text xs (map show_assoc_error xs)) by (induction xs; constructor; auto using clash_shown).
  destruct xs as [|x [|y ys]].
  - exists []. split; [exists []; auto|reflexivity].
  - exists (show_assoc_error x). split; [|reflexivity]. exists [show_assoc_error x]. auto.
  - eexists. split; [exists (map show_assoc_error (x :: y :: ys)); split; [exact F|reflexivity]|].
    cbn [map]. change (show_assoc_error x :: show_assoc_error y :: map show_assoc_error ys) with (map show_assoc_error (x :: y :: ys)).
    rewrite flat_map_concat_map, map_map, <- flat_map_concat_map. reflexivity.
Qed.

Lemma dup_free_nodup xs : dup_free xs ->
  NoDup (map (fun x => (symbol (e_prev x), e_prev_fix x, symbol (e_curr x), e_curr_fix x)) xs).
Proof.
  unfold dup_free. induction 1 as [|x l Hx H IH]; cbn; constructor; auto. intros I. apply in_map_iff in I as (y&E&I).
  rewrite Forall_forall in Hx. specialize (Hx y I). unfold err_eqb, infix_eqb in Hx. injection E as E1 E2 E3 E4.
  assert (R : forall f, fixity_eqb f f = true) by (intros [n []]; unfold fixity_eqb; cbn; now rewrite N.eqb_refl).
  rewrite E1, E2, E3, E4, !R, !ProofTable.str_eqb_refl in Hx. discriminate.
Qed.

Definition prints (e : expr) (m : str) : Prop := print_expr [] e = Ok m.

Lemma read_buffer_parsed (HU : letters U) s ds : settled (s_res s) -> no_lfcr (s_buf s) -> parses (s_buf s) ds ->
  Forall nodup_lets (input_exprs ds) -> exists acts s', read_buffer s = (acts, Running s') /\ shows prints (get (r_fix (s_res s))) ds acts /\
    s_buf s' = [] /\ s_hist s' = s_hist s /\ s_cont s' = s_cont s /\
    r_fix (s_res s') = load_tbl (r_fix (s_res s)) (infix_decls ds) /\
    (forall o, get (r_fix (s_res s')) o = declared (get (r_fix (s_res s))) (infix_decls ds) o).
Proof.
  intros St C P Nd. destruct (feed_parsed HU _ _ _ St C P Nd) as (r'&res&E&St'&G&Tb&R&Cp).
  unfold read_buffer. cbn [s_res set_buf]. rewrite E. cbn [answer].
  destruct res as [a|[e|xs]]; [| destruct R |].
  - destruct R as (es'&Rs&->). rewrite first_item by exact (Forall2_len _ _ _ Rs).
    assert (Pr : forall e, In e es' -> exists m, print_expr (r_fix r') e = Ok m).
    { intros e I. pose proof (feed_fatal HU (s_res s) (s_buf s)) as Fd. rewrite E in Fd. apply Fd. exact I. }
    destruct ds as [|[d|e0] ds].
    + exists [], (set_res (set_buf s []) r'). split; [reflexivity|]. split; [left; exists es'; auto|]. cbn. auto.
    + exists [], (set_res (set_buf s []) r'). split; [reflexivity|]. split; [left; exists es'; auto|]. cbn. auto.
    + destruct es' as [|e es'].
      { inversion Rs. }
      destruct (Pr e (or_introl eq_refl)) as (m&Em). rewrite Em. cbn [answer app].
      exists [AOut m], (set_res (set_buf s []) r'). split; [reflexivity|]. split; [|cbn; auto].
      left. exists (e :: es'). split; auto. exists m. split; auto. unfold prints. rewrite <- Em. apply C18_table_irrelevant.
  - destruct R as (Ne&Df&Cl).
    destruct (clashes_shown xs) as (m&Tm&Em). rewrite Em. cbn [answer app].
    exists [errln (error_prefix ++ m)], (set_res (set_buf s []) r'). split; [reflexivity|]. split; [|cbn; auto].
    right. split; [intros es' Rs; destruct (Cp _ Rs); discriminate|].
    exists xs, m. unfold errln. rewrite <- app_assoc. repeat split; auto using dup_free_nodup.
Qed.

Lemma read_buffer_unparsed (HU : letters U) s acts st : no_lfcr (s_buf s) -> (forall ds, ~ parses (s_buf s) ds) ->
  read_buffer s = (acts, st) ->
  (exists p, st = Crashed p /\ acts = []) \/
  exists m s', acts = [AErr m] /\ st = Running s' /\ s_res s' = s_res s /\ s_buf s' = [] /\ s_hist s' = s_hist s /\ s_cont s' = s_cont s.
Proof.
  intros C N. unfold read_buffer. cbn [s_res set_buf].
  destruct (feed_unparsed HU (s_res s) (s_buf s) C N) as [(e&l&_&E)|(p&_&E)]; rewrite E; cbn [answer].
  - destruct (show_error (ErrParser e)) as [m|p|] eqn:Em; cbn; intros X; injection X as <- <-; eauto.
    + right. exists (m ++ [10%N]). eexists. split; [reflexivity|]. split; [reflexivity|]. cbn. auto.
    + exfalso. pose proof (feed_fatal HU (s_res s) (s_buf s)) as Fd. rewrite E in Fd.
      destruct Fd as [(_&Q&_)|((x&Q)&_)]; congruence.
  - intros X. injection X as <- <-. eauto.
Qed.

(** * Loading one file *)

Lemma read_file_declarations (HU : letters U) w k s q x t ds : settled (s_res s) -> w_read w k q = inl x -> loaded_text q x t ->
  no_lfcr t -> parses t (map DInfix ds) ->
  exists s', read_file w k s q =
    ([ARead q; outln (show_nat (List.length ds) ++ lit " fixities read from `" ++ q ++ lit "`");
      outln (write_entries (flat_map (fun d => map (fun o => (o, d_fixity d)) (d_infixes d)) ds))], Running s') /\
    s_buf s' = s_buf s /\ s_hist s' = s_hist s /\
    (forall o, get (r_fix (s_res s')) o = declared (get (r_fix (s_res s))) ds o).
Proof.
  intros St Rd L C P. apply relevant_iff in L.
  assert (I1 : infix_decls (map DInfix ds) = ds) by (clear; unfold infix_decls; induction ds; cbn; congruence).
  assert (I2 : input_exprs (map DInfix ds) = []) by (clear; unfold input_exprs; induction ds; auto).
  destruct (feed_parsed HU _ _ _ St C P) as (r'&res&E&St'&G&Tb&R&Cp); [rewrite I2; constructor|]. rewrite I1, I2 in *.
  destruct (Cp [] (Forall2_nil _)) as (a&->). destruct R as (es'&Rs&->).
  unfold read_file. rewrite Rd, L, E. cbn [answer app declared_entries a_infxs].
  eexists. split; [reflexivity|]. cbn. auto.
Qed.

End WithUcd.
