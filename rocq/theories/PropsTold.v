(** C118 for a typed line: the message names all first clashes, in reading order. *)
From Coq Require Import List Arith NArith Bool String Lia.
From Verif Require ProofLexer2.
From Verif Require Import Prelim Chars Syntax Fixity Style Lexer Parser Printer Grapheme Messages Repl
  SpecGrapheme SpecLexer SpecParser SpecFixity SpecRepl SpecRejected ProofTable ProofRewrite ProofResolve ProofResolve2 ProofFixity ProofParser7 PropsLexer PropsParser PropsPrinter
  ProofRepl ProofRepl2 ProofRepl3 ProofRepl4 ProofRepl5 ProofRepl6 ProofRepl7 ProofRepl8 ProofRepl9 SpecOutput ProofOutput ProofOutput2 PropsRepl PropsOutput PropsRejected.
Import ListNotations.
Local Open Scope string_scope.
Local Open Scope list_scope.

Section WithUcd.
Context {U : ucd}.

Lemma fed (HU : letters U) r t ds : settled r -> tidy t -> parses t ds ->
  (forall es, ~ Forall2 (resolves (declared (get (r_fix r)) (infix_decls ds))) (input_exprs ds) es) ->
  exists r' es new, feed_input r t = Ok (r', inr (ErrResolver (distinct [] new))) /\ new <> [] /\
    settle_list (declared (get (r_fix r)) (infix_decls ds)) (input_exprs ds) es new.
Proof.
  intros (Er&_) (C&Nd) Pd N. pose proof Pd as (ts&T&P). set (a := fold_left ast_push ds ast_empty).
  destruct (proj2 (parse_iff HU t a C)) as (k&Pa); [eauto|].
  assert (Ex : a_exprs a = input_exprs ds) by (unfold a; rewrite ast_of_exprs; reflexivity).
  assert (Ix : a_infxs a = infix_decls ds) by (unfold a; rewrite ast_of_infxs; reflexivity).
  destruct (resolve_ast_total (load_fixities r a) a) as (r'&b&errs&E).
  assert (Sc : forall o, declared (get (r_fix (load_fixities r a))) (a_infxs a) o = declared (get (r_fix r)) (infix_decls ds) o).
  { intros o. unfold load_fixities. cbn [r_fix]. rewrite Ix. fold (load_tbl (r_fix r) (infix_decls ds)).
    rewrite <- (declared_idem (infix_decls ds) (get (r_fix r)) o). apply declared_ext. intros o'. apply load_tbl_get. }
  assert (Fl : Forall flat (a_exprs a)) by (eapply C36_flat; eauto).
  assert (Nl : Forall nodup_lets (a_exprs a)) by (rewrite Ex; now apply Nd).
  destruct (C118_program (load_fixities r a) a r' b errs Er Fl Nl E) as (new&S&D).
  assert (S' : settle_list (declared (get (r_fix r)) (infix_decls ds)) (input_exprs ds) (a_exprs b) new)
    by (rewrite <- Ex; exact (proj2 (proj2 settles_ext) _ _ _ _ S _ Sc)).
  assert (Ne : errs <> []).
  { intros ->. destruct (resolve_ast_spec (load_fixities r a) a Er Fl Nl) as (r2&b2&e2&E2&_&_&_&_&K&_).
    rewrite E in E2. injection E2 as <- <- <-. apply (N (a_exprs b)). rewrite <- Ex. specialize (K eq_refl).
    eapply Forall2_impl'; [|exact K]. intros e e' Rs. eapply resolves_ext; [exact Rs|exact Sc]. }
  exists r', (a_exprs b), new. split; [|split; [intros ->; now apply Ne|exact S']].
  unfold feed_input. rewrite Pa, E. cbn [obind]. rewrite <- D. destruct errs as [|e0 errs]; [now elim Ne|reflexivity].
Qed.

(** C118: a text that is read but cannot be grouped is answered by one message,
    which tells the reports, each once, and nothing else. *)
Theorem C118_typed : letters U -> forall w s l x ds, reached s -> reads l (Say x) -> tidy (s_buf s ++ x) ->
  parses (s_buf s ++ x) ds ->
  (forall es, ~ Forall2 (resolves (declared (in_force s) (infix_decls ds))) (input_exprs ds) es) ->
  exists es new m s', settle_list (declared (in_force s) (infix_decls ds)) (input_exprs ds) es new /\ new <> [] /\
    clashes_text (distinct [] new) m /\ step s (Line w l) = ([AErr (error_prefix ++ m ++ [10%N])], Running s').
Proof.
  intros HU w s l x ds Re R Ty P N. destruct (fed HU (s_res s) _ _ (reached_settled s Re) Ty P N) as (r'&es&new&E&Ne&S).
  cbn [step]. rewrite (line_reads _ _ _ _ R). cbn [react]. destruct (clashes_shown (distinct [] new)) as (m&Tm&Em).
  exists es, new, m. eexists. split; [exact S|]. split; [exact Ne|]. split; [exact Tm|].
  unfold read_buffer. cbn [s_buf s_res set_buf set_cont]. rewrite E. cbn [answer]. rewrite Em. cbn [answer app]. unfold errln. now rewrite <- app_assoc.
Qed.
Print Assumptions C118_typed.

(** A file with such a text is answered by a message that says which file it is and
    tells them, each on its own line. *)
Theorem C118_loaded : letters U -> forall w s l c arg p q x t ds, reached s -> s_buf s = [] -> reads l (Command c) ->
  command c ":load" arg -> arg <> [] -> arg <> lit "--prelude" -> arg <> lit "--math" -> word_list arg [p] ->
  path_of p q -> w_read w 0 q = inl x -> loaded_text q x t -> tidy t -> parses t ds ->
  (forall es, ~ Forall2 (resolves (declared (in_force s) (infix_decls ds))) (input_exprs ds) es) ->
  exists es new ss s', settle_list (declared (in_force s) (infix_decls ds)) (input_exprs ds) es new /\ new <> [] /\
    Forall2 clash_text (distinct [] new) ss /\
    step s (Line w l) = ([ARead q; AOut (esc "[31m[Error]:" ++ esc "[0m " ++ esc "[34m(" ++ q ++ lit ")" ++ esc "[0m"
      ++ flat_map (fun m => [10; 32; 32]%N ++ m) ss ++ [10%N])], Running s').
Proof.
  intros HU w s l c arg p q x t ds Re B R C N0 N1 N2 Wl Po Rd L Ty P N.
  destruct (fed HU (s_res s) _ _ (reached_settled s Re) Ty P N) as (r'&es&new&E&Ne&S).
  exists es, new, (map show_assoc_error (distinct [] new)). eexists. split; [exact S|]. split; [exact Ne|].
  split; [generalize (distinct [] new); intros xs; induction xs; constructor; auto using clash_shown|].
  cbn [step]. rewrite (line_reads _ _ _ _ R). cbn [react]. rewrite B. cbn [is_nil].
  assert (T : trimmed c c /\ starts 58 c).
  { inversion R as [|? c' T| | | | |]; subst. split; [|eexists; reflexivity]. rewrite <- (trim_trimmed _ _ T). apply trim_is_trimmed. }
  destruct T as (T&S1). rewrite (load_command w s c arg T S1 C). unfold cmd_load.
  destruct (is_nil arg) eqn:Y; [apply is_nil_spec in Y; contradiction|].
  destruct (str_eqb_spec arg (lit "--prelude")); [contradiction|]. destruct (str_eqb_spec arg (lit "--math")); [contradiction|].
  rewrite (proj2 (split_whitespace_iff arg [p]) Wl). cbn [read_files]. rewrite (proj2 (unquote_iff p q) Po), answer_nil.
  unfold read_file. rewrite Rd, (proj2 (relevant_iff q x t) L), E. cbn [answer show_error_with_path obind app].
  unfold outln. rewrite label_text, blue_text.
  assert (K : forall xs, flat_map (fun s => [10; 32; 32]%N ++ s) (map show_assoc_error xs) = flat_map (fun e => 10%N :: 32%N :: 32%N :: show_assoc_error e) xs)
    by (clear; induction xs as [|x xs IH]; cbn [map flat_map]; [reflexivity|rewrite IH; reflexivity]).
  rewrite K. change (40%N :: q ++ [41%N]) with ([40%N] ++ q ++ lit ")"). rewrite <- !app_assoc. reflexivity.
Qed.
Print Assumptions C118_loaded.
End WithUcd.

(** ** Example *)

Example C118_ex_typed : let t := lit "infix 4 ==; a == b == c; (a == b == (c == d == e), x == y == z); infixl 4 +; p == (q == r == s) + p" in
  reads t (Say t) /\ @tidy ucd_none t /\ exists ds, @parses ucd_none t ds /\
  (forall es, ~ Forall2 (resolves (declared (in_force fresh) (infix_decls ds))) (input_exprs ds) es) /\
  screen (run0 [Line nowhere t]) =
    [(false, lit "[Error]: " ++ [10; 32; 32]%N ++ lit "found non-associative operator `==` and non-associative operator `==` in the same infix expression"
       ++ [10; 32; 32]%N ++ lit "found non-associative operator `==` and left-associative operator `+` in the same infix expression" ++ [10%N])].
Proof.
  cbv zeta. match goal with |- reads ?x _ /\ _ => set (t := x) end.
  assert (R : reads t (Say t)) by exact (reads_say t eq_refl).
  assert (T : @tidy ucd_none t) by (apply tidy_check; [reflexivity|vm_compute; repeat constructor]).
  destruct (parses_as t (proj1 T)) as (ds&P&_); [vm_compute; exact I|].
  split; auto. split; auto. exists ds. split; auto. split; [|vm_compute; reflexivity].
  eapply (error_means_none fresh t t); auto; [|vm_compute; reflexivity].
  exact (after_reached [] I).
Qed.

(** A file with two clashes, and what loading it shows. *)
Definition told_text := lit "infix 4 ==; a == b == c; infixl 4 +; p == q + r".
Definition told_world : world := mkWorld (fun _ _ => inl told_text) (fun _ => None) (fun _ _ => inl []).
Example C118_ex_loaded : let l := lit ":load x.txt" in let p := lit "x.txt" in
  @reached ucd_none fresh /\ s_buf fresh = [] /\ reads l (Command l) /\ command l ":load" p /\ p <> lit "--prelude" /\ p <> lit "--math" /\
  word_list p [p] /\ path_of p p /\ w_read told_world 0 p = inl told_text /\ loaded_text p told_text told_text /\ @tidy ucd_none told_text /\
  exists ds, @parses ucd_none told_text ds /\
  (forall es, ~ Forall2 (resolves (declared (in_force fresh) (infix_decls ds))) (input_exprs ds) es) /\
  screen (@run ucd_none fresh [Line told_world l]) =
    [(true, lit "[Error]: (x.txt)" ++ [10; 32; 32]%N ++ lit "found non-associative operator `==` and non-associative operator `==` in the same infix expression"
       ++ [10; 32; 32]%N ++ lit "found non-associative operator `==` and left-associative operator `+` in the same infix expression" ++ [10%N])].
Proof.
  cbv zeta. set (l := lit ":load x.txt"). set (p := lit "x.txt").
  assert (Re : @reached ucd_none fresh) by exact (after_reached [] I).
  split; [exact Re|]. split; [reflexivity|]. split; [exact (reads_cmd l eq_refl)|].
  split; [exists (lit " x.txt"); split; [reflexivity|]; split; [reflexivity|]; exact (ProofGrapheme.trim_spec (lit " x.txt"))|].
  split; [discriminate|]. split; [discriminate|]. split; [apply split_whitespace_iff; vm_compute; reflexivity|].
  split; [apply unquote_iff; vm_compute; reflexivity|]. split; [reflexivity|]. split; [apply relevant_iff; vm_compute; reflexivity|].
  assert (T : @tidy ucd_none told_text) by (apply tidy_check; [reflexivity|vm_compute; repeat constructor]).
  split; [exact T|]. destruct (parses_as told_text (proj1 T)) as (ds&P&_); [vm_compute; exact I|].
  exists ds. split; [exact P|]. split; [|vm_compute; reflexivity].
  eapply (error_means_none fresh told_text told_text); auto; [exact (reads_say told_text eq_refl)|vm_compute; reflexivity].
Qed.
