(** C100: a listing of the fixities that is kept in a file and loaded again. *)
From Coq Require Import List Arith NArith Bool String Lia.
From Verif Require Import Prelim Chars Syntax Fixity Style Lexer Parser Printer SpecStyle SpecPrinter Grapheme Messages Repl
  SpecGrapheme SpecLexer SpecParser SpecFixity SpecRepl SpecTyped ProofTable ProofRewrite ProofResolve ProofResolve2 ProofFixity PropsLexer PropsPrinter
  ProofRepl ProofRepl2 ProofRepl3 ProofRepl4 ProofRepl5 ProofRepl6 ProofRepl7 ProofRepl8 ProofRepl9 PropsRepl PropsTyped.
Import ListNotations.
Local Open Scope string_scope.
Local Open Scope list_scope.

Section WithUcd.
Context {U : ucd}.

(** * Sessions arrive at their tables *)

Lemma resolve_loaded r a : settled r -> resolve_ast (load_fixities r a) a = resolve_ast r a.
Proof.
  intros (_&N). unfold resolve_ast, visit_ast.
  replace (load_fixities (load_fixities r a) a) with (load_fixities r a); auto.
  unfold load_fixities. cbn [r_fix r_errs]. f_equal. symmetry. exact (load_tbl_idem (a_infxs a) (r_fix r) N).
Qed.

Lemma feed_arrived r t r' res : settled r -> arrived r -> no_lfcr t -> feed_input r t = Ok (r', res) -> arrived r'.
Proof.
  unfold feed_input. intros St A C. destruct (parse t) as [a l|e l|p|] eqn:P; try discriminate.
  - rewrite resolve_loaded by auto. destruct (resolve_ast r a) as [((r1&a1)&errs)|p|] eqn:R; cbn [obind]; try discriminate.
    destruct errs; intros E; injection E as <- _; eapply ar_program; eauto.
  - intros E. injection E as <- _. auto.
Qed.

Lemma loads_arrived w ps : forall k s acts s',
  (forall i p q x t, nth_error ps i = Some p -> path_of p q -> w_read w (k + i) q = inl x -> loaded_text q x t -> no_lfcr t) ->
  settled (s_res s) -> arrived (s_res s) -> read_files w k s ps = (acts, Running s') -> arrived (s_res s').
Proof.
  induction ps as [|p ps IH]; intros k s acts s' Ty St A; cbn [read_files].
  - intros E. injection E as _ <-. auto.
  - destruct (unquote_total p) as (q&Q). rewrite Q, answer_nil. apply unquote_iff in Q.
    destruct (read_file w k s q) as (a1&st1) eqn:R. destruct st1 as [s1| | |]; try discriminate.
    destruct (read_files w (S k) s1 ps) as (a2&st2) eqn:R2. intros E. injection E as _ ->.
    pose proof (read_file_settled _ _ _ _ _ _ R St) as St1.
    assert (Ty' : forall i p q x t, nth_error ps i = Some p -> path_of p q -> w_read w (S k + i) q = inl x -> loaded_text q x t -> no_lfcr t).
    { intros i p0 q0 x t N P0 Rd L. eapply (Ty (S i)); eauto. now rewrite <- plus_n_Sm. }
    apply (IH _ _ _ _ Ty' St1) in R2; auto.
    unfold read_file in R. destruct (w_read w k q) as [x|err] eqn:Rd.
    + assert (T : no_lfcr (relevant q x)).
      { eapply (Ty 0); eauto; [reflexivity|rewrite Nat.add_0_r; eauto|now apply relevant_iff]. }
      destruct (feed_input (s_res s) (relevant q x)) as [(r&res)|pp|] eqn:Fd; try discriminate.
      pose proof (feed_arrived _ _ _ _ St A T Fd) as A'.
      cbn in R. destruct res as [a|e]; [injection R as _ <-; auto|].
      cbn in R. destruct (show_error_with_path e q); cbn in R; try discriminate. injection R as _ <-. auto.
    + injection R as _ <-. auto.
Qed.

Lemma act_arrived r h i acts s' : well_formed i -> (forall t, evaluated [i] t -> no_lfcr t) -> settled r -> arrived r ->
  act r h i = (acts, Running s') -> arrived (s_res s').
Proof.
  intros Wf Ty St A. destruct i as [t|w c| |msg]; cbn [act].
  - intros E. apply read_buffer_running in E as (_&_&_&res&E). cbn [s_res s_buf set_buf] in E.
    eapply feed_arrived; eauto. apply Ty. left. left. auto.
  - destruct Wf as (T&S1). intros E.
    assert (Cd : clears_fixities c \/ ~ clears_fixities c).
    { destruct (command_shape c T S1) as (p&b&_&_&_&_&K&K'). unfold clears_fixities.
      rewrite (K' ":reset"), (K' ":r"), !K by reflexivity.
      assert (Dec : forall x y : str, x = y \/ x <> y) by (intros x y; destruct (str_eqb_spec x y); auto).
      assert (Or : forall P Q, P \/ ~ P -> Q \/ ~ Q -> (P \/ Q) \/ ~ (P \/ Q)) by (intros; tauto).
      assert (And : forall P Q, P \/ ~ P -> Q \/ ~ Q -> (P /\ Q) \/ ~ (P /\ Q)) by (intros; tauto).
      repeat apply Or; apply And; apply Dec. }
    destruct Cd as [Cl|NCl].
    { rewrite (clear_command _ _ _ _ _ T S1 Cl E). cbn [s_res]. exact (ar_clear r A). }
    assert (Ld : loads_something c \/ ~ loads_something c).
    { destruct (command_shape c T S1) as (p&b&_&_&_&_&K&_).
      destruct (str_eqb_spec p (lit ":load")) as [X|X], (str_eqb_spec (trim b) []) as [Y|Y].
      - right. intros (arg&N&C). apply K in C as (_&->); auto.
      - left. exists (trim b). split; auto. now apply K.
      - right. intros (arg&N&C). apply K in C as (?&_); auto.
      - right. intros (arg&N&C). apply K in C as (?&_); auto. }
    destruct Ld as [(arg&Na&C)|NL].
    + rewrite (load_command _ _ _ _ T S1 C) in E. unfold cmd_load in E.
      destruct (is_nil arg) eqn:X; [apply is_nil_spec in X; congruence|].
      destruct (str_eqb_spec arg (lit "--prelude")) as [->|Np].
      { destruct (load_hs_prelude r) as (r1&k) eqn:L. cbn [s_res] in E. rewrite L in E. injection E as _ <-. cbn [set_res s_res].
        pose proof (ar_prelude r A) as A'. rewrite L in A'. exact A'. }
      destruct (str_eqb_spec arg (lit "--math")) as [->|Nm].
      { destruct (load_arithmetic r) as (r1&k) eqn:L. cbn [s_res] in E. rewrite L in E. injection E as _ <-. cbn [set_res s_res].
        pose proof (ar_arithmetic r A) as A'. rewrite L in A'. exact A'. }
      pose proof (proj1 (split_whitespace_iff arg _) eq_refl) as Wl.
      apply (loads_arrived w (split_whitespace arg) 0 (mkSession r [] false h) acts s') in E; auto.
      intros i p q x t N P Rd Lt. apply Ty. right. exists w, c, i, q, x. split; [left; auto|].
      split; [|auto]. exists arg, (split_whitespace arg), p. repeat split; auto.
    + rewrite (frame_command _ _ _ _ _ T S1 NCl NL E). exact A.
  - intros E. injection E as _ <-. exact A.
  - intros E. injection E as _ <-. exact A.
Qed.

Lemma perform_arrived is : forall r h acts s',
  Forall well_formed is -> (forall t, evaluated is t -> no_lfcr t) -> settled r -> arrived r ->
  perform r h is = (acts, Running s') -> arrived (s_res s').
Proof.
  induction is as [|i is IH]; intros r h acts s' Wf Ty St A0; cbn [perform].
  - intros E. injection E as _ <-. auto.
  - destruct (act r h i) as (a1&st1) eqn:A. destruct st1 as [s1| | |]; try discriminate.
    destruct (perform (s_res s1) (s_hist s1) is) as (a2&st2) eqn:P. intros E. injection E as _ ->.
    inversion Wf as [|? ? W1 W2]; subst.
    assert (A1 : arrived (s_res s1)).
    { eapply act_arrived; eauto. intros t [[X|[]]|X]; apply Ty.
      - left. left. auto.
      - right. destruct X as (w&c&k&p&x&[X|[]]&Y). exists w, c, k, p, x. split; auto. left. auto. }
    apply (IH (s_res s1) (s_hist s1) a2 s'); auto.
    { intros t [X|X]; apply Ty.
      - left. right. auto.
      - right. destruct X as (w&c&k&p&x&X&Y). exists w, c, k, p, x. split; auto. right. auto. }
    eapply act_settled; eauto.
Qed.

(** A session whose texts have no newline before a carriage return has one of
    the tables that C78 speaks about. *)
Lemma run_arrived h es acts s is : run (session_new h) es = (acts, Running s) -> grouped [] es is (s_buf s) ->
  (forall t, evaluated is t -> no_lfcr t) -> arrived (s_res s).
Proof.
  intros E G Ty. destruct (run_grouped _ _ _ _ G (session_new h) _ _ eq_refl E) as (st'&P&A).
  destruct st' as [s2| | |]; cbn in A; try contradiction. destruct A as (Er&_&_). rewrite Er.
  apply (perform_arrived is (mkResolver [] []) h acts s2); auto.
  - eapply grouped_well_formed; eauto.
  - split; constructor.
  - constructor.
Qed.

Definition lists_all (c : str) : Prop := In c (map lit [":fixities"; ":info"; ":i"]).

Lemma listing_command w s l c : reads l (Command c) -> s_buf s = [] -> lists_all c ->
  step s (Line w l) = ([AOut (print_fixities (r_fix (s_res s)))], Running s).
Proof.
  intros R B L. rewrite (step_command _ _ _ _ R B).
  destruct L as [<-|[<-|[<-|[]]]]; reflexivity.
Qed.

(** * C100 *)

(** What the listing shows, without its colours, is kept in a file that is not
    a Haskell source and loaded in any session: all that was defined is defined
    again, in place of what that session had, and the rest stays. *)
Theorem C100_loaded : letters U -> scripts U -> forall h es acts s is w1 l1 c1 m st w s2 l c arg p q,
  run (session_new h) es = (acts, Running s) -> grouped [] es is (s_buf s) -> (forall t, evaluated is t -> no_lfcr t) ->
  s_buf s = [] -> (forall o f, In (o, f) (r_fix (s_res s)) -> plain_op o = true) ->
  reads l1 (Command c1) -> lists_all c1 -> step s (Line w1 l1) = ([AOut m], st) ->
  reached s2 -> s_buf s2 = [] -> reads l (Command c) -> command c ":load" arg -> word_list arg [p] ->
  arg <> lit "--prelude" -> arg <> lit "--math" -> path_of p q -> ~ hs_path q -> w_read w 0 q = inl (visible m) ->
  st = Running s /\
  exists out s', step s2 (Line w l) = (ARead q :: out, Running s') /\ s_buf s' = [] /\ s_hist s' = s_hist s2 /\
    (forall x, In x out -> exists t, x = AOut t) /\
    forall o, defined s' o = match defined s o with Some f => Some f | None => defined s2 o end.
Proof.
  intros HU HS h es acts s is w1 l1 c1 m st w s2 l c arg p q E G Ty B Pl R1 L1 E1 Re B2 R C W N1 N2 Pq Nh Rd.
  rewrite (listing_command _ _ _ _ R1 B L1) in E1. injection E1 as <- <-. split; auto.
  pose proof (run_arrived _ _ _ _ _ E G Ty) as A.
  destruct (C78_tables HU HS _ A Pl) as (a&l'&P&Ex&T).
  rewrite (run_load w s2 l c arg p q) by assumption. unfold read_file. rewrite Rd.
  assert (Rl : relevant q (visible (print_fixities (r_fix (s_res s)))) = visible (print_fixities (r_fix (s_res s)))).
  { apply relevant_iff. now constructor. }
  rewrite Rl. unfold feed_input. rewrite P. pose proof (reached_settled _ Re) as St.
  rewrite resolve_loaded by auto. unfold resolve_ast, visit_ast. rewrite Ex.
  assert (Er : r_errs (load_fixities (s_res s2) a) = []) by (cbn; apply St).
  cbn [visit_list obind]. rewrite Er. cbn [answer].
  eexists _, _. split; [reflexivity|]. cbn [set_res s_buf s_hist s_res]. split; auto. split; auto. split.
  - intros x [<-|[<-|[]]]; eexists; reflexivity.
  - intros o. unfold defined. cbn [s_res r_fix]. apply T.
Qed.

(** In a session where nothing is defined, such as a new one, the very same
    fixities are in force again. *)
Theorem C100_restored : letters U -> scripts U -> forall h es acts s is w1 l1 c1 m st w s2 l c arg p q,
  run (session_new h) es = (acts, Running s) -> grouped [] es is (s_buf s) -> (forall t, evaluated is t -> no_lfcr t) ->
  s_buf s = [] -> (forall o f, In (o, f) (r_fix (s_res s)) -> plain_op o = true) ->
  reads l1 (Command c1) -> lists_all c1 -> step s (Line w1 l1) = ([AOut m], st) ->
  reached s2 -> s_buf s2 = [] -> (forall o, defined s2 o = None) ->
  reads l (Command c) -> command c ":load" arg -> word_list arg [p] ->
  arg <> lit "--prelude" -> arg <> lit "--math" -> path_of p q -> ~ hs_path q -> w_read w 0 q = inl (visible m) ->
  exists out s', step s2 (Line w l) = (out, Running s') /\
    forall o, defined s' o = defined s o /\ in_force s' o = in_force s o.
Proof.
  intros HU HS h es acts s is w1 l1 c1 m st w s2 l c arg p q E G Ty B Pl R1 L1 E1 Re B2 D R C W N1 N2 Pq Nh Rd.
  destruct (C100_loaded HU HS h es acts s is w1 l1 c1 m st w s2 l c arg p q) as (_&out&s'&S'&_&_&_&T); auto.
  exists (ARead q :: out), s'. split; auto. intros o.
  assert (K : defined s' o = defined s o) by (rewrite T, D; destruct (defined s o); auto).
  split; auto. unfold in_force, get. unfold defined in K. rewrite K. reflexivity.
Qed.

End WithUcd.

(** * Examples *)

Definition kept (s : session) : world :=
  mkWorld (fun _ _ => inl (visible (print_fixities (r_fix (s_res s))))) (fun _ => None) (fun _ _ => inl []).
Definition saved : session := after_ (typed ["infixl 6 'mod"; ":load --math"; "infixr 5 +++, - \"; "; a + b"; "a ^ b"]).

Example C100_ex : exists acts is,
  run0 (typed ["infixl 6 'mod"; ":load --math"; "infixr 5 +++, - \"; "; a + b"; "a ^ b"]) = (acts, Running saved) /\
  grouped [] (typed ["infixl 6 'mod"; ":load --math"; "infixr 5 +++, - \"; "; a + b"; "a ^ b"]) is (s_buf saved) /\
  (forall t, evaluated is t -> no_lfcr t) /\ s_buf saved = [] /\
  (forall o f, In (o, f) (r_fix (s_res saved)) -> plain_op o = true) /\ List.length (r_fix (s_res saved)) = 10 /\
  in_force saved (Standard (lit "-")) = mkFix 5 ARight /\
  reads (lit ":fixities") (Command (lit ":fixities")) /\ lists_all (lit ":fixities") /\
  @step ucd_none saved (Line nowhere (lit ":fixities")) = ([AOut (print_fixities (r_fix (s_res saved)))], Running saved) /\
  @reached ucd_none fresh /\ (forall o, defined fresh o = None) /\
  reads (lit ":load kept.txt") (Command (lit ":load kept.txt")) /\ command (lit ":load kept.txt") ":load" (lit "kept.txt") /\
  word_list (lit "kept.txt") [lit "kept.txt"] /\ path_of (lit "kept.txt") (lit "kept.txt") /\ ~ hs_path (lit "kept.txt") /\
  w_read (kept saved) 0 (lit "kept.txt") = inl (visible (print_fixities (r_fix (s_res saved)))).
Proof.
  destruct (run0 (typed ["infixl 6 'mod"; ":load --math"; "infixr 5 +++, - \"; "; a + b"; "a ^ b"])) as (acts&st) eqn:E.
  assert (Es : st = Running saved) by (vm_compute in E; injection E as _ <-; vm_compute; reflexivity).
  assert (C : command (lit ":load --math") ":load" (lit "--math")).
  { exists (lit " --math"). split; [reflexivity|]. split; [reflexivity|]. exact (ProofGrapheme.trim_spec (lit " --math")). }
  exists acts, [Evaluate (lit "infixl 6 'mod"); Invoke nowhere (lit ":load --math");
    Evaluate (lit "infixr 5 +++, -" ++ 10%N :: lit "; a + b"); Evaluate (lit "a ^ b")].
  split; [now rewrite Es|]. clear E Es. split.
  { cbn [typed map]. apply (gr_say [] _ _ (lit "infixl 6 'mod")); [exact (reads_say (lit "infixl 6 'mod") eq_refl)|].
    apply (gr_command _ _ (lit ":load --math")); [exact (reads_cmd (lit ":load --math") eq_refl)|].
    apply (gr_hold [] _ _ (lit "infixr 5 +++, -" ++ [10%N])).
    { apply (rd_infix _ (lit "r 5 +++, -")). exact (ProofGrapheme.trim_spec (lit "infixr 5 +++, - \")). }
    change (lit "infixr 5 +++, -" ++ 10%N :: lit "; a + b") with (([] ++ lit "infixr 5 +++, -" ++ [10%N]) ++ lit "; a + b").
    apply (gr_say _ _ _ (lit "; a + b")); [exact (reads_say (lit "; a + b") eq_refl)|].
    apply (gr_say [] _ _ (lit "a ^ b")); [exact (reads_say (lit "a ^ b") eq_refl)|]. vm_compute. constructor. }
  split.
  { intros u [[H|[H|[H|[H|[]]]]]|(w&c&k&p&x&[H|[H|[H|[H|[]]]]]&(arg&ps&q&C'&_&N&_)&_)]; try discriminate.
    1-3: injection H as <-; apply clean_ok; reflexivity.
    injection H as <- <-. elim N. eapply command_unique; eauto. }
  split; [vm_compute; reflexivity|]. split.
  { intros o f I. vm_compute in I. repeat (destruct I as [I|I]; [injection I as <- <-; vm_compute; reflexivity|]). destruct I. }
  split; [vm_compute; reflexivity|]. split; [vm_compute; reflexivity|].
  split; [exact (reads_cmd (lit ":fixities") eq_refl)|]. split; [left; reflexivity|].
  split; [apply (listing_command nowhere saved _ (lit ":fixities")); [exact (reads_cmd (lit ":fixities") eq_refl)|vm_compute; reflexivity|left; reflexivity]|].
  split; [exists (lit ".pemdas"), [], []; reflexivity|]. split; [reflexivity|].
  split; [exact (reads_cmd (lit ":load kept.txt") eq_refl)|].
  split; [exists (lit " kept.txt"); split; [reflexivity|]; split; [reflexivity|]; exact (ProofGrapheme.trim_spec (lit " kept.txt"))|].
  split; [apply split_whitespace_iff; vm_compute; reflexivity|].
  split; [apply unquote_iff; vm_compute; reflexivity|].
  split; [|reflexivity].
  intros H. apply is_hs_iff in H. vm_compute in H. discriminate.
Qed.

(** Under a Haskell name the lines are joined, and what follows an operator that
    is made of a name is lost with it: nothing is restored. *)
Theorem C100_haskell_refuted : exists es s s', 
  run0 es = (fst (run0 es), Running s) /\ s_buf s = [] /\ (forall o f, In (o, f) (r_fix (s_res s)) -> plain_op o = true) /\
  @step ucd_none fresh (Line (kept s) (lit ":load kept.hs")) = (fst (@step ucd_none fresh (Line (kept s) (lit ":load kept.hs"))), Running s') /\
  exists o, in_force s' o <> in_force s o.
Proof.
  exists (typed ["infixl 6 'mod"; "infixr 5 +++"]), (after_ (typed ["infixl 6 'mod"; "infixr 5 +++"])).
  eexists. split; [vm_compute; reflexivity|]. split; [vm_compute; reflexivity|]. split.
  { intros o f I. vm_compute in I. repeat (destruct I as [I|I]; [injection I as <- <-; vm_compute; reflexivity|]). destruct I. }
  split; [vm_compute; reflexivity|]. exists (Standard (lit "+++")). vm_compute. discriminate.
Qed.

(** An operator made of a name of one letter is not plain: it is read again
    under another name, with the end of the line. *)
Theorem C100_letter_refuted : exists es s s',
  run0 es = (fst (run0 es), Running s) /\ s_buf s = [] /\
  @step ucd_none fresh (Line (kept s) (lit ":load kept.txt")) = (fst (@step ucd_none fresh (Line (kept s) (lit ":load kept.txt"))), Running s') /\
  exists o, in_force s' o <> in_force s o.
Proof.
  exists (typed ["infixl 6 `f`"]), (after_ (typed ["infixl 6 `f`"])).
  eexists. split; [vm_compute; reflexivity|]. split; [vm_compute; reflexivity|].
  split; [vm_compute; reflexivity|]. exists (Promoted (lit "f")). vm_compute. discriminate.
Qed.

Print Assumptions C100_loaded.
Print Assumptions C100_restored.
Print Assumptions C100_haskell_refuted.
Print Assumptions C100_letter_refuted.
