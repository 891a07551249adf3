(** The interactive session: C15, C51 to C55. *)
From Coq Require Import List Arith NArith Bool String Lia.
From Verif Require ProofLexer2.
From Verif Require Import Prelim Chars Syntax Fixity Style Lexer Parser Printer SpecStyle SpecPrinter Grapheme Messages Repl
  SpecGrapheme SpecLexer SpecParser SpecFixity SpecRepl ProofTable ProofRewrite ProofResolve ProofResolve2 ProofFixity PropsLexer PropsPrinter
  ProofRepl ProofRepl2 ProofRepl3 ProofRepl4 ProofRepl5 ProofRepl6 ProofRepl7 ProofRepl8 ProofRepl9.
Import ListNotations.
Local Open Scope string_scope.
Local Open Scope list_scope.

Section WithUcd.
Context {U : ucd}.

(** A session that is reached by some history, and the fixities in force. *)
Definition reached (s : session) : Prop := exists h es acts, run (session_new h) es = (acts, Running s).
Definition in_force (s : session) (o : infix) : fixity := get (r_fix (s_res s)) o.
Definition defined (s : session) (o : infix) : option fixity := get_defined (r_fix (s_res s)) o.

Lemma reached_settled s : reached s -> settled (s_res s).
Proof. intros (h&es&acts&R). eapply run_new; eauto. Qed.

(** ** C51 *)

Theorem C51_one_reaction : forall l, exists! re, reads l re.
Proof. intros l. destruct (reads_total l) as (re&R). exists re. split; auto. intros y Y. eapply reads_unique; eauto. Qed.

Theorem C51_line : forall w s l re, reads l re ->
  match re with
  | Nothing => step s (Line w l) = ([], Running s)
  | Command c => s_buf s <> [] ->
      step s (Line w l) = ([AErr (lit "cannot call a command in multiline mode!" ++ [10%N])], Running s)
  | Hold t => exists s', step s (Line w l) = ([], Running s') /\ s_buf s' = s_buf s ++ t /\
      s_res s' = s_res s /\ s_hist s' = s_hist s
  | Say t => forall acts s', step s (Line w l) = (acts, Running s') -> s_buf s' = [] /\ s_hist s' = s_hist s
  end.
Proof.
  intros w s l re R. cbn [step]. rewrite (line_reads w s l re R). destruct re as [|c|t|t]; cbn [react]; auto.
  - intros N. destruct (s_buf s); [congruence|]. reflexivity.
  - eexists. split; [reflexivity|]. auto.
  - intros acts s' E. apply read_buffer_running in E as (->&_&->&_). auto.
Qed.

(** The outcome of two histories, up to the look of the prompt. *)
Definition alike (x y : list action * status) : Prop :=
  fst x = fst y /\
  match snd x, snd y with
  | Running s, Running s' => s_res s = s_res s' /\ s_hist s = s_hist s'
  | Running _, _ | _, Running _ => False
  | a, b => a = b
  end.

(** How the text was split over lines, and what was kept before, makes no
    difference: only the text evaluated does. *)
Theorem C51_together : forall w w' s s' l l' t t', reads l (Say t) -> reads l' (Say t') ->
  s_buf s ++ t = s_buf s' ++ t' -> s_res s = s_res s' -> s_hist s = s_hist s' ->
  alike (step s (Line w l)) (step s' (Line w' l')).
Proof.
  intros w w' s s' l l' t t' R R' Eb Er Eh. cbn [step]. rewrite (line_reads _ _ _ _ R), (line_reads _ _ _ _ R'). cbn [react].
  pose proof (read_buffer_plain (set_buf s (s_buf s ++ t)) (next_cont s l)) as P.
  pose proof (read_buffer_plain (set_buf s' (s_buf s' ++ t')) (next_cont s' l')) as P'.
  assert (Q : plainly (read_buffer (set_buf s (s_buf s ++ t))) = plainly (read_buffer (set_buf s' (s_buf s' ++ t')))).
  { rewrite <- (read_buffer_plain (set_buf s _) false), <- (read_buffer_plain (set_buf s' _) false).
    unfold set_buf, set_cont. cbn. rewrite Eb, Er, Eh. reflexivity. }
  rewrite Q, <- P' in P. clear Q P'.
  destruct (read_buffer (set_cont (set_buf s _) _)) as (a&st), (read_buffer (set_cont (set_buf s' _) _)) as (a'&st').
  apply settle in P as (->&M). split; auto. cbn. destruct st; try (subst; auto; fail). destruct M as (y&->&?&?). auto.
Qed.

(** Every history amounts to exactly one sequence of evaluations and commands,
    and two histories that amount to the same have the same outcome. *)
Theorem C51_history : forall s es, (forall e, In e es -> e <> Eof /\ e <> Interrupted) ->
  exists is b', grouped (s_buf s) es is b' /\
    (forall is2 b2, grouped (s_buf s) es is2 b2 -> is2 = is /\ b2 = b') /\
    (forall acts s', run s es = (acts, Running s') -> s_buf s' = b') /\
    forall s2 es2 b2, grouped (s_buf s2) es2 is b2 -> s_res s2 = s_res s -> s_hist s2 = s_hist s ->
      alike (run s2 es2) (run s es).
Proof.
  intros s es N. destruct (grouped_total es (s_buf s) N) as (is&b'&G). exists is, b'. split; auto. split; [|split].
  - intros is2 b2 G2. eapply grouped_unique; eauto.
  - intros acts s' E. destruct (run_grouped _ _ _ _ G s acts _ eq_refl E) as (st'&_&A). destruct st'; cbn in A; tauto.
  - intros s2 es2 b2 G2 Er Eh.
    destruct (run s es) as (a&st) eqn:E, (run s2 es2) as (a2&st2) eqn:E2.
    destruct (run_grouped _ _ _ _ G s _ _ eq_refl E) as (x&P&A). destruct (run_grouped _ _ _ _ G2 s2 _ _ eq_refl E2) as (x2&P2&A2).
    rewrite Er, Eh, P in P2. injection P2 as <- <-. split; auto. cbn. unfold agrees in A, A2.
    destruct st, st2, x; try tauto; try congruence. destruct A as (->&->&_), A2 as (->&->&_). auto.
Qed.

(** ** C15 and C55: evaluating a line *)

(** A text that is not a sequence of declarations and expressions. *)
Theorem C15_rejected : letters U -> forall w s l x acts st, reads l (Say x) -> no_lfcr (s_buf s ++ x) ->
  (forall ds, ~ parses (s_buf s ++ x) ds) -> step s (Line w l) = (acts, st) ->
  (exists m s', acts = [AErr m] /\ st = Running s' /\ s_res s' = s_res s /\ s_buf s' = [] /\ s_hist s' = s_hist s) \/
  (exists p, st = Crashed p /\ acts = [] /\ dangerous (s_buf s ++ x) p).
Proof.
  intros HU w s l x acts st R C N E. cbn [step] in E. rewrite (line_reads _ _ _ _ R) in E. cbn [react] in E.
  destruct (read_buffer_unparsed HU (set_cont (set_buf s (s_buf s ++ x)) (next_cont s l)) _ _ C N E) as [(p&->&->)|(m&s'&->&->&A&B&H&_)].
  - right. exists p. split; auto. split; auto. apply (fatal_dangerous HU); auto.
    destruct (read_buffer_stops HU _ _ _ E) as [(s'&X)|(q&X&F&_)]; [discriminate|]. injection X as <-. exact F.
  - left. exists m, s'. cbn in *. auto 10.
Qed.

Theorem C15_ambiguous : letters U -> forall w s l x ds, reached s -> reads l (Say x) -> tidy (s_buf s ++ x) ->
  parses (s_buf s ++ x) ds ->
  (forall es, ~ Forall2 (resolves (declared (in_force s) (infix_decls ds))) (input_exprs ds) es) ->
  exists m s', step s (Line w l) = ([AErr m], Running s') /\
    s_buf s' = [] /\ s_hist s' = s_hist s /\
    forall o, in_force s' o = declared (in_force s) (infix_decls ds) o.
Proof.
  intros HU w s l x ds Re R (C&Nd) P N. cbn [step]. rewrite (line_reads _ _ _ _ R). cbn [react].
  destruct (read_buffer_parsed HU (set_cont (set_buf s (s_buf s ++ x)) (next_cont s l)) ds) as (acts&s'&E&Sh&B&H&_&_&G);
    [exact (reached_settled s Re)|exact C|exact P|apply Nd; exact P|].
  rewrite E. destruct Sh as [(es&F&_)|(_&xs&m&->&_)]; [elim (N es F)|]. eexists; exists s'. split; [reflexivity|]. auto.
Qed.

(** The line is parsed whole, its declarations come into force, and the first
    item is shown grouped by them. *)
Theorem C55_line : letters U -> forall w s l x ds, reached s -> reads l (Say x) -> tidy (s_buf s ++ x) ->
  parses (s_buf s ++ x) ds ->
  exists acts s', step s (Line w l) = (acts, Running s') /\
    shows (fun e m => print_expr [] e = Ok m) (in_force s) ds acts /\
    s_buf s' = [] /\ s_hist s' = s_hist s /\
    forall o, in_force s' o = declared (in_force s) (infix_decls ds) o.
Proof.
  intros HU w s l x ds Re R (C&Nd) P. cbn [step]. rewrite (line_reads _ _ _ _ R). cbn [react].
  destruct (read_buffer_parsed HU (set_cont (set_buf s (s_buf s ++ x)) (next_cont s l)) ds) as (acts&s'&E&Sh&B&H&_&_&G);
    [exact (reached_settled s Re)|exact C|exact P|apply Nd; exact P|].
  exists acts, s'. repeat split; auto.
Qed.

(** The fixities in force follow from the history. *)
Theorem C55_history : letters U -> forall h es acts s, run (session_new h) es = (acts, Running s) ->
  exists is, grouped [] es is (s_buf s) /\
    ((forall t, evaluated is t -> tidy t) ->
     exists F, evolution (fun _ => mkFix 9 ALeft) is F /\ forall o, in_force s o = F o).
Proof.
  intros HU h es acts s E.
  assert (N : forall e, In e es -> e <> Eof /\ e <> Interrupted).
  { intros e I. apply in_split in I as (a&b&->). rewrite run_app in E. destruct (run (session_new h) a) as (a1&[s1| | |]); try discriminate.
    cbn [run] in E. destruct e; try (split; discriminate); cbn in E; discriminate. }
  destruct (grouped_total es [] N) as (is&b'&G).
  destruct (run_grouped _ _ _ _ G (session_new h) _ _ eq_refl E) as (st'&P&A).
  destruct st' as [s2| | |]; cbn in A; try contradiction. destruct A as (Er&_&->). exists is. split; auto. intros T.
  destruct (perform_evolves HU is (mkResolver [] []) h acts s2 (fun _ => mkFix 9 ALeft)) as (F&Ev&Q); auto.
  { eapply grouped_well_formed; eauto. }
  { split; constructor. }
  exists F. split; auto. intros o. unfold in_force. rewrite Er. apply Q.
Qed.

(** There is only one way they can follow. *)
Theorem C55_unique : letters U -> forall is F F', (forall t, evaluated is t -> tidy t) ->
  evolution (fun _ => mkFix 9 ALeft) is F -> evolution (fun _ => mkFix 9 ALeft) is F' -> forall o, F o = F' o.
Proof. intros HU is F F' T E E'. exact (evolution_unique HU _ _ _ E _ _ T (fun o => eq_refl) E'). Qed.

(** Both together: a history, then a line. *)
Theorem C55_end_to_end : letters U -> forall h es acts s is F w l x ds,
  run (session_new h) es = (acts, Running s) -> grouped [] es is (s_buf s) -> (forall t, evaluated is t -> tidy t) ->
  evolution (fun _ => mkFix 9 ALeft) is F -> reads l (Say x) -> tidy (s_buf s ++ x) -> parses (s_buf s ++ x) ds ->
  exists more s', run (session_new h) (es ++ [Line w l]) = (acts ++ more, Running s') /\
    shows (fun e m => print_expr [] e = Ok m) F ds more /\
    forall o, in_force s' o = declared F (infix_decls ds) o.
Proof.
  intros HU h es acts s is F w l x ds E G T Ev R Ti P.
  destruct (C55_history HU _ _ _ _ E) as (is2&G2&Q). destruct (grouped_unique _ _ _ _ G _ _ G2) as (->&_).
  destruct (Q T) as (F2&Ev2&Q2). pose proof (C55_unique HU _ _ _ T Ev2 Ev) as EqF.
  destruct (C55_line HU w s l x ds) as (more&s'&St&Sh&_&_&Fo); auto; [exists h, es, acts; auto|].
  exists more, s'. rewrite run_app, E. cbn [run]. rewrite St. rewrite app_nil_r. split; auto.
  assert (EqD : forall o, declared (in_force s) (infix_decls ds) o = declared F (infix_decls ds) o).
  { apply declared_ext. intros o. rewrite Q2. auto. }
  split; [|intros o; rewrite Fo; auto].
  destruct Sh as [(es'&Rs&M)|(N&xs&m&Em&Tx&Ne&Nd&Cl)].
  - left. exists es'. split; auto. eapply Forall2_impl'; [|exact Rs]. intros a b K. eapply resolves_ext; eauto.
  - right. split.
    + intros es' Rs. apply (N es'). eapply Forall2_impl'; [|exact Rs]. intros a b K. eapply resolves_ext; eauto.
    + exists xs, m. repeat split; auto. intros y I. destruct (Cl y I) as (e&Ie&C). exists e. split; auto.
      eapply clash_in_ext; eauto.
Qed.

(** ** C52 *)

Lemma step_command w s l c : reads l (Command c) -> s_buf s = [] -> step s (Line w l) = read_command w s c.
Proof. intros R B. cbn [step]. rewrite (line_reads _ _ _ _ R). cbn [react]. rewrite B. reflexivity. Qed.

(** Commands that neither clear nor load leave every fixity. *)
Theorem C52_kept : forall w s l c acts s', reads l (Command c) -> s_buf s = [] ->
  ~ clears_fixities c -> ~ loads_something c -> step s (Line w l) = (acts, Running s') ->
  s_res s' = s_res s /\ s_buf s' = [].
Proof.
  intros w s l c acts s' R B N1 N2 E. rewrite (step_command _ _ _ _ R B) in E.
  destruct (reads_command _ _ R) as (T&C). split; [eapply frame_command; eauto|]. eapply read_command_running; eauto.
Qed.

(** Apart from what they write, commands do what is asked and nothing else. *)
Theorem C52_performs : forall w s l c acts st, reads l (Command c) -> s_buf s = [] ->
  step s (Line w l) = (acts, st) -> st = Ended \/ (exists s', st = Running s') ->
  performs (s_hist s) c (filter (fun a => match a with AOut _ | AErr _ => false | _ => true end) acts).
Proof.
  intros w s l c acts st R B E St. rewrite (step_command _ _ _ _ R B) in E. destruct (reads_command _ _ R) as (T&C).
  pose proof (command_deeds _ _ _ _ _ T C E St) as P. unfold deeds in P. erewrite filter_ext; [exact P|]. intros []; reflexivity.
Qed.

(** Other lines only write. *)
Theorem C52_others_write : forall w s l acts st, (forall c, ~ reads l (Command c)) -> step s (Line w l) = (acts, st) ->
  forall a, In a acts -> exists m, a = AOut m \/ a = AErr m.
Proof.
  intros w s l acts st N E a I. destruct (reads_total l) as (re&R). cbn [step] in E. rewrite (line_reads _ _ _ _ R) in E.
  destruct re as [|c|t|t]; cbn [react] in E.
  - injection E as <- <-. destruct I.
  - elim (N c R).
  - injection E as <- <-. destruct I.
  - unfold read_buffer in E. destruct (feed_input _ _) as [(r&res)|p|]; cbn [answer] in E.
    + destruct res as [x|e].
      * destruct (fst (iter_next (iter_new x))) as [[d|e]|]; try (injection E as <- <-; destruct I).
        destruct (print_expr _ e); cbn [answer app] in E; injection E as <- <-; cbn in I; try contradiction; destruct I as [<-|[]]; eauto.
      * destruct (show_error e); cbn [answer app] in E; injection E as <- <-; cbn in I; try contradiction; destruct I as [<-|[]]; unfold errln; eauto.
    + injection E as <- <-. destruct I.
    + injection E as <- <-. destruct I.
Qed.

(** Where the history is kept. *)
Theorem C52_history_path : forall w s l c acts s', reads l (Command c) -> s_buf s = [] ->
  step s (Line w l) = (acts, Running s') -> history_path (s_hist s) c (s_hist s').
Proof.
  intros w s l c acts s' R B E. rewrite (step_command _ _ _ _ R B) in E. destruct (reads_command _ _ R) as (T&C).
  eapply command_history; eauto.
Qed.

Lemma get_empty o : get [] o = mkFix 9 ALeft.
Proof. reflexivity. Qed.

(** The commands that clear say how many fixities there were. *)
Theorem C52_cleared : forall w s l c names, reached s -> reads l (Command c) -> s_buf s = [] ->
  names_of (defined s) names ->
  (command c ":clear" (lit "--fixities") ->
   exists n s', decimal (List.length names) n /\
     step s (Line w l) = ([AOut (n ++ lit " fixities cleared" ++ [10%N])], Running s') /\
     s_hist s' = s_hist s /\ s_buf s' = [] /\ forall o, defined s' o = None /\ in_force s' o = mkFix 9 ALeft) /\
  (command c ":clear" (lit "--session") \/ command c ":clear" (lit "--history --fixities")
     \/ command c ":clear" (lit "--fixities --history") ->
   exists n s', decimal (List.length names) n /\
     step s (Line w l) = ([AClearHistory; AOut (n ++ lit " fixities cleared, session history cleared" ++ [10%N])], Running s') /\
     s_hist s' = s_hist s /\ s_buf s' = [] /\ forall o, defined s' o = None /\ in_force s' o = mkFix 9 ALeft).
Proof.
  intros w s l c names Re R B Nm. rewrite (step_command _ _ _ _ R B). destruct (reads_command _ _ R) as (T&C).
  pose proof (reached_settled _ Re) as (_&ND). pose proof (table_count _ _ ND Nm) as L.
  split; intros Cm.
  - destruct (run_named w s c ":clear" _ T C eq_refl Cm) as (b&_&_&_&_&->).
    exists (show_nat (List.length names)), (set_res s (mkResolver [] (r_errs (s_res s)))). split; [apply show_nat_decimal|].
    split; [|split; [|split; [|intros o; split]]]; [|reflexivity|exact B|reflexivity|reflexivity].
    rewrite <- L. unfold outln. rewrite app_assoc. reflexivity.
  - assert (X : exists arg, command c ":clear" arg /\ In arg [lit "--session"; lit "--history --fixities"; lit "--fixities --history"]).
    { destruct Cm as [Cm|[Cm|Cm]]; eexists; (split; [exact Cm|cbn; auto]). }
    destruct X as (arg&Ca&I). destruct (run_named w s c ":clear" _ T C eq_refl Ca) as (b&_&_&_&_&->).
    exists (show_nat (List.length names)), (set_res s (mkResolver [] (r_errs (s_res s)))). split; [apply show_nat_decimal|].
    split; [|split; [|split; [|intros o; split]]];
      [rewrite <- L; destruct I as [<-|[<-|[<-|[]]]]; unfold outln; rewrite app_assoc; reflexivity|reflexivity|exact B|reflexivity|reflexivity].
Qed.

(** [:reset] clears too; what is missing is the count, which is one too low
    unless there are no fixities. *)
Theorem C52_reset_partial : forall w s l c names, reached s -> reads l (Command c) -> s_buf s = [] ->
  names_of (defined s) names -> c = lit ":reset" \/ c = lit ":r" ->
  exists n s', decimal (List.length names - 1) n /\
     step s (Line w l) = ([AOut (n ++ lit " fixities removed" ++ [10%N])], Running s') /\
     s_hist s' = s_hist s /\ s_buf s' = [] /\ forall o, defined s' o = None /\ in_force s' o = mkFix 9 ALeft.
Proof.
  intros w s l c names Re R B Nm Cm. rewrite (step_command _ _ _ _ R B). destruct (reads_command _ _ R) as (T&C).
  pose proof (reached_settled _ Re) as (_&ND). pose proof (table_count _ _ ND Nm) as L.
  exists (show_nat (List.length names - 1)), (set_res s (mkResolver [] (r_errs (s_res s)))). split; [apply show_nat_decimal|].
  split; [|split; [|split; [|intros o; split]]]; [|reflexivity|exact B|reflexivity|reflexivity].
  rewrite <- L. destruct Cm as [-> | ->].
  - rewrite run_exact by (try reflexivity; auto). unfold outln. rewrite app_assoc. reflexivity.
  - rewrite run_exact by (try reflexivity; auto). unfold outln. rewrite app_assoc. reflexivity.
Qed.

(** ** C53 *)

Theorem C53_ends_iff : letters U -> forall s e, (exists acts, step s e = (acts, Ended)) <->
  e = Eof \/ e = Interrupted \/
  exists w l c, e = Line w l /\ reads l (Command c) /\ s_buf s = [] /\ quits c.
Proof.
  intros HU s e. split.
  - intros (acts&E). destruct (step_stops HU _ _ _ _ E) as [(s'&X)|[(_&_&[-> | ->])|[(_&w&l&c&->&R&B&Q)|(p&t&X&_)]]]; try discriminate; auto.
    right. right. exists w, l, c. unfold quits. intuition auto.
  - intros [-> | [-> | (w&l&c&->&R&B&Q)]]; [exists []; reflexivity..|]. rewrite (step_command _ _ _ _ R B).
    destruct Q as [Q|[Q|[Q|Q]]]; eexists.
    1,2: apply quit_command; auto.
    1,2: apply quit_command_quietly; auto.
Qed.

(** What is done on leaving. *)
Theorem C53_leaving : letters U -> forall s e acts, step s e = (acts, Ended) ->
  (acts = [] /\ (e = Eof \/ e = Interrupted)) \/
  exists w l c, e = Line w l /\ reads l (Command c) /\
    ((acts = [ASaveHistory (s_hist s); AOut (lit "exiting Pemdas REPL" ++ [10%N])] /\ (c = lit ":q" \/ c = lit ":quit")) \/
     (acts = [AOut (lit "exiting Pemdas REPL" ++ [10%N])] /\ (c = lit ":q --no-history" \/ c = lit ":quit --no-history"))).
Proof.
  intros HU s e acts E. destruct (step_stops HU _ _ _ _ E) as [(s'&X)|[(_&->&Q)|[(_&w&l&c&->&R&B&Q)|(p&t&X&_)]]]; try discriminate; auto.
  right. exists w, l, c. auto.
Qed.

(** Over a history: it ends with an event that ends it, and the rest is not
    looked at. *)
Theorem C53_history : letters U -> forall s es acts, run s es = (acts, Ended) ->
  exists before e rest a1 s1, es = before ++ e :: rest /\ run s before = (a1, Running s1) /\
    (e = Eof \/ e = Interrupted \/ exists w l c, e = Line w l /\ reads l (Command c) /\ s_buf s1 = [] /\ quits c) /\
    forall rest', run s (before ++ e :: rest') = (acts, Ended).
Proof.
  intros HU s es acts E. destruct (run_last _ _ _ _ E) as [(s'&X)|(b&e&r&a1&s1&a2&->&R&S2&->)]; [discriminate|].
  exists b, e, r, a1, s1. split; auto. split; auto. split; [apply (C53_ends_iff HU); eauto|].
  intros r'. rewrite run_app, R. cbn [run]. rewrite S2. reflexivity.
Qed.

(** Missing for the property: texts can stop the program (see the witnesses
    below).  Only these can, and an evaluation never runs forever. *)
Theorem C53_crashes_partial : letters U -> forall s e acts p, step s e = (acts, Crashed p) ->
  exists t, event_text (s_buf s) e t /\ (no_lfcr t -> dangerous t p).
Proof.
  intros HU s e acts p E. destruct (step_stops HU _ _ _ _ E) as [(s'&X)|[(X&_)|[(X&_)|(q&t&X&Ev&F)]]]; try discriminate.
  injection X as <-. exists t. split; auto. intros C. apply (fatal_dangerous HU); auto.
Qed.

Theorem C53_never_stuck : letters U -> forall s es acts, run s es <> (acts, Stuck).
Proof.
  intros HU s es acts E. destruct (run_last _ _ _ _ E) as [(s'&X)|(b&e&r&a1&s1&a2&->&R&S2&->)]; [discriminate|].
  destruct (step_stops HU _ _ _ _ S2) as [(s'&X)|[(X&_)|[(X&_)|(q&t&X&_)]]]; discriminate.
Qed.

(** ** C54 *)

(** Loading one file. *)
Lemma run_load w s l c arg p q : reads l (Command c) -> s_buf s = [] -> command c ":load" arg -> word_list arg [p] ->
  arg <> lit "--prelude" -> arg <> lit "--math" -> path_of p q ->
  step s (Line w l) = read_file w 0 s q.
Proof.
  intros R B C W N1 N2 Pq. rewrite (step_command _ _ _ _ R B). destruct (reads_command _ _ R) as (T&St).
  rewrite (load_command w s c arg T St C). unfold cmd_load. destruct arg as [|x a].
  { apply split_whitespace_iff in W. discriminate. }
  cbn [is_nil]. destruct (str_eqb (x :: a) (lit "--prelude")) eqn:E; [apply ProofLexer2.str_eqb_eq in E; congruence|].
  destruct (str_eqb (x :: a) (lit "--math")) eqn:E2; [apply ProofLexer2.str_eqb_eq in E2; congruence|].
  apply split_whitespace_iff in W. rewrite W. cbn [read_files]. apply unquote_iff in Pq. rewrite Pq. cbn [answer].
  destruct (read_file w 0 s q) as (acts&[]); rewrite ?app_nil_r; reflexivity.
Qed.

(** Lines that do not start with [infix] make no difference, nor does white
    space around those that do. *)
Theorem C54_only_fixity_lines : forall w w' s l c arg p q x x' ls ls' xs,
  reads l (Command c) -> s_buf s = [] -> command c ":load" arg -> word_list arg [p] ->
  arg <> lit "--prelude" -> arg <> lit "--math" -> path_of p q -> hs_path q ->
  w_read w 0 q = inl x -> w_read w' 0 q = inl x' ->
  text_lines x ls -> fixity_lines ls xs -> text_lines x' ls' -> fixity_lines ls' xs ->
  step s (Line w l) = step s (Line w' l).
Proof.
  intros w w' s l c arg p q x x' ls ls' xs R B C W N1 N2 Pq H Rd Rd' T F T' F'.
  rewrite (run_load w s l c arg p q), (run_load w' s l c arg p q) by assumption. unfold read_file. rewrite Rd, Rd'.
  replace (relevant q x') with (relevant q x); auto. transitivity (List.concat xs).
  - apply relevant_iff. econstructor; eauto.
  - symmetry. apply relevant_iff. econstructor; eauto.
Qed.

(** When these lines are fixity declarations as they are usually written, they
    come into force in order.  Missing: a declaration followed by a comment
    swallows the next ones, and so does one that ends in an operator spelled
    with an apostrophe (see the witnesses below). *)
Theorem C54_declarations_partial : letters U -> forall w s l c arg p q x ls xs ds,
  reached s -> reads l (Command c) -> s_buf s = [] -> command c ":load" arg -> word_list arg [p] ->
  arg <> lit "--prelude" -> arg <> lit "--math" -> path_of p q -> hs_path q ->
  w_read w 0 q = inl x -> text_lines x ls -> fixity_lines ls xs -> Forall2 declaration_text xs ds ->
  exists n m s', decimal (List.length ds) n /\
    step s (Line w l) = ([ARead q; AOut (n ++ lit " fixities read from `" ++ q ++ lit "`" ++ [10%N]); AOut m], Running s') /\
    s_buf s' = [] /\ s_hist s' = s_hist s /\
    forall o, in_force s' o = declared (in_force s) ds o.
Proof.
  intros HU w s l c arg p q x ls xs ds Re R B C W N1 N2 Pq H Rd T F D.
  rewrite (run_load w s l c arg p q) by assumption.
  destruct (declarations_parse xs ds D []) as (ts&Tk&_&_&Pr).
  destruct (read_file_declarations HU w 0 s q x (List.concat xs) ds) as (s'&E&Bf&Hi&G).
  - apply reached_settled; auto.
  - auto.
  - econstructor; eauto.
  - apply declaration_texts_line in D. intros a b Eq. rewrite Eq in D. apply Forall_app in D as (_&D). inversion D as [|? ? D1 _]. discriminate D1.
  - exists ts. auto.
  - exists (show_nat (List.length ds)). eexists. exists s'. split; [apply show_nat_decimal|].
    rewrite E. unfold outln. rewrite <- !app_assoc. split; [reflexivity|]. rewrite Bf. auto.
Qed.

End WithUcd.

(** * Examples *)

Definition nowhere : world := mkWorld (fun _ _ => inr (lit "entity not found")) (fun _ => None) (fun _ _ => inl []).
(** A file system whose only file, under any name, has these lines. *)
Definition holding (ls : list string) : world :=
  mkWorld (fun _ _ => inl (flat_map (fun l => lit l ++ [10%N]) ls)) (fun _ => None) (fun _ _ => inl []).
Definition typed (ls : list string) : list event := map (fun l => Line nowhere (lit l)) ls.
Definition fresh : session := session_new (lit ".pemdas").
Notation run0 := (@run ucd_none fresh).
Definition after_ (es : list event) : session :=
  match run0 es with (_, Running s) => s | _ => fresh end.
(** What is on the screen: standard output is marked true. *)
Definition screen (x : list action * status) : list (bool * str) :=
  flat_map (fun a => match a with AOut m => [(true, visible m)] | AErr m => [(false, visible m)] | _ => [] end) (fst x).

Lemma after_reached es : match run0 es with (_, Running _) => True | _ => False end -> @reached ucd_none (after_ es).
Proof.
  unfold after_. destruct (run0 es) as (acts&[s| | |]) eqn:E; try contradiction. intros _. exists (lit ".pemdas"), es, acts. exact E.
Qed.

Fixpoint clean (s : str) : bool :=
  match s with
  | c :: ((d :: _) as r) => negb (N.eqb c 10 && N.eqb d 13) && clean r
  | _ => true
  end.
Lemma clean_ok t : clean t = true -> no_lfcr t.
Proof.
  intros H a b ->. induction a as [|c a IH]; [discriminate H|]. apply IH.
  change ((c :: a) ++ [10; 13]%N ++ b) with (c :: (a ++ [10; 13]%N ++ b)) in H.
  destruct (a ++ [10; 13]%N ++ b) as [|d r]; [reflexivity|]. cbn [clean] in H. apply andb_true_iff in H as (_&H). exact H.
Qed.

Lemma reads_say l : match trim l with
  | [] | 58%N :: _ | 123%N :: _ => false
  | x => negb (ends_with [92%N] x)
  end = true -> reads l (Say (trim l)).
Proof.
  intros H. pose proof (ProofGrapheme.trim_spec l) as T. destruct (trim l) as [|c x]; [discriminate|].
  assert (S1 : ends_with [92%N] (c :: x) = false /\ c <> 58%N /\ c <> 123%N).
  { repeat match type of H with context [match ?b with _ => _ end] => destruct b end; try discriminate H;
      (split; [apply negb_true_iff; exact H|split; discriminate]). }
  destruct S1 as (E&N1&N2). apply rd_plain; auto; try discriminate; try (intros (y&Y); congruence). apply ends_false. exact E.
Qed.
Lemma reads_cmd l : match trim l with 58%N :: _ => true | _ => false end = true -> reads l (Command (trim l)).
Proof.
  intros H. pose proof (ProofGrapheme.trim_spec l) as T. destruct (trim l) as [|c x]; [discriminate|].
  assert (c = 58%N) as -> by (repeat match type of H with context [match ?b with _ => _ end] => destruct b end; try discriminate H; reflexivity).
  apply rd_command. exact T.
Qed.
Lemma parses_not t : no_lfcr t -> match @parse ucd_none t with POk _ _ => False | _ => True end ->
  forall ds, ~ @parses ucd_none t ds.
Proof.
  intros C H ds (ts&T&P). destruct (proj2 (ProofParser7.parse_iff letters_none t (fold_left ast_push ds ast_empty) C)) as (l&E); [eauto|].
  rewrite E in H. exact H.
Qed.
Lemma parses_as t : no_lfcr t -> match @parse ucd_none t with POk _ _ => True | _ => False end ->
  exists ds, @parses ucd_none t ds /\ match @parse ucd_none t with POk a _ => a = fold_left ast_push ds ast_empty | _ => False end.
Proof.
  intros C H. destruct (@parse ucd_none t) as [a l| | |] eqn:E; try contradiction.
  destruct (proj1 (ProofParser7.parse_iff letters_none t a C)) as (ts&ds&T&P&Ea); [eauto|]. exists ds. split; auto. exists ts. auto.
Qed.
(** A text that is parsed without lets that list an operator twice. *)
Lemma tidy_check t : clean t = true -> match @parse ucd_none t with POk a _ => Forall nodup_lets (a_exprs a) | _ => True end ->
  @tidy ucd_none t.
Proof.
  intros C H. apply clean_ok in C. split; auto. intros ds (ts&T&P).
  destruct (proj2 (ProofParser7.parse_iff letters_none t (fold_left ast_push ds ast_empty) C)) as (l&E); [eauto|].
  rewrite E in H. rewrite ast_of_exprs in H. exact H.
Qed.

(** C51 *)

Example C51_ex_lines :
  reads (lit "  ") Nothing /\ reads (lit " :q ") (Command (lit ":q")) /\
  reads (lit "infixl 6 + \") (Hold (lit "infixl 6 +" ++ [10%N])) /\
  reads (lit "a + \") (Hold (lit "a + " ++ [10; 32]%N)) /\
  reads (lit "{{a +") (Hold (lit "a +")) /\ reads (lit "{a + b}}") (Say (lit "a + b")) /\
  reads (lit " a + b ") (Say (lit "a + b")).
Proof.
  split; [|split; [|split; [|split; [|split; [|split]]]]].
  - apply rd_blank. repeat constructor.
  - exact (reads_cmd (lit " :q ") eq_refl).
  - apply (rd_infix _ (lit "l 6 +")). exact (ProofGrapheme.trim_spec (lit "infixl 6 + \")).
  - apply (rd_backslash _ (lit "a + ")); [exact (ProofGrapheme.trim_spec (lit "a + \"))| |].
    + intros (x&E). discriminate.
    + intros y E. discriminate.
  - apply (rd_open _ 1 (lit "a +")); [exact (ProofGrapheme.trim_spec (lit "{{a +"))| | |]; [apply starts_false|apply ends_false..]; reflexivity.
  - apply (rd_close _ 0 (lit "a + b") 1); [exact (ProofGrapheme.trim_spec (lit "{a + b}}"))| |]; [apply starts_false|apply ends_false]; reflexivity.
  - exact (reads_say (lit " a + b ") eq_refl).
Qed.
Example C51_ex_run : screen (run0 (typed ["infixl 6 + \"; "  "; ":q"; "a + b + c"; ":q"])) =
  [(false, lit "cannot call a command in multiline mode!" ++ [10%N]);
   (true, lit "exiting Pemdas REPL" ++ [10%N])].
Proof. vm_compute. reflexivity. Qed.

(** C15: a valid declaration before the error has no effect; an ambiguous text
    keeps its declaration. *)
Example C15_ex_rejected : let t := lit "infixl 3 +; a + )" in
  reads t (Say t) /\ no_lfcr t /\ (forall ds, ~ @parses ucd_none t ds) /\
  screen (run0 [Line nowhere t]) = [(false, lit "[Error]: unexpected token `)` found at [15]:1:16" ++ [10%N])] /\
  after_ [Line nowhere t] = fresh.
Proof.
  cbv zeta. split; [exact (reads_say (lit "infixl 3 +; a + )") eq_refl)|].
  assert (C : no_lfcr (lit "infixl 3 +; a + )")) by (apply clean_ok; reflexivity).
  split; auto. split; [apply parses_not; auto; vm_compute; exact I|]. split; vm_compute; reflexivity.
Qed.

Lemma error_means_none s l x ds m s' : @reached ucd_none s -> reads l (Say x) -> @tidy ucd_none (s_buf s ++ x) ->
  @parses ucd_none (s_buf s ++ x) ds -> @step ucd_none s (Line nowhere l) = ([AErr m], Running s') ->
  forall es, ~ Forall2 (resolves (declared (in_force s) (infix_decls ds))) (input_exprs ds) es.
Proof.
  intros Re R T P E es F. destruct (C55_line letters_none nowhere s l x ds Re R T P) as (acts&s2&E2&Sh&_).
  rewrite E in E2. injection E2 as <- <-. destruct Sh as [(es'&_&M)|(N&_)]; [|elim (N es F)].
  destruct ds as [|[d|e] ds], es' as [|e' es']; try discriminate M. destruct M as (m'&_&M). discriminate.
Qed.
Example C15_ex_ambiguous : let t := lit "infix 4 ==; a == b == c" in
  reads t (Say t) /\ @tidy ucd_none t /\ exists ds, @parses ucd_none t ds /\
  (forall es, ~ Forall2 (resolves (declared (in_force fresh) (infix_decls ds))) (input_exprs ds) es) /\
  screen (run0 [Line nowhere t]) =
    [(false, lit "[Error]: found non-associative operator `==` and non-associative operator `==` in the same infix expression" ++ [10%N])] /\
  in_force (after_ [Line nowhere t]) (Standard (lit "==")) = mkFix 4 ANeither.
Proof.
  cbv zeta. set (t := lit "infix 4 ==; a == b == c").
  assert (R : reads t (Say t)) by exact (reads_say t eq_refl).
  assert (T : @tidy ucd_none t) by (apply tidy_check; [reflexivity|vm_compute; repeat constructor]).
  destruct (parses_as t (proj1 T)) as (ds&P&_); [vm_compute; exact I|].
  split; auto. split; auto. exists ds. split; auto. split; [|split; vm_compute; reflexivity].
  eapply (error_means_none fresh t t); auto; [|vm_compute; reflexivity].
  exact (after_reached [] I).
Qed.

(** C55 *)

Definition ex55 : list event :=
  typed ["infixl 6 +, -"; ":load --prelude"; ":reset"; "infixr 8 ^ \"; "  infixl 7 *"; "a * b ^ c"].
Example C55_ex_screen : screen (run0 (ex55 ++ typed ["infixl 6 +; x"; "a + b * c ^ d ^ e"; "infixr 5 +"; "a + b * c + d"])) =
  [(true, lit "loaded 23 fixities from Haskell prelude" ++ [10%N]);
   (true, lit "23 fixities removed" ++ [10%N]);
   (true, lit "  a * (b ^ c)" ++ [10%N]);
   (true, lit "  a + (b * (c ^ (d ^ e)))" ++ [10%N]);
   (true, lit "  a + ((b * c) + d)" ++ [10%N])].
Proof. vm_compute. reflexivity. Qed.
Example C55_ex : let l := lit "a + b * c ^ d ^ e" in
  @reached ucd_none (after_ ex55) /\ s_buf (after_ ex55) = [] /\ reads l (Say l) /\ @tidy ucd_none l /\
  exists ds, @parses ucd_none l ds.
Proof.
  cbv zeta. split; [apply after_reached; vm_compute; exact I|]. split; [vm_compute; reflexivity|].
  split; [exact (reads_say (lit "a + b * c ^ d ^ e") eq_refl)|].
  assert (T : @tidy ucd_none (lit "a + b * c ^ d ^ e")) by (apply tidy_check; [reflexivity|vm_compute; repeat constructor]).
  split; auto. destruct (parses_as (lit "a + b * c ^ d ^ e") (proj1 T)) as (ds&P&_); [vm_compute; exact I|]. eauto.
Qed.
Example C55_ex_history : exists is F, grouped [] (typed ["infixl 6 + \"; ":x"; "infixr 5 *"; ":load --math"]) is [] /\
  is = [Refuse; Evaluate (lit "infixl 6 +" ++ 10%N :: lit "infixr 5 *"); Invoke nowhere (lit ":load --math")] /\
  (forall t, @evaluated is t -> @tidy ucd_none t) /\ @evolution ucd_none (fun _ => mkFix 9 ALeft) is F /\
  F (Standard (lit "*")) = mkFix 6 ALeft.
Proof.
  set (t := lit "infixl 6 +" ++ 10%N :: lit "infixr 5 *").
  assert (T : @tidy ucd_none t) by (apply tidy_check; [reflexivity|vm_compute; repeat constructor]).
  destruct (parses_as t (proj1 T)) as (ds&P&_); [vm_compute; exact I|].
  assert (C : command (lit ":load --math") ":load" (lit "--math")).
  { exists (lit " --math"). split; [reflexivity|]. split; [reflexivity|]. exact (ProofGrapheme.trim_spec (lit " --math")). }
  exists [Refuse; Evaluate t; Invoke nowhere (lit ":load --math")],
    (over code_math (declared (fun _ => mkFix 9 ALeft) (infix_decls ds))).
  split; [|split; [reflexivity|split; [|split; [|reflexivity]]]].
  - apply (gr_hold _ _ _ (lit "infixl 6 +" ++ [10%N])).
    { apply (rd_infix _ (lit "l 6 +")). exact (ProofGrapheme.trim_spec (lit "infixl 6 + \")). }
    apply (gr_refuse _ _ _ (lit ":x")); [discriminate|exact (reads_cmd (lit ":x") eq_refl)|].
    change t with (([] ++ lit "infixl 6 +" ++ [10%N]) ++ lit "infixr 5 *").
    apply (gr_say _ _ _ (lit "infixr 5 *")); [exact (reads_say (lit "infixr 5 *") eq_refl)|].
    apply (gr_command _ _ (lit ":load --math")); [exact (reads_cmd (lit ":load --math") eq_refl)|]. constructor.
  - intros u [[H|[H|[H|[]]]]|(w&c&k&p&x&[H|[H|[H|[]]]]&(arg&ps&q&C'&_&N&_)&_)]; try discriminate.
    + injection H as <-. exact T.
    + injection H as <- <-. elim N. eapply command_unique; eauto.
  - econstructor; [apply vo_refuse|]. econstructor; [apply vo_evaluate, ev_parsed; exact P|].
    econstructor; [apply vo_math; exact C|]. constructor.
Qed.

(** C52 *)

Definition two : session := after_ (typed ["infixl 6 +, -"]).
Example C52_ex_two : @reached ucd_none two /\ s_buf two = [] /\ names_of (defined two) [lit "+"; lit "-"].
Proof.
  split; [apply after_reached; vm_compute; exact I|]. split; [vm_compute; reflexivity|]. split.
  - repeat constructor; cbn; intros H; repeat destruct H as [H|H]; try discriminate; auto.
  - assert (E : r_fix (s_res two) = [(Standard (lit "+"), mkFix 6 ALeft); (Standard (lit "-"), mkFix 6 ALeft)]) by (vm_compute; reflexivity).
    unfold defined. rewrite E. intros o. cbn [get_defined]. unfold infix_eqb.
    destruct (str_eqb_spec (symbol (Standard (lit "+"))) (symbol o)) as [<-|N1]; [split; [discriminate|cbn; auto]|].
    destruct (str_eqb_spec (symbol (Standard (lit "-"))) (symbol o)) as [<-|N2]; [split; [discriminate|cbn; auto]|].
    split; [|congruence]. intros [H|[H|[]]]; [elim (N1 H)|elim (N2 H)].
Qed.
Example C52_ex_clear : command (lit ":clear  --fixities") ":clear" (lit "--fixities") /\
  screen (run0 (typed ["infixl 6 +, -"; ":clear  --fixities"; "a - b - c"])) =
  [(true, lit "2 fixities cleared" ++ [10%N]); (true, lit "  (a - b) - c" ++ [10%N])].
Proof.
  split; [|vm_compute; reflexivity]. exists (lit "  --fixities"). split; [reflexivity|]. split; [reflexivity|].
  exact (ProofGrapheme.trim_spec (lit "  --fixities")).
Qed.
Theorem C52_reset_count_refuted : exists w s l names, @reached ucd_none s /\ reads l (Command (lit ":reset")) /\ s_buf s = [] /\
  names_of (defined s) names /\ List.length names = 2 /\
  fst (@step ucd_none s (Line w l)) = [AOut (lit "1 fixities removed" ++ [10%N])].
Proof.
  exists nowhere, two, (lit ":reset"), [lit "+"; lit "-"]. destruct C52_ex_two as (A&B&C).
  split; [exact A|]. split; [exact (reads_cmd (lit ":reset") eq_refl)|]. split; [exact B|]. split; [exact C|].
  split; vm_compute; reflexivity.
Qed.
Example C52_ex_kept : ~ clears_fixities (lit ":clear --history") /\ ~ loads_something (lit ":clear --history") /\
  @run ucd_none two (typed [":clear --history"]) = ([AClearHistory; AOut (lit "session history cleared" ++ [10%N])], Running two) /\
  performs (lit ".pemdas") (lit ":clear --history") [AClearHistory].
Proof.
  assert (Cm : command (lit ":clear --history") ":clear" (lit "--history")).
  { exists (lit " --history"). split; [reflexivity|]. split; [reflexivity|]. exact (ProofGrapheme.trim_spec (lit " --history")). }
  split; [|split; [|split]].
  - intros [H|[H|[H|[H|[H|H]]]]]; try discriminate H; pose proof (command_unique _ _ _ _ Cm H) as E; discriminate E.
  - intros (arg&_&C). pose proof (command_names _ ":clear" ":load" _ _ eq_refl eq_refl Cm C) as E. discriminate E.
  - vm_compute. reflexivity.
  - left. apply ef_forget. right. exists (lit "--history"). split; [exact Cm|]. left. reflexivity.
Qed.
Example C52_ex_set : history_path (lit ".pemdas") (lit ":history --set h.txt") (lit "h.txt").
Proof.
  apply (hp_set _ _ (lit " h.txt")); [|exact (ProofGrapheme.trim_spec (lit " h.txt"))|discriminate].
  exists (lit " --set h.txt"). split; [reflexivity|]. split; [reflexivity|]. exact (ProofGrapheme.trim_spec (lit " --set h.txt")).
Qed.

(** C53 *)

Example C53_ex_quits : run0 (typed ["a"; ":q"; "b"]) =
  ([AOut (match fst (run0 (typed ["a"])) with [AOut m] => m | _ => [] end); ASaveHistory (lit ".pemdas");
    AOut (lit "exiting Pemdas REPL" ++ [10%N])], Ended) /\
  run0 (typed [":quit --no-history"]) = ([AOut (lit "exiting Pemdas REPL" ++ [10%N])], Ended) /\
  snd (run0 (typed ["a \"; ":q"])) = Running (after_ (typed ["a \"])) /\
  run0 [Eof] = ([], Ended).
Proof. split; [|split; [|split]]; vm_compute; reflexivity. Qed.
(** A name in upper case, a precedence of 10, two apostrophes, and a file with
    one of these stop the program. *)
Theorem C53_text_refuted :
  run0 (typed ["Foo"]) = ([], Crashed PIdentStart) /\
  run0 (typed ["infixl 10 +"]) = ([], Crashed PTodoPrec) /\
  run0 (typed ["''"]) = ([], Crashed PTodoEmptyChar) /\
  run0 [Line (holding ["infixl 10 +"]) (lit ":load a.hs")] = ([ARead (lit "a.hs")], Crashed PTodoPrec).
Proof. split; [|split; [|split]]; vm_compute; reflexivity. Qed.

(** C54 *)

Definition ex54 : world := holding ["module A where"; "  infixl 6 +"; "f x = x"; "infixr 5 ++, `foo`"].
Lemma hs_check q f : q = f ++ lit ".hs" -> f <> [] -> ~ In 47%N f -> hs_path q.
Proof. intros -> N I. exists [], f, []. rewrite app_nil_r. repeat split; auto. constructor. Qed.
Example C54_ex : exists arg p q x ls xs ds,
  reads (lit ":load a.hs") (Command (lit ":load a.hs")) /\ command (lit ":load a.hs") ":load" arg /\ word_list arg [p] /\
  arg <> lit "--prelude" /\ arg <> lit "--math" /\ path_of p q /\ hs_path q /\
  w_read ex54 0 q = inl x /\ text_lines x ls /\ fixity_lines ls xs /\ Forall2 (@declaration_text ucd_none) xs ds /\
  List.length ds = 2 /\
  in_force (after_ [Line ex54 (lit ":load a.hs")]) (Promoted (lit "foo")) = mkFix 5 ARight.
Proof.
  exists (lit "a.hs"), (lit "a.hs"), (lit "a.hs"). eexists.
  exists (map lit ["module A where"; "  infixl 6 +"; "f x = x"; "infixr 5 ++, `foo`"; ""]).
  exists (map lit ["infixl 6 +"; "infixr 5 ++, `foo`"]).
  exists [mkInfixDecl [Standard (lit "+")] (mkFix 6 ALeft); mkInfixDecl [Standard (lit "++"); Promoted (lit "foo")] (mkFix 5 ARight)].
  split; [exact (reads_cmd (lit ":load a.hs") eq_refl)|].
  split; [exists (lit " a.hs"); split; [reflexivity|]; split; [reflexivity|]; exact (ProofGrapheme.trim_spec (lit " a.hs"))|].
  split; [apply split_whitespace_iff; vm_compute; reflexivity|]. split; [discriminate|]. split; [discriminate|].
  split; [apply unquote_iff; vm_compute; reflexivity|].
  split; [apply (hs_check _ (lit "a")); [reflexivity|discriminate|intros [H|[]]; discriminate]|].
  split; [reflexivity|].
  split; [apply lines_iff; vm_compute; reflexivity|]. split; [apply fixity_lines_iff; vm_compute; reflexivity|].
  split; [|split; [reflexivity|vm_compute; reflexivity]].
  assert (S1 : @spelled ucd_none (Standard (lit "+")) (lit "+")) by (apply sp_plain; try discriminate; repeat constructor).
  assert (S2 : @spelled ucd_none (Standard (lit "++")) (lit "++")) by (apply sp_plain; try discriminate; repeat constructor).
  assert (S3 : @spelled ucd_none (Promoted (lit "foo")) (lit "`foo`")).
  { apply (sp_backquoted 102 (lit "oo") []); [reflexivity|repeat constructor|exact I|constructor]. }
  constructor; [|constructor; [|constructor]].
  - exists ALeft, (Some 6%N), [Standard (lit "+")], [lit "+"]. split; [exact (Forall2_cons _ _ S1 (Forall2_nil _))|].
    split; [discriminate|]. split; [discriminate|]. split; reflexivity.
  - exists ARight, (Some 5%N), [Standard (lit "++"); Promoted (lit "foo")], [lit "++"; lit "`foo`"].
    split; [exact (Forall2_cons _ _ S2 (Forall2_cons _ _ S3 (Forall2_nil _)))|].
    split; [discriminate|]. split; [discriminate|]. split; reflexivity.
Qed.
(** A comment makes the whole file fail, in either notation for comments, and so
    does an operator spelled with an apostrophe, though the same lines are
    accepted in a file that is not a Haskell file. *)
Theorem C54_lines_joined_refuted :
  screen (run0 [Line (holding ["infixl 6 + -- plus"; "infixr 5 ++"]) (lit ":load a.hs")]) =
    [(true, lit "[Error]:  (a.hs:1:14) unexpected token `--`" ++ [10%N])] /\
  screen (run0 [Line (holding ["infixl 6 + ~~ plus"; "infixr 5 ++"]) (lit ":load a.hs")]) =
    [(true, lit "1 fixities read from `a.hs`" ++ [10%N]); (true, lit "infixl 6 +" ++ [10%N])] /\
  screen (run0 [Line (holding ["infixl 6 + ~~ plus"; "infixr 5 ++"]) (lit ":load a.txt")]) =
    [(true, lit "2 fixities read from `a.txt`" ++ [10%N]); (true, lit "infixl 6 +" ++ 10%N :: lit "infixr 5 ++" ++ [10%N])] /\
  screen (run0 [Line (holding ["infixl 6 'foo"; "infixr 5 ++"]) (lit ":load a.hs")]) =
    [(true, lit "[Error]:  (a.hs:1:25) unexpected token `" ++ [0; 96; 10]%N)] /\
  screen (run0 [Line (holding ["infixl 6 'foo"; "infixr 5 ++"]) (lit ":load a.txt")]) =
    [(true, lit "2 fixities read from `a.txt`" ++ [10%N]); (true, lit "infixl 6 'foo" ++ 10%N :: lit "infixr 5 ++" ++ [10%N])].
Proof. split; [|split; [|split; [|split]]]; vm_compute; reflexivity. Qed.

(** * Assumptions *)

Print Assumptions C51_one_reaction.
Print Assumptions C51_line.
Print Assumptions C51_together.
Print Assumptions C51_history.
Print Assumptions C15_rejected.
Print Assumptions C15_ambiguous.
Print Assumptions C55_line.
Print Assumptions C55_history.
Print Assumptions C55_unique.
Print Assumptions C55_end_to_end.
Print Assumptions C52_kept.
Print Assumptions C52_performs.
Print Assumptions C52_others_write.
Print Assumptions C52_history_path.
Print Assumptions C52_cleared.
Print Assumptions C52_reset_partial.
Print Assumptions C52_reset_count_refuted.
Print Assumptions C53_ends_iff.
Print Assumptions C53_leaving.
Print Assumptions C53_history.
Print Assumptions C53_crashes_partial.
Print Assumptions C53_never_stuck.
Print Assumptions C53_text_refuted.
Print Assumptions C54_only_fixity_lines.
Print Assumptions C54_declarations_partial.
Print Assumptions C54_lines_joined_refuted.
