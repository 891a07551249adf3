(** C104: the same declarations, typed, loaded, in pieces or again. *)
From Coq Require Import List Arith NArith Bool String Lia.
From Verif Require Import Prelim Chars Syntax Fixity Lexer Parser Grapheme Messages Repl
  SpecGrapheme SpecLexer SpecParser SpecFixity SpecRepl SpecShape ProofTable ProofRewrite ProofResolve ProofResolve2 ProofFixity PropsLexer PropsParser PropsShape
  ProofRepl ProofRepl2 ProofRepl3 ProofRepl4 ProofRepl5 ProofRepl6 ProofRepl7 ProofRepl8 ProofRepl9 PropsRepl.
Import ListNotations.
Local Open Scope string_scope.
Local Open Scope list_scope.

Section WithUcd.
Context {U : ucd}.

(** The line [l] asks for one file, and [t] is the text read from it. *)
Definition loads_text (w : world) (l t : str) : Prop :=
  exists c arg p q x, reads l (Command c) /\ command c ":load" arg /\ arg <> lit "--prelude" /\ arg <> lit "--math" /\
    word_list arg [p] /\ path_of p q /\ w_read w 0 q = inl x /\ loaded_text q x t.

(** [t] is a program whose lets list no operator twice. *)
Definition program_text (t : str) (A : ast) : Prop :=
  no_lfcr t /\ (exists l, parse t = POk A l) /\ Forall nodup_lets (a_exprs A).

Lemma feed_table (HU : letters U) r t A r' res : settled r -> program_text t A -> feed_input r t = Ok (r', res) ->
  r' = mkResolver (load_tbl (r_fix r) (a_infxs A)) [].
Proof.
  intros St (C&(l&P)&Nd) E. destruct (proj1 (C35_parse_is_grammar HU t A C) (ex_intro _ l P)) as (ts&ds&T&G&->).
  rewrite ast_of_exprs in Nd. cbn [ast_empty a_exprs app] in Nd. rewrite ast_of_infxs. cbn [ast_empty a_infxs app].
  destruct (feed_parsed HU r t ds St C (ex_intro _ ts (conj T G)) Nd) as (r1&res1&E1&(S1&S2)&_&Tb&_).
  rewrite E1 in E. injection E as <- _. destruct r1 as (t1&e1). cbn in *. now subst.
Qed.

Lemma load_step (HU : letters U) w l t A s acts s' : reached s -> s_buf s = [] -> loads_text w l t -> program_text t A ->
  step s (Line w l) = (acts, Running s') -> s' = set_res s (mkResolver (load_tbl (r_fix (s_res s)) (a_infxs A)) []).
Proof.
  intros Re B (c&arg&p&q&x&R&C&N1&N2&W&Pq&Rd&L) Pt E. rewrite (run_load w s l c arg p q) in E by assumption.
  apply relevant_iff in L. unfold read_file in E. rewrite Rd, L in E.
  destruct (feed_input (s_res s) t) as [(r&res)|pp|] eqn:Fd; cbn in E; try discriminate E.
  apply (feed_table HU _ _ A) in Fd; auto; [|now apply reached_settled]. subst r.
  destruct res as [a|e]; [now injection E as _ <-|]. destruct (show_error_with_path e q); cbn in E; try discriminate E. now injection E as _ <-.
Qed.

Lemma reached_on s e acts s1 : reached s -> step s e = (acts, Running s1) -> reached s1.
Proof.
  intros (h&es&a0&R) E. exists h, (es ++ [e]), (a0 ++ acts). revert R. generalize (session_new h) as s0. revert a0.
  induction es as [|e0 es IH]; intros a0 s0 R; cbn [run app] in *.
  - injection R as <- <-. rewrite E. now rewrite app_nil_r.
  - destruct (step s0 e0) as (x&st). destruct st as [s2| | |]; try discriminate R. destruct (run s2 es) as (y&st) eqn:R2.
    injection R as <- ->. rewrite (IH _ _ R2). now rewrite app_assoc.
Qed.

Lemma run_two s e f acts s2 : run s [e; f] = (acts, Running s2) -> exists a1 s1 a2, step s e = (a1, Running s1) /\ step s1 f = (a2, Running s2).
Proof.
  cbn [run]. destruct (step s e) as (x&[s1| | |]) eqn:E1; try discriminate. destruct (step s1 f) as (y&[s3| | |]) eqn:E2; try discriminate.
  intros E. injection E as _ <-. eauto 6.
Qed.

(** ** C104 *)

(** Typing a program and loading a file with it have the same effect on the
    fixities. *)
Theorem C104_typed : letters U -> forall w w' s l l' t A acts acts' s1 s2, reached s -> s_buf s = [] ->
  program_text t A -> reads l (Say t) -> loads_text w' l' t ->
  step s (Line w l) = (acts, Running s1) -> step s (Line w' l') = (acts', Running s2) -> s_res s1 = s_res s2.
Proof.
  intros HU w w' s l l' t A acts acts' s1 s2 Re B Pt R L E E'. apply (load_step HU _ _ _ _ _ _ _ Re B L Pt) in E' as ->.
  cbn [step] in E. rewrite (line_reads w s l _ R) in E. cbn [react] in E. apply read_buffer_running in E as (_&_&_&res&E).
  cbn [s_res s_buf set_buf set_cont] in E. rewrite B in E. cbn [app] in E.
  exact (feed_table HU _ _ _ _ _ (reached_settled _ Re) Pt E).
Qed.
Print Assumptions C104_typed.

(** Loading a file in two pieces is the same as loading it whole, when the first
    piece is closed and both are programs. *)
Theorem C104_split : letters U -> forall w w1 w2 s l l1 l2 a b A B acts acts' s1 s2, reached s -> s_buf s = [] ->
  no_lfcr (a ++ b) -> closed a -> program_text a A -> program_text b B ->
  loads_text w l (a ++ b) -> loads_text w1 l1 a -> loads_text w2 l2 b ->
  step s (Line w l) = (acts, Running s1) -> run s [Line w1 l1; Line w2 l2] = (acts', Running s2) -> s1 = s2.
Proof.
  intros HU w w1 w2 s l l1 l2 a b A B acts acts' s1 s2 Re Bf N Cl Pa Pb L L1 L2 E E'.
  assert (Pab : exists C, program_text (a ++ b) C /\ a_infxs C = a_infxs A ++ a_infxs B).
  { destruct Pa as (_&(la&Pa)&Na), Pb as (_&(lb&Pb)&Nb).
    exists (mkAst (a_kinds A ++ a_kinds B) (a_infxs A ++ a_infxs B) (a_exprs A ++ a_exprs B)). split; [|reflexivity].
    split; auto. split; [|cbn; apply Forall_app; auto].
    apply (C77_concatenation HU a b A la N Cl Pa). exists B, lb. split; auto. now repeat split. }
  destruct Pab as (C&Pab&Ec). apply (load_step HU _ _ _ _ _ _ _ Re Bf L Pab) in E as ->.
  apply run_two in E' as (x&s3&y&E1&E2). pose proof (reached_on _ _ _ _ Re E1) as Re3.
  apply (load_step HU _ _ _ _ _ _ _ Re Bf L1 Pa) in E1 as ->.
  apply (load_step HU _ _ _ _ _ _ _ Re3 Bf L2 Pb) in E2 as ->. unfold set_res. cbn [s_res r_fix s_buf s_cont s_hist].
  rewrite Ec. unfold load_tbl. now rewrite fold_left_app.
Qed.
Print Assumptions C104_split.

(** Loading the same file again changes nothing. *)
Theorem C104_again : letters U -> forall w w' s l l' t A acts acts' s1 s2, reached s -> s_buf s = [] ->
  program_text t A -> loads_text w l t -> loads_text w' l' t ->
  step s (Line w l) = (acts, Running s1) -> run s [Line w l; Line w' l'] = (acts', Running s2) -> s1 = s2.
Proof.
  intros HU w w' s l l' t A acts acts' s1 s2 Re Bf P L L' E E'. apply run_two in E' as (x&s3&y&E1&E2).
  pose proof (reached_on _ _ _ _ Re E1) as Re3. rewrite E1 in E. injection E as _ <-.
  apply (load_step HU _ _ _ _ _ _ _ Re Bf L P) in E1 as ->.
  apply (load_step HU _ _ _ _ _ _ _ Re3 Bf L' P) in E2 as ->. unfold set_res. cbn [s_res r_fix s_buf s_cont s_hist].
  rewrite load_tbl_idem; auto. apply (reached_settled _ Re).
Qed.
Print Assumptions C104_again.

(** The line [l] asks for the files [ps]. *)
Definition loads_files (l : str) (ps : list str) : Prop :=
  exists c arg, reads l (Command c) /\ command c ":load" arg /\ arg <> lit "--prelude" /\ arg <> lit "--math" /\
    word_list arg ps /\ ps <> [].

Lemma step_files w s l ps : s_buf s = [] -> loads_files l ps -> step s (Line w l) = read_files w 0 s ps.
Proof.
  intros B (c&arg&R&C&N1&N2&W&N0). rewrite (step_command _ _ _ _ R B). destruct (reads_command _ _ R) as (T&St).
  rewrite (load_command w s c arg T St C). unfold cmd_load. apply split_whitespace_iff in W. destruct arg as [|x a].
  { cbn in W. congruence. }
  cbn [is_nil]. destruct (str_eqb (x :: a) (lit "--prelude")) eqn:E; [apply ProofLexer2.str_eqb_eq in E; congruence|].
  destruct (str_eqb (x :: a) (lit "--math")) eqn:E2; [apply ProofLexer2.str_eqb_eq in E2; congruence|]. now rewrite W.
Qed.

Lemma read_files_shift w w' j : (forall i q, w_read w' i q = w_read w (j + i) q) -> forall ps k s,
  read_files w' k s ps = read_files w (j + k) s ps.
Proof.
  intros H. induction ps as [|p ps IH]; intros k s; cbn [read_files]; auto. destruct (unquote p) as [q|e|]; cbn [answer]; auto.
  assert (E : read_file w' k s q = read_file w (j + k) s q) by (unfold read_file; now rewrite H). rewrite E.
  destruct (read_file w (j + k) s q) as (acts&[s'| | |]); auto. now rewrite IH, <- plus_n_Sm.
Qed.

Lemma read_files_app w : forall ps qs k s, read_files w k s (ps ++ qs) =
  let (acts, st) := read_files w k s ps in
  match st with Running s' => let (more, st') := read_files w (k + List.length ps) s' qs in (acts ++ more, st') | _ => (acts, st) end.
Proof.
  induction ps as [|p ps IH]; intros qs k s; cbn [read_files app].
  - rewrite Nat.add_0_r. now destruct (read_files w k s qs).
  - destruct (unquote p) as [q|e|]; cbn [answer]; auto. destruct (read_file w k s q) as (acts&[s'| | |]); cbn [app]; auto.
    rewrite IH. cbn [List.length]. rewrite <- plus_n_Sm. destruct (read_files w (S k) s' ps) as (a2&[s2| | |]); cbn [app]; auto.
    cbn [plus]. destruct (read_files w (S (k + List.length ps)) s2 qs) as (a3&st3). now rewrite app_assoc.
Qed.

Lemma read_files_buf w : forall ps k s acts s', read_files w k s ps = (acts, Running s') -> s_buf s' = s_buf s.
Proof.
  induction ps as [|p ps IH]; intros k s acts s' E; cbn [read_files] in E; [now injection E as _ <-|].
  destruct (unquote p) as [q|e|]; cbn [answer] in E; try discriminate E. destruct (read_file w k s q) as (a1&st) eqn:F.
  destruct st as [s1| | |]; try discriminate E.
  assert (B : s_buf s1 = s_buf s).
  { unfold read_file in F. destruct (w_read w k q) as [x|x]; [|now injection F as _ <-].
    destruct (feed_input (s_res s) (relevant q x)) as [(r&[a|e])|e|]; cbn [answer] in F; try discriminate F; [now injection F as _ <-|].
    destruct (show_error_with_path e q); cbn [answer] in F; try discriminate F. now injection F as _ <-. }
  destruct (read_files w (S k) s1 ps) as (a2&st2) eqn:F2. injection E as _ ->. rewrite <- B. exact (IH _ _ _ _ F2).
Qed.

(** Several files loaded by one command, and by two: the same is read, written
    and known, and a crash comes at the same place. *)
Theorem C104_several : forall w w1 w2 s l l1 l2 ps qs, s_buf s = [] ->
  loads_files l (ps ++ qs) -> loads_files l1 ps -> loads_files l2 qs ->
  (forall i q, w_read w1 i q = w_read w i q) -> (forall i q, w_read w2 i q = w_read w (List.length ps + i) q) ->
  step s (Line w l) = run s [Line w1 l1; Line w2 l2].
Proof.
  intros w w1 w2 s l l1 l2 ps qs B L L1 L2 H1 H2. rewrite (step_files w s l _ B L), read_files_app. cbn [run].
  rewrite (step_files w1 s l1 _ B L1), (read_files_shift w w1 0 H1 ps 0 s). cbn [plus].
  destruct (read_files w 0 s ps) as (acts&[s'| | |]) eqn:E; auto.
  assert (B' : s_buf s' = []) by (rewrite <- B; exact (read_files_buf _ _ _ _ _ _ E)).
  rewrite (step_files w2 s' l2 _ B' L2), (read_files_shift w w2 (List.length ps) H2 qs 0 s'). rewrite Nat.add_0_r.
  destruct (read_files w (List.length ps) s' qs) as (more&[s2| | |]); now rewrite ?app_nil_r.
Qed.
Print Assumptions C104_several.

End WithUcd.

(** ** Examples *)

(** A disk with one file of this text under every name. *)
Definition holds_file (t : str) : world := mkWorld (fun _ _ => inl t) (fun _ => None) (fun _ _ => inl []).

Definition first_piece : str := lit "infixl 6 +;" ++ [10%N].
Definition second_piece : str := lit "infixr 5 <>; a <> b + c".

Lemma ex_loads t : loads_text (holds_file t) (lit ":load x") t.
Proof.
  exists (lit ":load x"), (lit "x"), (lit "x"), (lit "x"), t.
  split; [apply (@reads_cmd (lit ":load x")); reflexivity|].
  split; [exists [32%N; 120%N]; repeat split; exists [32%N], []; repeat split; repeat constructor|].
  split; [discriminate|]. split; [discriminate|].
  split; [apply split_whitespace_iff; reflexivity|]. split; [apply unquote_iff; reflexivity|]. split; [reflexivity|].
  apply relevant_iff. reflexivity.
Qed.

Lemma ex_closed : @closed ucd_none first_piece.
Proof.
  split; [exists (lit "infixl 6 +;"); reflexivity|].
  eexists [_; _; _], _.
  apply (ct_cons [] [] (lit "infixl") TInfixL (lit " 6 +;" ++ [10%N])); [constructor|apply le_reserved; [cbn; tauto|reflexivity|reflexivity]|].
  apply (ct_cons _ (lit " ") (lit "6") (TLit (LInt 6)) (lit " +;" ++ [10%N])); [repeat constructor|apply (@le_int ucd_none (lit "6")); [discriminate|repeat constructor|reflexivity|reflexivity]|].
  apply (ct_cons _ (lit " ") (lit "+") (TAffix (lit "+") false) (lit ";" ++ [10%N])); [repeat constructor| |].
  { apply (@le_op ucd_none (lit "+") []); [discriminate|now repeat (apply Forall_cons || apply Forall_nil)|apply Forall_nil|reflexivity|reflexivity|cbn; intuition discriminate|discriminate|discriminate]. }
  apply (ct_cons _ [] (lit ";") TSemi [10%N] []); [constructor|apply le_punct; cbn; tauto|].
  constructor. repeat constructor.
Qed.

Definition parsed_of (t : str) : ast := match @parse ucd_none t with POk A _ => A | _ => ast_empty end.

Example C104_ex :
  @closed ucd_none first_piece /\ @program_text ucd_none first_piece (parsed_of first_piece) /\
  @program_text ucd_none second_piece (parsed_of second_piece) /\
  a_infxs (parsed_of first_piece) <> [] /\ a_infxs (parsed_of second_piece) <> [].
Proof.
  split; [exact ex_closed|].
  split; [split; [apply clean_ok; reflexivity|split; [eexists; vm_compute; reflexivity|vm_compute; repeat constructor]]|].
  split; [split; [apply clean_ok; reflexivity|split; [eexists; vm_compute; reflexivity|vm_compute; repeat constructor]]|].
  split; vm_compute; discriminate.
Qed.
(** Both ways lead to the same session, which is another one than before. *)
Example C104_ex_steps :
  snd (@step ucd_none (session_new []) (Line (holds_file (first_piece ++ second_piece)) (lit ":load x"))) =
  snd (@run ucd_none (session_new []) [Line (holds_file first_piece) (lit ":load x"); Line (holds_file second_piece) (lit ":load x")]) /\
  snd (@step ucd_none (session_new []) (Line (holds_file first_piece) (lit ":load x"))) <> Running (session_new []).
Proof. split; [vm_compute; reflexivity|vm_compute; discriminate]. Qed.
(** A file whose second half does not parse declares nothing, its first half alone does. *)
Example C104_ex_bad :
  snd (@step ucd_none (session_new []) (Line (holds_file (first_piece ++ lit "(a")) (lit ":load x"))) = Running (session_new []) /\
  snd (@run ucd_none (session_new []) [Line (holds_file first_piece) (lit ":load x"); Line (holds_file (lit "(a")) (lit ":load x")]) <> Running (session_new []).
Proof. split; [vm_compute; reflexivity|vm_compute; discriminate]. Qed.

(** Files and commands for several of them; a file called --prelude can only be
    loaded together with another one. *)
Example C104_ex_several : loads_files (lit ":load x y") [lit "x"; lit "y"] /\ loads_files (lit ":load --prelude y") [lit "--prelude"; lit "y"] /\
  @step ucd_none (session_new []) (Line (mkWorld (fun i _ => inl (if Nat.eqb i 0 then first_piece else second_piece)) (fun _ => None) (fun _ _ => inl [])) (lit ":load x y")) =
  @run ucd_none (session_new []) [Line (holds_file first_piece) (lit ":load x"); Line (holds_file second_piece) (lit ":load y")].
Proof.
  split; [|split; [|vm_compute; reflexivity]].
  - exists (lit ":load x y"), (lit "x y"). split; [apply (@reads_cmd (lit ":load x y")); reflexivity|].
    split; [exists (32%N :: lit "x y"); repeat split; exists [32%N], []; repeat split; repeat constructor|].
    split; [discriminate|]. split; [discriminate|]. split; [apply split_whitespace_iff; reflexivity|discriminate].
  - exists (lit ":load --prelude y"), (lit "--prelude y"). split; [apply (@reads_cmd (lit ":load --prelude y")); reflexivity|].
    split; [exists (32%N :: lit "--prelude y"); repeat split; exists [32%N], []; repeat split; repeat constructor|].
    split; [discriminate|]. split; [discriminate|]. split; [apply split_whitespace_iff; reflexivity|discriminate].
Qed.
