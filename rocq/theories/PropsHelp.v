(** C101: the help and the commands. *)
From Coq Require Import List Arith NArith Bool String Lia.
From Verif Require Import Prelim Chars Syntax Fixity Style Lexer Parser Printer SpecStyle SpecPrinter Grapheme Messages Repl
  SpecGrapheme SpecLexer SpecParser SpecFixity SpecRepl ProofTable ProofRewrite ProofResolve ProofResolve2 ProofFixity ProofGrapheme PropsLexer PropsPrinter
  ProofRepl ProofRepl2 ProofRepl3 ProofRepl4 ProofRepl5 ProofRepl6 ProofRepl7 ProofRepl8 ProofRepl9 PropsRepl SpecHelp.
Import ListNotations.
Local Open Scope string_scope.
Local Open Scope list_scope.

Lemma fills_nil ws : fills [] ws -> ws = [].
Proof. inversion 1. reflexivity. Qed.
Lemma fills_same p ps ws : blank_end p = None -> fills (p :: ps) ws -> exists ws', ws = p :: ws' /\ fills ps ws'.
Proof.
  intros E H. inversion H as [|? ? ws' E' F|? e ? w ? E' W F|? ? ? E' F|? ? w ? E' W F]; subst; [eauto| | |];
    rewrite E in E'; try destruct E' as [E'|E']; discriminate E'.
Qed.
Lemma fills_words ps ws : fills ps ws -> (exists p, ps = [p] /\ blank_end p <> None) \/ ps = [] -> Forall word ws.
Proof.
  induction 1 as [|? ? ws' E F IH|? e ? w ? E' W F IH|? ? ? E' F IH|? ? w ? E' W F IH]; intros [(p'&Ep&Np)|Ep]; try discriminate Ep; auto;
    injection Ep as -> ->; try congruence; try constructor; auto; apply IH; eauto.
Qed.
Lemma fills_opt p ws : fills [p] ws -> blank_end p = Some 63%N -> ws = [] \/ exists w, ws = [w] /\ word w.
Proof.
  intros H E. inversion H as [|? ? ws' E' F|? e ? w ? E' W F|? ? ? E' F|? ? w ? E' W F]; subst; try (rewrite E in E'; try destruct E' as [E'|E']; discriminate E').
  - apply fills_nil in F as ->. eauto.
  - apply fills_nil in F as ->. auto.
Qed.
Lemma fills_one p ws : fills [p] ws -> blank_end p = Some 62%N -> exists w, ws = [w] /\ word w.
Proof.
  intros H E. inversion H as [|? ? ws' E' F|? e ? w ? E' W F|? ? ? E' F|? ? w ? E' W F]; subst; try (rewrite E in E'; try destruct E' as [E'|E']; discriminate E').
  apply fills_nil in F as ->. eauto.
Qed.
Lemma fills_plus p ws : blank_end p = Some 43%N -> fills [p] ws -> ws <> [].
Proof.
  intros E H. inversion H as [|? ? ws' E' F|? e ? w ? E' W F|? ? ? E' F|? ? w ? E' W F]; subst; try discriminate; rewrite E in E'; try destruct E' as [E'|E']; discriminate E'.
Qed.
Lemma fills_first p ps ws : blank_end p = Some 62%N -> fills (p :: ps) ws -> exists w ws', ws = w :: ws' /\ word w /\ fills ps ws'.
Proof.
  intros E H. inversion H as [|? ? ws' E' F|? e ? w ? E' W F|? ? ? E' F|? ? w ? E' W F]; subst; try (rewrite E in E'; try destruct E' as [E'|E']; discriminate E').
  exists w. eauto.
Qed.

(** The command lines that the help offers. *)
Lemma offered_all n ws : offered help_msg n ws ->
  let one := exists w, ws = [w] /\ word w in
  let none := ws = [] in
  n = lit ":cd" /\ (none \/ one) \/
  n = lit ":clear" /\ In ws (map (fun o => [lit o]) ["--fixities"; "--history"; "--session"]) \/
  In n (map lit [":fixities"; ":help"; ":h"; ":?"; ":quit"; ":q"; ":reset"; ":r"]) /\ none \/
  n = lit ":history" /\ In ws [[lit "--clear"]; [lit "--clear"; lit "--file"]; [lit "--save"]] \/
  n = lit ":history" /\ (exists w, ws = [lit "--set"; w] /\ word w) \/
  n = lit ":history" /\ (exists w, ws = [lit "--save"; w] /\ word w) \/
  (n = lit ":info" \/ n = lit ":i") /\ (none \/ one) \/
  n = lit ":load" /\ ws <> [] /\ Forall word ws \/
  (n = lit ":quit" \/ n = lit ":q") /\ ws = [lit "--no-history"] \/
  n = lit ":save" \/
  n = lit ":shell" /\ ws <> [] /\ Forall word ws.
Proof.
  intros (u&I&<-&F) one none.
  vm_compute in I.
  repeat (destruct I as [<-|I]; [|]); try destruct I; cbn [fst]; unfold pattern in F; cbn [snd] in F;
    match type of F with fills ?ps _ => let q := eval vm_compute in ps in change ps with q in F end;
    repeat match type of F with
    | fills (?p :: ?ps) _ => let b := eval vm_compute in (blank_end p) in
        match b with None => apply (fills_same p ps) in F as (?ws'&->&F); [|reflexivity] end
    end.
  all: try (apply fills_nil in F as ->).
  - left. split; [reflexivity|]. destruct (fills_opt _ _ F eq_refl) as [E|E]; [left|right]; exact E.
  - right; left. split; [reflexivity|]. cbn; auto.
  - right; left. split; [reflexivity|]. cbn; auto.
  - right; left. split; [reflexivity|]. cbn; auto.
  - do 2 right; left. split; [cbn; tauto|reflexivity].
  - do 2 right; left. split; [cbn; tauto|reflexivity].
  - do 2 right; left. split; [cbn; tauto|reflexivity].
  - do 2 right; left. split; [cbn; tauto|reflexivity].
  - do 3 right; left. split; [reflexivity|]. cbn; auto.
  - do 3 right; left. split; [reflexivity|]. cbn; auto.
  - do 4 right; left. split; [reflexivity|]. destruct (fills_one _ _ F eq_refl) as (w&->&W). exists w. auto.
  - destruct (fills_opt _ _ F eq_refl) as [->|(w&->&W)].
    + do 3 right; left. split; [reflexivity|]. cbn; auto.
    + do 5 right; left. split; [reflexivity|]. exists w. auto.
  - do 6 right; left. split; [cbn; auto|]. destruct (fills_opt _ _ F eq_refl) as [E|E]; [left|right]; exact E.
  - do 6 right; left. split; [cbn; auto|]. destruct (fills_opt _ _ F eq_refl) as [E|E]; [left|right]; exact E.
  - do 7 right; left. split; [reflexivity|]. split; [discriminate|]. repeat constructor; try discriminate.
  - do 7 right; left. split; [reflexivity|]. split; [discriminate|]. repeat constructor; try discriminate.
  - do 7 right; left. split; [reflexivity|]. split; [eapply fills_plus; eauto; reflexivity|]. eapply fills_words; eauto. left. eexists. split; [reflexivity|discriminate].
  - do 2 right; left. split; [cbn; tauto|reflexivity].
  - do 2 right; left. split; [cbn; tauto|reflexivity].
  - do 8 right; left. split; [cbn; auto|reflexivity].
  - do 8 right; left. split; [cbn; auto|reflexivity].
  - do 2 right; left. split; [cbn; tauto|reflexivity].
  - do 2 right; left. split; [cbn; tauto|reflexivity].
  - do 9 right; left. reflexivity.
  - do 9 right; left. reflexivity.
  - do 10 right. split; [reflexivity|]. apply fills_first in F as (w&ws'&->&W&F); [|reflexivity]. split; [discriminate|]. constructor; auto.
    eapply fills_words; eauto. left. eexists. split; [reflexivity|discriminate].
Qed.

(** Words with single spaces between them. *)
Lemma spaced_cons w ws : spaced (w :: ws) = w ++ match ws with [] => [] | _ => 32%N :: spaced ws end.
Proof. destruct ws; cbn [spaced]; auto. now rewrite app_nil_r. Qed.

Lemma spaced_ends ws : Forall word ws ->
  match spaced ws with [] => ws = [] | c :: _ => is_white c = false end /\
  match rev (spaced ws) with [] => True | c :: _ => is_white c = false end.
Proof.
  induction 1 as [|w ws (N&W) H IH]; [cbn; auto|]. rewrite spaced_cons. split.
  - destruct w as [|c w]; [congruence|]. cbn. inversion W. auto.
  - destruct ws as [|w' ws].
    + rewrite app_nil_r. apply Forall_rev in W. destruct (rev w); auto. inversion W. auto.
    + destruct IH as (IH1&IH2). rewrite rev_app_distr. cbn [rev]. destruct (rev (spaced (w' :: ws))) as [|c r] eqn:E; [|exact IH2].
      apply (f_equal (@rev _)) in E. rewrite rev_involutive in E. rewrite E in IH1. discriminate IH1.
Qed.

Lemma spaced_trimmed ws : Forall word ws -> trimmed (spaced ws) (spaced ws).
Proof.
  intros H. destruct (spaced_ends ws H) as (A&B). exists [], []. rewrite app_nil_r. repeat split; try constructor; auto.
  destruct (spaced ws); auto.
Qed.

Lemma spaced_words ws : Forall word ws -> word_list (spaced ws) ws.
Proof.
  induction 1 as [|w ws W H IH]; [constructor; constructor|]. rewrite spaced_cons.
  apply wl_cons with (a := []) (b := match ws with [] => [] | _ => 32%N :: spaced ws end).
  - repeat split; auto; try constructor; apply W || (destruct ws; [exact I|reflexivity]).
  - destruct ws as [|w' ws]; auto. inversion IH as [|s a p b ws0 (E&Wa&Wp&Sb) R]; subst.
    rewrite E. apply wl_cons with (a := 32%N :: a) (b := b); auto. repeat split; auto; try apply Wp. constructor; auto.
Qed.

Lemma spaced_command n ws : Forall word ws -> command (spaced (lit n :: ws)) n (spaced ws).
Proof.
  intros H. rewrite spaced_cons. exists (match ws with [] => [] | _ => 32%N :: spaced ws end). split; auto.
  split; [destruct ws; [exact I|reflexivity]|]. destruct ws as [|w ws]; [exists [], []; repeat split; constructor|].
  destruct (spaced_trimmed _ H) as (a&b&E&A&B&C&D). exists (32%N :: a), b. split; [cbn [app]; now rewrite <- E|]. split; auto. constructor; auto.
Qed.

Section WithUcd.
Context {U : ucd}.

(** Something is done or written, and the first thing is not a message of an error. *)
Definition served (acts : list action) : Prop :=
  match acts with [] | AErr _ :: _ => False | _ => True end.

Lemma offered_words n ws : offered help_msg n ws -> n <> lit ":save" -> Forall word ws.
Proof.
  intros H N. apply offered_all in H. cbv zeta in H.
  assert (L : forall o, is_word o = true -> word (lit o)) by (intros o; apply is_word_spec).
  repeat destruct H as [H|H]; try congruence; destruct H as (_&H).
  - destruct H as [->|(w&->&W)]; auto.
  - cbn [map In] in H. repeat destruct H as [<-|H]; try destruct H; constructor; auto; apply L; reflexivity.
  - subst. constructor.
  - cbn [map In] in H. repeat destruct H as [<-|H]; try destruct H; repeat constructor; auto; try discriminate.
  - destruct H as (w&->&W). constructor; auto; apply L; reflexivity.
  - destruct H as (w&->&W). constructor; auto; apply L; reflexivity.
  - destruct H as [->|(w&->&W)]; auto.
  - apply H.
  - subst. constructor; auto; apply L; reflexivity.
  - apply H.
Qed.

(** Every command line that the help offers is served, whatever the session and
    the outside.  Missing: saving fixities, and changing directory without
    naming one, which are refuted below. *)
Theorem C101_served_partial : forall w s l n ws acts st, s_buf s = [] -> offered help_msg n ws ->
  n <> lit ":save" -> (n = lit ":cd" -> ws <> []) ->
  reads l (Command (spaced (n :: ws))) -> step s (Line w l) = (acts, st) -> served acts.
Proof.
  intros w s l n ws acts st B O N1 N2 R E. rewrite (step_command _ _ _ _ R B) in E. destruct (reads_command _ _ R) as (T&S1).
  pose proof (offered_words _ _ O N1) as Ws. apply offered_all in O. cbv zeta in O.
  assert (Go : forall m, n = lit m -> is_word m = true -> exists b, trim b = spaced ws /\
    acts = fst (dispatch w s (spaced (n :: ws)) (lit m) (spaced ws) b)).
  { intros m -> Wm. destruct (run_named w s _ m _ T S1 Wm (spaced_command m ws Ws)) as (b&_&Tb&_&_&D). exists b. split; auto. rewrite <- D, E. reflexivity. }
  clear E.
  repeat destruct O as [O|O]; try congruence.
  - destruct O as (->&O). destruct (Go ":cd" eq_refl eq_refl) as (b&_&D). destruct O as [->|(x&->&W)]; [now elim N2|].
    destruct (spaced [x]) as [|c r] eqn:Es; [cbn [spaced] in Es; subst; now destruct W|].
    rewrite D. exact I.
  - destruct O as (->&O). destruct (Go ":clear" eq_refl eq_refl) as (b&_&D). rewrite D.
    destruct O as [<-|[<-|[<-|[]]]]; exact I.
  - destruct O as (O&->). assert (Ex : exists m, n = lit m /\ In m [":fixities"; ":help"; ":h"; ":?"; ":quit"; ":q"; ":reset"; ":r"]).
    { apply in_map_iff in O as (m&<-&O). eauto. }
    destruct Ex as (m&->&Im).
    destruct Im as [<-|[<-|[<-|[<-|[<-|[<-|[<-|[<-|[]]]]]]]]];
      match goal with H : reads _ (Command (spaced (lit ?m :: []))) |- _ => destruct (Go m eq_refl eq_refl) as (b&_&D) end; rewrite D; exact I.
  - destruct O as (->&O). destruct (Go ":history" eq_refl eq_refl) as (b&_&D). rewrite D.
    destruct O as [<-|[<-|[<-|[]]]]; exact I.
  - destruct O as (->&x&->&W). destruct (Go ":history" eq_refl eq_refl) as (b&_&D). rewrite D. clear D.
    change (spaced [lit "--set"; x]) with (lit "--set" ++ 32%N :: x).
    assert (Tx : trim (32%N :: x) = x).
    { apply trim_unique. destruct (spaced_trimmed [x]) as (a&d&E&A&B1&C); [constructor; auto|]. cbn [spaced] in E, C. exists (32%N :: a), d. split; [cbn [app]; now rewrite <- E|].
      split; [constructor; auto|auto]. }
    change (served (fst (cmd_history s (lit "--set" ++ 32%N :: x)))). unfold cmd_history.
    change (str_eqb (lit "--set" ++ 32%N :: x) (lit "--clear")) with false. change (str_eqb (lit "--set" ++ 32%N :: x) (lit "--clear --file")) with false.
    change (starts_with (lit "--set") (lit "--set" ++ 32%N :: x)) with true. cbv iota.
    rewrite after_app by reflexivity. rewrite answer_nil, Tx. destruct W as (W&_). destruct x; [congruence|exact I].
  - destruct O as (->&x&->&W). destruct (Go ":history" eq_refl eq_refl) as (b&_&D). rewrite D. clear D.
    change (spaced [lit "--save"; x]) with (lit "--save" ++ 32%N :: x).
    change (served (fst (cmd_history s (lit "--save" ++ 32%N :: x)))). unfold cmd_history.
    change (str_eqb (lit "--save" ++ 32%N :: x) (lit "--clear")) with false. change (str_eqb (lit "--save" ++ 32%N :: x) (lit "--clear --file")) with false.
    change (starts_with (lit "--set") (lit "--save" ++ 32%N :: x)) with false. cbv iota.
    rewrite named_split; [|apply is_word_spec; reflexivity|reflexivity]. change (str_eqb (lit "--save") (lit "--save")) with true. cbv iota.
    destruct (Nat.eqb _ 6); [exact I|]. rewrite after_app by reflexivity. rewrite answer_nil. exact I.
  - destruct O as (O&Ow). assert (Ex : exists m, n = lit m /\ In m [":info"; ":i"]) by (destruct O as [->| ->]; eexists; split; try reflexivity; cbn; auto).
    destruct Ex as (m&->&[<-|[<-|[]]]);
      match goal with H : reads _ (Command (spaced (lit ?m :: _))) |- _ => destruct (Go m eq_refl eq_refl) as (b&_&D) end; rewrite D;
      (destruct Ow as [->|(x&->&W)]; [exact I|]; cbn [spaced]; destruct W as (W&_); destruct x; [congruence|exact I]).
  - destruct O as (->&Nw&_). destruct (Go ":load" eq_refl eq_refl) as (b&_&D). rewrite D. clear D.
    change (served (fst (cmd_load w s (spaced ws)))). unfold cmd_load.
    destruct (is_nil (spaced ws)) eqn:Z.
    { apply is_nil_spec in Z. destruct (spaced_ends ws Ws) as (K&_). rewrite Z in K. congruence. }
    destruct (str_eqb (spaced ws) (lit "--prelude")); [exact I|]. destruct (str_eqb (spaced ws) (lit "--math")); [exact I|].
    rewrite (proj2 (split_whitespace_iff _ _) (spaced_words ws Ws)). destruct ws as [|p ps]; [congruence|]. cbn [read_files].
    destruct (unquote_total p) as (q&->). rewrite answer_nil.
    assert (K : exists r, fst (read_file w 0 s q) = ARead q :: r).
    { unfold read_file. destruct (w_read w 0 q); [|cbn; eauto]. destruct (feed_input (s_res s) _) as [(r&[a|e])|pp|]; cbn; eauto.
      destruct (show_error_with_path e q); cbn; eauto. }
    destruct K as (r&K). destruct (read_file w 0 s q) as (a1&st1). cbn [fst] in K. subst a1.
    destruct st1; [|exact I..]. destruct (read_files w 1 s0 ps). exact I.
  - destruct O as (O&->). assert (Ex : exists m, n = lit m /\ In m [":quit"; ":q"]) by (destruct O as [->| ->]; eexists; split; try reflexivity; cbn; auto).
    destruct Ex as (m&->&[<-|[<-|[]]]);
      match goal with H : reads _ (Command (spaced (lit ?m :: _))) |- _ => destruct (Go m eq_refl eq_refl) as (b&_&D) end; rewrite D; exact I.
  - destruct O as (->&Nw&_). destruct (Go ":shell" eq_refl eq_refl) as (b&Tb&D). rewrite D. clear D.
    change (served (fst (cmd_shell w s b))). unfold cmd_shell.
    assert (Wb : word_list b ws).
    { apply split_whitespace_iff. rewrite <- (split_trim b), Tb. apply split_whitespace_iff. now apply spaced_words. }
    rewrite (proj2 (split_whitespace_iff _ _) Wb). destruct ws; [congruence|exact I].
Qed.

(** A command line whose first word the help does not offer is called unknown,
    and so is every one that is meant to save fixities. *)
Theorem C101_unknown : forall w s l p b acts st, s_buf s = [] -> word p -> starts_white b ->
  ~ In p (map fst (announced help_msg)) \/ p = lit ":save" ->
  reads l (Command (p ++ b)) -> step s (Line w l) = (acts, st) ->
  acts = [AErr (lit "unknown command: `" ++ p ++ b ++ lit "`" ++ [10%N])] /\ exists s', st = Running s' /\ s_res s' = s_res s.
Proof.
  intros w s l p b acts st B W Sb N R E. rewrite (step_command _ _ _ _ R B) in E. destruct (reads_command _ _ R) as (T&S1).
  destruct (command_shape _ T S1) as (p'&b'&Ec&W'&Sb'&Z&_&_). rewrite (run_command w s _ p' b') in E by auto.
  apply word_app_unique in Ec as (<-&<-); auto.
  assert (Nn : forall m, existsb (str_eqb (lit m)) (map fst (announced help_msg)) && negb (str_eqb (lit m) (lit ":save")) = true ->
    str_eqb (lit m) p = false).
  { intros m H. apply andb_true_iff in H as (O&M). destruct (str_eqb_spec (lit m) p) as [Em|]; auto. rewrite Em in O, M. destruct N as [N|N].
    - elim N. apply existsb_exists in O as (x&I&Ex). apply ProofLexer2.str_eqb_eq in Ex. now subst x.
    - rewrite N in M. discriminate M. }
  unfold dispatch in E.
  rewrite (Nn ":cd"), (Nn ":help"), (Nn ":h"), (Nn ":?"), (Nn ":q"), (Nn ":quit"), (Nn ":clear"), (Nn ":history"), (Nn ":reset"), (Nn ":r"),
    (Nn ":info"), (Nn ":i"), (Nn ":fixities"), (Nn ":load"), (Nn ":shell") in E by (vm_compute; reflexivity).
  cbn in E. injection E as <- <-. split; [unfold unknown_command, errln; now rewrite <- !app_assoc|]. eexists. split; reflexivity.
Qed.

(** The greeting: what it announces is what the help announces under these
    names, so it is served as well. *)
Lemma rows_cons c z : c <> 10%N -> rows (c :: z) = match rows z with l :: ls => (c :: l) :: ls | [] => [[c]] end.
Proof.
  intros N1. cbn [rows]. destruct c as [|q]; [reflexivity|].
  do 4 (destruct q as [q|q|]; try reflexivity); congruence.
Qed.

Lemma rows_some y : rows y <> [].
Proof.
  destruct y as [|c y]; [discriminate|]. destruct (N.eq_dec c 10) as [->|N1]; [discriminate|].
  rewrite rows_cons by auto. destruct (rows y); discriminate.
Qed.

Lemma rows_app_plain x y : Forall (fun c => c <> 10%N) x ->
  rows (x ++ y) = match rows y with l :: ls => (x ++ l) :: ls | [] => [x] end.
Proof.
  pose proof (rows_some y) as P. induction 1 as [|c x N1 H IH]; cbn [app].
  - destruct (rows y); congruence.
  - rewrite rows_cons, IH by auto. destruct (rows y); congruence.
Qed.

Theorem C101_greeting : forall h m n ws, Forall (fun c => c <> 10%N) h ->
  In (AOut m) (init_msg (session_new h)) -> offered m n ws ->
  In n (map lit [":quit"; ":q"; ":fixities"; ":help"; ":h"]) /\ ws = [] /\ offered help_msg n ws.
Proof.
  intros h m n ws Nh I (u&Iu&En&F). unfold init_msg in I. cbn [In] in I.
  destruct I as [E|[E|[E|[]]]]; injection E as <-.
  - vm_compute in Iu. destruct Iu.
  - exfalso. assert (X : announced ((lit "history stored at " ++ [34%N] ++ h ++ [34%N]) ++ [10%N]) = []).
    { unfold announced. rewrite rows_app_plain; [reflexivity|].
      apply Forall_app. split; [vm_compute; repeat constructor; discriminate|]. apply Forall_app. split; [repeat constructor; discriminate|].
      apply Forall_app. split; auto. repeat constructor. discriminate. }
    change (In u (announced ((lit "history stored at " ++ [34%N] ++ h ++ [34%N]) ++ [10%N]))) in Iu. now rewrite X in Iu.
  - assert (X : announced ((lit "    :quit, :q               exit REPL
    :fixities               display the fixities of infixes defined in session
    :help, :h               display list of REPL commands") ++ [10%N]) =
      map (fun o => (lit o, [])) [":quit"; ":q"; ":fixities"; ":help"; ":h"]) by (vm_compute; reflexivity).
    change (In u (announced ((lit "    :quit, :q               exit REPL
    :fixities               display the fixities of infixes defined in session
    :help, :h               display list of REPL commands") ++ [10%N]))) in Iu. rewrite X in Iu.
    assert (Y : forallb (fun o => existsb (fun v => str_eqb (fst v) (lit o) && match snd v with [] => true | _ => false end) (announced help_msg))
      [":quit"; ":q"; ":fixities"; ":help"; ":h"] = true) by (vm_compute; reflexivity).
    apply in_map_iff in Iu as (o&<-&Io). cbn [fst] in En. subst n. unfold pattern in F. cbn [snd] in F. apply fills_nil in F as ->.
    split; [now apply in_map|]. split; auto. rewrite forallb_forall in Y. specialize (Y o Io). apply existsb_exists in Y as ((a&b)&Ia&Y).
    cbn [fst snd] in Y. apply andb_true_iff in Y as (Y1&Y2). destruct b; [|discriminate Y2].
    destruct (str_eqb_spec a (lit o)) as [->|]; [|discriminate Y1]. exists (lit o, []). split; auto. split; auto. constructor.
Qed.
Print Assumptions C101_greeting.

End WithUcd.

(** * Examples *)

(** The help offers to save fixities; it is not done, in any session. *)
Theorem C101_save_refuted : forall {U : ucd} w s l p, s_buf s = [] -> word p -> reads l (Command (lit ":save " ++ p)) ->
  offered help_msg (lit ":save") [p] /\ ~ served (fst (step s (Line w l))).
Proof.
  intros U w s l p B W R. split.
  - exists (lit ":save", lit "<path>"). split; [apply (nth_error_In _ 23); vm_compute; reflexivity|]. split; auto.
    unfold pattern. cbn [snd]. apply (fi_one _ 62%N); [reflexivity|exact W|constructor].
  - destruct (step s (Line w l)) as (acts&st) eqn:E.
    destruct (C101_unknown w s l (lit ":save") (32%N :: p) acts st) as (->&_); auto; try reflexivity.
    apply is_word_spec. reflexivity.
Qed.

(** It also offers to change the directory without naming one. *)
Theorem C101_cd_refuted : offered help_msg (lit ":cd") [] /\ ~ served (fst (@step ucd_none fresh (Line nowhere (lit ":cd")))).
Proof.
  split; [|intros []].
  exists (lit ":cd", lit "<path>?"). split; [apply (nth_error_In _ 0); vm_compute; reflexivity|]. split; auto.
  unfold pattern. cbn [snd]. apply fi_none; [left; reflexivity|constructor].
Qed.

(** The explanation of [:clear --session] mentions options that are not understood. *)
Theorem C101_clear_refuted : screen (run0 (typed [":clear --fixities history"])) =
  [(false, lit "unknown option(s) passed to command `:clear`: --fixities history" ++ [10%N])].
Proof. vm_compute. reflexivity. Qed.

Example C101_ex : offered help_msg (lit ":load") [lit "a.txt"; lit "b.hs"] /\
  reads (lit " :load a.txt b.hs") (Command (spaced (lit ":load" :: [lit "a.txt"; lit "b.hs"]))) /\
  fst (@step ucd_none fresh (Line nowhere (lit " :load a.txt b.hs"))) <> [] /\
  offered help_msg (lit ":shell") [lit "ls"; lit "-l"] /\ offered help_msg (lit ":history") [lit "--save"] /\
  ~ In (lit ":frob") (map fst (announced help_msg)) /\ List.length (announced help_msg) = 26.
Proof.
  assert (L : forall o, is_word o = true -> a_word (lit o)) by (intros o; apply is_word_spec).
  split; [|split; [exact (reads_cmd (lit " :load a.txt b.hs") eq_refl)|split; [discriminate|split; [|split; [|split]]]]].
  - exists (lit ":load", lit "<path>+"). split; [apply (nth_error_In _ 16); vm_compute; reflexivity|]. split; auto.
    replace (pattern _) with [lit "<path>+"] by (vm_compute; reflexivity). apply fi_more; [right; reflexivity|apply L; reflexivity|]. apply (fi_one _ 43%N); [reflexivity|apply L; reflexivity|constructor].
  - exists (lit ":shell", lit "<program> <args>*"). split; [apply (nth_error_In _ 25); vm_compute; reflexivity|]. split; auto.
    replace (pattern _) with [lit "<program>"; lit "<args>*"] by (vm_compute; reflexivity). apply (fi_one _ 62%N); [reflexivity|apply L; reflexivity|]. apply (fi_one _ 42%N); [reflexivity|apply L; reflexivity|constructor].
  - exists (lit ":history", lit "--save [<path>]"). split; [apply (nth_error_In _ 11); vm_compute; reflexivity|]. split; auto.
    replace (pattern _) with [lit "--save"; lit "[<path>]"] by (vm_compute; reflexivity). apply fi_same; [reflexivity|]. apply fi_none; [left; reflexivity|constructor].
  - vm_compute. intros I. repeat (destruct I as [I|I]; [discriminate I|]). exact I.
  - vm_compute. reflexivity.
Qed.

Print Assumptions C101_served_partial.
Print Assumptions C101_unknown.
Print Assumptions C101_save_refuted.
Print Assumptions C101_cd_refuted.
Print Assumptions C101_clear_refuted.

Example C101_ex_greeting : offered (lit "    :quit, :q               exit REPL
    :fixities               display the fixities of infixes defined in session
    :help, :h               display list of REPL commands" ++ [10%N]) (lit ":q") [].
Proof. exists (lit ":q", []). split; [vm_compute; auto|]. split; [reflexivity|constructor]. Qed.
