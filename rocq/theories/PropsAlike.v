(** C102: sessions that know the same answer the same, for ever. *)
From Coq Require Import List NArith Bool String Lia Permutation.
From Verif Require Import Prelim Chars Syntax Fixity SpecFixity ProofTable ProofResolve ProofResolve2 Printer ProofPrinter ProofPrinter6 SpecGrapheme Grapheme ProofGrapheme
  Parser Messages Repl SpecRepl ProofRepl ProofRepl2 ProofRepl3 ProofRepl4 SpecOutput ProofOutput2 PropsRepl PropsSaved SpecAlike.
Import ListNotations.
Local Open Scope list_scope.

(** ** Tables *)

Definition shuffled (t t' : fixities) : Prop := NoDup (keys t) /\ Permutation t t'.

Lemma in_keys (t : fixities) o f : In (o, f) t -> In (symbol o) (keys t).
Proof. intros I. apply (in_map (fun x => symbol (fst x))) in I. exact I. Qed.

Lemma get_defined_in t o f : NoDup (keys t) ->
  (get_defined t o = Some f <-> exists k, In (k, f) t /\ symbol k = symbol o).
Proof.
  induction t as [|(k&v) t IH]; intros D; cbn [get_defined].
  { split; [discriminate|intros (k&[]&_)]. }
  inversion D as [|? ? N1 D1]; subst. destruct (infix_eqb_spec k o) as [Q|Q].
  - split.
    + intros E; injection E as ->. exists k. split; [now left|auto].
    + intros (k'&[I|I]&S'); [now injection I as _ ->|]. exfalso. apply N1. cbn [fst]. rewrite Q, <- S'. eapply in_keys; eauto.
  - rewrite (IH D1). split; intros (k'&I&S'); exists k'; split; auto; [now right|].
    destruct I as [I|I]; auto. injection I as -> ->. now destruct Q.
Qed.

Lemma shuffled_keys t t' : Permutation t t' -> Permutation (keys t) (keys t').
Proof. apply Permutation_map. Qed.

Lemma shuffled_nodup t t' : shuffled t t' -> NoDup (keys t').
Proof. intros (D&P). eapply Permutation_NoDup; [apply shuffled_keys; exact P|exact D]. Qed.

Lemma shuffled_defined t t' o : shuffled t t' -> get_defined t o = get_defined t' o.
Proof.
  intros Sh. pose proof (shuffled_nodup _ _ Sh) as D'. destruct Sh as (D&P).
  destruct (get_defined t o) as [f|] eqn:E; symmetry.
  - apply (get_defined_in _ _ _ D'). apply (get_defined_in _ _ _ D) in E as (k&I&S'). exists k. split; auto. eapply Permutation_in; eauto.
  - destruct (get_defined t' o) as [f|] eqn:E'; auto. apply (get_defined_in _ _ _ D') in E' as (k&I&S').
    assert (X : get_defined t o = Some f) by (apply (get_defined_in _ _ _ D); exists k; split; auto; eapply Permutation_in; [apply Permutation_sym|]; eauto).
    congruence.
Qed.

Lemma shuffled_get t t' o : shuffled t t' -> get t o = get t' o.
Proof. intros Sh. unfold get. now rewrite (shuffled_defined _ _ o Sh). Qed.

Lemma shuffled_has t t' o : shuffled t t' -> has t o = has t' o.
Proof. intros Sh. unfold has. now rewrite (shuffled_defined _ _ o Sh). Qed.

Lemma get_entry_in t o k f : NoDup (keys t) ->
  (get_entry t o = Some (k, f) <-> In (k, f) t /\ symbol k = symbol o).
Proof.
  induction t as [|(k0&v) t IH]; intros D; cbn [get_entry].
  { split; [discriminate|intros ([]&_)]. }
  inversion D as [|? ? N1 D1]; subst. destruct (infix_eqb_spec k0 o) as [Q|Q].
  - split.
    + intros E; injection E as -> ->. split; [now left|auto].
    + intros ([I|I]&S'); [now injection I as -> ->|]. exfalso. apply N1. cbn [fst]. rewrite Q, <- S'. eapply in_keys; eauto.
  - rewrite (IH D1). split; intros (I&S'); split; auto; [now right|].
    destruct I as [I|I]; auto. injection I as -> ->. now destruct Q.
Qed.

Lemma shuffled_entry t t' o : shuffled t t' -> get_entry t o = get_entry t' o.
Proof.
  intros Sh. pose proof (shuffled_nodup _ _ Sh) as D'. destruct Sh as (D&P).
  destruct (get_entry t o) as [(k&f)|] eqn:E; symmetry.
  - apply (get_entry_in _ _ _ _ D'). apply (get_entry_in _ _ _ _ D) in E as (I&S'). split; auto. eapply Permutation_in; eauto.
  - destruct (get_entry t' o) as [(k&f)|] eqn:E'; auto. apply (get_entry_in _ _ _ _ D') in E' as (I&S').
    assert (X : get_entry t o = Some (k, f)) by (apply (get_entry_in _ _ _ _ D); split; auto; eapply Permutation_in; [apply Permutation_sym|]; eauto).
    congruence.
Qed.

Lemma insert_absent t o f : ~ In (symbol o) (keys t) -> insert_tbl t o f = t ++ [(o, f)].
Proof.
  induction t as [|(k&v) t IH]; intros N1; cbn [insert_tbl app]; auto.
  destruct (infix_eqb_spec k o) as [Q|Q]; [destruct N1; cbn; auto|]. rewrite IH; auto. intros I. apply N1. now right.
Qed.

Lemma remove_absent t o : ~ In (symbol o) (keys t) -> remove_tbl t o = t.
Proof.
  induction t as [|(k&v) t IH]; intros N1; cbn [remove_tbl]; auto.
  destruct (infix_eqb_spec k o) as [Q|Q]; [destruct N1; cbn; auto|]. rewrite IH; auto. intros I. apply N1. now right.
Qed.

Lemma insert_present t o k v f : NoDup (keys t) -> In (k, v) t -> symbol k = symbol o ->
  Permutation (insert_tbl t o f) ((k, f) :: remove_tbl t o).
Proof.
  induction t as [|(k0&v0) t IH]; intros D I S'; [destruct I|]. cbn [insert_tbl remove_tbl].
  inversion D as [|? ? N1 D1]; subst. destruct (infix_eqb_spec k0 o) as [Q|Q].
  - destruct I as [I|I]; [injection I as -> ->; auto|]. exfalso. apply N1. cbn [fst]. rewrite Q, <- S'. eapply in_keys; eauto.
  - destruct I as [I|I]; [injection I as -> ->; now destruct Q|].
    eapply Permutation_trans; [apply perm_skip, IH; auto|apply perm_swap].
Qed.

Lemma remove_present t o k v : NoDup (keys t) -> In (k, v) t -> symbol k = symbol o ->
  Permutation t ((k, v) :: remove_tbl t o).
Proof.
  induction t as [|(k0&v0) t IH]; intros D I S'; [destruct I|]. cbn [remove_tbl].
  inversion D as [|? ? N1 D1]; subst. destruct (infix_eqb_spec k0 o) as [Q|Q].
  - destruct I as [I|I]; [injection I as -> ->; auto|]. exfalso. apply N1. cbn [fst]. rewrite Q, <- S'. eapply in_keys; eauto.
  - destruct I as [I|I]; [injection I as -> ->; now destruct Q|].
    eapply Permutation_trans; [apply perm_skip, IH; auto|apply perm_swap].
Qed.

Lemma key_entry (t : fixities) x : In x (keys t) -> exists k v, In (k, v) t /\ symbol k = x.
Proof. unfold keys. intros I. apply in_map_iff in I as ((k&v)&E&I). eauto. Qed.

Lemma str_in_dec (x : str) l : {In x l} + {~ In x l}.
Proof. apply in_dec. intros a b. destruct (str_eqb_spec a b); auto. Qed.

Lemma shuffled_remove_perm t t' o : shuffled t t' -> Permutation (remove_tbl t o) (remove_tbl t' o).
Proof.
  intros Sh. pose proof (shuffled_nodup _ _ Sh) as D'. destruct Sh as (D&P).
  pose proof (shuffled_keys _ _ P) as K. destruct (str_in_dec (symbol o) (keys t)) as [I|N1].
  - apply key_entry in I as (k&v&I&S'). apply Permutation_cons_inv with (a := (k, v)).
    eapply Permutation_trans; [apply Permutation_sym; eapply remove_present; eauto|].
    eapply Permutation_trans; [exact P|]. eapply remove_present; eauto. eapply Permutation_in; eauto.
  - rewrite !remove_absent; auto. intros I. apply N1. eapply Permutation_in; [apply Permutation_sym|]; eauto.
Qed.

Lemma shuffled_remove t t' o : shuffled t t' -> shuffled (remove_tbl t o) (remove_tbl t' o).
Proof. intros Sh. split; [apply nodup_remove, Sh|now apply shuffled_remove_perm]. Qed.

Lemma shuffled_insert t t' o f : shuffled t t' -> shuffled (insert_tbl t o f) (insert_tbl t' o f).
Proof.
  intros Sh. split; [apply nodup_insert, Sh|]. pose proof (shuffled_nodup _ _ Sh) as D'.
  pose proof (shuffled_remove_perm _ _ o Sh) as Pr. destruct Sh as (D&P). pose proof (shuffled_keys _ _ P) as K.
  destruct (str_in_dec (symbol o) (keys t)) as [I|N1].
  - apply key_entry in I as (k&v&I&S'). eapply Permutation_trans; [eapply insert_present; eauto|].
    eapply Permutation_trans; [apply perm_skip, Pr|]. apply Permutation_sym. eapply insert_present; eauto. eapply Permutation_in; eauto.
  - rewrite !insert_absent; auto; [now apply Permutation_app_tail|]. intros I. apply N1. eapply Permutation_in; [apply Permutation_sym|]; eauto.
Qed.

Lemma shuffled_many f ops : forall t t', shuffled t t' -> shuffled (insert_many t f ops) (insert_many t' f ops).
Proof. unfold insert_many. induction ops as [|o ops IH]; intros t t' Sh; cbn [fold_left]; auto. apply IH. now apply shuffled_insert. Qed.

Lemma shuffled_local f ops : forall t t', shuffled t t' ->
  shuffled (fst (push_local t f ops)) (fst (push_local t' f ops)) /\ snd (push_local t f ops) = snd (push_local t' f ops).
Proof.
  induction ops as [|o ops IH]; intros t t' Sh; cbn [push_local fst snd insert]; auto.
  pose proof (shuffled_insert _ _ o f Sh) as Sh1. specialize (IH _ _ Sh1).
  destruct (push_local (insert_tbl t o f) f ops), (push_local (insert_tbl t' o f) f ops). cbn [fst snd] in *.
  destruct IH as (A&->). now rewrite (shuffled_defined _ _ o Sh).
Qed.

Lemma shuffled_restore olds : forall t t', shuffled t t' -> shuffled (restore t olds) (restore t' olds).
Proof.
  induction olds as [|(o&[f|]) olds IH]; intros t t' Sh; cbn [restore]; auto; apply IH; [now apply shuffled_insert|now apply shuffled_remove].
Qed.

(** ** Resolution *)

Section Same.
Variables t t' : fixities.
Hypothesis Sh : shuffled t t'.

Lemma push_op_same ops : forall es o, push_op t es ops o = push_op t' es ops o.
Proof.
  induction ops as [|p ops IH]; intros es o; cbn [push_op]; auto. rewrite !(shuffled_get _ _ _ Sh).
  destruct (from_fixities _ _); auto. destruct (reduce es (p :: ops)) as [(es'&x)| |]; auto.
Qed.

Lemma rewrite_loop_same e : forall es ops, rewrite_loop t e es ops = rewrite_loop t' e es ops.
Proof.
  induction e; intros es' ops'; cbn [rewrite_loop]; auto. rewrite push_op_same.
  destruct (push_op t' _ _ _) as [[(a&b)|]| |]; auto.
Qed.
End Same.

Definition alike_res (r r' : resolver) : Prop := shuffled (r_fix r) (r_fix r') /\ r_errs r = r_errs r'.

Definition alike_out {A} (x y : outcome (resolver * A)) : Prop :=
  match x, y with
  | Ok (r, a), Ok (r', a') => alike_res r r' /\ a = a'
  | Ok _, _ | _, Ok _ => False
  | Panic p, Panic q => p = q
  | NoFuel, NoFuel => True
  | _, _ => False
  end.

Lemma alike_bind {A B} (x y : outcome (resolver * A)) (k k' : resolver * A -> outcome (resolver * B)) :
  alike_out x y -> (forall r r' a, alike_res r r' -> alike_out (k (r, a)) (k' (r', a))) ->
  alike_out (obind x k) (obind y k').
Proof.
  intros X K. destruct x as [(r&a)|p|], y as [(r'&a')|q|]; cbn in *; try contradiction; auto.
  destruct X as (X&->). apply K, X.
Qed.

Lemma visit_list_alike v es :
  (forall e r r', alike_res r r' -> alike_out (v r e) (v r' e)) ->
  forall r r', alike_res r r' -> alike_out (visit_list v r es) (visit_list v r' es).
Proof.
  intros V. induction es as [|e es IH]; intros r r' R; cbn [visit_list].
  - now split.
  - apply alike_bind; auto. intros r1 r1' a R1. apply alike_bind; auto. intros r2 r2' b R2. cbn. now split.
Qed.

Lemma walk_alike v e :
  (forall e r r', alike_res r r' -> alike_out (v r e) (v r' e)) ->
  forall r r', alike_res r r' -> alike_out (walk_expr v r e) (walk_expr v r' e).
Proof.
  intros V r r' R. pose proof (fun es => visit_list_alike v es V) as VL.
  destruct e as [l|i|a b|a o b|p a|a|a|es|es|d a]; cbn [walk_expr];
    try (now split);
    try (apply alike_bind; [auto|intros r1 r1' x R1; cbn; now split]).
  - apply alike_bind; auto. intros r1 r1' x R1. apply alike_bind; auto. intros r2 r2' y R2. cbn. now split.
  - apply alike_bind; auto. intros r1 r1' x R1. apply alike_bind; auto. intros r2 r2' y R2. cbn. now split.
Qed.

Lemma visit_fuel_alike n : forall e r r', alike_res r r' -> alike_out (visit_fuel n r e) (visit_fuel n r' e).
Proof.
  induction n as [|n IH]; intros e r r' R; cbn [visit_fuel]; [exact I|].
  destruct e as [l|i|a b|a o b|p a|a|a|es|es|d a]; try (apply walk_alike; auto).
  - unfold rewrite. rewrite (rewrite_loop_same _ _ (proj1 R)).
    destruct (rewrite_loop (r_fix r') _ [] []) as [[e'|err]|p|]; cbn; auto.
    + apply walk_alike; auto.
    + split; auto. destruct R as (R1&R2). unfold store_error. rewrite R2.
      destruct (existsb _ _); [now split|]. split; cbn; auto.
  - destruct R as (R1&R2). pose proof (shuffled_local (d_fixity d) (d_infixes d) _ _ R1) as L.
    destruct (push_local (r_fix r) _ _) as (t1&o1), (push_local (r_fix r') _ _) as (t2&o2). cbn [fst snd] in L. destruct L as (L&->).
    apply alike_bind.
    + apply IH. split; auto.
    + intros r1 r1' x (R3&R4). cbn. split; auto. split; cbn; auto. now apply shuffled_restore.
Qed.

Lemma load_alike r r' a : alike_res r r' -> alike_res (load_fixities r a) (load_fixities r' a).
Proof.
  intros (R1&R2). split; cbn; auto. revert R1. generalize (r_fix r), (r_fix r').
  induction (a_infxs a) as [|d ds IH]; intros t t' R1; cbn [fold_left]; auto. apply IH. now apply shuffled_many.
Qed.

Lemma resolve_alike r r' a : alike_res r r' ->
  match resolve_ast r a, resolve_ast r' a with
  | Ok (r1, a1, e1), Ok (r2, a2, e2) => alike_res r1 r2 /\ a1 = a2 /\ e1 = e2
  | Panic p, Panic q => p = q
  | NoFuel, NoFuel => True
  | _, _ => False
  end.
Proof.
  intros R. unfold resolve_ast, visit_ast.
  pose proof (visit_list_alike visit_expr (a_exprs a) (fun e r r' => visit_fuel_alike (esize e) e r r') _ _ (load_alike _ _ a R)) as V.
  destruct (visit_list visit_expr (load_fixities r a) _) as [(r1&x)|p|], (visit_list visit_expr (load_fixities r' a) _) as [(r2&y)|q|];
    cbn in V |- *; try contradiction; auto.
  destruct V as ((V1&V2)&->). repeat split; cbn; auto; apply V1.
Qed.

(** ** Sessions *)

Section S.
Context {U : ucd}.

Lemma feed_alike r r' x : alike_res r r' -> alike_out (feed_input r x) (feed_input r' x).
Proof.
  intros R. unfold feed_input. destruct (parse x) as [a l|e l|p|]; cbn; auto.
  pose proof (resolve_alike _ _ a (load_alike _ _ a R)) as Q.
  destruct (resolve_ast (load_fixities r a) a) as [((r1&a1)&e1)|p|], (resolve_ast (load_fixities r' a) a) as [((r2&a2)&e2)|q|];
    cbn in *; try contradiction; auto.
  destruct Q as (Q&->&->). destruct e2; cbn; auto.
Qed.

(** The relation the proof goes by. *)
Definition twin (s s' : session) : Prop :=
  alike_res (s_res s) (s_res s') /\ s_buf s = s_buf s' /\ s_cont s = s_cont s' /\ s_hist s = s_hist s'.

Definition twin_status (st st' : status) : Prop :=
  match st, st' with
  | Running s, Running s' => twin s s'
  | _, _ => st = st'
  end.

Definition twin_out (x y : list action * status) : Prop := fst x = fst y /\ twin_status (snd x) (snd y).

Lemma twin_answer {A} acts (o o' : outcome (resolver * A)) k k' : alike_out o o' ->
  (forall r r' a, alike_res r r' -> twin_out (k (r, a)) (k' (r', a))) ->
  twin_out (answer acts o k) (answer acts o' k').
Proof.
  intros O K. destruct o as [(r&a)|p|], o' as [(r'&a')|q|]; cbn in O; try contradiction; cbn [answer].
  - destruct O as (O&->). specialize (K _ _ a' O). destruct (k (r, a')), (k' (r', a')). destruct K as (K1&K2). cbn in *.
    subst. split; auto.
  - subst. now split.
  - now split.
Qed.

Lemma twin_answer_same {A} acts (o : outcome A) k k' :
  (forall a, twin_out (k a) (k' a)) -> twin_out (answer acts o k) (answer acts o k').
Proof.
  intros K. destruct o as [a|p|]; cbn [answer]; try now split.
  specialize (K a). destruct (k a), (k' a). destruct K as (K1&K2). cbn in *. subst. split; auto.
Qed.

Lemma twin_res s s' r r' : twin s s' -> alike_res r r' -> twin (set_res s r) (set_res s' r').
Proof. intros (_&A&B&C) R. repeat split; auto; apply R. Qed.
Lemma twin_buf s s' b : twin s s' -> twin (set_buf s b) (set_buf s' b).
Proof. intros (R&A&B&C). repeat split; auto; apply R. Qed.
Lemma twin_cont s s' b : twin s s' -> twin (set_cont s b) (set_cont s' b).
Proof. intros (R&A&B&C). repeat split; auto; apply R. Qed.
Lemma twin_hist s s' b : twin s s' -> twin (set_hist s b) (set_hist s' b).
Proof. intros (R&A&B&C). repeat split; auto; apply R. Qed.

Lemma buffer_twin s s' : twin s s' -> twin_out (read_buffer s) (read_buffer s').
Proof.
  intros T. unfold read_buffer. pose proof T as (R&B&_). rewrite <- B.
  apply twin_answer; [apply feed_alike, R|].
  intros r r' [a|e] R1.
  - destruct (fst (iter_next (iter_new a))) as [[d|e]|]; try (split; [auto|cbn; apply twin_res, R1; now apply twin_buf]).
    rewrite (print_same (r_fix r) (r_fix r')). apply twin_answer_same. intros x. split; auto. cbn. apply twin_res, R1. now apply twin_buf.
  - apply twin_answer_same. intros x. split; auto. cbn. apply twin_res, R1. now apply twin_buf.
Qed.

Lemma file_twin w k s s' p : twin s s' -> twin_out (read_file w k s p) (read_file w k s' p).
Proof.
  intros T. unfold read_file. destruct (w_read w k p) as [x|kind]; [|now split].
  apply twin_answer; [apply feed_alike, T|]. intros r r' [a|e] R1.
  - split; auto. cbn. now apply twin_res.
  - apply twin_answer_same. intros y. split; auto. cbn. now apply twin_res.
Qed.

Lemma files_twin w ps : forall k s s', twin s s' -> twin_out (read_files w k s ps) (read_files w k s' ps).
Proof.
  induction ps as [|p ps IH]; intros k s s' T; cbn [read_files]; [now split|].
  apply twin_answer_same. intros q. pose proof (file_twin w k s s' q T) as F.
  destruct (read_file w k s q) as (x&st), (read_file w k s' q) as (x'&st'). destruct F as (F1&F2). cbn [fst snd] in *. subst x'.
  destruct st, st'; cbn in F2; try discriminate F2; try (split; [auto|exact F2]).
  specialize (IH (S k) _ _ F2). destruct (read_files w (S k) s0 ps), (read_files w (S k) s1 ps). destruct IH as (I1&I2). cbn in *.
  subst. now split.
Qed.

Lemma entries_twin es : forall t t', shuffled t t' -> shuffled (load_entries t es) (load_entries t' es).
Proof.
  unfold load_entries. induction es as [|(f&ops) es IH]; intros t t' Sh; cbn [fold_left]; auto. apply IH. now apply shuffled_many.
Qed.

Lemma info_same t t' x : shuffled t t' -> info t x = info t' x.
Proof.
  intros Sh. unfold info. set (ops := map as_infix _).
  assert (F1 : filter (has t) ops = filter (has t') ops) by (apply filter_ext; intros o; now apply shuffled_has).
  assert (F2 : filter (fun o => negb (has t o)) ops = filter (fun o => negb (has t' o)) ops) by (apply filter_ext; intros o; now rewrite (shuffled_has _ _ o Sh)).
  rewrite F1, F2. assert (F3 : forall l, entries_for t l = entries_for t' l).
  { intros l. unfold entries_for. induction l as [|o l IH]; cbn [flat_map]; auto. now rewrite IH, (shuffled_entry _ _ o Sh). }
  now rewrite F3.
Qed.

Lemma cleared_twin s s' : twin s s' -> twin (set_res s (fst (clear (s_res s)))) (set_res s' (fst (clear (s_res s')))) /\
  snd (clear (s_res s)) = snd (clear (s_res s')).
Proof.
  intros T. pose proof T as ((R1&R2)&_). split.
  - apply twin_res; auto. split; cbn; auto. split; constructor.
  - cbn. apply Permutation_length, R1.
Qed.

Lemma command_twin w s s' c : twin s s' ->
  twin_out (read_command w s c) (read_command w s' c) \/
  (In (trim c) (map lit [":fixities"; ":info"; ":i"]%string) /\
   read_command w s c = ([AOut (print_fixities (table s))], Running s) /\
   read_command w s' c = ([AOut (print_fixities (table s'))], Running s')).
Proof.
  intros T. pose proof T as ((R1&R2)&B&Co&H). unfold read_command. set (d := trim c).
  destruct (is_prefix (is_str (lit ":cd")) d).
  { left. apply twin_answer_same. intros x. unfold cmd_cd. destruct (trim x); split; auto. }
  destruct (str_eqb d (lit ":help") || str_eqb d (lit ":h") || str_eqb d (lit ":?")); [left; now split|].
  destruct (is_prefix (is_str (lit ":q")) d || is_prefix (is_str (lit ":quit")) d).
  { left. unfold cmd_quit. rewrite H. destruct (_ || _); [now split|]. destruct (_ || _); now split. }
  pose proof (cleared_twin _ _ T) as (C1&C2). cbn [clear fst snd] in C1, C2.
  destruct (is_prefix (is_str (lit ":clear")) d).
  { left. apply twin_answer_same. intros x. unfold cmd_clear. cbn [clear]. rewrite C2.
    destruct (str_eqb (trim x) (lit "--history")); [now split|].
    destruct (str_eqb (trim x) (lit "--fixities")); [now split|].
    destruct (_ || _); now split. }
  destruct (is_prefix (is_str (lit ":history")) d).
  { left. apply twin_answer_same. intros x. unfold cmd_history. rewrite H.
    destruct (str_eqb (trim x) (lit "--clear")); [now split|].
    destruct (str_eqb (trim x) (lit "--clear --file")); [now split|].
    destruct (starts_with (lit "--set") (trim x)).
    { apply twin_answer_same. intros y. destruct (trim y); [now split|]. split; auto. cbn [snd twin_status]. now apply twin_hist. }
    destruct (is_prefix _ _); [|now split]. destruct (Nat.eqb _ _); [now split|]. apply twin_answer_same. intros y. now split. }
  destruct (str_eqb d (lit ":reset") || str_eqb d (lit ":r")).
  { left. cbn [clear]. rewrite C2. now split. }
  destruct (str_eqb d (lit ":info") || str_eqb d (lit ":i") || str_eqb d (lit ":fixities")) eqn:El.
  { right. split; [|split; reflexivity]. apply orb_true_iff in El as [El|El]; [apply orb_true_iff in El as [El|El]|];
      (destruct (str_eqb_spec d (lit ":info")) as [->|_] || idtac).
    - cbn; auto.
    - discriminate El.
    - cbn; auto.
    - destruct (str_eqb_spec d (lit ":i")) as [->|_]; [cbn; auto|discriminate El].
    - cbn; auto.
    - destruct (str_eqb_spec d (lit ":fixities")) as [->|_]; [cbn; auto|discriminate El]. }
  left. destruct (is_prefix (is_str (lit ":info")) d || is_prefix (is_str (lit ":i")) d).
  { apply twin_answer_same. intros x. rewrite (info_same _ _ x R1). now split. }
  destruct (is_prefix (is_str (lit ":load")) d).
  { apply twin_answer_same. intros x. unfold cmd_load. destruct (is_nil (trim x)); [now split|].
    destruct (str_eqb (trim x) (lit "--prelude")).
    { cbn [load_hs_prelude]. split; auto. cbn [snd twin_status]. apply twin_res; auto. split; auto. cbn [r_fix]. now apply entries_twin. }
    destruct (str_eqb (trim x) (lit "--math")).
    { cbn [load_arithmetic]. split; auto. cbn [snd twin_status]. apply twin_res; auto. split; auto. cbn [r_fix]. now apply entries_twin. }
    now apply files_twin. }
  destruct (is_prefix (is_str (lit ":shell")) d).
  { apply twin_answer_same. intros x. unfold cmd_shell. destruct (split_whitespace x); now split. }
  split; auto. cbn [snd twin_status]. now apply twin_buf.
Qed.

Lemma line_twin w s s' l : twin s s' ->
  twin_out (read_line w s l) (read_line w s' l) \/
  (s_buf s = [] /\ starts_with [58%N] (trim (trim l)) = true /\ is_nil (trim l) = false /\ In (trim (trim l)) (map lit [":fixities"; ":info"; ":i"]%string) /\
   read_line w s l = ([AOut (print_fixities (table s))], Running s) /\
   read_line w s' l = ([AOut (print_fixities (table s'))], Running s')).
Proof.
  intros T. pose proof T as (R&B&Co&H). unfold read_line. rewrite <- B.
  destruct (is_nil (trim l)) eqn:N0; [left; now split|].
  destruct (starts_with [58%N] (trim (trim l))) eqn:St.
  { destruct (is_nil (s_buf s)) eqn:N1; [|left; now split].
    destruct (command_twin w s s' (trim l) T) as [X|X]; [now left|right].
    destruct (s_buf s); [|discriminate]. tauto. }
  left. destruct (_ && _).
  { apply twin_answer_same. intros x. split; auto. cbn [snd twin_status]. apply twin_cont. now apply twin_buf. }
  destruct (ends_with [92%N] (trim l)).
  { apply twin_answer_same. intros x. split; auto. cbn [snd twin_status]. apply twin_cont. now apply twin_buf. }
  destruct (starts_with [123%N] (trim l)).
  { destruct (negb _).
    - split; auto. cbn [snd twin_status]. apply twin_cont. now apply twin_buf.
    - apply buffer_twin. now apply twin_buf. }
  apply buffer_twin. apply twin_cont. now apply twin_buf.
Qed.

Lemma alike_twin s s' : settled (s_res s) -> settled (s_res s') -> (alike s s' <-> twin s s').
Proof.
  intros (E&D) (E'&D'). unfold alike, twin, alike_res, shuffled, table. split.
  - intros (A&B). repeat split; try apply B; auto; [|congruence].
    apply NoDup_Permutation.
    + apply NoDup_map_inv with (f := fun x => symbol (fst x)). exact D.
    + apply NoDup_map_inv with (f := fun x => symbol (fst x)). exact D'.
    + intros (o&f). apply A.
  - intros (((_&P)&_)&B). split; auto. intros o f. split; apply Permutation_in; [|apply Permutation_sym]; auto.
Qed.

Lemma trim_again l : trim (trim l) = trim l.
Proof.
  apply trim_unique. destruct (trim_spec l) as (a&b&_&_&_&H). exists [], []. rewrite app_nil_r.
  split; auto. split; [constructor|]. split; [constructor|exact H].
Qed.

Lemma run_app s es fs : run s (es ++ fs) = let (x, st) := run s es in
  match st with Running s1 => let (y, st2) := run s1 fs in (x ++ y, st2) | _ => (x, st) end.
Proof.
  revert s. induction es as [|e es IH]; intros s; cbn [run app].
  - now destruct (run s fs).
  - destruct (step s e) as (x&st). destruct st as [s1| | |]; auto. rewrite IH. destruct (run s1 es) as (y&st2).
    destruct st2 as [s2| | |]; auto. destruct (run s2 fs). now rewrite app_assoc.
Qed.

Lemma reached_step s e acts s1 : reached s -> step s e = (acts, Running s1) -> reached s1.
Proof.
  intros (h&es&a0&R) E. exists h, (es ++ [e]), (a0 ++ acts). rewrite run_app, R. cbn [run]. rewrite E. now rewrite app_nil_r.
Qed.

(** ** C102 *)

(** One event, met by two sessions that know the same: the answers are equal word
    for word, unless the event asks for the listing, and the sessions know the
    same afterwards. *)
Theorem C102_step : forall s s' e, reached s -> reached s' -> alike s s' ->
  (fst (step s e) = fst (step s' e) \/
   asks_listing s e /\ exists a a', fst (step s e) = [a] /\ fst (step s' e) = [a'] /\ listings s s' a a') /\
  alike_status (snd (step s e)) (snd (step s' e)).
Proof.
  intros s s' e Re Re' A. pose proof (reached_settled _ Re) as St. pose proof (reached_settled _ Re') as St'.
  pose proof (proj1 (alike_twin _ _ St St') A) as T.
  assert (K : forall x y, twin_out x y -> step s e = x -> step s' e = y ->
    fst x = fst y /\ alike_status (snd x) (snd y)).
  { intros (x1&x2) (y1&y2) (O1&O2) Ex Ey. cbn [fst snd] in *. split; auto.
    destruct x2, y2; cbn in *; auto; try discriminate O2. apply alike_twin; auto; [eapply step_settled; [exact Ex|exact St]|eapply step_settled; [exact Ey|exact St']]. }
  destruct e as [w l| | |msg].
  - cbn [step] in *. destruct (line_twin w s s' l T) as [O|(B&S0&N0&I0&E1&E2)].
    + destruct (K _ _ O eq_refl eq_refl) as (K1&K2). split; auto.
    + rewrite E1, E2. cbn [fst snd]. split; [right|exact A]. split.
      * exists w, l, (trim l). split; auto. split; [|split; auto].
        -- apply reads_cmd. rewrite trim_again in S0. destruct (trim l) as [|c0 l0]; [discriminate S0|].
           cbn [starts_with] in S0. destruct (N.eqb_spec 58 c0) as [<-|Nc]; [reflexivity|]. discriminate S0.
        -- now rewrite trim_again in I0.
      * exists (AOut (print_fixities (table s))), (AOut (print_fixities (table s'))). split; auto. split; auto.
        exists (write_fixities (table s)), (write_fixities (table s')). split; auto. split; auto.
        split; [apply table_listed|]. split; [apply table_listed|]. apply T.
  - cbn. auto.
  - cbn. auto.
  - cbn. auto.
Qed.
Print Assumptions C102_step.

Lemma aa_refl x : answers_alike x x.
Proof. induction x; constructor; auto. Qed.

Lemma aa_app x y u v : answers_alike x y -> answers_alike u v -> answers_alike (x ++ u) (y ++ v).
Proof. intros A B. induction A; cbn [app]; auto; [now constructor|]. eapply aa_listing; eauto. Qed.

(** Whole continuations: whatever the two sessions are told from now on, they
    answer alike, end alike and know the same in the end. *)
Theorem C102_run : forall es s s', reached s -> reached s' -> alike s s' ->
  answers_alike (fst (run s es)) (fst (run s' es)) /\ alike_status (snd (run s es)) (snd (run s' es)).
Proof.
  induction es as [|e es IH]; intros s s' Re Re' A; cbn [run].
  { split; [constructor|exact A]. }
  pose proof (C102_step s s' e Re Re' A) as (X&Y).
  assert (Z : answers_alike (fst (step s e)) (fst (step s' e))).
  { destruct X as [->|(_&a&a'&->&->&L)]; [apply aa_refl|]. eapply aa_listing; eauto. constructor. }
  clear X. destruct (step s e) as (x&st) eqn:E, (step s' e) as (x'&st') eqn:E'. cbn [fst snd] in *.
  destruct st as [s1| | |], st' as [s1'| | |]; cbn in Y; try discriminate Y; try (split; [exact Z|exact Y]).
  assert (R1 : reached s1) by (exact (reached_step _ _ _ _ Re E)). assert (R1' : reached s1') by (exact (reached_step _ _ _ _ Re' E')).
  specialize (IH s1 s1' R1 R1' Y). destruct (run s1 es), (run s1' es). cbn [fst snd] in *. split; [|apply IH]. apply aa_app; auto. apply IH.
Qed.
Print Assumptions C102_run.

(** ** Declarations of different operators *)

(** The table after inserting these entries one by one. *)
Definition inserted (t : fixities) (l : list (infix * fixity)) : fixities :=
  fold_left (fun t x => insert_tbl t (fst x) (snd x)) l t.

Lemma entry_insert t o f q : get_entry (insert_tbl t o f) q =
  if infix_eqb o q then Some (match get_entry t o with Some (k, _) => k | None => o end, f) else get_entry t q.
Proof.
  induction t as [|(k&v) t IH]; cbn [insert_tbl get_entry]; [reflexivity|].
  destruct (infix_eqb_spec k o) as [Q|Q]; cbn [get_entry].
  - destruct (infix_eqb_spec k q), (infix_eqb_spec o q); auto; congruence.
  - rewrite IH. destruct (infix_eqb_spec k q), (infix_eqb_spec o q); auto. congruence.
Qed.

Lemma entry_sym t o q : symbol o = symbol q -> get_entry t o = get_entry t q.
Proof.
  intros E. induction t as [|(k&v) t IH]; cbn [get_entry]; auto.
  destruct (infix_eqb_spec k o), (infix_eqb_spec k q); auto; congruence.
Qed.

Lemma inserted_other l q : forall t, ~ In (symbol q) (keys l) -> get_entry (inserted t l) q = get_entry t q.
Proof.
  induction l as [|(o&f) l IH]; intros t N1; cbn [inserted fold_left]; auto.
  change (get_entry (inserted (insert_tbl t o f) l) q = get_entry t q). rewrite IH by (intros I; apply N1; now right).
  rewrite entry_insert. destruct (infix_eqb_spec o q) as [E|]; auto. destruct N1. left. exact E.
Qed.

Lemma inserted_local l q : forall t t', get_entry t q = get_entry t' q -> get_entry (inserted t l) q = get_entry (inserted t' l) q.
Proof.
  induction l as [|(o&f) l IH]; intros t t' E; cbn [inserted fold_left]; auto.
  apply (IH (insert_tbl t o f) (insert_tbl t' o f)). rewrite !entry_insert. destruct (infix_eqb_spec o q) as [Q|Q]; auto.
  now rewrite !(entry_sym _ _ _ Q), E.
Qed.

Lemma inserted_nodup l : forall t, NoDup (keys t) -> NoDup (keys (inserted t l)).
Proof. induction l as [|(o&f) l IH]; intros t D; cbn [inserted fold_left]; auto. apply IH. now apply nodup_insert. Qed.

Lemma inserted_app t l m : inserted t (l ++ m) = inserted (inserted t l) m.
Proof. apply fold_left_app. Qed.

Lemma inserted_many f ops : forall t, insert_many t f ops = inserted t (map (fun o => (o, f)) ops).
Proof. unfold insert_many, inserted. induction ops as [|o ops IH]; intros t; cbn; auto. Qed.

Lemma load_inserted a : forall r, load_fixities r a = mkResolver (inserted (r_fix r) (declared_entries a)) (r_errs r).
Proof.
  intros r. unfold load_fixities, declared_entries. f_equal. generalize (r_fix r).
  induction (a_infxs a) as [|d ds IH]; intros t; cbn [fold_left flat_map]; auto. rewrite inserted_app, <- inserted_many. apply IH.
Qed.

Lemma exchange t l m : (forall o, In o (keys l) -> ~ In o (keys m)) -> forall q,
  get_entry (inserted (inserted t l) m) q = get_entry (inserted (inserted t m) l) q.
Proof.
  intros D q. destruct (str_in_dec (symbol q) (keys l)) as [I|N1].
  - rewrite inserted_other by auto. apply inserted_local. symmetry. apply inserted_other. auto.
  - rewrite (inserted_other l) by auto. apply inserted_local. now apply inserted_other.
Qed.

Lemma entries_in t t' : NoDup (keys t) -> NoDup (keys t') -> (forall q, get_entry t q = get_entry t' q) ->
  forall o f, In (o, f) t <-> In (o, f) t'.
Proof.
  intros D D' E o f. split; intros I.
  - apply (get_entry_in t' o o f D'). rewrite <- E. now apply (get_entry_in t o o f D).
  - apply (get_entry_in t o o f D). rewrite E. now apply (get_entry_in t' o o f D').
Qed.

Lemma says_plain s l x : reads l (Say x) -> s_cont s = false -> next_cont s l = false.
Proof.
  intros R C. unfold next_cont. destruct (starts_with [123%N] (trim l)) eqn:E1; auto.
  destruct (negb (ends_with [92%N] (trim l))); auto. cbn [andb].
  destruct (ends_with [125%N] (trim l)) eqn:E2; auto. exfalso. apply starts_with_cons in E1.
  inversion R as [| | | | |l0 n x0 m H N1 N2|l0 x0 H N0 N1 N2 N3]; subst.
  - rewrite (trim_trimmed _ _ H) in E2. revert E2. apply eq_true_false_abs. apply ends_with_spec.
    replace (S m) with (m + 1) by lia. rewrite repeat_app. cbn [repeat]. rewrite !app_assoc. eauto.
  - rewrite (trim_trimmed _ _ H) in E1. contradiction.
Qed.

Lemma told s w l x a lx : settled (s_res s) -> s_buf s = [] -> s_cont s = false -> reads l (Say x) -> parse x = POk a lx -> a_exprs a = [] ->
  step s (Line w l) = ([], Running (mkSession (mkResolver (inserted (r_fix (s_res s)) (declared_entries a ++ declared_entries a)) []) [] false (s_hist s))).
Proof.
  intros (Er&_) B C R P X. cbn [step]. rewrite (line_reads w s l _ R), (says_plain s l x R C). cbn [react].
  unfold read_buffer. cbn [s_buf set_buf s_res s_cont s_hist set_cont]. rewrite B. cbn [app].
  unfold feed_input. rewrite P. unfold resolve_ast, visit_ast. rewrite X, !load_inserted. cbn [visit_list obind r_fix r_errs]. rewrite Er.
  cbn [answer obind]. unfold iter_next, iter_tick, iter_new. cbn [it_kinds it_infxs it_exprs a_kinds a_infxs a_exprs].
  rewrite inserted_app.
  destruct (a_kinds a) as [|[] ks]; cbn [pop_front fst].
  all: try (destruct (a_infxs a); cbn [pop_front fst option_map]).
  all: unfold set_res, set_buf, set_cont; cbn [s_res s_buf s_cont s_hist]; rewrite ?C; try reflexivity.
Qed.

(** Two lines that declare different operators may be typed in either order: the
    sessions that result know the same, so they answer alike ever after. *)
Theorem C102_exchange : forall w s l l' x x' a a' lx lx', reached s -> s_buf s = [] -> s_cont s = false ->
  reads l (Say x) -> parse x = POk a lx -> a_exprs a = [] ->
  reads l' (Say x') -> parse x' = POk a' lx' -> a_exprs a' = [] ->
  (forall d d' o o', In d (a_infxs a) -> In o (d_infixes d) -> In d' (a_infxs a') -> In o' (d_infixes d') -> symbol o <> symbol o') ->
  exists s1 s2, run s [Line w l; Line w l'] = ([], Running s1) /\ run s [Line w l'; Line w l] = ([], Running s2) /\
    alike s1 s2 /\ forall es, answers_alike (fst (run s1 es)) (fst (run s2 es)).
Proof.
  intros w s l l' x x' a a' lx lx' Re B C R P X R' P' X' D. pose proof (reached_settled _ Re) as St.
  pose proof (told s w l x a lx St B C R P X) as T. pose proof (told s w l' x' a' lx' St B C R' P' X') as T'.
  set (e := declared_entries a ++ declared_entries a) in *. set (e' := declared_entries a' ++ declared_entries a') in *.
  set (sa := mkSession (mkResolver (inserted (r_fix (s_res s)) e) []) [] false (s_hist s)) in *.
  set (sb := mkSession (mkResolver (inserted (r_fix (s_res s)) e') []) [] false (s_hist s)) in *.
  pose proof (reached_step _ _ _ _ Re T) as Ra. pose proof (reached_step _ _ _ _ Re T') as Rb.
  pose proof (told sa w l' x' a' lx' (reached_settled _ Ra) eq_refl eq_refl R' P' X') as U1.
  pose proof (told sb w l x a lx (reached_settled _ Rb) eq_refl eq_refl R P X) as U2.
  fold e in U2. fold e' in U1. cbn [sa sb s_res r_fix s_hist] in U1, U2.
  set (s1 := mkSession (mkResolver (inserted (inserted (r_fix (s_res s)) e) e') []) [] false (s_hist s)) in *.
  set (s2 := mkSession (mkResolver (inserted (inserted (r_fix (s_res s)) e') e) []) [] false (s_hist s)) in *.
  exists s1, s2. split; [cbn [run]; rewrite T, U1; reflexivity|]. split; [cbn [run]; rewrite T', U2; reflexivity|].
  assert (A : alike s1 s2).
  { split; [|auto]. unfold table, s1, s2. cbn [s_res r_fix]. destruct St as (_&Nd).
    apply entries_in; [now apply inserted_nodup, inserted_nodup|now apply inserted_nodup, inserted_nodup|].
    apply exchange. intros o I I'.
    assert (K : forall b o, In o (keys (declared_entries b ++ declared_entries b)) -> exists d p, In d (a_infxs b) /\ In p (d_infixes d) /\ symbol p = o).
    { clear. intros b o I. apply in_map_iff in I as ((p&f)&E&I). cbn [fst] in E.
      assert (J : In (p, f) (declared_entries b)) by (apply in_app_or in I as [J|J]; exact J).
      apply in_flat_map in J as (d&Jd&J). apply in_map_iff in J as (p'&Ep&J). injection Ep as <- _. eauto. }
    apply K in I as (d&p&I1&I2&I3). apply K in I' as (d'&p'&J1&J2&J3). apply (D d d' p p'); auto. congruence. }
  split; auto. intros es. apply C102_run; auto; [exact (reached_step _ _ _ _ Ra U1)|exact (reached_step _ _ _ _ Rb U2)].
Qed.
Print Assumptions C102_exchange.

End S.

(** ** Examples *)

Local Open Scope string_scope.

Definition nothing_there : world := mkWorld (fun _ _ => inr (lit "NotFound")) (fun _ => None) (fun _ _ => inl []).
Definition say (x : string) : event := Line nothing_there (lit x).
Definition arrived (xs : list string) : session :=
  match @run ucd_none (session_new (lit "h")) (map say xs) with (_, Running s) => s | _ => session_new [] end.
Definition one : session := arrived ["infixl 6 +"; "infixr 5 <>"].
Definition two : session := arrived ["infixr 5 <>"; "infixl 1 +"; "infixl 6 +"].

Lemma ex_reached xs : (match @run ucd_none (session_new (lit "h")) (map say xs) with (_, Running _) => true | _ => false end) = true ->
  @reached ucd_none (arrived xs).
Proof.
  unfold arrived. intros E. exists (lit "h"), (map say xs). destruct (run _ _) as (x&[s| | |]); try discriminate E. now exists x.
Qed.

(** Two sessions with different pasts know the same; the listings differ in their
    order, and every other answer is the same. *)
Example C102_ex : @reached ucd_none one /\ @reached ucd_none two /\ alike one two /\ one <> two /\
  fst (@step ucd_none one (say ":fixities")) <> fst (@step ucd_none two (say ":fixities")) /\
  fst (@step ucd_none one (say "a + b <> c + d")) = fst (@step ucd_none two (say "a + b <> c + d")) /\
  fst (@step ucd_none one (say "a + b <> c + d")) <> [] /\
  asks_listing one (say ":fixities").
Proof.
  split; [apply ex_reached; vm_compute; reflexivity|]. split; [apply ex_reached; vm_compute; reflexivity|].
  split.
  { split; [|vm_compute; auto]. assert (E : table two = rev (table one)) by (vm_compute; reflexivity).
    intros o f. rewrite E. apply in_rev. }
  split; [vm_compute; discriminate|]. split; [vm_compute; discriminate|]. split; [vm_compute; reflexivity|].
  split; [vm_compute; discriminate|].
  exists nothing_there, (lit ":fixities"), (lit ":fixities"). split; [reflexivity|]. split; [apply (@reads_cmd (lit ":fixities")); reflexivity|].
  split; [vm_compute; reflexivity|]. now left.
Qed.

(** Two lines that may be exchanged, and two that may not. *)
Example C102_ex_exchange :
  let x := lit "infixl 6 +" in let y := lit "infixr 5 <>" in
  reads x (Say x) /\ reads y (Say y) /\
  (exists a l, @parse ucd_none x = POk a l /\ a_exprs a = [] /\ flat_map d_infixes (a_infxs a) = [Standard (lit "+")]) /\
  (exists a l, @parse ucd_none y = POk a l /\ a_exprs a = [] /\ flat_map d_infixes (a_infxs a) = [Standard (lit "<>")]) /\
  ~ alike (arrived ["infixl 6 +"; "infixl 1 +"]) (arrived ["infixl 1 +"; "infixl 6 +"]).
Proof.
  cbv zeta. split; [apply (@reads_say (lit "infixl 6 +")); reflexivity|]. split; [apply (@reads_say (lit "infixr 5 <>")); reflexivity|].
  split; [eexists _, _; split; [vm_compute; reflexivity|split; reflexivity]|].
  split; [eexists _, _; split; [vm_compute; reflexivity|split; reflexivity]|].
  intros (A&_). specialize (A (Standard (lit "+")) (mkFix 1 ALeft)). vm_compute in A.
  destruct (proj1 A (or_introl eq_refl)) as [X|[]]. discriminate X.
Qed.
