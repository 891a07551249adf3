(** Printed texts are read back: tokens of literals, names, operators. *)
From Coq Require Import List Arith NArith ZArith Bool String Lia.
From Verif Require Import Prelim Chars Syntax Fixity Style SpecStyle ProofDigits SpecLexer SpecParser Printer SpecPrinter.
From Verif Require Import ProofPrinter ProofPrinter2.
Import ListNotations.

Definition sepc : list chr := [32; 41; 93; 44; 10]%N.
(** What follows a printed item. *)
Definition sep (v : str) : Prop := match v with [] => True | c :: _ => In c sepc end.

Section WithUcd.
Context {U : ucd}.

Lemma sep_stops v : sep v -> stops word_char v /\ stops script v /\ stops op_char v /\ stops digit v /\ stops (N.eqb 123) v.
Proof.
  destruct v as [|c v]; [cbn; auto|]. cbn [sep sepc In stops]. intros H.
  repeat (destruct H as [<-|H]; [repeat split; reflexivity|]). destruct H.
Qed.

(** The text [s] after [w] is the tokens [ts], if followed by a separator. *)
Definition lexes (s w : str) (ts : list ptok) : Prop :=
  forall v us, sep v -> ctokens (w ++ s) v us -> ctokens w (s ++ v) (ts ++ us).

(** Its start can follow an operator character directly. *)
Definition after_op (s : str) : Prop := s <> [] /\ stops op_char s /\ stops script s.

Lemma lexes_app s w ts s' ts' : lexes s w ts -> s' <> [] -> sep s' -> lexes s' (w ++ s) ts' -> lexes (s ++ s') w (ts ++ ts').
Proof.
  intros H N S' H' v us Sv T. rewrite <- !app_assoc. apply H.
  - destruct s'; [congruence|]. exact S'.
  - apply H'; auto. rewrite <- app_assoc. exact T.
Qed.

Lemma lexes_tok s t w : (forall v, sep v -> lexeme s t v) -> lexes s w [(t, col_of (w ++ s))].
Proof.
  intros L v us Sv T. apply (ct_cons w [] s t v us); [constructor|auto|]. exact T.
Qed.

Lemma lexes_front s t w x ts : (forall v, sep v -> lexeme s t (x ++ v)) -> lexes x (w ++ s) ts ->
  lexes (s ++ x) w ((t, col_of (w ++ s)) :: ts).
Proof.
  intros L H v us Sv T. rewrite <- app_assoc. cbn [app].
  apply (ct_cons w [] s t (x ++ v) (ts ++ us)); [constructor|auto|]. cbn [app].
  apply H; auto. rewrite <- app_assoc. exact T.
Qed.

Lemma ctokens_space w v ts : ctokens (w ++ [32%N]) v ts -> ctokens w (32%N :: v) ts.
Proof.
  intros H. inversion H as [g G|g s t v' ts' G L T]; subst.
  - apply ct_end. apply gap_white; auto.
  - change (32%N :: g ++ s ++ v') with ((32%N :: g) ++ s ++ v').
    replace ((w ++ [32%N]) ++ g ++ s) with (w ++ (32%N :: g) ++ s) in * by (rewrite <- app_assoc; reflexivity).
    apply ct_cons; auto. apply gap_white; auto.
Qed.
Lemma lexes_space x w ts : lexes x (w ++ [32%N]) ts -> lexes (32%N :: x) w ts.
Proof.
  intros H v us Sv T. cbn [app]. apply ctokens_space. apply H; auto. rewrite <- app_assoc. exact T.
Qed.

Lemma lexes_punct c t w x ts : In (c, t) puncts -> lexes x (w ++ [c]) ts -> lexes (c :: x) w ((t, col_of (w ++ [c])) :: ts).
Proof. intros I H. apply (lexes_front [c] t); auto. intros v _. apply le_punct. auto. Qed.

Lemma lexes_nil w : lexes [] w [].
Proof. intros v us Sv T. rewrite app_nil_r in T. exact T. Qed.

(** [c x d] with a closing bracket. *)
Lemma lexes_pair c d t t' w x ts : In (c, t) puncts -> In (d, t') puncts -> In d sepc -> lexes x (w ++ [c]) ts ->
  lexes (c :: x ++ [d]) w ((t, col_of (w ++ [c])) :: ts ++ [(t', col_of (w ++ c :: x ++ [d]))]).
Proof.
  intros I I' Sd H. apply lexes_punct; auto. apply lexes_app; auto; [discriminate|].
  replace (w ++ c :: x ++ [d]) with (((w ++ [c]) ++ x) ++ [d]) by (rewrite <- !app_assoc; reflexivity).
  apply lexes_tok. intros v _. apply le_punct. auto.
Qed.

(** ** Literals *)

Lemma dec_value_value acc s : Forall dec_digit s -> dec_value acc s = fold_left (fun a c => (a * 10 + digit_value c)%N) s acc.
Proof.
  intros F. revert acc. induction F as [|c s D F IH]; intros acc; auto. cbn [dec_value fold_left].
  rewrite IH. f_equal. f_equal. unfold digit_value.
  assert (E : digit c = true).
  { unfold dec_digit in D. unfold digit, mem. apply existsb_exists. exists c. rewrite N.eqb_refl. split; auto.
    assert (X : exists k, c = N.of_nat (48 + k) /\ k <= 9) by (exists (N.to_nat (c - 48)); lia).
    destruct X as (k&->&Lk). do 10 (destruct k as [|k]; [cbn; tauto|]). lia. }
  rewrite E. reflexivity.
Qed.
Lemma digits_all s : Forall dec_digit s -> all digit s.
Proof.
  apply Forall_impl. intros c D. unfold dec_digit in D. unfold digit, mem. apply existsb_exists. exists c. rewrite N.eqb_refl. split; auto.
  assert (X : exists k, c = N.of_nat (48 + k) /\ k <= 9) by (exists (N.to_nat (c - 48)); lia).
  destruct X as (k&->&Lk). do 10 (destruct k as [|k]; [cbn; tauto|]). lia.
Qed.

Lemma int_lexeme n v : (n < 2 ^ 64)%N -> stops digit v -> lexeme (show_N n) (TLit (LInt n)) v.
Proof.
  intros L S. destruct (show_N_spec n) as (Ne&D&_).
  assert (E : value 10 (show_N n) = n) by (unfold value; rewrite <- dec_value_value by auto; apply show_N_value).
  rewrite <- E at 2. apply le_int; auto; [apply digits_all; auto|]. rewrite E. auto.
Qed.

Lemma printable_graphic c : (127 < c)%N -> u_printable c = true -> is_printable c = true.
Proof.
  intros L P. unfold is_printable. destruct (N.ltb_spec c 32); [lia|]. destruct (N.ltb_spec c 127); [lia|].
  destruct (N.eqb_spec c 127); [lia|]. auto.
Qed.

Lemma escape_cases q c : graphic c -> q = 34%N \/ q = 39%N ->
  (exists e, escape_debug q c = [92%N; e] /\ In (e, c) escapes) \/
  (escape_debug q c = [c] /\ c <> q /\ c <> 92%N /\ c <> 0%N /\ c <> 10%N).
Proof.
  intros G Q. unfold escape_debug.
  destruct (N.eqb_spec c 0) as [->|N0]. { exfalso. destruct G as [G|[G|G]]; cbn in G; intuition; try discriminate; lia. }
  destruct (N.eqb_spec c 9) as [->|N9]. { left. eexists. split; [reflexivity|]. cbn. tauto. }
  destruct (N.eqb_spec c 13) as [->|N13]. { left. eexists. split; [reflexivity|]. cbn. tauto. }
  destruct (N.eqb_spec c 10) as [->|N10]. { left. eexists. split; [reflexivity|]. cbn. tauto. }
  destruct (N.eqb_spec c 92) as [->|N92]. { left. eexists. split; [reflexivity|]. cbn. tauto. }
  destruct (N.eqb_spec c q) as [->|Nq]. { left. eexists. split; [reflexivity|]. destruct Q as [->| ->]; cbn; tauto. }
  right.
  assert (E : is_grext c = false /\ is_printable c = true).
  { destruct G as [G|[G|(G&P&X)]].
    - cbn in G. intuition; congruence.
    - unfold is_grext, is_printable. destruct (N.ltb_spec c 768); [|lia]. destruct (N.ltb_spec c 32); [lia|].
      destruct (N.ltb_spec c 127); [|lia]. auto.
    - split; [|apply printable_graphic; auto]. unfold is_grext. destruct (N.ltb_spec c 768); auto. }
  destruct E as (->& ->). auto.
Qed.

Lemma str_contents s : Forall graphic s -> contents (flat_map (escape_debug 34) s) s.
Proof.
  induction 1 as [|c s G F IH]; [apply co_nil|]. cbn [flat_map].
  destruct (escape_cases 34 c G (or_introl eq_refl)) as [(e&->&I)|(->&Q&B&_)].
  - cbn [app]. apply co_escape; auto.
  - cbn [app]. apply co_char; auto.
Qed.

Lemma lit_lexeme l v : readable_lit l -> stops digit v -> lexeme (show_lit l) (TLit l) v.
Proof.
  intros [c G|s F|n L] S; cbn [show_lit].
  - unfold debug_char. destruct (escape_cases 39 c G (or_intror eq_refl)) as [(e&->&I)|(->&Q&B&Z&_)].
    + cbn [app]. apply le_escape. auto.
    + cbn [app]. apply le_char; auto.
  - unfold debug_str. cbn [app]. apply le_string. apply str_contents. auto.
  - apply int_lexeme; auto.
Qed.

Lemma escape_line q c : graphic c -> q = 34%N \/ q = 39%N -> all not_lf (escape_debug q c).
Proof.
  intros G Q. destruct (escape_cases q c G Q) as [(e&->&I)|(->&_&_&_&N)].
  - constructor; [reflexivity|]. constructor; [|constructor]. cbn in I. unfold not_lf.
    repeat (destruct I as [I|I]; [injection I as <- _; reflexivity|]). destruct I.
  - constructor; [|constructor]. unfold not_lf. destruct (N.eqb_spec c 10); [congruence|reflexivity].
Qed.
Lemma lit_line l : readable_lit l -> all not_lf (show_lit l).
Proof.
  intros [c G|s F|n L]; cbn [show_lit].
  - unfold debug_char. repeat (apply Forall_app; split); try (repeat constructor). apply escape_line; auto.
  - unfold debug_str. repeat (apply Forall_app; split); try (repeat constructor).
    induction F as [|c s G F IH]; cbn [flat_map]; [constructor|]. apply Forall_app. split; auto. apply escape_line; auto.
  - destruct (show_N_spec n) as (_&D&_). eapply Forall_impl; [|exact D]. intros c H. unfold dec_digit in H. unfold not_lf.
    destruct (N.eqb_spec c 10); auto. lia.
Qed.

(** ** Names *)

Lemma name_lexeme s v : a_name s -> stops word_char v -> stops script v -> lexeme s (TLower s) v.
Proof.
  intros (L&_) W Sc. remember (TLower s) as t eqn:E. remember ([] : str) as z.
  destruct L; try discriminate; subst.
  - cbn in H. intuition congruence.
  - cbn in H. intuition congruence.
  - apply le_name; auto. rewrite app_nil_r in H3. destruct s as [|d s]; [exact W|exact H3].
  - cbn in H. intuition congruence.
Qed.
Lemma name_parts s : a_name s -> exists c u x, s = c :: u ++ x /\ is_lower c = true /\ all word_char (c :: u) /\ all script x.
Proof.
  intros (L&_). remember (TLower s) as t eqn:E. destruct L; try discriminate; subst.
  - cbn in H. intuition congruence.
  - cbn in H. intuition congruence.
  - eauto 10.
  - cbn in H. intuition congruence.
Qed.
Lemma word_clean c : word_char c = true \/ script c = true \/ op_char c = true -> c <> 10%N /\ c <> 27%N.
Proof. intros H. split; intros ->; destruct H as [H|[H|H]]; cbv in H; discriminate. Qed.
Lemma name_clean s : a_name s -> Forall (fun c => c <> 10%N /\ c <> 27%N) s.
Proof.
  intros H. apply name_parts in H as (c&u&x&->&_&W&Sc). change (c :: u ++ x) with ((c :: u) ++ x). apply Forall_app. split.
  - eapply Forall_impl; [|exact W]. intros d Hd. apply word_clean. auto.
  - eapply Forall_impl; [|exact Sc]. intros d Hd. apply word_clean. auto.
Qed.
Lemma name_front s : a_name s -> after_op s.
Proof.
  intros H. destruct (name_parts _ H) as (c&u&x&->&L&_). destruct H as (_&S). split; [discriminate|]. split; auto.
  cbn. destruct (op_char c) eqn:E; auto. exfalso. unfold op_char, mem in E. apply existsb_exists in E as (d&I&E).
  apply N.eqb_eq in E. subst d. cbn in I. repeat (destruct I as [<-|I]; [cbv in L; discriminate|]). destruct I.
Qed.

(** ** Operators *)

Lemma show_infix_text o : an_operator o 32 -> show_infix o = op_text o.
Proof.
  destruct o as [s|s]; auto. intros ((t&L&_)&_). cbn [show_infix op_text].
  destruct (Nat.eqb (blen s) 1 && str_eqb s [39%N]) eqn:E; auto. exfalso.
  apply andb_true_iff in E as (_&E). assert (s = [39%N]).
  { destruct s as [|c [|d s]]; cbn in E; try discriminate.
    - rewrite andb_true_r in E. apply N.eqb_eq in E. congruence.
    - apply andb_true_iff in E as (_&E). discriminate. }
  subst s. cbn [op_text] in L. remember (39%N :: [39%N]) as x. remember [32%N] as z.
  destruct L; try discriminate; subst; try (injection Heqx as -> ->; congruence).
  - cbn in H. intuition discriminate.
  - injection Heqx as -> _. discriminate.
  - inversion H0. discriminate.
  - injection Heqx as -> _. discriminate.
  - cbn in H. intuition discriminate.
  - destruct u as [|a u]; [congruence|]. injection Heqx as -> _. inversion H0. discriminate.
Qed.

Lemma lexeme_longer s t c v : lexeme s t [c] -> lexeme s t (c :: v).
Proof.
  intros L. remember [c] as z eqn:E. destruct L; subst;
    try (econstructor; eauto; fail).
  - apply le_name; auto. destruct s as [|d s]; auto.
  - apply le_unicode; auto. intros ->. discriminate (H6 eq_refl).
  - apply le_quoted; auto.
    + destruct s; auto.
    + destruct u; auto. destruct s; auto.
    + destruct u; auto. destruct s; auto.
  - apply le_op; auto. destruct s; auto.
Qed.

Lemma section_clean s v : lexeme s (TAffix s false) v -> Forall (fun c => c <> 10%N /\ c <> 27%N) s.
Proof.
  intros L. remember (TAffix s false) as t eqn:E. destruct L; try discriminate.
  - cbn in H. intuition congruence.
  - cbn in H. intuition congruence.
  - cbn in H. intuition congruence.
  - apply Forall_app. split.
    + eapply Forall_impl; [|exact H0]. intros d Hd. apply word_clean. auto.
    + eapply Forall_impl; [|exact H1]. intros d Hd. apply word_clean. auto.
Qed.

Lemma op_clean o c : an_operator o c -> Forall (fun c => c <> 10%N /\ c <> 27%N) (op_text o) /\ no_esc (symbol o).
Proof.
  intros (_&A&B). split; auto.
  assert (F : Forall (fun c => c <> 10%N /\ c <> 27%N) (symbol o)).
  { apply Forall_forall. intros d Hd. split; intros ->; auto. }
  destruct o; auto. constructor; auto. split; discriminate.
Qed.
Lemma op_some o c : an_operator o c -> op_text o <> [].
Proof.
  intros ((t&L&O)&_) E. destruct o as [s|s]; [|discriminate]. cbn in E. subst s. cbn [op_text] in L.
  remember ([] : str) as z. remember [c] as y. destruct L; try discriminate; subst.
  - cbn in H. intuition congruence.
  - congruence.
  - cbn in H. intuition congruence.
  - destruct u; [congruence|discriminate].
Qed.

End WithUcd.
