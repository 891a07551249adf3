(** Words, lines, paths and the texts of files. *)
From Coq Require Import List Arith NArith Bool String Lia.
From Verif Require Import Prelim Chars Syntax Fixity Style Lexer Parser Printer Grapheme Messages Repl
  SpecGrapheme SpecLexer SpecParser SpecFixity SpecRepl ProofBytes ProofTable ProofGrapheme ProofRepl ProofRepl2.
Import ListNotations.
Local Open Scope string_scope.
Local Open Scope list_scope.

(** * Pieces *)

Lemma pieces_sep sep x c y : sep c = true -> forall cur, pieces sep cur (x ++ c :: y) = pieces sep cur x ++ pieces sep [] y.
Proof.
  intros E. induction x as [|d x IH]; intros cur; cbn [app pieces].
  - now rewrite E.
  - destruct (sep d); cbn [app]; [f_equal|]; apply IH.
Qed.

Lemma pieces_whole sep y : Forall (fun c => sep c = false) y -> forall cur, pieces sep cur y = [cur ++ y].
Proof.
  induction 1 as [|c y E _ IH]; intros cur; cbn [pieces]; [now rewrite app_nil_r|].
  rewrite E, IH, <- app_assoc. reflexivity.
Qed.

Lemma pieces_nonempty sep s : forall cur, pieces sep cur s <> [].
Proof. induction s as [|c s IH]; intros cur; cbn [pieces]; [discriminate|]. destruct (sep c); [discriminate|apply IH]. Qed.

Fixpoint glue (c : chr) (ls : list str) : str :=
  match ls with
  | [] => []
  | [l] => l
  | l :: ls' => l ++ c :: glue c ls'
  end.

Lemma glue_cons c l ls : ls <> [] -> glue c (l :: ls) = l ++ c :: glue c ls.
Proof. destruct ls; [congruence|reflexivity]. Qed.

Lemma glue_join ls : join ls = glue 10 ls.
Proof. induction ls as [|l [|l' ls] IH]; auto. cbn [join glue]. f_equal. f_equal. apply IH. Qed.

Lemma pieces_glue c s : forall cur, glue c (pieces (N.eqb c) cur s) = cur ++ s.
Proof.
  induction s as [|d s IH]; intros cur; cbn [pieces]; [cbn; now rewrite app_nil_r|].
  destruct (N.eqb_spec c d) as [<-|_].
  - rewrite glue_cons by apply pieces_nonempty. now rewrite IH.
  - rewrite IH, <- app_assoc. reflexivity.
Qed.

Lemma pieces_free c s : forall cur, ~ In c cur -> Forall (fun l => ~ In c l) (pieces (N.eqb c) cur s).
Proof.
  induction s as [|d s IH]; intros cur H; cbn [pieces]; [auto|].
  destruct (N.eqb_spec c d) as [<-|Ne].
  - constructor; auto.
  - apply IH. rewrite in_app_iff. intros [I|[I|[]]]; auto.
Qed.

Lemma free_eqb (c : chr) l : ~ In c l <-> Forall (fun d => N.eqb c d = false) l.
Proof.
  rewrite Forall_forall. split.
  - intros H x I. apply N.eqb_neq. intros <-. auto.
  - intros H I. specialize (H c I). rewrite N.eqb_refl in H. discriminate.
Qed.

Lemma pieces_unglue c ls : ls <> [] -> Forall (fun l => ~ In c l) ls -> pieces (N.eqb c) [] (glue c ls) = ls.
Proof.
  intros Ne F. induction F as [|l ls H F IH]; [congruence|]. destruct ls as [|l' ls].
  - cbn [glue]. rewrite pieces_whole by (apply free_eqb; auto). reflexivity.
  - rewrite glue_cons by discriminate. rewrite pieces_sep by apply N.eqb_refl.
    rewrite pieces_whole by (apply free_eqb; auto). cbn [app]. f_equal. apply IH. discriminate.
Qed.

(** * Words *)

Lemma split_white a s : white a -> split_whitespace (a ++ s) = split_whitespace s.
Proof. induction 1 as [|c a W _ IH]; auto. unfold split_whitespace in *. cbn [app pieces]. rewrite W. cbn. exact IH. Qed.

Lemma split_word p b : word p -> starts_white b -> split_whitespace (p ++ b) = p :: split_whitespace b.
Proof.
  intros (Ne&W) B. unfold split_whitespace. destruct b as [|c b].
  - rewrite app_nil_r, (pieces_whole is_white p W []). cbn. destruct p; [congruence|reflexivity].
  - cbn in B. rewrite (pieces_sep is_white p c b B []), (pieces_whole is_white p W []). cbn [app filter pieces]. rewrite B.
    cbn. destruct p; [congruence|reflexivity].
Qed.

Lemma split_words s ws : word_list s ws -> split_whitespace s = ws.
Proof.
  induction 1 as [s W|s a p b ws (->&Wa&Wp&Sb) L IH].
  - rewrite <- (app_nil_r s). now rewrite split_white.
  - rewrite split_white, split_word by auto. now rewrite IH.
Qed.

Lemma words_total s : exists ws, word_list s ws.
Proof.
  remember (List.length s) as n eqn:E. revert s E. induction n as [n IH] using lt_wf_ind. intros s ->.
  destruct (first_word s) as [p|] eqn:F.
  - apply first_word_some in F as (a&b&S0). destruct (IH (List.length b)) with (s := b) as (ws&W); auto.
    { destruct S0 as (->&_&(Ne&_)&_). rewrite !app_length. destruct p; [congruence|cbn; lia]. }
    exists (p :: ws). econstructor; eauto.
  - exists []. constructor. now apply first_word_none.
Qed.

Lemma split_whitespace_iff s ws : split_whitespace s = ws <-> word_list s ws.
Proof.
  split; [|apply split_words]. intros <-. destruct (words_total s) as (ws&W). now rewrite (split_words s ws W).
Qed.

(** * Paths *)

Lemma starts_with_cons c s : starts_with [c] s = true <-> starts c s.
Proof. symmetry. apply starts_iff. Qed.
Lemma ends_with_cons c s : ends_with [c] s = true <-> ends c s.
Proof. symmetry. apply ends_iff. Qed.

Lemma unquote_iff p q : unquote p = Ok q <-> path_of p q.
Proof.
  unfold unquote. split.
  - destruct (starts_with [34%N] p && ends_with [34%N] p) eqn:E.
    + apply andb_true_iff in E as (A&B). apply starts_with_cons in A as (x&->). apply ends_with_cons in B as (y&E).
      intros X. change (34%N :: x) with ([34%N] ++ x) in X. rewrite after_app in X by reflexivity. injection X as <-.
      destruct y as [|d y]; cbn in E.
      * injection E as ->. constructor.
      * injection E as <- ->. constructor.
    + intros X. injection X as <-. constructor.
      * intros x ->. apply andb_false_iff in E as [E|E]; [|rewrite (proj2 (ends_with_cons 34 (34%N :: x ++ [34%N]))) in E; [discriminate|]].
        { cbn in E. discriminate. } exists (34%N :: x). reflexivity.
      * intros ->. discriminate.
  - intros H. destruct H as [x| |p H1 H2].
    + rewrite (proj2 (ends_with_cons 34 (34%N :: x ++ [34%N]))) by (exists (34%N :: x); reflexivity).
      change (34%N :: x ++ [34%N]) with ([34%N] ++ x ++ [34%N]). cbn [starts_with app]. rewrite N.eqb_refl. cbn [andb].
      change (34%N :: x ++ [34%N]) with ([34%N] ++ x ++ [34%N]). now rewrite after_app by reflexivity.
    + reflexivity.
    + destruct (starts_with [34%N] p && ends_with [34%N] p) eqn:E; auto. exfalso.
      apply andb_true_iff in E as (A&B). apply starts_with_cons in A as (x&->). apply ends_with_cons in B as (y&E).
      destruct y as [|d y]; cbn in E; [injection E as ->; auto|]. injection E as <- ->. eapply H1; eauto.
Qed.

Lemma unquote_total p : exists q, unquote p = Ok q.
Proof.
  unfold unquote. destruct (starts_with [34%N] p && ends_with [34%N] p) eqn:E; eauto.
  apply andb_true_iff in E as (A&B). apply starts_with_cons in A as (x&->).
  change (34%N :: x) with ([34%N] ++ x). rewrite after_app by reflexivity. eauto.
Qed.

Definition junk (l : str) : Prop := l = [] \/ l = lit ".".
Definition real (l : str) : bool := negb (is_nil l || str_eqb l (lit ".")).

Lemma real_false l : real l = false <-> junk l.
Proof.
  unfold real, junk. rewrite negb_false_iff, orb_true_iff, is_nil_spec.
  destruct (str_eqb_spec l (lit ".")); split; intros [H|H]; auto; try discriminate; congruence.
Qed.

Lemma junk_pieces z : dot_slashes z -> forall cur, junk cur -> filter real (pieces (N.eqb 47) cur z) = [].
Proof.
  assert (J0 : junk []) by (left; auto). assert (J1 : junk (lit ".")) by (right; auto).
  induction 1 as [|z D IH|z D IH]; intros cur J; cbn [pieces filter app].
  - now rewrite (proj2 (real_false cur) J).
  - rewrite N.eqb_refl. cbn [filter]. rewrite (proj2 (real_false cur) J). auto.
  - rewrite N.eqb_refl. cbn [filter]. rewrite (proj2 (real_false cur) J).
    replace (N.eqb 47 46) with false by reflexivity. apply IH. auto.
Qed.

Lemma tail_pieces f z : ~ In 47%N f -> dot_slashes z ->
  filter real (pieces (N.eqb 47) [] (f ++ z)) = filter real [f].
Proof.
  intros N D. assert (J0 : junk []) by (left; auto). assert (J1 : junk (lit ".")) by (right; auto).
  inversion D as [|z' D'|z' D']; subst.
  - rewrite app_nil_r, pieces_whole by (apply free_eqb; auto). reflexivity.
  - rewrite pieces_sep, pieces_whole by (try apply free_eqb; auto). cbn [app filter].
    now rewrite junk_pieces by auto.
  - rewrite pieces_sep, pieces_whole by (try apply free_eqb; auto). cbn [app filter].
    cbn [pieces]. replace (N.eqb 47 46) with false by reflexivity. cbn [app].
    now rewrite junk_pieces by auto.
Qed.

Lemma junk_slashes ls : filter real ls = [] -> dot_slashes (List.concat (map (cons 47%N) ls)).
Proof.
  induction ls as [|l ls IH]; cbn; [constructor|].
  destruct (real l) eqn:R; [discriminate|]. intros H. apply real_false in R as [->| ->]; cbn; [apply ds_slash|apply ds_dot]; auto.
Qed.

Lemma glue_mid c l1 f l2 :
  glue c (l1 ++ f :: l2) = List.concat (map (fun l => l ++ [c]) l1) ++ f ++ List.concat (map (cons c) l2).
Proof.
  induction l1 as [|l l1 IH]; cbn [app map List.concat].
  - revert f. induction l2 as [|l l2 IH]; intros f; cbn [map List.concat].
    + cbn. now rewrite app_nil_r.
    + rewrite glue_cons by discriminate. rewrite IH. reflexivity.
  - rewrite glue_cons by (destruct l1; discriminate). rewrite IH, <- !app_assoc. reflexivity.
Qed.

Lemma filter_last {A} (f : A -> bool) l x r : rev (filter f l) = x :: r ->
  exists l1 l2, l = l1 ++ x :: l2 /\ filter f l2 = [] /\ f x = true.
Proof.
  revert x r. induction l as [|a l IH]; intros x r; cbn; [discriminate|].
  destruct (f a) eqn:E.
  - cbn. destruct (rev (filter f l)) as [|y z] eqn:R.
    + cbn. intros X. injection X as -> _. exists [], l. split; auto. split; auto.
      rewrite <- (rev_involutive (filter f l)), R. reflexivity.
    + cbn. intros X. injection X as -> _. destruct (IH x z eq_refl) as (l1&l2&->&F&T). exists (a :: l1), l2. auto.
  - intros R. destruct (IH x r R) as (l1&l2&->&F&T). exists (a :: l1), l2. auto.
Qed.

Definition is_hs (p : str) : bool := match extension p with Some e => str_eqb e (lit "hs") | None => false end.

Lemma extension_spec f : (match rev (pieces (N.eqb 46) [] f) with
  | [_] | [] => None | [_; []] => None | e :: _ => Some e end) = Some (lit "hs") <-> exists x, x <> [] /\ f = x ++ lit ".hs".
Proof.
  split.
  - intros H. pose proof (pieces_glue 46 f []) as G. cbn [app] in G.
    destruct (rev (pieces (N.eqb 46) [] f)) as [|e r] eqn:R; [discriminate|].
    apply (f_equal (@rev str)) in R. rewrite rev_involutive in R. cbn in R.
    destruct r as [|y r]; [discriminate|]. rewrite R in G. rewrite glue_mid in G. cbn [map List.concat] in G. rewrite app_nil_r in G.
    assert (E : e = lit "hs") by (destruct y, r; congruence). subst e.
    cbn [rev] in G. rewrite map_app, concat_app in G. cbn [map List.concat] in G. rewrite app_nil_r in G.
    rewrite <- !app_assoc in G. cbn [app] in G.
    exists (List.concat (map (fun l => l ++ [46%N]) (rev r)) ++ y). split; [|rewrite <- app_assoc; auto].
    intros Z. apply app_eq_nil in Z as (Z1&->). destruct r as [|z r]; [discriminate|].
    cbn [rev] in Z1. rewrite map_app, concat_app in Z1. apply app_eq_nil in Z1 as (_&Z1). cbn in Z1. rewrite app_nil_r in Z1.
    destruct z; discriminate.
  - intros (x&Ne&->). change (lit ".hs") with (46%N :: lit "hs"). rewrite pieces_sep by reflexivity.
    replace (pieces (N.eqb 46) [] (lit "hs")) with [lit "hs"] by reflexivity.
    rewrite rev_app_distr. cbn [rev app].
    pose proof (pieces_glue 46 x []) as G. cbn [app] in G.
    destruct (rev (pieces (N.eqb 46) [] x)) as [|y r] eqn:R.
    + apply (f_equal (@rev str)) in R. rewrite rev_involutive in R. cbn in R. rewrite R in G. cbn in G. congruence.
    + destruct y; [|reflexivity]. destruct r; [|reflexivity].
      apply (f_equal (@rev str)) in R. rewrite rev_involutive in R. cbn in R. rewrite R in G. cbn in G. congruence.
Qed.

Lemma is_hs_iff p : is_hs p = true <-> hs_path p.
Proof.
  unfold is_hs, extension. split.
  - destruct (file_name p) as [f|] eqn:F; [|discriminate].
    destruct (match rev (pieces (N.eqb 46) [] f) with [_] | [] => None | [_; []] => None | e :: _ => Some e end) as [e|] eqn:X; [|discriminate].
    destruct (str_eqb_spec e (lit "hs")) as [->|]; [|discriminate]. intros _.
    apply extension_spec in X as (x&Ne&->).
    unfold file_name in F. fold real in F.
    destruct (rev (filter real (pieces (N.eqb 47) [] p))) as [|c r] eqn:R; [discriminate|].
    destruct (str_eqb c (lit "..")); [discriminate|]. injection F as ->.
    apply filter_last in R as (l1&l2&E&J&_).
    pose proof (pieces_free 47 p [] ltac:(auto)) as Fr. rewrite E in Fr. apply Forall_app in Fr as (_&Fr). inversion Fr as [|? ? Fr1 _]; subst.
    pose proof (pieces_glue 47 p []) as G. cbn [app] in G. rewrite E, glue_mid in G.
    exists (List.concat (map (fun l => l ++ [47%N]) l1)), x, (List.concat (map (cons 47%N) l2)).
    split; [now rewrite <- G, <- !app_assoc|]. split; [|split; [auto|split; [|now apply junk_slashes]]].
    + destruct l1 as [|l l1] using rev_ind; auto. right. rewrite map_app, concat_app. cbn [map List.concat]. rewrite app_nil_r, app_assoc.
      eexists. reflexivity.
    + intros I. apply Fr1. apply in_or_app. auto.
  - intros (d&f&z&->&D&Ne&N47&Z).
    assert (N47' : ~ In 47%N (f ++ lit ".hs")).
    { rewrite in_app_iff. intros [I|[I|[I|[I|[]]]]]; auto; discriminate. }
    assert (Rl : real (f ++ lit ".hs") = true).
    { destruct (real (f ++ lit ".hs")) eqn:R; auto. apply real_false in R as [R|R].
      - destruct f; discriminate.
      - destruct f as [|? [|? ?]]; discriminate. }
    assert (E : exists r, rev (filter real (pieces (N.eqb 47) [] (d ++ f ++ lit ".hs" ++ z))) = (f ++ lit ".hs") :: r).
    { replace (f ++ lit ".hs" ++ z) with ((f ++ lit ".hs") ++ z) by now rewrite <- app_assoc. destruct D as [->|(d'&->)].
      - cbn [app]. rewrite tail_pieces by auto. cbn [filter]. rewrite Rl. exists []. reflexivity.
      - rewrite <- (app_assoc d'). cbn [app]. rewrite pieces_sep by reflexivity. rewrite filter_app, rev_app_distr.
        rewrite tail_pieces by auto. cbn [filter]. rewrite Rl. eexists. reflexivity. }
    destruct E as (r&E). unfold file_name. fold real. rewrite E.
    destruct (str_eqb_spec (f ++ lit ".hs") (lit "..")) as [X|_].
    { destruct f as [|? [|? [|? ?]]]; [congruence| | |]; discriminate. }
    rewrite (proj2 (extension_spec (f ++ lit ".hs"))) by eauto. reflexivity.
Qed.

(** * Texts of files *)

Lemma lines_iff t ls : lines t = ls <-> text_lines t ls.
Proof.
  assert (Q : forall l, all not_lf l <-> ~ In 10%N l).
  { intros l. unfold all, not_lf. rewrite free_eqb, !Forall_forall. split; intros H a Ia; specialize (H a Ia); cbv beta in *.
    - apply negb_true_iff in H. now rewrite N.eqb_sym.
    - apply negb_true_iff. now rewrite N.eqb_sym. }
  unfold lines, text_lines. split.
  - intros <-. split; [rewrite glue_join; symmetry; apply pieces_glue|]. split; [apply pieces_nonempty|].
    pose proof (pieces_free 10 t [] ltac:(auto)) as F. eapply Forall_impl; [|exact F]. intros l. apply Q.
  - intros (->&Ne&F). rewrite glue_join. apply pieces_unglue; auto. eapply Forall_impl; [|exact F]. intros l. apply Q.
Qed.

Lemma starts_infix l : starts_with (lit "infix") (trim l) = true <-> exists x, trimmed l (lit "infix" ++ x).
Proof.
  rewrite starts_with_spec. split.
  - intros (x&E). exists x. rewrite <- E. apply trim_spec.
  - intros (x&T). exists x. symmetry. symmetry. now apply trim_unique.
Qed.

Lemma fixity_lines_iff ls xs : filter (starts_with (lit "infix")) (map trim ls) = xs <-> fixity_lines ls xs.
Proof.
  split.
  - intros <-. induction ls as [|l ls IH]; cbn [map filter]; [constructor|].
    destruct (starts_with (lit "infix") (trim l)) eqn:E.
    + apply starts_infix in E as (x&T). pose proof (trim_unique _ _ T) as E. rewrite E. now constructor.
    + constructor; auto. intros x T. assert (starts_with (lit "infix") (trim l) = true) by (apply starts_infix; eauto). congruence.
  - induction 1 as [|l x ls xs T _ IH|l ls xs H _ IH]; cbn [map filter]; auto.
    + rewrite (proj2 (starts_infix l)) by eauto. rewrite (trim_unique _ _ T). now f_equal.
    + destruct (starts_with (lit "infix") (trim l)) eqn:E; auto. apply starts_infix in E as (x&T). elim (H x T).
Qed.

Lemma relevant_iff p t x : relevant p t = x <-> loaded_text p t x.
Proof.
  unfold relevant. fold (is_hs p). split.
  - intros <-. destruct (is_hs p) eqn:E.
    + eapply lt_haskell; [now apply is_hs_iff|now apply lines_iff|now apply fixity_lines_iff].
    + constructor. intros H. apply is_hs_iff in H. congruence.
  - intros H. destruct H as [H|ls xs H T F].
    + destruct (is_hs p) eqn:E; auto. apply is_hs_iff in E. tauto.
    + apply is_hs_iff in H. rewrite H. apply lines_iff in T. apply fixity_lines_iff in F. now subst.
Qed.
