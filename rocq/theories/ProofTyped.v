(** What is typed consists of tokens, and plain tokens can be read back. *)
From Coq Require Import List Arith NArith Bool Lia String.
From Verif Require Import Prelim Chars Syntax Fixity SpecFixity Style SpecStyle Lexer SpecLexer Parser SpecParser Printer SpecPrinter SpecTyped.
From Verif Require Import ProofTable ProofLexer4 ProofLexer6 ProofFixity ProofRewrite ProofResolve ProofResolve2 ProofParser7 ProofParser8 ProofPrinter ProofPrinter3 ProofPrinter6 ProofPrinter9.
Import ListNotations.

Lemma str_eqb_in s l : existsb (str_eqb s) l = false -> ~ In s l.
Proof.
  intros H I. assert (existsb (str_eqb s) l = true); [|congruence].
  apply existsb_exists. exists s. split; auto. destruct (str_eqb_spec s s); congruence.
Qed.

Lemma mem_in s c : mem s c = true <-> In c s.
Proof.
  unfold mem. rewrite existsb_exists. split.
  - intros (x&I&E). apply N.eqb_eq in E. now subst.
  - intros I. exists c. split; auto. apply N.eqb_refl.
Qed.
Lemma mem_not s c : mem s c = false -> ~ In c s.
Proof. intros H I. apply mem_in in I. congruence. Qed.

Section WithUcd.
Context {U : ucd}.
Hypothesis HU : letters U.
Hypothesis HS : scripts U.

Lemma graphicb_spec c : graphicb c = true -> graphic c.
Proof.
  unfold graphicb, graphic. intros H. apply orb_true_iff in H as [H|H].
  - apply orb_true_iff in H as [H|H].
    + left. now apply mem_in.
    + right. left. apply andb_true_iff in H as (A&B). apply N.leb_le in A. apply N.ltb_lt in B. lia.
  - right. right. apply andb_true_iff in H as (A&B). apply andb_true_iff in A as (A&C). apply N.ltb_lt in A.
    split; auto. split; auto. intros G. apply orb_true_iff in B as [B|B].
    + apply N.ltb_lt in B. lia.
    + now apply negb_true_iff in B.
Qed.

Lemma script_big c : script c = true -> (128 <= c)%N.
Proof.
  intros H. apply mem_in in H. cbn in H. repeat (destruct H as [<-|H]; [discriminate|]). destruct H.
Qed.
Lemma script_lower c : script c = true -> is_lower c = false /\ is_upper c = false.
Proof.
  intros H. pose proof (script_big c H). unfold is_lower, is_upper. destruct (N.ltb_spec c 128); [lia|]. auto.
Qed.
Lemma script_start c : script c = true -> word_start c = false.
Proof.
  intros H. pose proof (script_big c H). destruct (script_lower c H) as (A&B). unfold word_start. rewrite A, B.
  destruct (N.eqb_spec c 95); auto. lia.
Qed.
Lemma script_white c : script c = true -> is_white c = false.
Proof.
  intros H. apply mem_in in H. cbn in H. repeat (destruct H as [<-|H]; [reflexivity|]). destruct H.
Qed.
Lemma char_white c : word_char c = true -> is_white c = false.
Proof.
  unfold word_char, is_alnum, is_alpha, is_numeric. intros H.
  destruct (N.ltb_spec c 128) as [L|L].
  - destruct (is_white c) eqn:W; auto. exfalso.
    assert (K : In c [9; 10; 11; 12; 13; 32]%N).
    { unfold is_white in W. repeat (apply orb_true_iff in W as [W|W]); try (apply N.eqb_eq in W; subst; cbn; auto; lia);
        unfold between in W; apply andb_true_iff in W as (A&B); apply N.leb_le in A, B; [|lia].
      assert (c = 9 \/ c = 10 \/ c = 11 \/ c = 12 \/ c = 13)%N as [-> | [-> | [-> | [-> | ->]]]] by lia; cbn; auto 10. }
    clear - H K. cbn in K. repeat (destruct K as [<-|K]; [discriminate|]). destruct K.
  - apply orb_true_iff in H as [H|H]; [apply orb_true_iff in H as [H|H]|].
    + destruct (HU c) as (_&X&_). apply X. now apply orb_true_iff in H.
    + apply N.eqb_eq in H. lia.
    + apply N.eqb_eq in H. lia.
Qed.
Lemma lower_upper c : is_lower c = true -> is_upper c = false.
Proof.
  unfold is_lower, is_upper. destruct (N.ltb_spec c 128) as [L|L].
  - unfold ascii_lower, ascii_upper, between. intros H. apply andb_true_iff in H as (A&B). apply N.leb_le in A.
    destruct (N.leb_spec c 90); [lia|]. apply andb_false_r.
  - destruct (HU c) as (_&_&X). exact X.
Qed.
Lemma op_not_word c : op_char c = true -> word_start c = false.
Proof.
  intros H. apply mem_in in H. cbn in H. repeat (destruct H as [<-|H]; [reflexivity|]). destruct H.
Qed.
Lemma lower_start c : is_lower c = true -> word_start c = true.
Proof. intros H. unfold word_start. rewrite H. apply orb_true_r. Qed.

(** * Tokens *)

(** It is the token of some text. *)
Definition token_made (t : token) : Prop := exists w v, lexeme w t v.
Definition op_made (o : infix) : Prop := exists t, token_made t /\ operator t o.

Ltac listed H := cbn in H; repeat (destruct H as [H|H]; [inversion H; fail|]); try destruct H.

Lemma upper_made s : ~ token_made (TUpper s).
Proof.
  intros (w&v&L). remember (TUpper s) as t eqn:E. destruct L; try discriminate; subst; listed H.
Qed.

Lemma lower_made s : token_made (TLower s) -> exists c u x, s = c :: u ++ x /\ is_lower c = true /\
  all word_char (c :: u) /\ all script x /\ stops word_char x /\ ~ In s (map fst reserved).
Proof.
  intros (w&v&L). remember (TLower s) as t eqn:E. destruct L; try discriminate; subst; try (listed H; fail).
  injection E as <-. exists c, u, s0. repeat split; auto. destruct s0; [exact I|exact H3].
Qed.

Lemma std_made s : token_made (TAffix s false) -> exists u x, s = u ++ x /\ u <> [] /\ all op_char u /\ all script x /\
  stops op_char x /\ ~ In s (map fst symbols) /\ s <> lit "~~".
Proof.
  intros (w&v&L). remember (TAffix s false) as t eqn:E. destruct L; try discriminate; subst; try (listed H; fail).
  injection E as <-. exists u, s0. repeat split; auto. destruct s0; [exact I|exact H2].
Qed.

Lemma prom_made s : token_made (TAffix s true) ->
  (exists c u x, s = c :: u ++ x /\ word_start c = true /\ all word_char u /\ all script x /\ stops word_char x) \/
  (exists c d, s = [c; d] /\ c <> 39%N /\ c <> 92%N /\ c <> 0%N /\ is_white d = true).
Proof.
  intros (w&v&L). remember (TAffix s true) as t eqn:E. destruct L; try discriminate; subst; try (listed H; fail).
  - injection E as <-. left. exists c, u, s0. repeat split; auto.
  - injection E as <-. left. exists c, u, s0. repeat split; auto. destruct s0; [exact I|exact H2].
  - injection E as <-. right. exists c, d. repeat split; auto.
Qed.

Lemma literal_made x : token_made (TLit x) -> plain_lit x = true -> readable_lit x.
Proof.
  intros (w&v&L) P. remember (TLit x) as t eqn:E. destruct L; try discriminate; subst; try (listed H; fail);
    injection E as <-; cbn [plain_lit] in P.
  - apply rl_int; auto.
  - apply rl_str. rewrite forallb_forall in P. apply Forall_forall. intros c I. apply graphicb_spec. auto.
  - apply rl_char. now apply graphicb_spec.
  - apply rl_char. now apply graphicb_spec.
  - apply rl_char. now apply graphicb_spec.
Qed.

Lemma make_name c u x : is_lower c = true -> all word_char (c :: u) -> all script x -> stops word_char x ->
  ~ In (c :: u ++ x) (map fst reserved) -> a_name (c :: u ++ x).
Proof.
  intros A B C D N. split.
  - apply le_name; auto. + now apply lower_upper. + now rewrite app_nil_r. + exact I.
  - cbn. destruct (script c) eqn:E; auto. apply script_lower in E as (E&_). congruence.
Qed.

Lemma name_made s : token_made (TLower s) -> a_name s.
Proof. intros H. apply lower_made in H as (c&u&x&->&A&B&C&D&N). apply make_name; auto. Qed.

Lemma variable_made s b : token_made (TAffix s b) -> plain_name s = true -> a_name s.
Proof.
  intros M P. unfold plain_name in P. apply andb_true_iff in P as (P&R). apply andb_true_iff in P as (P&W).
  apply negb_true_iff, str_eqb_in in R. rewrite forallb_forall in W. destruct b.
  - apply prom_made in M as [(c&u&x&->&A&B&C&D)|(c&d&->&_&_&_&Wd)].
    + apply make_name; auto. constructor; auto. now apply word_start_char.
    + exfalso. specialize (W d (or_intror (or_introl eq_refl))). apply orb_true_iff in W as [W|W].
      * apply char_white in W. congruence.
      * apply script_white in W. congruence.
  - apply std_made in M as (u&x&->&N&A&_). exfalso. destruct u as [|c u]; [congruence|]. cbn in P. inversion A as [|? ? Hc _]; subst.
    apply op_not_word in Hc. apply lower_start in P. congruence.
Qed.

(** Followed by a character that cannot be part of it, an operator is read
    back. *)
Definition ender (z : chr) : Prop := word_char z = false /\ script z = false /\ op_char z = false /\ z <> 123%N /\ z <> 39%N.

Lemma std_lexeme s z : ender z -> token_made (TAffix s false) -> lexeme s (TAffix s false) [z].
Proof.
  intros (Z1&Z2&Z3&Z4&Z5) M. apply std_made in M as (u&x&->&N&A&B&C&D&E). apply le_op; auto.
  - destruct x; [exact Z3|exact C].
  - intros _. unfold stops. destruct (N.eqb_spec 123 z); congruence.
Qed.

Lemma op_back o z : ender z -> op_made o -> plain_op o = true -> an_operator o z.
Proof.
  intros Z (t&M&O) P. pose proof Z as (Z1&Z2&Z3&Z4&Z5). unfold an_operator. destruct O.
  - split; [|split; cbn; intuition discriminate]. exists TDash. split; [|constructor]. apply le_symbol; cbn; auto.
  - split; [|split; cbn; intuition discriminate]. exists TAt. split; [|constructor]. apply le_symbol; cbn; auto.
  - split; [exists (TAffix s false); split; [|constructor]; now apply std_lexeme|].
    apply std_made in M as (u&x&->&_&A&B&_). cbn [symbol]. unfold all in *. rewrite Forall_forall in *.
    split; intros I; apply in_app_or in I as [I|I]; [apply A in I|apply B in I|apply A in I|apply B in I]; discriminate.
  - destruct s as [|c [|d s]]; try discriminate. cbn [plain_op] in P. apply andb_true_iff in P as (P&N2).
    apply andb_true_iff in P as (P&N1). apply negb_true_iff in P, N1, N2. apply mem_not in N1, N2.
    split; [|split; [exact N1|exact N2]]. exists (TAffix (c :: d :: s) true). split; [|constructor]. cbn [op_text].
    apply prom_made in M as [(c'&u&x&E&A&B&C&D)|(c'&d'&E&A&B&C&D)].
    + injection E as <- E. rewrite E.
      assert (K : word_char d = true \/ script d = true).
      { destruct u as [|d' u]; cbn in E; [destruct x; [discriminate|]|]; injection E as <- _.
        - right. now inversion C.
        - left. now inversion B. }
      apply le_quoted; auto.
      * destruct x; [exact Z1|exact D].
      * rewrite app_assoc, <- E. cbn [app]. unfold stops. now rewrite N.eqb_sym.
      * rewrite app_assoc, <- E. cbn. destruct K as [K|K]; [now apply char_white|now apply script_white].
    + injection E as <- <- ->. apply le_quoted_white; auto.
Qed.

Lemma section_back s b : token_made (TAffix s b) -> forallb (fun c => op_char c || script c) s = true ->
  lexeme s (TAffix s false) [41%N].
Proof.
  intros M F. rewrite forallb_forall in F. destruct b.
  - exfalso. apply prom_made in M as [(c&u&x&->&A&_)|(c&d&->&_&_&_&W)].
    + specialize (F c (or_introl eq_refl)). apply orb_true_iff in F as [F|F];
        [apply op_not_word in F|apply script_start in F]; congruence.
    + specialize (F d (or_intror (or_introl eq_refl))). apply orb_true_iff in F as [F|F].
      * apply op_white in F. congruence.
      * apply script_white in F. congruence.
  - apply std_lexeme; auto. repeat split; try reflexivity; discriminate.
Qed.

End WithUcd.
