(** C92 to C94. *)
From Coq Require Import List Arith NArith ZArith Bool String Lia.
From Verif Require Import Prelim Chars Syntax Style SpecChars Printer Compare ProofDigits PropsChars.
Import ListNotations.
Local Open Scope N_scope.

(** * C92: the next character compared with a given one *)

(** Exactly when the comparisons succeed. *)
Theorem C92_exact : forall c d,
  (char_eq c d = true <-> c = Some d \/ c = None /\ d = 0) /\
  eq_char d c = char_eq c d /\ char_eq_ref c d = char_eq c d /\ ref_eq_char d c = char_eq c d.
Proof.
  intros c d. split.
  - unfold char_eq, char_deref. destruct c as [c|]; rewrite N.eqb_eq; split; intros H.
    + left. now f_equal.
    + destruct H as [H|[H _]]; congruence.
    + right. auto.
    + destruct H as [H|[_ H]]; congruence.
  - repeat split; apply N.eqb_sym.
Qed.

Theorem C92_compare_partial : forall c d, d <> 0 -> (char_eq c d = true <-> c = Some d).
Proof. intros c d Ne. rewrite (proj1 (C92_exact c d)). tauto. Qed.

(** The end of the input is equal to a NUL, which is equal to the NUL that was
    read, but the end of the input is not equal to that. *)
Theorem C92_end_refuted : exists d c, char_eq None d = true /\ eq_char d c = true /\ char_eqb None c = false.
Proof. exists 0, (Some 0). auto. Qed.

(** Two such are equal if they are the same, and the conversion keeps what is
    there. *)
Theorem C92_same : forall c d, (char_eqb c d = true <-> c = d) /\ (char_from c = char_from d <-> c = d) /\
  (char_is_eof c = true <-> c = None).
Proof.
  intros [c|] [d|]; cbn; rewrite ?N.eqb_eq; repeat split; intros H; try congruence; try discriminate; auto; now inversion H.
Qed.

(** The length is that of the bytes, except at the end, which has no bytes but
    length one. *)
Definition char_bytes (c : option chr) : list N := match c with Some c => encoded [c] | None => [] end.

Theorem C92_length : forall c, char_len c = List.length (char_bytes c) <-> c <> None.
Proof.
  intros [c|]; cbn; [|split; [discriminate|congruence]].
  split; [discriminate|]. intros _. rewrite app_nil_r, utf8_length. reflexivity.
Qed.

(** * C93: what [Debug] shows can be told apart *)

Lemma runs_apart (P : N -> Prop) u : forall v x y, Forall P u -> Forall P v ->
  match x with [] => True | c :: _ => ~ P c end -> match y with [] => True | c :: _ => ~ P c end ->
  u ++ x = v ++ y -> u = v /\ x = y.
Proof.
  induction u as [|a u IH]; intros [|b v] x y U V X Y E; cbn in E; auto.
  - subst x. inversion V; subst. contradiction.
  - subst y. inversion U; subst. contradiction.
  - injection E as -> E. inversion U; subst. inversion V; subst. destruct (IH v x y) as (->&->); auto.
Qed.

Definition hex_value (c : chr) : N := if c <? 58 then c - 48 else c - 87.

Lemma hex_digits_spec f : forall n acc, n < 16 ^ N.of_nat (S f) -> exists ds,
  hex_digits (S f) n acc = ds ++ acc /\ fold_left (fun a c => 16 * a + hex_value c) ds 0 = n /\ Forall (fun c => c <> 125) ds.
Proof.
  induction f as [|f IH]; intros n acc L.
  - assert (n < 16) by (change (16 ^ N.of_nat 1) with 16 in L; auto).
    cbn [hex_digits]. rewrite (N.div_small n 16), (N.mod_small n 16) by auto. cbn [N.eqb].
    exists [if n <? 10 then 48 + n else 87 + n]. split; [reflexivity|]. cbn [fold_left]. unfold hex_value.
    destruct (N.ltb_spec n 10).
    + destruct (N.ltb_spec (48 + n) 58); [|lia]. split; [lia|]. repeat constructor. lia.
    + destruct (N.ltb_spec (87 + n) 58); [lia|]. split; [lia|]. repeat constructor. lia.
  - cbn [hex_digits]. set (c := if n mod 16 <? 10 then 48 + n mod 16 else 87 + n mod 16).
    pose proof (N.mod_lt n 16 ltac:(discriminate)) as M. pose proof (N.div_mod n 16 ltac:(discriminate)) as D.
    assert (V : hex_value c = n mod 16 /\ c <> 125).
    { unfold c, hex_value. destruct (N.ltb_spec (n mod 16) 10).
      - destruct (N.ltb_spec (48 + n mod 16) 58); lia.
      - destruct (N.ltb_spec (87 + n mod 16) 58); lia. }
    destruct V as (V&C). destruct (N.eqb_spec (n / 16) 0) as [Z|Z].
    + exists [c]. split; [reflexivity|]. cbn [fold_left]. rewrite V. split; [lia|]. repeat constructor. exact C.
    + destruct (IH (n / 16) (c :: acc)) as (ds&E&W&F).
      { apply N.div_lt_upper_bound; [discriminate|]. rewrite Nat2N.inj_succ, N.pow_succ_r' in L. exact L. }
      exists (ds ++ [c]). split; [|split].
      * change (hex_digits (S f) (n / 16) (c :: acc) = (ds ++ [c]) ++ acc). rewrite E, <- app_assoc. reflexivity.
      * rewrite fold_left_app, W. cbn [fold_left]. rewrite V. lia.
      * apply Forall_app. repeat constructor; auto.
Qed.

Lemma show_hex_spec n : fold_left (fun a c => 16 * a + hex_value c) (show_hex n) 0 = n /\ Forall (fun c => c <> 125) (show_hex n).
Proof.
  unfold show_hex. destruct (hex_digits_spec (N.size_nat n) n []) as (ds&E&V&F).
  - rewrite Nat2N.inj_succ, N.pow_succ_r'. assert (L : n < 16 ^ N.of_nat (N.size_nat n)); [|lia].
    eapply N.lt_le_trans; [apply N.size_gt|].
    replace (N.size n) with (N.of_nat (N.size_nat n)).
    + apply N.pow_le_mono_l. lia.
    + destruct n as [|q]; [reflexivity|]. change (N.of_nat (Pos.size_nat q) = N.pos (Pos.size q)).
      induction q as [q IH|q IH|]; auto; change (N.of_nat (S (Pos.size_nat q)) = N.succ (N.pos (Pos.size q))); rewrite <- IH; lia.
  - rewrite app_nil_r in E. rewrite E. auto.
Qed.

Lemma show_hex_apart a b x y : show_hex a ++ 125 :: x = show_hex b ++ 125 :: y -> a = b /\ x = y.
Proof.
  intros E. destruct (show_hex_spec a) as (Va&Fa), (show_hex_spec b) as (Vb&Fb).
  apply (runs_apart (fun c => c <> 125)) in E; auto.
  destruct E as (E&E'). injection E' as E'. split; auto. rewrite <- Va, <- Vb, E. reflexivity.
Qed.

Section Debug.
Context {U : ucd}.

(** How an escape begins. *)
Lemma escape_cases q c : (q = 34 \/ q = 39) ->
  (escape_debug q c = [c] /\ c <> 92 /\ c <> q) \/
  (exists e, escape_debug q c = [92; e] /\
     ((c, e) = (0, 48) \/ (c, e) = (9, 116) \/ (c, e) = (13, 114) \/ (c, e) = (10, 110) \/ (c, e) = (92, 92) \/ (c, e) = (q, q))) \/
  escape_debug q c = [92; 117; 123] ++ show_hex c ++ [125].
Proof.
  intros Q. unfold escape_debug.
  destruct (N.eqb_spec c 0) as [->|N0]; [right; left; exists 48; auto 12|].
  destruct (N.eqb_spec c 9) as [->|N1]; [right; left; exists 116; auto 12|].
  destruct (N.eqb_spec c 13) as [->|N2]; [right; left; exists 114; auto 12|].
  destruct (N.eqb_spec c 10) as [->|N3]; [right; left; exists 110; auto 12|].
  destruct (N.eqb_spec c 92) as [->|N4]; [right; left; exists 92; auto 12|].
  destruct (N.eqb_spec c q) as [Eq|N5]; [subst c; right; left; exists q; auto 12|].
  destruct (is_grext c); auto. destruct (is_printable c); auto.
Qed.

Lemma escape_apart q c d x y : (q = 34 \/ q = 39) ->
  escape_debug q c ++ x = escape_debug q d ++ y -> c = d /\ x = y.
Proof.
  intros Q E.
  destruct (escape_cases q c Q) as [(Ec&C1&C2)|[(e&Ec&Ce)|Ec]], (escape_cases q d Q) as [(Ed&D1&D2)|[(e'&Ed&De)|Ed]];
    rewrite Ec, Ed in E; cbn [app] in E.
  - injection E as -> ->. auto.
  - injection E; congruence.
  - injection E; congruence.
  - injection E; congruence.
  - assert (e = e' /\ x = y) as (->&->) by (split; congruence). split; auto. clear Ec Ed E.
    destruct Q as [-> | ->]; repeat match goal with H : _ \/ _ |- _ => destruct H as [H|H] end; congruence.
  - exfalso. assert (e = 117) as -> by congruence. clear Ec Ed E. destruct Q as [-> | ->]; repeat match goal with H : _ \/ _ |- _ => destruct H as [H|H] end; congruence.
  - injection E; congruence.
  - exfalso. assert (e' = 117) as -> by congruence. clear Ec Ed E. destruct Q as [-> | ->]; repeat match goal with H : _ \/ _ |- _ => destruct H as [H|H] end; congruence.
  - injection E as E. rewrite <- !app_assoc in E. cbn [app] in E. now apply show_hex_apart.
Qed.

Lemma escape_not_quote q c x y : (q = 34 \/ q = 39) -> escape_debug q c ++ x <> q :: y.
Proof.
  intros Q E. destruct (escape_cases q c Q) as [(Ec&C1&C2)|[(e&Ec&_)|Ec]]; rewrite Ec in E; cbn [app] in E; injection E as E _; destruct Q; congruence.
Qed.

(** With anything after them. *)
Lemma debug_str_apart s : forall t x y, debug_str s ++ x = debug_str t ++ y -> s = t /\ x = y.
Proof.
  intros t x y E. unfold debug_str in E. rewrite <- !app_assoc in E. cbn [app] in E. injection E as E. revert t E.
  induction s as [|c s IH]; intros [|d t] E; cbn [flat_map app] in E.
  - injection E as ->. auto.
  - rewrite <- app_assoc in E. symmetry in E. apply escape_not_quote in E; [destruct E|auto].
  - rewrite <- app_assoc in E. apply escape_not_quote in E; [destruct E|auto].
  - rewrite <- !app_assoc in E. apply escape_apart in E as (->&E); [|auto]. apply IH in E as (->&->). auto.
Qed.

Lemma debug_char_apart c d x y : debug_char c ++ x = debug_char d ++ y -> c = d /\ x = y.
Proof.
  intros E. unfold debug_char in E. rewrite <- !app_assoc in E. cbn [app] in E. injection E as E.
  apply escape_apart in E as (->&E); [|auto]. injection E as ->. auto.
Qed.

(** Whatever the Unicode tables, different texts are shown differently, and one
    sees where the text ends. *)
Theorem C93_texts : forall s t x y, debug_str s ++ x = debug_str t ++ y <-> s = t /\ x = y.
Proof. intros s t x y. split; [apply debug_str_apart|intros (->&->); auto]. Qed.

Theorem C93_characters : forall c d x y, debug_char c ++ x = debug_char d ++ y <-> c = d /\ x = y.
Proof. intros c d x y. split; [apply debug_char_apart|intros (->&->); auto]. Qed.

(** ** Literals *)

(** A number that shows that it is no integer, and where its exponent begins. *)
Definition tells (l : literal) : Prop :=
  match l with LFrac f => (f_exp f < 0)%Z \/ f_exp f = 0%Z /\ f_frac f <> None | _ => True end.

Lemma show_N_apart a b x y :
  match x with [] => True | c :: _ => ~ dec_digit c end -> match y with [] => True | c :: _ => ~ dec_digit c end ->
  show_N a ++ x = show_N b ++ y -> a = b /\ x = y.
Proof.
  intros X Y E. destruct (show_N_spec a) as (_&Fa&_), (show_N_spec b) as (_&Fb&_).
  destruct (runs_apart dec_digit _ _ _ _ Fa Fb X Y E) as (E1&->). split; auto.
  rewrite <- (show_N_value a), <- (show_N_value b). now rewrite E1.
Qed.

Lemma show_N_inj a b : show_N a = show_N b -> a = b.
Proof. intros E. apply (show_N_apart a b [] [] I I). now rewrite E. Qed.

Definition tail_exp (z : Z) : str := if Z.eqb z 0 then [] else show_Z z.

Lemma tail_exp_apart z w : (z <= 0)%Z -> (w <= 0)%Z -> tail_exp z = tail_exp w -> z = w.
Proof.
  intros Z W E. destruct z as [|z|z], w as [|w|w]; try lia; cbn in E; try discriminate.
  injection E as E. apply show_N_inj in E. congruence.
Qed.

Lemma tail_exp_head z : (z <= 0)%Z -> match tail_exp z with [] => True | c :: _ => ~ dec_digit c end.
Proof. destruct z; intros Z; cbn; auto; try lia. unfold dec_digit. lia. Qed.

Lemma digit_head n x : exists c t, show_N n ++ x = c :: t /\ dec_digit c.
Proof.
  destruct (show_N_spec n) as (Ne&F&_). destruct (show_N n) as [|c t]; [congruence|]. inversion F; subst. exists c, (t ++ x). auto.
Qed.

Lemma show_float_eq f : show_float f = show_N (f_int f) ++ match f_frac f with Some n => 46 :: show_N n | None => [] end ++ tail_exp (f_exp f).
Proof. reflexivity. Qed.

Lemma show_lit_head l : match l with
  | LChar _ => exists t, show_lit l = 39 :: t
  | LStr _ => exists t, show_lit l = 34 :: t
  | _ => exists c t, show_lit l = c :: t /\ dec_digit c
  end.
Proof.
  destruct l as [c|s|n|f]; cbn [show_lit]; try (eexists; reflexivity).
  - destruct (digit_head n []) as (c&t&E&D). rewrite app_nil_r in E. eauto.
  - rewrite show_float_eq. apply digit_head.
Qed.

Lemma float_rest f : (f_exp f <= 0)%Z ->
  match match f_frac f with Some n => 46 :: show_N n | None => [] end ++ tail_exp (f_exp f) with [] => True | c :: _ => ~ dec_digit c end.
Proof.
  intros Z. destruct (f_frac f); cbn [app]; [unfold dec_digit; lia|now apply tail_exp_head].
Qed.

Theorem C93_literals_partial : forall l m, tells l -> tells m -> (show_lit l = show_lit m <-> l = m).
Proof.
  intros l m L M. split; [|now intros ->]. intros E.
  pose proof (show_lit_head l) as Hl. pose proof (show_lit_head m) as Hm.
  destruct l as [c|s|n|f], m as [d|t|k|g]; try rewrite E in Hl;
    try (destruct Hl as (h&Hl); destruct Hm as (h'&Hm); rewrite Hl in Hm; discriminate);
    try (destruct Hl as (h&Hl); destruct Hm as (b&h'&Hm&D); rewrite Hl in Hm; injection Hm as <- _; unfold dec_digit in D; lia);
    try (destruct Hl as (b&h&Hl&D); destruct Hm as (h'&Hm); rewrite Hl in Hm; injection Hm as -> _; unfold dec_digit in D; lia).
  - cbn [show_lit] in E. f_equal. apply (debug_char_apart c d [] []). now rewrite E.
  - cbn [show_lit] in E. f_equal. apply (debug_str_apart s t [] []). now rewrite E.
  - cbn [show_lit] in E. f_equal. now apply show_N_inj.
  - exfalso. cbn [show_lit] in E. rewrite show_float_eq in E. cbn [tells] in M.
    rewrite <- (app_nil_r (show_N n)) in E. apply show_N_apart in E; cbn [app]; auto; [|apply float_rest; lia].
    destruct E as (_&E). destruct (f_frac g); [discriminate|]. destruct M as [M|[_ M]]; [|congruence].
    destruct (f_exp g); try lia. discriminate.
  - exfalso. cbn [show_lit] in E. rewrite show_float_eq in E. cbn [tells] in L.
    rewrite <- (app_nil_r (show_N k)) in E. apply show_N_apart in E; cbn [app]; auto; [|apply float_rest; lia].
    destruct E as (_&E). destruct (f_frac f); [discriminate|]. destruct L as [L|[_ L]]; [|congruence].
    destruct (f_exp f); try lia. discriminate.
  - cbn [show_lit] in E. rewrite !show_float_eq in E. cbn [tells] in L, M.
    assert (Lf : (f_exp f <= 0)%Z) by lia. assert (Lg : (f_exp g <= 0)%Z) by lia.
    apply show_N_apart in E as (E1&E2); try (apply float_rest; auto). f_equal.
    destruct f as [fi ff fe], g as [gi gf ge]; cbn [f_int f_frac f_exp] in *. subst gi.
    destruct ff as [a|], gf as [b|]; cbn [app] in E2.
    + injection E2 as E2. apply show_N_apart in E2 as (->&E2); try (apply tail_exp_head; auto).
      apply tail_exp_apart in E2; auto. now subst.
    + exfalso. destruct ge; try lia; discriminate.
    + exfalso. destruct fe; try lia; discriminate.
    + apply tail_exp_apart in E2; auto. now subst.
Qed.

(** A number without fraction and exponent looks like the integer; and a positive
    exponent like further digits. *)
Theorem C93_literals_refuted :
  (forall n, show_lit (LInt n) = show_lit (LFrac (mkFloat n None 0))) /\
  show_lit (LInt 12) = show_lit (LFrac (mkFloat 1 None 2)) /\
  show_lit (LFrac (mkFloat 1 (Some 53) 0)) = show_lit (LFrac (mkFloat 1 (Some 5) 3)).
Proof.
  split; [|split; reflexivity]. intros n. cbn [show_lit]. rewrite show_float_eq. cbn. now rewrite app_nil_r.
Qed.

(** * C94: symbols, colours and formats *)

(** The debug text of a symbol determines its number and its text. *)
Theorem C94_symbols : forall n s m t,
  (debug_symbol n s = debug_symbol m t <-> n = m /\ s = t) /\
  (debug_debug_symbol n s = debug_debug_symbol m t <-> n = m /\ s = t) /\
  (show_symbol n s = show_symbol m t <-> s = t).
Proof.
  assert (A : forall n s m t x y, debug_symbol n s ++ x = debug_symbol m t ++ y -> n = m /\ s = t).
  { intros n s m t x y E. unfold debug_symbol in E. rewrite <- !app_assoc in E. apply app_inv_head in E.
    apply show_N_apart in E as (->&E); try (cbn; unfold dec_digit; lia). apply app_inv_head in E.
    apply debug_str_apart in E as (->&_). auto. }
  intros n s m t. split; [|split].
  - split; [|intros (->&->); auto]. intros E. apply (A n s m t [] []). now rewrite E.
  - split; [|intros (->&->); auto]. unfold debug_debug_symbol. intros E. apply app_inv_head in E. eapply A; eauto.
  - reflexivity.
Qed.
End Debug.

(** Different colours are shown differently. *)
Theorem C94_colors : forall c d, show_color c = show_color d <-> c = d.
Proof.
  intros c d. split; [|now intros ->].
  assert (X : forall a r, ansi_str a <> show_rgb r).
  { intros a r E.
    assert (S : In 59 (ansi_str a)) by (rewrite E; unfold show_rgb; apply in_or_app; right; left; auto).
    destruct a; cbn in S; repeat (destruct S as [S|S]; [discriminate|]); auto. }
  destruct c as [a|r], d as [b|q]; cbn [show_color]; intros E.
  - f_equal. destruct a, b; try reflexivity; discriminate.
  - elim (X _ _ E).
  - symmetry in E. elim (X _ _ E).
  - f_equal. unfold show_rgb in E. destruct r as [r1 r2 r3], q as [q1 q2 q3]; cbn [red green blue] in E.
    apply show_N_apart in E as (->&E); try (cbn; unfold dec_digit; lia). cbn [app] in E. injection E as E.
    apply show_N_apart in E as (->&E); try (cbn; unfold dec_digit; lia). injection E as E.
    apply show_N_inj in E. now subst.
Qed.

(** The name of a format is its number in decimal, the comparisons with bytes
    and formats are equality, and the struct of a format stands for it. *)
Theorem C94_formats : forall f g b,
  format_str f = show_N (format_code f) /\ unit_str f = format_str f /\ unit_byte f = format_code f /\
  (format_eq_byte f b = true <-> b = format_code f) /\ byte_eq_format b f = format_eq_byte f b /\
  unit_eq_byte f b = format_eq_byte f b /\
  (unit_eq_format f g = true <-> f = g) /\ unit_deref f = f /\
  (format_eq_byte f b = true <-> maybe_from_u8 b = Some f) /\
  (format_str f = format_str g <-> f = g).
Proof.
  intros f g b.
  assert (E : format_eq_byte f b = true <-> b = format_code f) by (unfold format_eq_byte; rewrite N.eqb_eq; split; auto).
  split; [destruct f; reflexivity|]. split; [reflexivity|]. split; [reflexivity|]. split; [exact E|].
  split; [apply N.eqb_sym|]. split; [apply N.eqb_sym|].
  split; [destruct f, g; cbn; split; intros H; try reflexivity; discriminate|].
  split; [reflexivity|]. split.
  - rewrite E. unfold maybe_from_u8. split.
    + intros ->. destruct f; reflexivity.
    + intros H. apply find_some in H as (_&H). now apply N.eqb_eq in H.
  - destruct f, g; cbn; split; intros H; try reflexivity; discriminate.
Qed.

(** * Cases *)

Example C92_ex : char_eq (Some 97) 97 = true /\ char_eq None 97 = false.
Proof. auto. Qed.
Example C93_ex : @debug_str ucd_none (lit "a" ++ [34; 92; 10; 1]) = [34] ++ lit "a" ++ [92; 34; 92; 92; 92; 110; 92; 117; 123; 49; 125; 34].
Proof. reflexivity. Qed.
Example C93_ex_lit : tells (LFrac (mkFloat 1 (Some 5) (-2))) /\ @show_lit ucd_none (LFrac (mkFloat 1 (Some 5) (-2))) = lit "1.5-2".
Proof. split; [left; reflexivity|reflexivity]. Qed.
Example C94_ex : @debug_symbol ucd_none 28 (lit "x") = lit "Symbol(28)(" ++ [34; 120; 34] ++ lit ")" /\
  show_color (Rgb (mkRgb 1 20 255)) = lit "1;20;255" /\ show_color (Ansi LightCyan) = lit "96".
Proof. repeat split; reflexivity. Qed.

Print Assumptions C92_exact.
Print Assumptions C92_compare_partial.
Print Assumptions C92_end_refuted.
Print Assumptions C92_same.
Print Assumptions C92_length.
Print Assumptions C93_texts.
Print Assumptions C93_characters.
Print Assumptions C93_literals_partial.
Print Assumptions C93_literals_refuted.
Print Assumptions C94_symbols.
Print Assumptions C94_colors.
Print Assumptions C94_formats.
