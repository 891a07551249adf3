(** Texts made of bytes: C87 and C88. *)
From Coq Require Import List Arith NArith ZArith Bool String Lia ZifyN.
From Verif Require Import Prelim Syntax Printer SpecLexer SpecChars PropsChars Buffers.
Import ListNotations.
Local Open Scope N_scope.
Ltac Zify.zify_post_hook ::= Z.div_mod_to_equations.

(** * What the standard library writes *)

Lemma land_mod a n : N.land a (N.ones n) = a mod 2 ^ n.
Proof. apply N.land_ones. Qed.

Lemma all_below (P : N -> bool) n :
  forallb P (map N.of_nat (seq 0 n)) = true -> forall x, x < N.of_nat n -> P x = true.
Proof.
  intros H x L. rewrite forallb_forall in H. apply H. apply in_map_iff. exists (N.to_nat x). split; [apply N2Nat.id|].
  apply in_seq. lia.
Qed.

Lemma lor_add t n :
  forallb (fun x => N.lor x t =? t + x) (map N.of_nat (seq 0 n)) = true ->
  forall x, x < N.of_nat n -> N.lor x t = t + x.
Proof. intros H x L. apply (all_below _ _ H) in L. now apply N.eqb_eq in L. Qed.

Lemma tail_byte c n : N.lor (N.land (N.shiftr c n) 63) 128 = 128 + (c / 2 ^ n) mod 64.
Proof.
  change 63 with (N.ones 6). rewrite land_mod, N.shiftr_div_pow2. change (2 ^ 6) with 64.
  apply (lor_add 128 64); [reflexivity|]. pose proof (N.mod_lt (c / 2 ^ n) 64). lia.
Qed.

Lemma encode_utf8 c : c < 1114112 -> encode c = utf8 c.
Proof.
  intros L. unfold encode, utf8. rewrite !tail_byte.
  change (2 ^ 0) with 1. change (2 ^ 6) with 64. change (2 ^ 12) with 4096. rewrite N.div_1_r.
  destruct (N.ltb_spec c 128); auto.
  destruct (N.ltb_spec c 2048).
  - f_equal. change 31 with (N.ones 5). rewrite land_mod, N.shiftr_div_pow2. change (2 ^ 5) with 32. change (2 ^ 6) with 64.
    rewrite (lor_add 192 32); [|reflexivity|lia]. f_equal. apply N.mod_small. lia.
  - destruct (N.ltb_spec c 65536).
    + f_equal. change 15 with (N.ones 4). rewrite land_mod, N.shiftr_div_pow2. change (2 ^ 4) with 16. change (2 ^ 12) with 4096.
      rewrite (lor_add 224 16); [|reflexivity|lia]. f_equal. apply N.mod_small. lia.
    + f_equal. change 7 with (N.ones 3). rewrite land_mod, N.shiftr_div_pow2. change (2 ^ 3) with 8. change (2 ^ 18) with 262144.
      rewrite (lor_add 240 8); [|reflexivity|lia]. f_equal. apply N.mod_small. lia.
Qed.

Lemma scalar_small c : scalar c -> c < 1114112.
Proof. unfold scalar. lia. Qed.

(** * The loop *)

Lemma fill_writes cs : Forall scalar cs -> forall done,
  fill cs (done ++ repeat 0 (blen cs)) (List.length done) = Ends (done ++ encoded cs).
Proof.
  induction 1 as [|c cs Hc _ IH]; intros done; cbn [fill blen encoded flat_map repeat]; [reflexivity|].
  unfold encode_at. rewrite app_length, repeat_length.
  destruct (Nat.ltb_spec (List.length done + (len_utf8 c + blen cs)) (List.length done + len_utf8 c)); [lia|].
  rewrite Nat.ltb_irrefl, firstn_app, firstn_all, Nat.sub_diag, firstn_O, app_nil_r, repeat_app.
  replace (skipn (List.length done + len_utf8 c) (done ++ repeat 0 (len_utf8 c) ++ repeat 0 (blen cs))) with (repeat 0 (blen cs)).
  2:{ rewrite app_assoc, skipn_app, app_length, repeat_length, Nat.sub_diag, skipn_all2; [reflexivity|]. rewrite app_length, repeat_length. lia. }
  rewrite encode_utf8, <- utf8_length by now apply scalar_small. rewrite app_assoc, <- app_length, IH, <- app_assoc. reflexivity.
Qed.

Lemma gather_spec cs : gather cs = (blen cs, cs).
Proof.
  unfold gather.
  enough (G : forall l n v, fold_left (fun '(len, v) c => ((len + len_utf8 c)%nat, (v ++ [c])%list)) l (n, v) = ((n + blen l)%nat, (v ++ l)%list))
    by (rewrite G; reflexivity).
  induction l as [|c l IH]; intros n v; cbn [fold_left blen].
  - now rewrite Nat.add_0_r, app_nil_r.
  - rewrite IH, <- Nat.add_assoc, <- app_assoc. reflexivity.
Qed.

Lemma packed_spec cs : Forall scalar cs -> packed cs = Ends (encoded cs).
Proof. intros H. unfold packed. rewrite gather_spec. apply (fill_writes cs H []). Qed.

Lemma encoded_nil s : encoded s = [] <-> s = [].
Proof.
  split; [|intros ->; reflexivity]. destruct s as [|c s]; auto. cbn [encoded flat_map].
  destruct (utf8_head c) as (b&t&->&_). discriminate.
Qed.

Lemma read_freed bs : read (Freed bs) = match bs with [] => Some [] | _ => None end.
Proof. destruct bs; reflexivity. Qed.

(** * C87 *)

(** The functions that make a text out of characters never panic, and the
    bytes they write are those of the characters, in order. *)
Theorem C87_made : forall cs, Forall scalar cs ->
  exists v, charstring cs = Ends v /\ match v with Kept bs | Freed bs => bs = encoded cs end.
Proof. intros cs H. exists (Freed (encoded cs)). unfold charstring. rewrite packed_spec by auto. cbn. auto. Qed.

Theorem C87_combined : forall pre cs post, Forall scalar (pre ++ cs ++ post) ->
  exists v, combine_chars pre cs post = Ends v /\
    match v with Kept bs | Freed bs => bs = encoded pre ++ encoded cs ++ encoded post end.
Proof.
  intros pre cs post H. exists (Freed (encoded (pre ++ cs ++ post))). unfold combine_chars. rewrite packed_spec by auto.
  split; auto. now rewrite !encoded_app.
Qed.

(** What they return can be read, as the text it should be, exactly when there
    is no character at all. *)
Theorem C87_readable_partial : forall pre cs post, Forall scalar (pre ++ cs ++ post) ->
  exists v, combine_chars pre cs post = Ends v /\
    (read v = Some (encoded (pre ++ cs ++ post)) <-> pre = [] /\ cs = [] /\ post = []).
Proof.
  intros pre cs post H. eexists. split; [unfold combine_chars; rewrite packed_spec by auto; reflexivity|].
  rewrite read_freed. split.
  - destruct (encoded (pre ++ cs ++ post)) eqn:E; [|discriminate]. intros _.
    apply (proj1 (encoded_nil _)) in E. apply app_eq_nil in E as (->&E). apply app_eq_nil in E as (->&->). auto.
  - intros (->&->&->). reflexivity.
Qed.

Theorem C87_charstring_refuted : forall cs, Forall scalar cs -> cs <> [] ->
  exists v, charstring cs = Ends v /\ read v = None.
Proof.
  intros cs H N0. eexists. split; [unfold charstring; rewrite packed_spec by auto; reflexivity|].
  rewrite read_freed. destruct (encoded cs) eqn:E; auto. now apply (proj1 (encoded_nil _)) in E.
Qed.

(** [bytestring] accepts exactly the encodings of texts and returns the bytes
    it was given. *)

Lemma from_utf8_app s : Forall scalar s -> from_utf8 (encoded s) = Some s.
Proof.
  induction 1 as [|c s Hc _ IH]; [reflexivity|]. cbn [encoded flat_map]. fold (encoded s). unfold scalar in Hc.
  unfold utf8.
  destruct (N.ltb_spec c 128); [|destruct (N.ltb_spec c 2048); [|destruct (N.ltb_spec c 65536)]]; cbn [app from_utf8].
  - destruct (N.ltb_spec c 128); [|lia]. now rewrite IH.
  - destruct (N.ltb_spec (192 + c / 64) 128); [lia|].
    destruct (N.leb_spec 194 (192 + c / 64)), (N.ltb_spec (192 + c / 64) 224); try lia. cbn [andb].
    unfold cont. destruct (N.leb_spec 128 (128 + c mod 64)), (N.ltb_spec (128 + c mod 64) 192); try lia. cbn [andb].
    rewrite IH. cbn [option_map]. do 2 f_equal. lia.
  - destruct (N.ltb_spec (224 + c / 4096) 128); [lia|].
    destruct (N.leb_spec 194 (224 + c / 4096)), (N.ltb_spec (224 + c / 4096) 224); try lia. cbn [andb].
    destruct (N.leb_spec 224 (224 + c / 4096)), (N.ltb_spec (224 + c / 4096) 240); try lia. cbn [andb].
    replace (second _ _ && cont _) with true.
    + rewrite IH. cbn [option_map]. do 2 f_equal. lia.
    + symmetry. apply andb_true_iff. unfold second, cont. rewrite !andb_true_iff, !N.leb_le, !N.ltb_lt.
      destruct (N.eqb_spec (224 + c / 4096) 224); [|destruct (N.eqb_spec (224 + c / 4096) 237); [|destruct (N.eqb_spec (224 + c / 4096) 240); [|destruct (N.eqb_spec (224 + c / 4096) 244)]]];
        rewrite !andb_true_iff, !N.leb_le, !N.ltb_lt; lia.
  - destruct (N.ltb_spec (240 + c / 262144) 128); [lia|].
    destruct (N.leb_spec 194 (240 + c / 262144)), (N.ltb_spec (240 + c / 262144) 224); try lia. cbn [andb].
    destruct (N.leb_spec 224 (240 + c / 262144)), (N.ltb_spec (240 + c / 262144) 240); try lia. cbn [andb].
    destruct (N.leb_spec 240 (240 + c / 262144)), (N.ltb_spec (240 + c / 262144) 245); try lia. cbn [andb].
    replace (second _ _ && cont _ && cont _) with true.
    + rewrite IH. cbn [option_map]. do 2 f_equal. lia.
    + symmetry. rewrite !andb_true_iff. unfold second, cont. rewrite !andb_true_iff, !N.leb_le, !N.ltb_lt.
      destruct (N.eqb_spec (240 + c / 262144) 224); [|destruct (N.eqb_spec (240 + c / 262144) 237); [|destruct (N.eqb_spec (240 + c / 262144) 240); [|destruct (N.eqb_spec (240 + c / 262144) 244)]]];
        rewrite !andb_true_iff, !N.leb_le, !N.ltb_lt; lia.
Qed.

Lemma cont_spec b : cont b = true -> 128 <= b < 192.
Proof. unfold cont. rewrite andb_true_iff, N.leb_le, N.ltb_lt. auto. Qed.

Lemma second_spec b b1 : second b b1 = true ->
  128 <= b1 < 192 /\ (b = 224 -> 160 <= b1) /\ (b = 237 -> b1 < 160) /\ (b = 240 -> 144 <= b1) /\ (b = 244 -> b1 < 144).
Proof.
  unfold second, cont.
  destruct (N.eqb_spec b 224); [|destruct (N.eqb_spec b 237); [|destruct (N.eqb_spec b 240); [|destruct (N.eqb_spec b 244)]]];
    rewrite andb_true_iff, N.leb_le, N.ltb_lt; lia.
Qed.

Lemma from_utf8_sound n : forall bs s, (List.length bs <= n)%nat -> from_utf8 bs = Some s -> Forall scalar s /\ encoded s = bs.
Proof.
  induction n as [|n IH]; intros bs s L E; (destruct bs as [|b r]; [injection E as <-; split; [constructor|reflexivity]|]); [cbn in L; lia|].
  cbn [from_utf8] in E. cbn [List.length] in L.
  destruct (N.ltb_spec b 128) as [Lb|Lb].
  - destruct (from_utf8 r) as [t|] eqn:Et; [|discriminate]. injection E as <-. apply IH in Et as (F&<-); [|lia].
    split; [constructor; auto; unfold scalar; lia|]. cbn [encoded flat_map]. fold (encoded t). unfold utf8. destruct (N.ltb_spec b 128); [reflexivity|lia].
  - destruct ((194 <=? b) && (b <? 224)) eqn:B2; [|destruct ((224 <=? b) && (b <? 240)) eqn:B3; [|destruct ((240 <=? b) && (b <? 245)) eqn:B4; [|discriminate]]].
    + apply andb_true_iff in B2 as (B2&B2'). apply N.leb_le in B2. apply N.ltb_lt in B2'.
      destruct r as [|b1 r1]; [discriminate|]. destruct (cont b1) eqn:C1; [|discriminate]. apply cont_spec in C1.
      destruct (from_utf8 r1) as [t|] eqn:Et; [|discriminate]. cbn [List.length] in L. apply IH in Et as (F&<-); [|lia]. injection E as <-.
      set (c := (b - 192) * 64 + (b1 - 128)). assert (Ec : c = (b - 192) * 64 + (b1 - 128)) by reflexivity. clearbody c.
      split; [constructor; auto; unfold scalar; lia|]. cbn [encoded flat_map]. fold (encoded t). unfold utf8.
      destruct (N.ltb_spec c 128); [lia|]. destruct (N.ltb_spec c 2048); [|lia]. cbn [app]. repeat f_equal; lia.
    + apply andb_true_iff in B3 as (B3&B3'). apply N.leb_le in B3. apply N.ltb_lt in B3'.
      destruct r as [|b1 [|b2 r2]]; try discriminate. destruct (second b b1 && cont b2) eqn:C; [|discriminate].
      apply andb_true_iff in C as (C1&C2). apply second_spec in C1. apply cont_spec in C2.
      destruct (from_utf8 r2) as [t|] eqn:Et; [|discriminate]. cbn [List.length] in L. apply IH in Et as (F&<-); [|lia]. injection E as <-.
      set (c := (b - 224) * 4096 + (b1 - 128) * 64 + (b2 - 128)).
      assert (Ec : c = (b - 224) * 4096 + (b1 - 128) * 64 + (b2 - 128)) by reflexivity. clearbody c.
      split; [constructor; auto; unfold scalar; lia|]. cbn [encoded flat_map]. fold (encoded t). unfold utf8.
      destruct (N.ltb_spec c 128); [lia|]. destruct (N.ltb_spec c 2048); [lia|]. destruct (N.ltb_spec c 65536); [|lia]. cbn [app]. repeat f_equal; lia.
    + apply andb_true_iff in B4 as (B4&B4'). apply N.leb_le in B4. apply N.ltb_lt in B4'.
      destruct r as [|b1 [|b2 [|b3 r3]]]; try discriminate. destruct (second b b1 && cont b2 && cont b3) eqn:C; [|discriminate].
      apply andb_true_iff in C as (C&C3). apply andb_true_iff in C as (C1&C2). apply second_spec in C1. apply cont_spec in C2. apply cont_spec in C3.
      destruct (from_utf8 r3) as [t|] eqn:Et; [|discriminate]. cbn [List.length] in L. apply IH in Et as (F&<-); [|lia]. injection E as <-.
      set (c := (b - 240) * 262144 + (b1 - 128) * 4096 + (b2 - 128) * 64 + (b3 - 128)).
      assert (Ec : c = (b - 240) * 262144 + (b1 - 128) * 4096 + (b2 - 128) * 64 + (b3 - 128)) by reflexivity. clearbody c.
      split; [constructor; auto; unfold scalar; lia|]. cbn [encoded flat_map]. fold (encoded t). unfold utf8.
      destruct (N.ltb_spec c 128); [lia|]. destruct (N.ltb_spec c 2048); [lia|]. destruct (N.ltb_spec c 65536); [lia|]. cbn [app]. repeat f_equal; lia.
Qed.

Theorem C87_bytestring : forall bs v,
  bytestring bs = Some v <-> v = Kept bs /\ exists s, Forall scalar s /\ encoded s = bs.
Proof.
  intros bs v. unfold bytestring. split.
  - destruct (from_utf8 bs) as [s|] eqn:E; [|discriminate]. intros H. injection H as <-. split; auto. exists s.
    now apply (from_utf8_sound _ _ _ (le_n _)) in E.
  - intros (->&s&F&<-). now rewrite from_utf8_app.
Qed.

(** What [charstring] writes is text for [bytestring]. *)
Theorem C87_valid : forall cs v, Forall scalar cs -> charstring cs = Ends v ->
  bytestring (match v with Kept bs | Freed bs => bs end) = Some (Kept (encoded cs)).
Proof.
  intros cs v H E. destruct (C87_made cs H) as (w&E'&B). rewrite E' in E. injection E as ->.
  apply C87_bytestring. destruct v as [bs|bs]; subst bs; eauto.
Qed.

(** * C88 *)

Lemma char_as_str_some c : scalar c -> char_as_str (Some c) = Ends (Freed (utf8 c)).
Proof.
  intros H. unfold char_as_str, encode_at. rewrite repeat_length, Nat.ltb_irrefl, Nat.ltb_irrefl. cbn [firstn app plus].
  rewrite encode_utf8, skipn_all2, app_nil_r by (rewrite ?repeat_length; auto using scalar_small). reflexivity.
Qed.

(** [Char::as_str] gives a readable text exactly at the end of the input. *)
Theorem C88_char_partial : forall c, (forall x, c = Some x -> scalar x) ->
  exists v, char_as_str c = Ends v /\
    (read v = Some (match c with Some x => utf8 x | None => [] end) <-> c = None).
Proof.
  intros [x|] H.
  - eexists. split; [apply char_as_str_some; auto|]. destruct (utf8_head x) as (b&t&->&_). cbn. split; discriminate.
  - eexists. split; [reflexivity|]. cbn. split; auto.
Qed.

Theorem C88_char_refuted : forall x, scalar x ->
  exists v, char_as_str (Some x) = Ends v /\ read v = None.
Proof. intros x H. eexists. split; [apply char_as_str_some; auto|]. destruct (utf8_head x) as (b&t&->&_). reflexivity. Qed.

Lemma commas_no_room k : ident_as_str (ICommas k) = NoRoom.
Proof.
  change (escaping (put 41 (Nat.iter k (put 44) NoRoom)) = NoRoom).
  assert (E : Nat.iter k (put 44) NoRoom = NoRoom).
  { induction k as [|k IH]; [reflexivity|]. exact (f_equal (put 44) IH). }
  exact (f_equal (fun o => escaping (put 41 o)) E).
Qed.

(** [Ident::as_str] gives the text that [Display] writes for the empty list
    alone, and panics for every other identifier. *)
Theorem C88_ident_partial : forall i,
  (exists v, ident_as_str i = Ends v /\ read v = Some (encoded (show_ident i))) <-> i = INil.
Proof.
  intros i. split.
  - intros (v&E&_). destruct i as [|k| | |]; auto; [rewrite commas_no_room in E|..]; discriminate.
  - intros ->. eexists. split; reflexivity.
Qed.

Theorem C88_ident_refuted : forall i, i <> INil -> ident_as_str i = NoRoom \/ ident_as_str i = Unwritten.
Proof. intros [|k| | |] H; auto; [congruence|left; apply commas_no_room]. Qed.

(** * Cases *)

(** An ASCII letter, e with an acute accent, the euro sign, an emoji. *)
Example C87_ex : charstring [97; 233; 8364; 128512] = Ends (Freed [97; 195; 169; 226; 130; 172; 240; 159; 152; 128]).
Proof. reflexivity. Qed.
Example C87_ex_scalar : Forall scalar [97; 233; 8364; 128512].
Proof. repeat constructor; unfold scalar; lia. Qed.
Example C87_ex_text : from_utf8 [97; 195; 169; 226; 130; 172; 240; 159; 152; 128] = Some [97; 233; 8364; 128512].
Proof. reflexivity. Qed.
(** An overlong form, a surrogate, a number beyond the last character, a
    missing byte, a stray one. *)
Example C87_ex_invalid : map bytestring [[192; 128]; [237; 160; 128]; [244; 144; 128; 128]; [226; 130]; [128]] = repeat None 5.
Proof. reflexivity. Qed.
Example C88_ex : map ident_as_str [INil; ICommas 2; IUpper [65]] = [Ends (Kept [91; 93]); NoRoom; Unwritten].
Proof. reflexivity. Qed.

Print Assumptions C87_made.
Print Assumptions C87_combined.
Print Assumptions C87_readable_partial.
Print Assumptions C87_charstring_refuted.
Print Assumptions C87_bytestring.
Print Assumptions C87_valid.
Print Assumptions C88_char_partial.
Print Assumptions C88_char_refuted.
Print Assumptions C88_ident_partial.
Print Assumptions C88_ident_refuted.
