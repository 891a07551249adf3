(** The terminal reads styled text as intended. *)
From Coq Require Import List Arith NArith Bool Lia.
From Verif Require Import Prelim Style SpecStyle ProofDigits.
Import ListNotations.
Local Open Scope N_scope.

Lemma read_app s u m t :
  read (s ++ u) m t =
  let '(m1, t1, o1) := read s m t in
  let '(m2, t2, o2) := read u m1 t1 in (m2, t2, o1 ++ o2).
Proof.
  revert m t. induction s as [|c s IH]; intros m t; cbn [app read].
  - destruct (read u m t) as [[? ?] ?]. reflexivity.
  - destruct (read1 c m t) as [[m1 t1] o1]. rewrite IH.
    destruct (read s m1 t1) as [[m2 t2] o2]. destruct (read u m2 t2) as [[m3 t3] o3].
    now rewrite app_assoc.
Qed.

Lemma read_text s t : no_esc s -> read s MText t = (MText, t, map (fun c => (c, t)) s).
Proof.
  induction s as [|c s IH]; intros H; auto. cbn [read read1].
  destruct (N.eqb_spec c 27) as [->|E]; [exfalso; apply H; left; auto|].
  rewrite IH; auto. intros X; apply H; right; auto.
Qed.

Lemma read_digits ds : forall done cur t, Forall dec_digit ds ->
  read ds (MCsi done cur) t = (MCsi done (dec_value cur ds), t, []).
Proof.
  induction ds as [|d ds IH]; intros done cur t H; auto. inversion H as [|? ? Hd Hs]; subst.
  cbn [read read1 dec_value]. unfold dec_digit in Hd.
  replace ((48 <=? d) && (d <=? 57)) with true
    by (symmetry; apply andb_true_iff; split; apply N.leb_le; lia).
  rewrite IH; auto.
Qed.

Lemma read_codes bs : forall done cur t,
  read (flat_map (fun e => 59 :: show_N e) bs ++ [109]) (MCsi done cur) t
  = (MText, sgr (done ++ cur :: bs) t, []).
Proof.
  induction bs as [|b bs IH]; intros done cur t; cbn [flat_map app].
  - reflexivity.
  - cbn [read read1]. change ((48 <=? 59) && (59 <=? 57)) with false. change (59 =? 59) with true.
    cbn iota. rewrite <- app_assoc, read_app, read_digits by apply show_N_spec.
    rewrite show_N_value, IH. now rewrite <- app_assoc.
Qed.

Definition params (c : config) : list N := match cfg_bytes c with [] => [0] | bs => bs end.

Lemma read_start c t : read (write_start c) MText t = (MText, sgr (params c) t, []).
Proof.
  unfold write_start, params. rewrite read_app. cbn [read read1 N.eqb Pos.eqb app].
  destruct (cfg_bytes c) as [|n bs].
  - reflexivity.
  - rewrite <- app_assoc, read_app, read_digits by apply show_N_spec.
    rewrite show_N_value, read_codes. reflexivity.
Qed.

Lemma read_display c item t t' o :
  read item MText (sgr (params c) t) = (MText, t', o) ->
  read (style_display c item) MText t = (MText, plain, o).
Proof.
  intros H. unfold style_display. rewrite read_app, read_start, read_app, H.
  cbn [write_end read read1]. change (27 =? 27) with true. cbn iota.
  cbn [read1 read N.eqb Pos.eqb N.leb N.compare Pos.compare Pos.compare_cont andb app].
  rewrite app_nil_r. destruct t'; reflexivity.
Qed.

Lemma sgr_app ns : forall ms t, Forall (fun n => n <> 38 /\ n <> 48) ns ->
  sgr (ns ++ ms) t = sgr ms (sgr ns t).
Proof.
  induction ns as [|n ns IH]; intros ms t H; auto. inversion H as [|? ? [H1 H2] Hs]; subst.
  cbn [app sgr]. apply N.eqb_neq in H1, H2. rewrite H1, H2. cbn [orb]. apply IH; auto.
Qed.

Lemma sgr_fg col ms t : col <> Ansi Normal -> sgr (fg_bytes col ++ ms) t = sgr ms (with_fg col t).
Proof.
  destruct t. destruct col as [a|c]; intros H.
  - destruct a; try reflexivity. congruence.
  - destruct c. reflexivity.
Qed.

Lemma sgr_bg c ms t : sgr (bg_bytes (Rgb c) ++ ms) t = sgr ms (with_bg (Rgb c) t).
Proof. destruct t, c. reflexivity. Qed.

Lemma non_color_ok c : Forall (fun n => n <> 38 /\ n <> 48) (non_color_bytes c).
Proof.
  unfold non_color_bytes. apply Forall_flat_map. apply Forall_forall. intros f _.
  destruct (get_field f c); constructor; [|constructor]. destruct f; split; discriminate.
Qed.

Lemma sgr_params c : proper (c_fg c) -> is_rgb (c_bg c) -> sgr (params c) plain = asked c.
Proof.
  intros P B.
  assert (E : sgr (cfg_bytes c) plain = asked c).
  { unfold cfg_bytes. rewrite sgr_app by apply non_color_ok.
    replace (sgr (non_color_bytes c) plain)
      with (mkTerm (c_bold c) (c_dim c) (c_italic c) (c_underlined c) (c_blinking c)
              (c_inverted c) (c_hidden c) (c_strike c) None None)
      by (destruct c as [r b d i u bl iv h s fg bg];
          destruct r, b, d, i, u, bl, iv, h, s; reflexivity).
    unfold color_bytes, asked. unfold proper in P.
    destruct (c_fg c) as [col|].
    - rewrite sgr_fg by congruence. destruct (c_bg c) as [[a|x]|]; [contradiction| |reflexivity].
      rewrite <- (app_nil_r (bg_bytes (Rgb x))), sgr_bg. reflexivity.
    - cbn [app]. destruct (c_bg c) as [[a|x]|]; [contradiction| |reflexivity].
      rewrite <- (app_nil_r (bg_bytes (Rgb x))), sgr_bg. reflexivity. }
  unfold params. destruct (cfg_bytes c) eqn:Ec; auto.
Qed.

Lemma put_get f g b c : get_field f (put_field g b c)
  = if format_code f =? format_code g then b else get_field f c.
Proof. destruct c, f, g; reflexivity. Qed.

Lemma put_same f c : put_field f (get_field f c) c = c.
Proof. destruct c, f; reflexivity. Qed.

Lemma put_put f a b c : put_field f a (put_field f b c) = put_field f a c.
Proof. destruct c, f; reflexivity. Qed.

Lemma style_str_start_eq c : style_str_start c = write_start c.
Proof.
  unfold style_str_start, write_start. destruct (cfg_bytes c) as [|n bs]; [reflexivity|].
  cbn [tl].
  assert (F : forall bs b, fold_left (fun b e => b ++ [59] ++ show_N e) bs b
                        = b ++ flat_map (fun e => 59 :: show_N e) bs).
  { clear. induction bs as [|x bs IH]; intros b; cbn [fold_left flat_map].
    - now rewrite app_nil_r.
    - rewrite IH, <- app_assoc. reflexivity. }
  rewrite F. destruct (show_N_spec n) as (Ne&_).
  replace (Nat.eqb _ 2) with false.
  - now rewrite <- !app_assoc.
  - symmetry. apply Nat.eqb_neq. rewrite !app_length. destruct (show_N n); [congruence|]. cbn [length]. lia.
Qed.
