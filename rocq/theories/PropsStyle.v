(** Styled text and colours: C44 to C47. *)
From Coq Require Import List Arith NArith Bool Lia String.
From Verif Require Import Prelim Style SpecStyle ProofDigits ProofStyle.
Import ListNotations.
Local Open Scope N_scope.

(** C44: displaying styled text shows, on a plain terminal, exactly the text
    with exactly the attributes asked for, and leaves the terminal plain.
    (Background colours of the palette are excluded, see C45; the palette
    entry [Normal] as foreground, see [C44_normal_resets_everything].) *)
Theorem C44_display_shows_text_as_asked : forall c text,
  no_esc text -> proper (c_fg c) -> is_rgb (c_bg c) ->
  shown (style_display c text) plain = map (fun ch => (ch, asked c)) text
  /\ after (style_display c text) plain = Some plain.
Proof.
  intros c text H P B.
  assert (R : read (style_display c text) MText plain
              = (MText, plain, map (fun ch => (ch, asked c)) text)).
  { apply (read_display c text plain (sgr (params c) plain)).
    rewrite read_text by auto. now rewrite sgr_params. }
  unfold shown, after. rewrite R. auto.
Qed.

(** C44: whatever the configuration and the terminal's attributes before,
    the terminal shows the wrapped text, character by character, and is plain
    afterwards. *)
Theorem C44_never_leaks : forall c text t,
  no_esc text ->
  map fst (shown (style_display c text) t) = text
  /\ after (style_display c text) t = Some plain.
Proof.
  intros c text t H.
  assert (R : read (style_display c text) MText t
              = (MText, plain, map (fun ch => (ch, sgr (params c) t)) text)).
  { apply (read_display c text t (sgr (params c) t)). now rewrite read_text. }
  unfold shown, after. rewrite R. cbn [snd]. rewrite map_map. cbn [fst]. split; auto.
  apply map_id.
Qed.

(** C44: nested styled text, such as an item built with [append], keeps the
    terminal plain at the end as long as the item leaves it in text mode. *)
Theorem C44_nested_never_leaks : forall c item t,
  (forall t', exists t'', after item t' = Some t'') ->
  after (style_display c item) t = Some plain.
Proof.
  intros c item t H. destruct (H (sgr (params c) t)) as (t2 & E). unfold after in *.
  destruct (read item MText (sgr (params c) t)) as [[m t3] o] eqn:R.
  destruct m; try discriminate. rewrite (read_display c item t t3 o R). reflexivity.
Qed.

(** C44: the attributes after any chain of builder calls. *)
Theorem C44_builders : forall bs f,
  get_field f (styled bs) = says_format f bs
  /\ c_fg (styled bs) = fold_left about_fg bs None
  /\ c_bg (styled bs) = fold_left about_bg bs None.
Proof.
  intros bs f. unfold styled, says_format.
  assert (G : forall c, get_field f (fold_left apply_builder bs c) = fold_left (about_format f) bs (get_field f c)
    /\ c_fg (fold_left apply_builder bs c) = fold_left about_fg bs (c_fg c)
    /\ c_bg (fold_left apply_builder bs c) = fold_left about_bg bs (c_bg c)).
  { induction bs as [|b bs IH]; intros c; cbn [fold_left]; auto.
    destruct (IH (apply_builder c b)) as (I1&I2&I3). rewrite I1, I2, I3.
    assert (get_field f (apply_builder c b) = about_format f (get_field f c) b
            /\ c_fg (apply_builder c b) = about_fg (c_fg c) b
            /\ c_bg (apply_builder c b) = about_bg (c_bg c) b) as (->&->&->); auto.
    destruct b; cbn [apply_builder about_format about_fg about_bg];
      unfold set_format, reset_format, toggle_format.
    - rewrite put_get. destruct c, f0; auto.
    - rewrite put_get. destruct c, f0; auto.
    - destruct c, f, f0; destruct (_ : bool); cbn; auto;
        repeat match goal with |- context [if ?b then _ else _] => destruct b end; auto.
    - destruct c, f; auto.
    - destruct c, f; auto.
    - destruct c, f; auto.
    - destruct c, f; auto.
    - destruct c, f; auto. }
  destruct (G cfg_default) as (G1&G2&G3). rewrite G1, G2, G3. repeat split; auto.
  destruct f; reflexivity.
Qed.

(** C44: unsetting what was set on a fresh attribute, and toggling twice,
    restore the configuration. *)
Theorem C44_set_unset_toggle : forall f c,
  (get_field f c = false -> reset_format f (set_format f c) = c)
  /\ toggle_format f (toggle_format f c) = c.
Proof.
  intros f c. split.
  - intros H. unfold reset_format, set_format. rewrite put_put. rewrite <- H at 1. apply put_same.
  - unfold toggle_format. destruct (get_field f c) eqn:E; rewrite put_get, N.eqb_refl, put_put;
      rewrite <- E at 1; apply put_same.
Qed.

(** C44: the two ways of writing the opening sequence agree. *)
Theorem C44_start_string : forall c, style_str_start c = write_start c.
Proof. exact style_str_start_eq. Qed.

(** C44: resetting the foreground with [reset_fg] also switches off every
    other attribute, since its code is 0. *)
Theorem C44_normal_resets_everything : forall bs text,
  no_esc text ->
  shown (style_display (styled (bs ++ [BFg Normal])) text) plain
  = map (fun ch => (ch, sgr (match fold_left about_bg bs None with
                             | Some col => bg_bytes col | None => [] end) plain)) text.
Proof.
  intros bs text H.
  assert (R : read (style_display (styled (bs ++ [BFg Normal])) text) MText plain
              = (MText, plain, map (fun ch => (ch, sgr (params (styled (bs ++ [BFg Normal]))) plain)) text)).
  { apply (read_display _ text plain (sgr (params (styled (bs ++ [BFg Normal]))) plain)).
    now rewrite read_text. }
  unfold shown. rewrite R. cbn [snd]. f_equal.
  assert (E : c_bg (styled (bs ++ [BFg Normal])) = fold_left about_bg bs None).
  { destruct (C44_builders (bs ++ [BFg Normal]) FBold) as (_&_&->). now rewrite fold_left_app. }
  assert (F : c_fg (styled (bs ++ [BFg Normal])) = Some (Ansi Normal)).
  { destruct (C44_builders (bs ++ [BFg Normal]) FBold) as (_&->&_). now rewrite fold_left_app. }
  rewrite <- E. set (c := styled (bs ++ [BFg Normal])) in *. clearbody c.
  assert (X : sgr (params c) plain
              = sgr (match c_bg c with Some col => bg_bytes col | None => [] end) plain); [|now rewrite X].
  unfold params, cfg_bytes, color_bytes. rewrite F. cbn [fg_bytes skipn as_fg ansi_code].
  destruct (non_color_bytes c ++ [0] ++ _) as [|n l] eqn:L.
  { destruct (non_color_bytes c); discriminate. }
  rewrite <- L. rewrite sgr_app by apply non_color_ok. cbn [app sgr N.eqb Pos.eqb orb].
  generalize (sgr (non_color_bytes c) plain). intros []. reflexivity.
Qed.

(** C45: RGB backgrounds appear as asked for.  Missing from the full
    statement: palette backgrounds, refuted below. *)
Theorem C45_rgb_background_partial : forall bs x text,
  no_esc text -> proper (fold_left about_fg bs None) ->
  shown (style_display (styled (bs ++ [BBgRgb x])) text) plain
  = map (fun ch => (ch, asked (styled (bs ++ [BBgRgb x])))) text
  /\ t_bg (asked (styled (bs ++ [BBgRgb x]))) = Some (Rgb x).
Proof.
  intros bs x text H P.
  assert (E : c_bg (styled (bs ++ [BBgRgb x])) = Some (Rgb x)).
  { destruct (C44_builders (bs ++ [BBgRgb x]) FBold) as (_&_&->). now rewrite fold_left_app. }
  assert (F : c_fg (styled (bs ++ [BBgRgb x])) = fold_left about_fg bs None).
  { destruct (C44_builders (bs ++ [BBgRgb x]) FBold) as (_&->&_). now rewrite fold_left_app. }
  split; [|exact E]. apply C44_display_shows_text_as_asked; auto.
  - now rewrite F.
  - now rewrite E.
Qed.

(** C45: palette backgrounds are never shown: every palette background setter
    emits the foreground code of the colour. *)
Theorem C45_ansi_background_refuted : forall a, a <> Normal ->
  shown (style_display (styled [BBg a]) (lit "x")) plain
  = shown (style_display (styled [BFg a]) (lit "x")) plain
  /\ shown (style_display (styled [BBg a]) (lit "x")) plain
     <> [(120, with_bg (Ansi a) plain)].
Proof.
  intros a H. destruct a; try congruence; vm_compute; split; try reflexivity; discriminate.
Qed.

(** C45: the [Bg] wrapper on its own displays the background code. *)
Theorem C45_bg_wrapper : forall a,
  dec_value 0 (show_bg a) = bg_code a /\ (a <> Normal -> palette_at 10 (bg_code a) = Some (Ansi a)).
Proof.
  intros a. split.
  - unfold show_bg. rewrite show_N_value. reflexivity.
  - intros H. destruct a; try reflexivity. congruence.
Qed.

(** C46: conversion from 24-bit values. *)
Theorem C46_hex_roundtrip : forall v,
  match from_hex_checked v with
  | Some c => v < 2 ^ 24 /\ is_color c /\ hex_of c = v
  | None => 2 ^ 24 <= v
  end.
Proof.
  intros v. unfold from_hex_checked.
  change (N.shiftl 2 23) with (2 ^ 24). destruct (N.ltb_spec v (2 ^ 24)) as [L|L]; auto.
  split; auto. change 255 with (N.ones 8). rewrite !N.land_ones, !N.shiftr_div_pow2.
  unfold is_color, byte, hex_of. cbn [red green blue].
  assert (B : forall x, x mod 2 ^ 8 < 256) by (intros; apply N.mod_lt; discriminate).
  split; [repeat split; apply B|].
  change (2 ^ 16) with (256 * 256). change (2 ^ 8) with 256. rewrite <- N.div_div by discriminate.
  change (2 ^ 24) with 16777216 in L.
  pose proof (N.div_mod v 256 ltac:(discriminate)) as E1.
  pose proof (N.div_mod (v / 256) 256 ltac:(discriminate)) as E2.
  pose proof (N.div_mod (v / 256 / 256) 256 ltac:(discriminate)) as E3.
  assert (Z : v / 256 / 256 / 256 = 0).
  { rewrite !N.div_div by discriminate. apply N.div_small. exact L. }
  lia.
Qed.

(** C46: the checked conversion is onto all colours, and the byte-wise one
    agrees with it. *)
Theorem C46_hex_onto : forall c, is_color c ->
  from_hex_checked (hex_of c) = Some c /\ from_hex_be_bytes (hex_of c) = c
  /\ from_hex_unchecked (hex_of c) = c.
Proof.
  intros [r g b] (Hr & Hg & Hb). cbn [red green blue] in *. unfold byte in *.
  assert (L : hex_of (mkRgb r g b) < 16777216) by (unfold hex_of; cbn [red green blue]; lia).
  assert (Eb : hex_of (mkRgb r g b) mod 256 = b).
  { unfold hex_of; cbn [red green blue]. symmetry. apply (N.mod_unique _ _ (r * 256 + g)); lia. }
  assert (D1 : hex_of (mkRgb r g b) / 256 = r * 256 + g).
  { unfold hex_of; cbn [red green blue]. symmetry. apply (N.div_unique _ _ _ b); lia. }
  assert (Eg : (r * 256 + g) mod 256 = g).
  { symmetry. apply (N.mod_unique _ _ r); lia. }
  assert (D2 : hex_of (mkRgb r g b) / 65536 = r).
  { unfold hex_of; cbn [red green blue]. symmetry. apply (N.div_unique _ _ _ (g * 256 + b)); lia. }
  assert (Er : r mod 256 = r) by (apply N.mod_small; lia).
  assert (U : from_hex_unchecked (hex_of (mkRgb r g b)) = mkRgb r g b).
  { unfold from_hex_unchecked. change 255 with (N.ones 8).
    rewrite !N.land_ones, !N.shiftr_div_pow2. change (2 ^ 16) with 65536. change (2 ^ 8) with 256.
    rewrite D1, D2, Eb, Eg, Er. reflexivity. }
  split; [|split]; auto.
  - unfold from_hex_checked. change (N.shiftl 2 23) with 16777216.
    apply N.ltb_lt in L. rewrite L. f_equal. exact U.
  - unfold from_hex_be_bytes, to_be_bytes. cbn [tl]. rewrite D1, D2, Eb, Eg, Er. reflexivity.
Qed.

(** C46: the saturating conversion is white above 24 bits. *)
Theorem C46_hex_saturates : forall v,
  from_hex_saturated v = Rgb (if v <? 2 ^ 24 then from_hex_unchecked v else mkRgb 255 255 255).
Proof.
  intros v. unfold from_hex_saturated, from_hex_checked. change (N.shiftl 2 23) with (2 ^ 24).
  destruct (v <? 2 ^ 24); reflexivity.
Qed.

(** C46: increments and decrements keep channels in range, and the red and
    green channels are adjusted as named.  Missing from the full statement:
    the blue channel and the single-channel methods for blue and green,
    refuted below. *)
Theorem C46_adjust_partial : forall c dr dg db, is_color c ->
  is_color (incr c dr dg db) /\ is_color (decr c dr dg db) /\ is_color (brighten c dr)
  /\ red (incr c dr dg db) = N.min 255 (red c + dr)
  /\ green (incr c dr dg db) = N.min 255 (green c + dg)
  /\ red (decr c dr dg db) = red c - dr /\ green (decr c dr dg db) = green c - dg
  /\ incr_red c dr = mkRgb (N.min 255 (red c + dr)) (green c) (blue c)
  /\ decr_red c dr = mkRgb (red c - dr) (green c) (blue c).
Proof.
  intros c dr dg db (Hr&Hg&Hb). unfold is_color, byte, incr, decr, brighten, sat_add, sat_sub in *.
  cbn [red green blue]. repeat split; lia.
Qed.

(** C46: the blue channel of the result is computed from green, and the
    methods named after blue and green change the other one. *)
Theorem C46_adjust_refuted : exists c, is_color c
  /\ incr c 0 0 0 <> c /\ decr c 0 0 0 <> c /\ brighten c 0 <> c
  /\ blue (incr_green c 1) <> blue c /\ green (incr_green c 1) = green c
  /\ green (incr_blued c 1) <> green c /\ blue (incr_blued c 1) = blue c
  /\ blue (decr_green c 1) <> blue c /\ green (decr_blue c 1) <> green c.
Proof.
  exists (mkRgb 10 20 30). unfold is_color, byte. cbn. repeat split; try reflexivity; discriminate.
Qed.

(** A colour with every channel raised, or lowered, by its own amount, within
    the range of a byte: the specification of the adjusting methods. *)
Definition raised (c : rgb) (dr dg db : N) : rgb :=
  mkRgb (N.min 255 (red c + dr)) (N.min 255 (green c + dg)) (N.min 255 (blue c + db)).
Definition lowered (c : rgb) (dr dg db : N) : rgb :=
  mkRgb (red c - dr) (green c - dg) (blue c - db).

(** C46: exactly when the adjusting methods do what they are named after:
    those of three channels when green and blue end up the same from the
    amount for blue, those named after green or blue when nothing can change
    in either channel, those named after red always. *)
Theorem C46_adjust_exact : forall c dr dg db n, is_color c ->
  (incr c dr dg db = raised c dr dg db
     <-> N.min 255 (green c + db) = N.min 255 (blue c + db))
  /\ (decr c dr dg db = lowered c dr dg db <-> green c - db = blue c - db)
  /\ (brighten c n = raised c n n n <-> N.min 255 (green c + n) = N.min 255 (blue c + n))
  /\ incr_red c n = raised c n 0 0 /\ decr_red c n = lowered c n 0 0
  /\ (incr_green c n = raised c 0 n 0 <-> n = 0 \/ green c = 255 /\ blue c = 255)
  /\ (incr_blued c n = raised c 0 0 n <-> n = 0 \/ green c = 255 /\ blue c = 255)
  /\ (decr_green c n = lowered c 0 n 0 <-> n = 0 \/ green c = 0 /\ blue c = 0)
  /\ (decr_blue c n = lowered c 0 0 n <-> n = 0 \/ green c = 0 /\ blue c = 0).
Proof.
  intros [r g b] dr dg db n (Hr&Hg&Hb).
  unfold byte, incr, decr, brighten, incr_red, decr_red, incr_green, incr_blued, decr_green,
    decr_blue, raised, lowered, sat_add, sat_sub in *. cbn [red green blue] in *.
  assert (X : forall a b' c' x y z, mkRgb a b' c' = mkRgb x y z <-> a = x /\ b' = y /\ c' = z)
    by (intros; split; [intros E; injection E; auto | now intros (->&->&->)]).
  rewrite !X. repeat apply conj; intros; lia.
Qed.

(** C46: what the methods named after green and blue do instead: each
    adjusts the other channel, and nothing else. *)
Theorem C46_adjust_swapped : forall c n, is_color c ->
  incr_green c n = raised c 0 0 n /\ incr_blued c n = raised c 0 n 0
  /\ decr_green c n = lowered c 0 0 n /\ decr_blue c n = lowered c 0 n 0.
Proof.
  intros [r g b] n (Hr&Hg&Hb).
  unfold byte, incr_green, incr_blued, decr_green, decr_blue, raised, lowered, sat_add, sat_sub in *.
  cbn [red green blue] in *. repeat apply conj; f_equal; lia.
Qed.

Example C46_ex_adjust :
  incr (mkRgb 10 20 20) 1 2 3 = mkRgb 11 22 23 /\ incr (mkRgb 10 20 30) 1 2 3 = mkRgb 11 22 23
  /\ decr (mkRgb 10 20 30) 1 2 40 = mkRgb 9 18 0 /\ brighten (mkRgb 250 250 255) 9 = mkRgb 255 255 255.
Proof. repeat split. Qed.

(** C47: the colour at depth [n] is entry [n mod 7]; the seven colours are
    distinct; so two depths have the same colour exactly when they are
    congruent modulo 7. *)
Theorem C47_rainbow_cycles : forall n m,
  rainbow_color n = rainbow_color m <-> n mod 7 = m mod 7.
Proof.
  intros n m. unfold rainbow_color. split; [|now intros ->].
  assert (Hn : n mod 7 < 7) by (apply N.mod_lt; discriminate).
  assert (Hm : m mod 7 < 7) by (apply N.mod_lt; discriminate).
  intros E. apply N2Nat.inj.
  apply (proj1 (NoDup_nth roygbiv (Ansi Normal))); auto; try (change (List.length roygbiv) with 7%nat; lia).
  vm_compute. repeat constructor; cbn; intuition discriminate.
Qed.

(** C47: the seven colours, by their channels: red, orange, yellow, green, blue,
    indigo, violet; and those of the ANSI rainbow. *)
Theorem C47_colors : forall n,
  rainbow_color n = Rgb (nth (N.to_nat (n mod 7))
    [mkRgb 228 3 3; mkRgb 255 140 0; mkRgb 255 237 0; mkRgb 0 128 38; mkRgb 0 77 255; mkRgb 117 7 135; mkRgb 129 43 166] (mkRgb 0 0 0))
  /\ ansi_rainbow n = nth (N.to_nat (n mod 7)) [Red; LightRed; Yellow; Green; Blue; Magenta; LightMagenta] Normal.
Proof.
  intros n. assert (H : n mod 7 < 7) by (apply N.mod_lt; discriminate).
  unfold rainbow_color, ansi_rainbow. set (k := n mod 7) in *. clearbody k.
  destruct k as [|[[[p|p|]|[p|p|]|]|[[p|p|]|[p|p|]|]|]]; try lia; split; reflexivity.
Qed.

(** C47: one tick always changes the colour, also where the counter wraps,
    and un-ticking undoes it. *)
Theorem C47_tick_changes_colour : forall n, n < 2 ^ 64 ->
  rainbow_color (tick n) <> rainbow_color n /\ untick (tick n) = n /\ tick (untick n) = n.
Proof.
  intros n H. change (2 ^ 64) with 18446744073709551616 in H. split.
  - rewrite C47_rainbow_cycles. unfold tick.
    destruct (N.eq_dec n 18446744073709551615) as [->|E]; [discriminate|].
    rewrite (N.mod_small (n + 1) 18446744073709551616) by lia. intros X.
    pose proof (N.div_mod n 7 ltac:(discriminate)) as E1.
    pose proof (N.div_mod (n + 1) 7 ltac:(discriminate)) as E2. rewrite X in E2. lia.
  - unfold tick, untick. split.
    + destruct (N.eq_dec n 18446744073709551615) as [->|E]; [reflexivity|].
      rewrite (N.mod_small (n + 1)) by lia.
      symmetry. apply (N.mod_unique _ _ 1); lia.
    + destruct (N.eq_dec n 0) as [->|E]; [reflexivity|].
      replace ((n + 18446744073709551615) mod 18446744073709551616) with (n - 1).
      * replace (n - 1 + 1) with n by lia. apply N.mod_small; lia.
      * apply (N.mod_unique _ _ 1); lia.
Qed.

(** C47: the ANSI rainbow cycles likewise. *)
Theorem C47_ansi_rainbow : forall n m,
  ansi_rainbow n = ansi_rainbow m <-> n mod 7 = m mod 7.
Proof.
  intros n m. unfold ansi_rainbow. split; [|now intros ->].
  assert (Hn : n mod 7 < 7) by (apply N.mod_lt; discriminate).
  assert (Hm : m mod 7 < 7) by (apply N.mod_lt; discriminate).
  intros E. apply N2Nat.inj.
  apply (proj1 (NoDup_nth ansi_rainbow_table Red)); auto;
    try (change (List.length ansi_rainbow_table) with 7%nat; lia).
  repeat constructor; cbn; intuition discriminate.
Qed.

(** Non-vacuity. *)
Example C44_ex :
  let c := styled [BSet FBold; BFg Green; BToggle FDim; BBgRgb (mkRgb 1 2 3)] in
  style_display c (lit "hi")
  = 27 :: lit "[1;2;32;48;2;1;2;3mhi" ++ 27 :: lit "[0m"
  /\ no_esc (lit "hi") /\ proper (c_fg c) /\ is_rgb (c_bg c)
  /\ style_display cfg_default (lit "hi") = 27 :: lit "[0mhi" ++ 27 :: lit "[0m".
Proof. vm_compute. repeat split; try discriminate. intuition discriminate. Qed.

Example C46_ex : from_hex_checked 16747520 = Some (mkRgb 255 140 0)
  /\ from_hex_checked (2 ^ 24) = None /\ is_color (mkRgb 255 140 0).
Proof. vm_compute. repeat split; reflexivity. Qed.

Print Assumptions C44_display_shows_text_as_asked.
Print Assumptions C44_never_leaks.
Print Assumptions C44_nested_never_leaks.
Print Assumptions C44_builders.
Print Assumptions C44_set_unset_toggle.
Print Assumptions C44_start_string.
Print Assumptions C44_normal_resets_everything.
Print Assumptions C45_rgb_background_partial.
Print Assumptions C45_ansi_background_refuted.
Print Assumptions C45_bg_wrapper.
Print Assumptions C46_hex_roundtrip.
Print Assumptions C46_hex_onto.
Print Assumptions C46_hex_saturates.
Print Assumptions C46_adjust_partial.
Print Assumptions C46_adjust_refuted.
Print Assumptions C46_adjust_exact.
Print Assumptions C46_adjust_swapped.
Print Assumptions C47_rainbow_cycles.
Print Assumptions C47_colors.
Print Assumptions C47_tick_changes_colour.
Print Assumptions C47_ansi_rainbow.
