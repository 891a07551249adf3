(** Composed styled text: C66. *)
From Coq Require Import List NArith Bool String.
From Verif Require Import Prelim Style SpecStyle ProofStyle Docs SpecDocs.
Import ListNotations.

Lemma bytes_none c : cfg_bytes c = [] -> c_reset c = false -> c = cfg_default.
Proof.
  destruct c as [r b d i u bl iv h s fg bg]. intros E R. cbn in R. subst r.
  apply app_eq_nil in E as (E&F). unfold color_bytes in F. cbn [c_fg c_bg] in F. apply app_eq_nil in F as (F&G).
  assert (fg = None) as -> by (destruct fg as [[[]|[]]|]; [discriminate F..|reflexivity]).
  assert (bg = None) as -> by (destruct bg as [[[]|[]]|]; [discriminate G..|reflexivity]).
  destruct b; [discriminate E|]. destruct d; [discriminate E|]. destruct i; [discriminate E|]. destruct u; [discriminate E|].
  destruct bl; [discriminate E|]. destruct iv; [discriminate E|]. destruct h; [discriminate E|]. destruct s; [discriminate E|].
  reflexivity.
Qed.

Lemma sgr_over c t : sound c -> sgr (cfg_bytes c) t = over c t.
Proof.
  intros (R&P&B). unfold cfg_bytes. rewrite sgr_app by apply non_color_ok.
  replace (sgr (non_color_bytes c) t)
    with (mkTerm (t_bold t || c_bold c) (t_dim t || c_dim c) (t_italic t || c_italic c)
            (t_underlined t || c_underlined c) (t_blinking t || c_blinking c) (t_inverted t || c_inverted c)
            (t_hidden t || c_hidden c) (t_strike t || c_strike c) (t_fg t) (t_bg t)).
  - unfold color_bytes, over. unfold proper in P. destruct (c_fg c) as [col|].
    + rewrite sgr_fg by congruence. destruct (c_bg c) as [[a|x]|]; [contradiction| |reflexivity].
      rewrite <- (app_nil_r (bg_bytes (Rgb x))), sgr_bg. reflexivity.
    + cbn [app]. destruct (c_bg c) as [[a|x]|]; [contradiction| |reflexivity].
      rewrite <- (app_nil_r (bg_bytes (Rgb x))), sgr_bg. reflexivity.
  - destruct c as [r b d i u bl iv h s fg bg], t as [tb td ti tu tbl tiv th ts tf tg]. cbn [c_reset] in R. subst r. clear.
    destruct b, d, i, u, bl, iv, h, s; cbn; rewrite ?orb_true_r, ?orb_false_r; reflexivity.
Qed.

Lemma params_over c t : sound c -> c <> cfg_default -> sgr (params c) t = over c t.
Proof.
  intros S N. unfold params. rewrite <- (sgr_over c t S). destruct (cfg_bytes c) eqn:E; auto.
  apply bytes_none in E; [contradiction|apply S].
Qed.

Lemma params_plain c : sound c -> sgr (params c) plain = over c plain.
Proof. intros S. unfold params. rewrite <- (sgr_over c plain S). destruct (cfg_bytes c) eqn:E; auto. Qed.

Lemma sound_fg col : col <> Ansi Normal -> sound (set_fg_color col cfg_default).
Proof. intros N. split; [reflexivity|]. split; [|exact I]. unfold proper. cbn. congruence. Qed.

Lemma read_bare d t : bare d -> read (display d) MText t = (MText, t, wanted d t).
Proof.
  induction 1 as [s H|a b _ A _ B|a b _ A _ B]; cbn [display wanted].
  - apply read_text; auto.
  - rewrite read_app, A, B. reflexivity.
  - rewrite read_app, A, B. reflexivity.
Qed.

Lemma read_under d : under d -> forall t, exists t', read (display d) MText t = (MText, t', wanted d t).
Proof.
  induction 1 as [d H|a b A _ IH|a b A _ IH|d c S N _ IH|d col N _ IH]; intros t; cbn [display wanted].
  - exists t. apply read_bare; auto.
  - destruct (IH t) as (t'&E). exists t'. rewrite read_app, (read_bare a t A), E. reflexivity.
  - destruct (IH t) as (t'&E). exists t'. rewrite read_app, (read_bare a t A), E. reflexivity.
  - destruct (IH (over c t)) as (t'&E). exists plain. eapply read_display. rewrite params_over; eauto.
  - destruct (IH (over (set_fg_color col cfg_default) t)) as (t'&E). exists plain. eapply read_display.
    rewrite params_over; eauto using sound_fg. discriminate.
Qed.

Lemma read_tidy d : tidy d -> read (display d) MText plain = (MText, plain, wanted d plain).
Proof.
  induction 1 as [s H|a b _ A _ B|a b _ A _ B|d c S H|d col N H]; cbn [display wanted].
  - apply read_text; auto.
  - rewrite read_app, A, B. reflexivity.
  - rewrite read_app, A, B. reflexivity.
  - destruct (read_under d H (over c plain)) as (t'&E). eapply read_display. rewrite params_plain; eauto.
  - destruct (read_under d H (over (set_fg_color col cfg_default) plain)) as (t'&E). eapply read_display.
    rewrite params_plain; eauto using sound_fg.
Qed.

Lemma read_clean d : clean d -> forall t, exists t' o, read (display d) MText t = (MText, t', o) /\ map fst o = texts d.
Proof.
  induction 1 as [s H|a b _ A _ B|a b _ A _ B|d c _ IH|d col _ IH]; intros t; cbn [display texts].
  - exists t, (map (fun c => (c, t)) s). split; [apply read_text; auto|]. rewrite map_map, map_id. reflexivity.
  - destruct (A t) as (t1&o1&E1&M1), (B t1) as (t2&o2&E2&M2). exists t2, (o1 ++ o2). rewrite read_app, E1, E2, map_app.
    split; congruence.
  - destruct (A t) as (t1&o1&E1&M1), (B t1) as (t2&o2&E2&M2). exists t2, (o1 ++ o2). rewrite read_app, E1, E2, map_app.
    split; congruence.
  - destruct (IH (sgr (params c) t)) as (t1&o1&E1&M1). exists plain, o1. split; auto. eapply read_display; eauto.
  - destruct (IH (sgr (params (set_fg_color col cfg_default)) t)) as (t1&o1&E1&M1). exists plain, o1. split; auto.
    eapply read_display; eauto.
Qed.

(** C66: whatever is composed, exactly the texts appear, in order. *)
Theorem C66_texts_in_order : forall d t, clean d -> map fst (shown (display d) t) = texts d.
Proof. intros d t C. destruct (read_clean d C t) as (t'&o&E&M). unfold shown. rewrite E. auto. Qed.

(** C66: composed text looks as wanted when within a style nothing follows a
    styled part, and leaves the terminal as it was. *)
Theorem C66_composed_partial : forall d, tidy d ->
  shown (display d) plain = wanted d plain /\ after (display d) plain = Some plain.
Proof. intros d T. unfold shown, after. rewrite (read_tidy d T). auto. Qed.

(** C66: how any composition looks, and what it leaves in force. *)
Lemma read_looks d : soundly d -> forall u, read (display d) MText u = (MText, snd (looks d u), fst (looks d u)).
Proof.
  induction 1 as [s H|a b _ A _ B|a b _ A _ B|d c S _ IH|d col N _ IH]; intros u; cbn [display looks].
  - apply read_text; auto.
  - rewrite read_app, A. destruct (looks a u) as (x, u1). cbn [fst snd]. rewrite B. destruct (looks b u1) as (y, u2). reflexivity.
  - rewrite read_app, A. destruct (looks a u) as (x, u1). cbn [fst snd]. rewrite B. destruct (looks b u1) as (y, u2). reflexivity.
  - cbn [fst snd]. destruct (cfg_bytes c) eqn:E; eapply read_display; unfold params; rewrite E.
    + replace (sgr [0%N] u) with plain by (destruct u; reflexivity). apply IH.
    + rewrite <- E, sgr_over by auto. apply IH.
  - cbn [fst snd]. eapply read_display. rewrite params_over by (try apply sound_fg; auto; discriminate). apply IH.
Qed.

Theorem C66_exact : forall d u, soundly d ->
  shown (display d) u = fst (looks d u) /\ after (display d) u = Some (snd (looks d u)).
Proof. intros d u S. unfold shown, after. rewrite (read_looks d S u). auto. Qed.

Lemma app_same {A} (a b c d : list A) : List.length a = List.length c -> (a ++ b = c ++ d <-> a = c /\ b = d).
Proof.
  revert c. induction a as [|x a IH]; intros [|y c] L; cbn in *; try discriminate.
  - tauto.
  - injection L as L. split.
    + intros E. injection E as -> E. apply IH in E as (->&->); auto.
    + intros (E&->). injection E as -> ->. reflexivity.
Qed.

Lemma looks_length d : forall u, List.length (fst (looks d u)) = List.length (texts d).
Proof.
  induction d as [s|d IH c|a A b B|a A b B|d IH col]; intros u; cbn [looks texts fst]; auto.
  - apply map_length.
  - specialize (A u). destruct (looks a u) as (x, u1). specialize (B u1). destruct (looks b u1) as (y, u2). cbn [fst] in *. rewrite !app_length. congruence.
  - specialize (A u). destruct (looks a u) as (x, u1). specialize (B u1). destruct (looks b u1) as (y, u2). cbn [fst] in *. rewrite !app_length. congruence.
Qed.

Lemma wanted_length d : forall w, List.length (wanted d w) = List.length (texts d).
Proof. induction d as [s|d IH c|a A b B|a A b B|d IH col]; intros w; cbn [wanted texts]; rewrite ?map_length, ?app_length, ?A, ?B; auto. Qed.

Lemma right_iff d : forall w u, snd (right d w u) = snd (looks d u) /\ (fst (looks d u) = wanted d w <-> fst (right d w u)).
Proof.
  induction d as [s|d IH c|a A b B|a A b B|d IH col]; intros w u; cbn [looks wanted right fst snd].
  - split; auto. split.
    + destruct s as [|c s]; auto. intros E. injection E as E _. auto.
    + intros [->| ->]; reflexivity.
  - split; auto. apply IH.
  - destruct (A w u) as (E&Ha). pose proof (looks_length a u) as L. rewrite <- (wanted_length a w) in L.
    destruct (looks a u) as (x, u1), (right a w u) as (p, v1). cbn [fst snd] in *. subst v1.
    destruct (B w u1) as (E&Hb). destruct (looks b u1) as (y, u2), (right b w u1) as (q, v2). cbn [fst snd] in *.
    split; auto. rewrite app_same by auto. tauto.
  - destruct (A w u) as (E&Ha). pose proof (looks_length a u) as L. rewrite <- (wanted_length a w) in L.
    destruct (looks a u) as (x, u1), (right a w u) as (p, v1). cbn [fst snd] in *. subst v1.
    destruct (B w u1) as (E&Hb). destruct (looks b u1) as (y, u2), (right b w u1) as (q, v2). cbn [fst snd] in *.
    split; auto. rewrite app_same by auto. tauto.
  - split; auto. apply IH.
Qed.

(** C66: it looks as wanted exactly if every text that is not empty finds in
    force what is wanted for it. *)
Theorem C66_right_iff : forall d, soundly d ->
  (shown (display d) plain = wanted d plain <-> fst (right d plain plain)).
Proof. intros d S. rewrite (proj1 (C66_exact d plain S)). apply right_iff. Qed.

(** C66: what follows a styled part within a style loses the style. *)
Theorem C66_style_lost_refuted : forall c c' s u v, sound c -> sound c' -> over c plain <> plain ->
  no_esc s -> no_esc u -> no_esc v -> v <> [] ->
  let d := of_style (append (append (mkStyle (DText s) c) (DStyled (DText u) c')) (DText v)) in
  (exists o, shown (display d) plain = o ++ map (fun x => (x, plain)) v /\ List.length o = List.length (s ++ u)) /\
  (exists o, wanted d plain = o ++ map (fun x => (x, over c plain)) v /\ List.length o = List.length (s ++ u)) /\
  shown (display d) plain <> wanted d plain.
Proof.
  intros c c' s u v S S' N Hs Hu Hv Nv d.
  assert (E : exists o, shown (display d) plain = o ++ map (fun x => (x, plain)) v /\ List.length o = List.length (s ++ u)).
  { exists (map (fun x => (x, over c plain)) s ++ map (fun x => (x, sgr (params c') (over c plain))) u).
    split; [|rewrite !app_length, !map_length; auto].
    unfold shown, d. cbn [of_style append s_item s_conf display].
    erewrite read_display; [reflexivity|]. rewrite params_plain by auto.
    rewrite !read_app, (read_text s) by auto. erewrite read_display by (apply read_text; auto).
    rewrite (read_text v) by auto. reflexivity. }
  assert (W : exists o, wanted d plain = o ++ map (fun x => (x, over c plain)) v /\ List.length o = List.length (s ++ u)).
  { exists (map (fun x => (x, over c plain)) s ++ map (fun x => (x, over c' (over c plain))) u).
    split; [|rewrite !app_length, !map_length; auto]. reflexivity. }
  split; auto. split; auto. destruct E as (o&->&Lo), W as (o'&->&Lo'). intros X.
  assert (L : List.length o = List.length o') by congruence.
  revert o' Lo Lo' X L. clear - Nv N. intros o' _ _. revert o'.
  induction o as [|x o IH]; intros [|y o'] X L; try discriminate L.
  - destruct v as [|x v]; [congruence|]. apply (f_equal (fun l => snd (hd (0%N, plain) l))) in X. apply N. symmetry. exact X.
  - cbn in X, L. injection X as _ X. injection L as L. eauto.
Qed.

(** C66: an item between two others, itself blue. *)
Theorem C66_wrapped_blue : forall l r s, no_esc l -> no_esc r -> no_esc s ->
  shown (display (of_style (wrapped_blue (DText l) (DText r) (DText s)))) plain =
    map (fun x => (x, plain)) l ++ map (fun x => (x, with_fg (Ansi Blue) plain)) s ++ map (fun x => (x, plain)) r.
Proof.
  intros l r s Hl Hr Hs. unfold shown. cbn [wrapped_blue of_style append style_new s_item s_conf display].
  erewrite read_display; [reflexivity|]. change (sgr (params cfg_default) plain) with plain.
  rewrite !read_app, (read_text l) by auto. erewrite read_display by (apply read_text; auto).
  rewrite (read_text r) by auto. rewrite <- app_assoc. reflexivity.
Qed.

(** C66: the builders that combine items. *)
Theorem C66_builders : forall c s u f, sound c -> no_esc s -> no_esc u -> sound (s_conf (f (mkStyle (DText u) c))) ->
  s_item (f (mkStyle (DText u) c)) = DText u ->
  let st := mkStyle (DText s) c in
  let in_ c := map (fun x => (x, over c plain)) in
  shown (display (of_style (append st (DText u)))) plain = in_ c (s ++ u) /\
  shown (display (of_style (prepend st (DText u)))) plain = in_ c (u ++ s) /\
  shown (display (then_with st (DText u) f)) plain = in_ c s ++ in_ (s_conf (f (mkStyle (DText u) c))) u /\
  shown (display (fresh_suffix st (DText u))) plain = in_ c s ++ map (fun x => (x, plain)) u /\
  shown (display (fresh_prefix st (DText u))) plain = map (fun x => (x, plain)) u ++ in_ c s /\
  map (fun s => shown (display (of_style s)) plain) (share_iter st [DText s; DText u]) = [in_ c s; in_ c u].
Proof.
  intros c s u f S Hs Hu Sf If st in_.
  assert (T : forall d, tidy d -> shown (display d) plain = wanted d plain) by (intros; apply C66_composed_partial; auto).
  assert (B1 : bare (DText s)) by (constructor; auto). assert (B2 : bare (DText u)) by (constructor; auto).
  assert (P1 : tidy (DStyled (DText s) c)) by (apply ti_style; auto; apply un_bare; auto).
  assert (P2 : tidy (DStyled (DText u) c)) by (apply ti_style; auto; apply un_bare; auto).
  assert (P3 : tidy (DText u)) by (constructor; auto).
  repeat split.
  - rewrite T; [cbn; unfold in_; rewrite map_app; reflexivity|].
    apply ti_style; auto. apply un_bare, ba_and; auto.
  - rewrite T; [cbn; unfold in_; rewrite map_app; reflexivity|].
    apply ti_style; auto. apply un_bare, ba_and; auto.
  - rewrite T; [cbn [then_with of_style st s_conf s_item wanted]; rewrite If; reflexivity|]. apply ti_then; [exact P1|]. unfold of_style. change (s_conf st) with c. rewrite If.
    apply ti_style; auto. apply un_bare; auto.
  - rewrite T; [reflexivity|]. apply ti_then; auto.
  - rewrite T; [reflexivity|]. apply ti_then; auto.
  - cbn [share_iter map of_style s_item s_conf st]. rewrite !T; auto.
Qed.

(** C66: highlighting keeps the item and the foreground only. *)
Theorem C66_highlight : forall s c x, c_fg c = Some x -> x <> Ansi Normal -> no_esc s ->
  shown (display (to_highlighted (mkStyle (DText s) c))) plain = map (fun ch => (ch, with_fg x plain)) s /\
  shown (display (of_style (from_highlighted (DText s) x))) plain = map (fun ch => (ch, with_fg x plain)) s.
Proof.
  intros s c x E N H.
  assert (T : forall d, tidy d -> shown (display d) plain = wanted d plain) by (intros; apply C66_composed_partial; auto).
  unfold to_highlighted. cbn [s_conf s_item]. rewrite E. split.
  - rewrite T by (apply ti_high; auto; apply un_bare, ba_text; auto). reflexivity.
  - rewrite T by (apply ti_style; [apply (sound_fg x); auto|apply un_bare, ba_text; auto]). reflexivity.
Qed.

Definition red_bold : config := set_format FBold (set_fg_color (Ansi Red) cfg_default).
Example C66_ex : sound red_bold /\ over red_bold plain <> plain /\
  tidy (DThen (DStyled (DAnd (DText (lit "a")) (DHigh (DText (lit "b")) (Ansi Green))) red_bold) (DText (lit "c"))).
Proof.
  assert (S : sound red_bold) by (split; [reflexivity|split; [discriminate|exact I]]).
  split; auto. split; [discriminate|]. apply ti_then.
  - apply ti_style; auto. apply un_and; [constructor|apply un_high; [discriminate|constructor; constructor]];
      intros [X|[]]; discriminate.
  - constructor. intros [X|[]]; discriminate.
Qed.
Example C66_ex_shown :
  shown (display (DThen (DStyled (DAnd (DText (lit "a")) (DHigh (DText (lit "b")) (Ansi Green))) red_bold) (DText (lit "c")))) plain
  = [(97%N, asked red_bold); (98%N, with_fg (Ansi Green) (asked red_bold)); (99%N, plain)].
Proof. vm_compute. reflexivity. Qed.

Print Assumptions C66_texts_in_order.
Print Assumptions C66_composed_partial.
Print Assumptions C66_exact.
Print Assumptions C66_right_iff.
Print Assumptions C66_style_lost_refuted.
Print Assumptions C66_wrapped_blue.
Print Assumptions C66_builders.
Print Assumptions C66_highlight.
