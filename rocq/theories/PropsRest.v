(** Colours, formats, styles, names and visitors by name and number: C22, C24,
    C44, C66, C67, C68, C70, C71, C74. *)
From Coq Require Import List Arith NArith ZArith Bool String Lia Sorted.
From Verif Require Import Prelim Chars Syntax Fixity SpecFixity Style SpecStyle ProofStyle Docs SpecDocs PropsDocs.
From Verif Require Import Lexer SpecLexer Parser SpecParser Printer SpecPrinter ProofBytes ProofDigits ProofParser7 ProofParser8.
From Verif Require Import ProofPrinter7 ProofPrinter8 Extras SpecExtras PropsLexer PropsParser PropsFixity PropsExtras.
From Verif Require Import ProofTable ProofTable SpecLexRun ProofParser9 ProofPrinter3 ProofPrinter6.
From Verif Require PropsPrinter.
Import ListNotations.

(** * C44 *)

(** C44: formats by number. *)
Theorem C44_format_numbers : forall b f,
  (maybe_from_u8 b = Some f <-> format_code f = b) /\
  from_u8 (format_code f) = f /\
  ((forall g, format_code g <> b) -> maybe_from_u8 b = None /\ from_u8 b = FReset) /\
  NoDup format_all /\ In f format_all.
Proof.
  intros b f.
  assert (I : forall g, In g format_all) by (intros []; cbn; tauto).
  assert (J : forall g h, format_code g = format_code h -> g = h) by (intros [] []; cbn; congruence).
  assert (M : forall g, maybe_from_u8 (format_code g) = Some g) by (intros []; reflexivity).
  assert (X : maybe_from_u8 b = Some f -> format_code f = b).
  { intros H. apply find_some in H as (_&H). apply N.eqb_eq in H. auto. }
  split; [split; [exact X|intros <-; apply M]|].
  split; [unfold from_u8; now rewrite M|]. split; [|split; auto].
  - intros H. assert (E : maybe_from_u8 b = None).
    { destruct (maybe_from_u8 b) as [g|] eqn:E; auto. apply find_some in E as (_&E). apply N.eqb_eq in E. destruct (H g); auto. }
    split; auto. unfold from_u8. now rewrite E.
  - unfold format_all. repeat (constructor; [cbn; intuition discriminate|]). constructor.
Qed.

Lemma read_number t done n : read (show_N n ++ [109%N]) (MCsi done 0) t = (MText, sgr (done ++ [n]) t, []).
Proof.
  destruct (show_N_spec n) as (_&D&_). rewrite read_app, read_digits by auto. rewrite show_N_value. reflexivity.
Qed.

Lemma read_part t done n rest : read (show_N n ++ 59%N :: rest) (MCsi done 0) t =
  read rest (MCsi (done ++ [n]) 0) t.
Proof.
  destruct (show_N_spec n) as (_&D&_). rewrite read_app, read_digits by auto. rewrite show_N_value.
  change (read (59%N :: rest) (MCsi done n) t) with
    (let '(m2, t2, o2) := read rest (MCsi (done ++ [n]) 0) t in (m2, t2, [] ++ o2)).
  destruct (read rest (MCsi (done ++ [n]) 0) t) as ((m,t'),o). reflexivity.
Qed.

(** C44: a colour written as text, in an escape sequence, selects this colour
    and nothing else; written as a background it selects it as background. *)
Theorem C44_colors_as_text : forall a c t, a <> Normal ->
  let seq s := [27; 91]%N ++ s ++ [109%N] in
  after (seq (show_fg a)) t = Some (with_fg (Ansi a) t) /\
  after (seq (ansi_str a)) t = Some (with_fg (Ansi a) t) /\
  after (seq (show_bg a)) t = Some (with_bg (Ansi a) t) /\
  after (seq (lit "38;2;" ++ show_rgb c)) t = Some (with_fg (Rgb c) t) /\
  after (seq (lit "48;2;" ++ show_rgb c)) t = Some (with_bg (Rgb c) t).
Proof.
  intros a c t N seq.
  assert (E : ansi_str a = show_fg a) by (destruct a; reflexivity). rewrite E.
  unfold after, seq.
  assert (B : forall s t, read ([27; 91]%N ++ s) MText t = read s (MCsi [] 0) t).
  { intros s t'. change (read ([27; 91]%N ++ s) MText t') with
      (let '(m, t1, o) := let '(m, t1, o) := read s (MCsi [] 0) t' in (m, t1, [] ++ o) in (m, t1, [] ++ o)).
    destruct (read s (MCsi [] 0) t') as ((m,t2),o). reflexivity. }
  rewrite !B. unfold show_fg, show_bg. rewrite !read_number.
  assert (P : forall k, read ((show_N k ++ 59%N :: show_N 2 ++ 59%N :: show_rgb c) ++ [109%N]) (MCsi [] 0) t =
    (MText, sgr [k; 2%N; Style.red c; Style.green c; Style.blue c] t, [])).
  { intros k. unfold show_rgb. repeat (rewrite <- app_assoc; cbn [app]). rewrite !read_part, read_number. reflexivity. }
  change (lit "38;2;" ++ show_rgb c) with (show_N 38 ++ 59%N :: show_N 2 ++ 59%N :: show_rgb c).
  change (lit "48;2;" ++ show_rgb c) with (show_N 48 ++ 59%N :: show_N 2 ++ 59%N :: show_rgb c).
  rewrite !P. cbn [app]. destruct t, c. destruct a; [congruence|..]; repeat split.
Qed.

(** C44: [Normal] is no colour but the end of all styles. *)
Theorem C44_normal_as_text : forall t,
  after ([27; 91]%N ++ show_fg Normal ++ [109%N]) t = Some plain.
Proof. intros []. reflexivity. Qed.

(** C44: the list of all colours. *)
Theorem C44_all_colors : NoDup ansi_all /\ (forall a, In a ansi_all <-> a <> Normal) /\ map ansi_code ansi_all = map fst palette.
Proof.
  split; [unfold ansi_all; repeat (constructor; [cbn; intuition discriminate|]); constructor|]. split; [|reflexivity].
  intros a. split; [intros I ->; cbn in I; intuition discriminate|]. destruct a; cbn; tauto.
Qed.

(** C44: the named colours are colours, all different. *)
Theorem C44_named_colors : Forall (fun p => is_color (snd p)) named_rgb /\ NoDup (map fst named_rgb) /\ NoDup (map snd named_rgb).
Proof.
  split; [repeat constructor|]. split; unfold named_rgb; cbn [map fst snd]; repeat (constructor; [cbn; intuition discriminate|]); constructor.
Qed.

(** C44: those with the names of web colours are these, written as six
    hexadecimal digits; orange and azure are others. *)
Definition web_colors : list (string * N) :=
  [ ("Maroon", 0x800000); ("Crimson", 0xDC143C); ("Teal", 0x008080); ("Purple", 0x800080);
    ("Indigo", 0x4B0082); ("Violet", 0xEE82EE) ]%string%N.
Definition channels (x : N) : rgb := mkRgb (x / 65536) (x / 256 mod 256) (x mod 256).
Theorem C44_web_colors : forall n x, In (n, x) named_rgb ->
  In (n, x) (map (fun p => (fst p, channels (snd p))) web_colors) \/
  (n, x) = ("Orange"%string, channels 0xFF8000) \/ (n, x) = ("Azure"%string, channels 0x0080FF).
Proof.
  intros n x I. unfold named_rgb in I. cbn [In] in I.
  repeat (destruct I as [I|I]; [symmetry in I; rewrite I; vm_compute; tauto|]). destruct I.
Qed.

(** * C66 *)

(** C66: changing the colours of a style keeps its item and all else it asks for. *)
Theorem C66_colors : forall s col f,
  let keeps s' := s_item s' = s_item s /\ get_field f (s_conf s') = get_field f (s_conf s) in
  keeps (style_fg col s) /\ c_fg (s_conf (style_fg col s)) = Some col /\ c_bg (s_conf (style_fg col s)) = c_bg (s_conf s) /\
  keeps (style_bg col s) /\ c_bg (s_conf (style_bg col s)) = Some col /\ c_fg (s_conf (style_bg col s)) = c_fg (s_conf s) /\
  keeps (style_reset_colors s) /\ c_fg (s_conf (style_reset_colors s)) = None /\ c_bg (s_conf (style_reset_colors s)) = None.
Proof. intros [d []] col f keeps. unfold keeps. destruct f; repeat split. Qed.

(** C66: so on the screen a text in these styles has just these colours changed. *)
Theorem C66_colors_shown : forall c s x, sound c -> no_esc s ->
  let st := mkStyle (DText s) c in
  let look t := map (fun ch => (ch, t)) s in
  shown (display (of_style (style_fg (Rgb x) st))) plain = look (with_fg (Rgb x) (over c plain)) /\
  shown (display (of_style (style_bg (Rgb x) st))) plain = look (with_bg (Rgb x) (over c plain)) /\
  (exists t, shown (display (of_style (style_reset_colors st))) plain = look t /\ t_fg t = None /\ t_bg t = None /\
    forall y z, with_fg y (with_bg z t) = with_fg y (with_bg z (over c plain))).
Proof.
  intros c s x (R&P&B) Hs st look.
  assert (T : forall d, tidy d -> shown (display d) plain = wanted d plain) by (intros; apply C66_composed_partial; auto).
  assert (Un : under (DText s)) by (apply un_bare; constructor; auto).
  destruct c as [r b d i u bl iv h k fg bg]. cbn in R, P, B. subst r.
  split; [|split].
  - rewrite T; [reflexivity|]. apply ti_style; auto. split; [reflexivity|]. split; [discriminate|exact B].
  - rewrite T; [reflexivity|]. apply ti_style; auto. split; [reflexivity|]. split; [exact P|exact I].
  - eexists. split; [rewrite T; [reflexivity|]|repeat split]. apply ti_style; auto. repeat split. discriminate.
Qed.

(** C66: displaying one after the other, one with the other, and starting a style. *)
Theorem C66_sequence : forall a b,
  display (doc_and a b) = display a ++ display b /\ display (doc_then a b) = display a ++ display b /\
  of_style (doc_styled a) = DStyled a cfg_default /\
  (tidy a -> tidy b -> shown (display (doc_and a b)) plain = wanted a plain ++ wanted b plain) /\
  (under a -> shown (display (of_style (doc_styled a))) plain = wanted a plain).
Proof.
  intros a b. repeat split.
  - intros A B. apply (C66_composed_partial (DAnd a b)). constructor; auto.
  - intros A. apply (C66_composed_partial (DStyled a cfg_default)). apply ti_style; auto. repeat split. discriminate.
Qed.

(** C66: a highlighted item is the item in this colour; converting a style keeps
    the item and the colour of the text and nothing else, and converting back and
    forth changes nothing. *)
Theorem C66_highlighted : forall d col s,
  display (DHigh d col) = display (of_style (from_highlighted d col)) /\
  to_highlighted (from_highlighted d col) = DHigh d col /\
  (forall x, c_fg (s_conf s) = Some x -> to_highlighted s = DHigh (s_item s) x) /\
  (c_fg (s_conf s) = None -> forall u, s_item s = DText u -> no_esc u ->
    shown (display (to_highlighted s)) plain = map (fun ch => (ch, plain)) u).
Proof.
  intros d col s. repeat split.
  - intros x E. unfold to_highlighted. now rewrite E.
  - intros E u Eu Nu. unfold to_highlighted, shown. rewrite E, Eu. cbn [display].
    erewrite read_display; [reflexivity|]. change (sgr (params (set_fg_color (Ansi Normal) cfg_default)) plain) with plain.
    apply read_text; auto.
Qed.

(** * C67 *)

(** C67: the single expression is regrouped exactly if it has a legal grouping,
    and into this; else the error is a genuine clash; the resolver stays. *)
Theorem C67_resolve_expr : forall r e, simple_operands e ->
  (exists e', resolve_expr r e = Ok (inl e') /\ inorder e' = inorder e /\ legal_expr (get (r_fix r)) e') \/
  (exists err, resolve_expr r e = Ok (inr err) /\ clash (get (r_fix r)) (chain e) (e_prev err) (e_curr err) /\
    ~ exists e', inorder e' = inorder e /\ legal_expr (get (r_fix r)) e').
Proof.
  intros r e So. destruct (C05_rewrite_never_panics (r_fix r) e) as ([e'|err]&E); [left|right].
  - exists e'. split; auto. apply C03_success_iff_legal_grouping; auto.
  - exists err. split; auto. split; [apply (C04_error_is_genuine _ _ _ E)|]. apply C03_failure_iff_no_legal_grouping; eauto.
Qed.

(** C67: the entries are those of the table. *)
Theorem C67_entries : forall r o f, NoDup (keys (r_fix r)) ->
  (In (symbol o) (keys (fixity_entries r)) <-> get_defined (r_fix r) o <> None) /\
  (In (o, f) (fixity_entries r) -> get_defined (r_fix r) o = Some f).
Proof.
  intros r o f. unfold fixity_entries. generalize (r_fix r). intros t N. unfold keys in *. split.
  - clear N. induction t as [|(k,g) t IH]; cbn [map fst In get_defined]; [split; [intros []|intros H; apply H; reflexivity]|].
    destruct (infix_eqb_spec k o) as [E|E]; [split; [discriminate|auto]|]. rewrite <- IH. split; [intros [X|X]; [congruence|auto]|auto].
  - induction t as [|(k,g) t IH]; [intros []|]. cbn [map fst] in N. inversion N as [|? ? N1 N2]; subst.
    cbn [get_defined]. intros [E|I].
    + injection E as -> ->. now rewrite infix_eqb_refl.
    + destruct (infix_eqb_spec k o) as [E|E]; auto. exfalso. apply N1. rewrite E. apply in_map_iff. exists (o, f). auto.
Qed.

(** * C68 *)

(** C68: the name that is written as an empty pair of parentheses. *)
Theorem C68_unit : forall i,
  (is_unit i = true -> show_ident i = lit "()") /\
  ((forall s, i = IUpper s \/ i = ILower s \/ i = IInfix s -> ~ In 40%N s) -> show_ident i = lit "()" -> is_unit i = true).
Proof.
  intros i. split.
  - destruct i as [|n| | |]; try discriminate; try (destruct n; [reflexivity|discriminate]).
  - intros H E. destruct i as [|[|n]| | |]; cbn in E; try discriminate; auto;
      exfalso; apply (H s); auto; rewrite E; cbn; auto.
Qed.

(** * C70 *)

(** C70: visiting a program visits every expression in it, in order. *)
Theorem C70_programs : forall (S : Type) (pre : S -> expr -> S) s a, exists ess,
  Forall2 (fun e es => exists ps, StronglySorted SpecExtras.before ps /\ (forall p, In p ps <-> exists x, at_ e p x) /\ Forall2 (at_ e) ps es)
    (a_exprs a) ess /\
  walk_ast (visit_all pre) s a = fold_left pre (List.concat ess) s.
Proof.
  intros S pre s a. unfold walk_ast. generalize (a_exprs a). intros es. revert s.
  assert (X : exists ess, Forall2 (fun e es => exists ps, StronglySorted SpecExtras.before ps /\ (forall p, In p ps <-> exists x, at_ e p x) /\
    Forall2 (at_ e) ps es) es ess /\ forall s, fold_left (visit_all pre) es s = fold_left pre (List.concat ess) s).
  { induction es as [|e es (ess&F&H)]; [exists []; split; [constructor|auto]|].
    destruct (positions (esize e) e (le_n _)) as (ps&A&B&C). exists (subs e :: ess). split; [constructor; eauto|].
    intros s. cbn [fold_left List.concat]. rewrite fold_left_app, <- H. f_equal. eapply visit_subs; eauto. }
  destruct X as (ess&F&H). intros s. exists ess. auto.
Qed.

(** * C71 *)

(** C71: a span is empty if it begins where it ends. *)
Theorem C71_empty : forall sp, span_is_empty sp = true <-> sp_lo sp = sp_hi sp.
Proof.
  intros [[a b c] [a' b' c']]. unfold span_is_empty. cbn. rewrite !andb_true_iff, !Nat.eqb_eq.
  split; [intros ((->&->)&->); auto|intros E; injection E; auto].
Qed.

(** * C74 *)

(** C74: a slice matches what one of its elements matches. *)
Theorem C74_match_any : forall (T S : Type) (check : T -> S -> bool) ts x,
  match_any check ts x = true <-> exists t, In t ts /\ check t x = true.
Proof. intros. apply existsb_exists. Qed.

Section WithUcd.
Context {U : ucd}.

(** * C24 *)

(** C24: the lexer says that it is done exactly at the end of the text. *)
Theorem C24_done : letters U -> forall src l, reachable src l -> no_lfcr src ->
  (lx_done l = true <-> l_pos (curr_loc l) = blen src).
Proof.
  intros HU src l R N. destruct (C24_positions HU src l R N) as (w&E&L). rewrite L, E, blen_app. cbn [loc_of l_pos].
  unfold lx_done. destruct (lx_rest l) as [|c r]; [split; [cbn; lia|auto]|]. split; [discriminate|].
  cbn [blen]. pose proof (len_utf8_pos c). lia.
Qed.

(** * C22 *)

(** C22: a fixity, displayed, is how this fixity is declared. *)
Theorem C22_display : letters U -> forall f o, (fx_prec f <= 9)%N -> an_operator o 10 ->
  exists a l, parse (show_fixity f ++ [32%N] ++ op_text o ++ [10%N]) = POk a l /\
    a_exprs a = [] /\ a_infxs a = [mkInfixDecl [o] f].
Proof.
  intros HU f o P O. unfold show_fixity.
  assert (K : assoc_keyword (fx_assoc f) = keyword (fx_assoc f)) by (destruct (fx_assoc f); reflexivity). rewrite K.
  set (kw := keyword (fx_assoc f)).
  destruct (keyword_token (fx_assoc f) ([32%N] ++ show_N (fx_prec f) ++ [32%N] ++ op_text o ++ [10%N]) eq_refl eq_refl) as (t&L&A).
  destruct O as ((to&Lo&Oo)&Nl&_).
  set (ts := [(t, col_of kw); (TLit (LInt (fx_prec f)), col_of (kw ++ [32%N] ++ show_N (fx_prec f)));
    (to, col_of ((kw ++ [32%N] ++ show_N (fx_prec f)) ++ [32%N] ++ op_text o))]).
  assert (T : ctokens [] ((kw ++ [32%N] ++ show_N (fx_prec f)) ++ [32%N] ++ op_text o ++ [10%N]) ts).
  { unfold ts.
    replace ((kw ++ [32%N] ++ show_N (fx_prec f)) ++ [32%N] ++ op_text o ++ [10%N])
      with (kw ++ [32%N] ++ show_N (fx_prec f) ++ [32%N] ++ op_text o ++ [10%N]) by (rewrite <- !app_assoc; reflexivity).
    apply (ct_cons [] [] kw t); [constructor|exact L|]. apply (ct_cons kw [32%N] (show_N (fx_prec f))).
    - apply gap_white; [reflexivity|constructor].
    - apply int_lexeme; [lia|reflexivity].
    - apply (ct_cons _ [32%N] (op_text o)).
      + apply gap_white; [reflexivity|constructor].
      + exact Lo.
      + apply ct_end. apply gap_white; [reflexivity|constructor]. }
  assert (Pr : program Nat.ltb ts [DInfix (mkInfixDecl [o] f)]).
  { rewrite <- (app_nil_r ts). apply pr_plain; [|reflexivity|constructor]. apply do_infix. unfold ts. destruct f. apply de_prec; auto.
    apply os_one; auto. }
  assert (Cl : no_lfcr ((kw ++ [32%N] ++ show_N (fx_prec f)) ++ [32%N] ++ op_text o ++ [10%N])).
  { replace ((kw ++ [32%N] ++ show_N (fx_prec f)) ++ [32%N] ++ op_text o ++ [10%N])
      with ((kw ++ [32%N] ++ show_N (fx_prec f) ++ [32%N] ++ op_text o) ++ [10%N]) by (rewrite <- !app_assoc; reflexivity).
    apply clean_join; [|intros a b E; destruct a; discriminate|constructor].
    repeat (apply Forall_app; split); try (repeat constructor; fail).
    - apply keyword_line.
    - apply digits_line. destruct (show_N_spec (fx_prec f)) as (_&D&_). auto.
    - apply Forall_forall. intros c I. unfold not_lf. destruct (N.eqb_spec c 10) as [->|]; [|reflexivity].
      exfalso. destruct o as [s|s]; cbn in I; [|destruct I as [I|I]; [discriminate|]]; exact (Nl I). }
  destruct (proj2 (parse_iff HU _ (fold_left ast_push [DInfix (mkInfixDecl [o] f)] ast_empty) Cl)) as (l&E); [eauto|].
  eexists _, l. split; [exact E|]. split; reflexivity.
Qed.

End WithUcd.

(** * Examples *)

(** The operators of the examples of C22 meet the hypotheses of [C22_display]. *)
Example C22_display_ex : @an_operator ucd_none (Standard (lit "==")) 10 /\
  exists l, @parse ucd_none (show_fixity (mkFix 4 ANeither) ++ [32%N] ++ op_text (Standard (lit "==")) ++ [10%N]) =
    POk (fold_left ast_push [DInfix (mkInfixDecl [Standard (lit "==")] (mkFix 4 ANeither))] ast_empty) l.
Proof.
  split; [apply (PropsPrinter.C22_ex_operators _ (mkFix 4 ANeither)); cbn; auto 6|]. eexists. vm_compute. reflexivity.
Qed.

Example C66_colors_ex : sound (styled [BSet FBold; BFg Red]) /\ no_esc (lit "ab") /\
  shown (display (of_style (style_bg (Rgb (mkRgb 1 2 3)) (mkStyle (DText (lit "ab")) (styled [BSet FBold; BFg Red]))))) plain =
    map (fun c => (c, mkTerm true false false false false false false false (Some (Ansi Red)) (Some (Rgb (mkRgb 1 2 3))))) (lit "ab").
Proof. split; [repeat split; discriminate|]. split; [cbn; intros [H|[H|[]]]; discriminate|]. vm_compute. reflexivity. Qed.

Example C67_resolve_ex : simple_operands chain_ex /\ resolve_expr (mkResolver tbl_ex []) chain_ex = Ok (inl chain_ex_grouped) /\
  simple_operands clash_ex /\ exists err, resolve_expr (mkResolver tbl_ex []) clash_ex = Ok (inr err).
Proof. split; [apply chain_ex_simple|]. split; [reflexivity|]. split; [apply clash_ex_simple|]. eexists. vm_compute. reflexivity. Qed.

Example C70_programs_ex : walk_ast (visit_all (fun n e => match e with Var _ => Datatypes.S n | _ => n end)) 0
  (ast_push (ast_push ast_empty (DExpr chain_ex)) (DExpr (v "a"))) = 7.
Proof. vm_compute. reflexivity. Qed.

Print Assumptions C44_format_numbers.
Print Assumptions C44_colors_as_text.
Print Assumptions C44_normal_as_text.
Print Assumptions C44_all_colors.
Print Assumptions C44_named_colors.
Print Assumptions C66_colors.
Print Assumptions C66_colors_shown.
Print Assumptions C66_sequence.
Print Assumptions C66_highlighted.
Print Assumptions C67_resolve_expr.
Print Assumptions C67_entries.
Print Assumptions C68_unit.
Print Assumptions C70_programs.
Print Assumptions C71_empty.
Print Assumptions C74_match_any.
Print Assumptions C24_done.
Print Assumptions C22_display.
Print Assumptions C44_web_colors.
