(** The listing of fixities. *)
From Coq Require Import List Arith NArith ZArith Bool String Lia.
From Verif Require Import Prelim Chars Syntax Fixity SpecFixity Style SpecStyle SpecLexer SpecParser Printer SpecPrinter.
From Verif Require Import ProofStyle ProofDigits ProofTable ProofFixity Lexer Parser ProofParser7 ProofParser8 ProofParser9.
From Verif Require Import ProofPrinter ProofPrinter2 ProofPrinter3.
Import ListNotations.

Lemma fixity_eqb_dec f g : fixity_eqb f g = if fixity_dec f g then true else false.
Proof.
  unfold fixity_eqb. destruct (fixity_dec f g) as [<-|N].
  - rewrite N.eqb_refl. destruct (fx_assoc f); reflexivity.
  - destruct (N.eqb_spec (fx_prec f) (fx_prec g)) as [E|]; auto. destruct f as [p a], g as [q b]; cbn in *. subst.
    destruct a, b; cbn; auto; congruence.
Qed.

(** ** Distinct fixities *)

Lemma firsts_in fs f : In f (firsts fs) <-> In f fs.
Proof.
  revert f. induction fs as [|g fs IH]; intros f; [tauto|]. cbn [firsts In]. rewrite filter_In, IH.
  destruct (fixity_dec g f) as [->|N]; [tauto|]. split; [tauto|]. intros [->|H]; auto.
Qed.
Lemma firsts_nodup fs : NoDup (firsts fs).
Proof.
  induction fs as [|g fs IH]; [constructor|]. cbn [firsts]. constructor; [|apply NoDup_filter; auto].
  rewrite filter_In. intros (_&H). destruct (fixity_dec g g); [discriminate|congruence].
Qed.

Lemma index_set_firsts fs : index_set fs = firsts fs.
Proof.
  unfold index_set.
  assert (G : forall fs acc, fold_left (fun acc f => if existsb (fixity_eqb f) acc then acc else acc ++ [f]) fs acc =
    acc ++ filter (fun f => negb (existsb (fixity_eqb f) acc)) (firsts fs)).
  { clear. induction fs as [|f fs IH]; intros acc; cbn [fold_left firsts filter]; [symmetry; apply app_nil_r|].
    destruct (existsb (fixity_eqb f) acc) eqn:E; cbn [negb].
    - rewrite IH. f_equal. clear IH. induction (firsts fs) as [|g gs IHg]; auto. cbn [filter].
      destruct (fixity_dec f g) as [<-|N]; cbn [filter].
      + rewrite E. cbn [negb]. exact IHg.
      + destruct (negb (existsb (fixity_eqb g) acc)); rewrite IHg; reflexivity.
    - rewrite IH. rewrite <- app_assoc. f_equal. cbn [app]. f_equal. clear IH.
      induction (firsts fs) as [|g gs IHg]; auto. cbn [filter]. rewrite existsb_app. cbn [existsb]. rewrite orb_false_r.
      rewrite (fixity_eqb_dec g f). destruct (fixity_dec f g) as [<-|N]; cbn [filter].
      + destruct (fixity_dec f f); [|congruence]. rewrite orb_true_r. cbn [negb]. exact IHg.
      + destruct (fixity_dec g f); [congruence|]. rewrite orb_false_r.
        destruct (negb (existsb (fixity_eqb g) acc)); rewrite IHg; reflexivity. }
  rewrite G. cbn [app existsb negb]. induction (firsts fs) as [|f gs IH]; auto. cbn [filter]. f_equal. auto.
Qed.

Lemma with_fixity_eqb t f : map fst (filter (fun x : infix * fixity => fixity_eqb f (snd x)) t) = with_fixity t f.
Proof. unfold with_fixity. f_equal. apply filter_ext. intros x. apply fixity_eqb_dec. Qed.

Lemma with_fixity_some t f : In f (map snd t) -> with_fixity t f <> [].
Proof.
  intros I. apply in_map_iff in I as ((o,g)&E&I). cbn in E. subst g. unfold with_fixity. intros H.
  apply map_eq_nil in H. assert (K : In (o, f) []) by (rewrite <- H; apply filter_In; split; auto; cbn; destruct (fixity_dec f f); congruence).
  destruct K.
Qed.
Lemma with_fixity_in t f o : In o (with_fixity t f) <-> In (o, f) t.
Proof.
  unfold with_fixity. rewrite in_map_iff. split.
  - intros ((o',g)&E&I). cbn in E. subst. apply filter_In in I as (I&H). cbn in H. destruct (fixity_dec f g); [subst; auto|discriminate].
  - intros I. exists (o, f). split; auto. apply filter_In. split; auto. cbn. destruct (fixity_dec f f); congruence.
Qed.

(** ** What is shown *)

Definition reads_as (s u : str) : Prop := exists o, read s MText plain = (MText, plain, o) /\ map fst o = u.

Lemma reads_app a b u v : reads_as a u -> reads_as b v -> reads_as (a ++ b) (u ++ v).
Proof. intros (o&R&M) (o'&R'&M'). exists (o ++ o'). rewrite read_app, R, R'. rewrite map_app. split; congruence. Qed.
Lemma reads_text s : no_esc s -> reads_as s s.
Proof. intros N. exists (plainly s). split; [apply read_text; auto|apply plainly_fst]. Qed.
Lemma reads_styled c s : proper (c_fg c) -> is_rgb (c_bg c) -> no_esc s -> reads_as (style_display c s) s.
Proof.
  intros P B N. exists (map (fun x => (x, asked c)) s). split.
  - apply (read_display c s plain (sgr (params c) plain)). rewrite read_text by auto. rewrite sgr_params; auto.
  - rewrite map_map. apply map_id.
Qed.

Lemma keyword_no_esc a : no_esc (assoc_keyword a).
Proof. unfold no_esc. destruct a; cbn; intuition discriminate. Qed.
Lemma show_N_no_esc n : no_esc (show_N n).
Proof.
  destruct (show_N_spec n) as (_&D&_). intros I. rewrite Forall_forall in D. specialize (D _ I). unfold dec_digit in D. lia.
Qed.

Definition show_ok (o : infix) : Prop := no_esc (symbol o) /\ o <> Promoted [39%N].

Lemma show_infix_plain o : show_ok o -> show_infix o = op_text o /\ no_esc (op_text o).
Proof.
  intros (N&H). destruct o as [s|s]; cbn [show_infix op_text symbol] in *; auto. split.
  - destruct (Nat.eqb (blen s) 1 && str_eqb s [39%N]) eqn:E; auto. apply andb_true_iff in E as (_&E).
    destruct (str_eqb_spec s [39%N]); congruence.
  - apply no_esc_lit; auto. discriminate.
Qed.

Lemma write_ops_reads f os : os <> [] -> Forall show_ok os -> reads_as (write_ops f os) (listing_line f os).
Proof.
  intros Ne F. destruct os as [|o os]; [congruence|]. inversion F as [|? ? Ho Fo]; subst.
  unfold write_ops, write_alignable, listing_line.
  assert (E : forall os, Forall show_ok os -> reads_as (flat_map (fun o' => lit ", " ++ show_infix o') os) (flat_map (fun y => 44%N :: 32%N :: y) (map op_text os))).
  { clear. induction 1 as [|o os H F IH]; [apply reads_text; intros []|]. cbn [flat_map map].
    apply reads_app; auto. destruct (show_infix_plain o H) as (->&N). change (lit ", " ++ op_text o) with (44%N :: 32%N :: op_text o).
    apply reads_text. apply no_esc_lit; [discriminate|]. apply no_esc_lit; [discriminate|auto]. }
  assert (C : commas (map op_text (o :: os)) = op_text o ++ flat_map (fun y => 44%N :: 32%N :: y) (map op_text os)).
  { cbn [map]. generalize (op_text o) (map op_text os). clear. intros s ss. revert s.
    induction ss as [|y ss IH]; intros s; [symmetry; apply app_nil_r|].
    change (commas (s :: y :: ss)) with (s ++ 44%N :: 32%N :: commas (y :: ss)). rewrite IH. reflexivity. }
  rewrite C. clear C. destruct (show_infix_plain o Ho) as (->&No).
  replace (keyword (fx_assoc f) ++ (match fx_assoc f with ANeither => lit "  " | _ => lit " " end) ++ show_N (fx_prec f) ++ [32%N] ++
      op_text o ++ flat_map (fun y => 44%N :: 32%N :: y) (map op_text os))
    with ((keyword (fx_assoc f) ++ (if is_neither (fx_assoc f) then [32%N] else []) ++ [32%N] ++ show_N (fx_prec f)) ++ [32%N] ++
      op_text o ++ flat_map (fun y => 44%N :: 32%N :: y) (map op_text os)).
  2: { rewrite <- !app_assoc. destruct (fx_assoc f); reflexivity. }
  repeat apply reads_app; auto.
  - apply reads_styled; [discriminate|exact I|apply keyword_no_esc].
  - apply reads_text. destruct (is_neither (fx_assoc f)); unfold no_esc; cbn; intuition discriminate.
  - apply reads_text. unfold no_esc; cbn; intuition discriminate.
  - apply reads_styled; [discriminate|exact I|apply show_N_no_esc].
  - apply reads_text. unfold no_esc; cbn; intuition discriminate.
  - apply reads_text. auto.
Qed.

Lemma write_lines_reads t len : Forall (fun x => show_ok (fst x)) t -> forall fs n, (forall f, In f fs -> In f (map snd t)) ->
  n + List.length fs = len -> reads_as (write_lines t n len fs) (lines (map (fun f => listing_line f (with_fixity t f)) fs)).
Proof.
  intros Ok. induction fs as [|f fs IH]; intros n H L; [apply reads_text; intros []|].
  cbn [write_lines List.length] in *. rewrite with_fixity_eqb.
  assert (Ne : with_fixity t f <> []) by (apply with_fixity_some; apply H; left; reflexivity).
  assert (Fo : Forall show_ok (with_fixity t f)).
  { apply Forall_forall. intros o I. apply with_fixity_in in I. rewrite Forall_forall in Ok. apply (Ok _ I). }
  pose proof (write_ops_reads f _ Ne Fo) as R.
  specialize (IH (n + 1) (fun g I => H g (or_intror I)) ltac:(lia)).
  destruct (with_fixity t f) as [|o os] eqn:W; [congruence|]. destruct fs as [|g fs].
  - cbn [map lines]. cbn [List.length] in L. replace (Nat.ltb (n + 1) len) with false by (symmetry; apply Nat.ltb_ge; lia).
    cbn [write_lines]. rewrite !app_nil_r, W. auto.
  - cbn [List.length] in L. replace (Nat.ltb (n + 1) len) with true by (symmetry; apply Nat.ltb_lt; lia).
    change (lines (map (fun f0 => listing_line f0 (with_fixity t f0)) (f :: g :: fs))) with
      (listing_line f (with_fixity t f) ++ [10%N] ++ lines (map (fun f0 => listing_line f0 (with_fixity t f0)) (g :: fs))).
    rewrite <- app_assoc. apply reads_app.
    + rewrite W. auto.
    + apply reads_app; auto. apply reads_text. unfold no_esc; cbn; intuition discriminate.
Qed.

Lemma listing_reads t : Forall (fun x => show_ok (fst x)) t ->
  reads_as (write_fixities t) (lines (map (fun f => listing_line f (with_fixity t f)) (firsts (map snd t)))) /\
  reads_as (write_entries t) (lines (map (fun f => listing_line f (with_fixity t f)) (firsts (map snd t)))).
Proof.
  intros F. assert (G : reads_as (write_entries t) (lines (map (fun f => listing_line f (with_fixity t f)) (firsts (map snd t))))).
  { unfold write_entries. rewrite index_set_firsts. apply write_lines_reads; auto. intros f. apply firsts_in. }
  split; auto. unfold write_fixities. destruct t as [|x t]; auto.
Qed.

(** ** Reading the listing back *)

Section WithUcd.
Context {U : ucd}.

Definition listed (o : infix) : Prop := an_operator o 44 /\ an_operator o 10.

Lemma no_quotes t c : ~ lexeme [39%N; 39%N] t [c].
Proof.
  intros L. remember [39%N; 39%N] as x. remember [c] as z.
  destruct L; try discriminate; subst; try (injection Heqx as -> ->; congruence).
  - cbn in H. intuition discriminate.
  - injection Heqx as -> _. discriminate.
  - inversion H0. discriminate.
  - injection Heqx as -> _. discriminate.
  - cbn in H. intuition discriminate.
  - destruct u as [|a u]; [congruence|]. injection Heqx as -> _. inversion H0. discriminate.
Qed.

Lemma listed_ok o : listed o -> show_ok o.
Proof.
  intros (((t&L&O)&_&N)&_). split; auto. intros ->. exact (no_quotes _ _ L).
Qed.

Lemma ctokens_lf w v ts : ctokens (w ++ [10%N]) v ts -> ctokens w (10%N :: v) ts.
Proof.
  intros T. inversion T as [g G|g s t v' ts' G L T']; subst.
  - apply ct_end. apply gap_white; auto.
  - change (10%N :: g ++ s ++ v') with ((10%N :: g) ++ s ++ v').
    replace ((w ++ [10%N]) ++ g ++ s) with (w ++ (10%N :: g) ++ s) in * by (rewrite <- app_assoc; reflexivity).
    apply ct_cons; auto. apply gap_white; auto.
Qed.

Lemma ops_back : forall os, Forall listed os -> os <> [] -> forall w v us,
  ctokens (w ++ commas (map op_text os) ++ [10%N]) v us -> next_is is_comma us = false -> exists ts,
  ctokens w (commas (map op_text os) ++ 10%N :: v) (ts ++ us) /\ operators ts os us.
Proof.
  induction 1 as [|o os H F IH]; [congruence|]. intros _ w v us T C. destruct F as [|o' os H' F].
  - cbn [map commas] in *. destruct H as (_&(t&L&O)&_). exists [(t, col_of (w ++ op_text o))]. split; [|apply os_one; auto].
    cbn [app]. apply (ct_cons w [] (op_text o) t (10%N :: v)); [constructor|apply lexeme_longer; auto|].
    rewrite app_assoc in T. apply ctokens_lf. exact T.
  - destruct H as (((t&L&O)&_)&_).
    change (commas (map op_text (o :: o' :: os))) with (op_text o ++ 44%N :: 32%N :: commas (map op_text (o' :: os))) in *.
    destruct (IH ltac:(discriminate) (((w ++ op_text o) ++ [44%N]) ++ [32%N]) v us) as (ts&T'&Os); auto.
    { rewrite <- !app_assoc. rewrite <- !app_assoc in T. exact T. }
    exists ((t, col_of (w ++ op_text o)) :: (TComma, col_of ((w ++ op_text o) ++ [44%N])) :: ts). split; [|apply os_cons; auto].
    rewrite <- app_assoc. cbn [app]. apply (ct_cons w [] (op_text o) t); [constructor|apply lexeme_longer; auto|]. cbn [app].
    apply (ct_cons _ [] [44%N] TComma); [constructor|apply le_punct; cbn; tauto|]. cbn [app]. apply ctokens_space. exact T'.
Qed.

Lemma line_back f os : (fx_prec f <= 9)%N -> Forall listed os -> os <> [] -> forall w v us,
  ctokens (w ++ listing_line f os ++ [10%N]) v us -> next_is is_comma us = false -> exists ts,
  ctokens w (listing_line f os ++ 10%N :: v) (ts ++ us) /\ declares ts (mkInfixDecl os f) us /\ next_is is_comma ts = false /\ next_is is_semi ts = false /\ ts <> [].
Proof.
  intros P F Ne w v us T C. unfold listing_line in *.
  assert (K : exists g, (match fx_assoc f with ANeither => lit "  " | _ => lit " " end) = 32%N :: g /\ (g = [] \/ g = [32%N])).
  { destruct (fx_assoc f); eexists; split; try reflexivity; auto. }
  destruct K as (g&E&Hg). rewrite E in *. clear E.
  set (wn := ((w ++ keyword (fx_assoc f)) ++ 32%N :: g) ++ show_N (fx_prec f)).
  destruct (ops_back os F Ne (wn ++ [32%N]) v us) as (ts&T'&O); auto.
  { unfold wn. revert T. repeat (rewrite <- ?app_assoc; cbn [app]). auto. }
  destruct (keyword_token (fx_assoc f) ((32%N :: g) ++ show_N (fx_prec f) ++ [32%N] ++ commas (map op_text os) ++ 10%N :: v) eq_refl eq_refl) as (t&L&A).
  exists ((t, col_of (w ++ keyword (fx_assoc f))) :: (TLit (LInt (fx_prec f)), col_of wn) :: ts).
  split; [|split; [destruct f; apply de_prec; auto|destruct A; auto; split; auto; split; auto; discriminate]].
  rewrite <- !app_assoc. cbn [app].
  apply (ct_cons w [] (keyword (fx_assoc f)) t); [constructor|exact L|]. cbn [app].
  change (32%N :: g ++ show_N (fx_prec f) ++ 32%N :: commas (map op_text os) ++ 10%N :: v)
    with ((32%N :: g) ++ show_N (fx_prec f) ++ 32%N :: commas (map op_text os) ++ 10%N :: v).
  unfold wn. rewrite <- (app_assoc _ (32%N :: g)).
  apply (ct_cons (w ++ keyword (fx_assoc f)) (32%N :: g) (show_N (fx_prec f))).
  - destruct Hg as [->| ->]; repeat (apply gap_white; [reflexivity|]); constructor.
  - apply int_lexeme; [lia|reflexivity].
  - apply ctokens_space. rewrite app_assoc. exact T'.
Qed.

Lemma lines_back (t : list (infix * fixity)) : forall fs, fs <> [] ->
  Forall (fun f => (fx_prec f <= 9)%N /\ Forall listed (with_fixity t f) /\ with_fixity t f <> []) fs -> forall w, exists ts,
  ctokens w (lines (map (fun f => listing_line f (with_fixity t f)) fs) ++ [10%N]) ts /\ next_is is_comma ts = false /\ next_is is_semi ts = false /\
  program Nat.ltb ts (map (fun f => DInfix (mkInfixDecl (with_fixity t f) f)) fs).
Proof.
  induction fs as [|f fs IH]; [congruence|]. intros _ F w. inversion F as [|? ? (P&L&Ne) F']; subst. destruct fs as [|g fs].
  - cbn [map lines]. destruct (line_back f _ P L Ne w [] []) as (ts&T&D&C&Sm&_); [apply ct_end; constructor|reflexivity|].
    rewrite app_nil_r in T. exists ts. repeat split; auto. rewrite <- (app_nil_r ts). apply pr_plain; [apply do_infix; auto|reflexivity|constructor].
  - destruct (IH ltac:(discriminate) F' (w ++ listing_line f (with_fixity t f) ++ [10%N])) as (us&Tu&Cu&Su&Pu).
    destruct (line_back f _ P L Ne w _ us Tu Cu) as (ts&T&D&C&Sm&Nt). exists (ts ++ us).
    change (lines (map (fun f0 => listing_line f0 (with_fixity t f0)) (f :: g :: fs))) with
      (listing_line f (with_fixity t f) ++ 10%N :: lines (map (fun f0 => listing_line f0 (with_fixity t f0)) (g :: fs))).
    rewrite <- app_assoc. cbn [app]. split; [exact T|]. destruct ts as [|(a,k) ts]; [congruence|]. split; [exact C|]. split; [exact Sm|].
    apply pr_plain; auto. apply do_infix. auto.
Qed.

Lemma op_line o : listed o -> all not_lf (op_text o).
Proof.
  intros (H&_). apply op_clean in H as (F&_). eapply Forall_impl; [|exact F]. intros c (Hc&_). unfold not_lf.
  apply N.eqb_neq in Hc. rewrite Hc. reflexivity.
Qed.

Lemma digits_line s : Forall dec_digit s -> all not_lf s.
Proof.
  apply Forall_impl. intros c D. unfold dec_digit in D. unfold not_lf.
  destruct (N.eqb_spec c 10); [lia|reflexivity].
Qed.

Lemma listing_one_line f os : Forall listed os -> all not_lf (listing_line f os).
Proof.
  intros F. unfold listing_line. repeat (apply Forall_app; split).
  - apply keyword_line.
  - destruct (fx_assoc f); repeat constructor.
  - apply digits_line. destruct (show_N_spec (fx_prec f)) as (_&D&_). auto.
  - repeat constructor.
  - induction F as [|o os H F IH]; [constructor|]. apply op_line in H. destruct os; [exact H|].
    change (all not_lf (op_text o ++ lit ", " ++ commas (map op_text (i :: os)))).
    repeat (apply Forall_app; split); auto. repeat constructor.
Qed.

Lemma clean_join l v : all not_lf l -> no_lfcr v -> stops (N.eqb 13) v -> no_lfcr (l ++ 10%N :: v).
Proof.
  intros A Nv St a b E. revert a E. induction A as [|c l H A IH]; intros a E.
  - destruct a as [|d a]; cbn [app] in E.
    + injection E as ->. discriminate St.
    + injection E as _ E. exact (Nv a b E).
  - destruct a as [|d a]; [injection E as -> _; discriminate|]. injection E as _ E. eauto.
Qed.

Lemma listing_clean (t : list (infix * fixity)) fs :
  Forall (fun f => (fx_prec f <= 9)%N /\ Forall listed (with_fixity t f) /\ with_fixity t f <> []) fs ->
  no_lfcr (lines (map (fun f => listing_line f (with_fixity t f)) fs) ++ [10%N]).
Proof.
  assert (E1 : no_lfcr []) by (intros a b E; destruct a; discriminate).
  induction 1 as [|f fs (_&L&_) F IH].
  - apply (clean_join [] []); auto; constructor.
  - apply (listing_one_line f) in L. destruct fs as [|g fs].
    + cbn [map lines]. apply clean_join; auto. constructor.
    + change (lines (map (fun f0 => listing_line f0 (with_fixity t f0)) (f :: g :: fs))) with
        (listing_line f (with_fixity t f) ++ 10%N :: lines (map (fun f0 => listing_line f0 (with_fixity t f0)) (g :: fs))).
      rewrite <- app_assoc. cbn [app]. apply clean_join; auto.
      assert (K : forall f os v, stops (N.eqb 13) (listing_line f os ++ v)).
      { intros f0 os v. unfold listing_line. destruct (fx_assoc f0); reflexivity. }
      destruct fs as [|h fs]; cbn [map lines]; [apply K|]. rewrite <- app_assoc. apply K.
Qed.

End WithUcd.

Lemma get_with_fixity t o : NoDup (keys t) -> forall f,
  existsb (fun x => str_eqb (symbol x) (symbol o)) (with_fixity t f) = true <-> get_defined t o = Some f.
Proof.
  intros N f. rewrite existsb_exists. split.
  - intros (x&I&E). destruct (str_eqb_spec (symbol x) (symbol o)) as [Es|]; [|discriminate]. apply with_fixity_in in I.
    clear E. induction t as [|(k,g) t IH]; [destruct I|]. cbn in N. inversion N as [|? ? H1 H2]; subst. cbn [get_defined].
    destruct (infix_eqb_spec k o) as [Ek|Ek].
    + destruct I as [I|I]; [injection I as -> ->; auto|]. exfalso. apply H1. rewrite Ek, <- Es. apply in_map_iff. exists (x, f). auto.
    + destruct I as [I|I]; [injection I as -> ->; congruence|]. auto.
  - intros G. induction t as [|(k,g) t IH]; [discriminate|]. cbn in N. inversion N as [|? ? H1 H2]; subst. cbn [get_defined] in G.
    destruct (infix_eqb_spec k o) as [Ek|Ek].
    + injection G as ->. exists k. split; [apply with_fixity_in; left; auto|]. rewrite Ek. apply str_eqb_refl.
    + destruct (IH H2 G) as (x&I&E). exists x. split; auto. apply with_fixity_in. apply with_fixity_in in I. right. auto.
Qed.

Lemma listing_loads t fs : NoDup (keys t) -> (forall f, In f (map snd t) -> In f fs) -> forall T o,
  get_defined (fold_left (fun T d => insert_many T (d_fixity d) (d_infixes d))
    (infix_decls (map (fun f => DInfix (mkInfixDecl (with_fixity t f) f)) fs)) T) o =
  match get_defined t o with Some f => Some f | None => get_defined T o end.
Proof.
  intros N A T o.
  assert (G : forall fs T, get_defined (fold_left (fun T d => insert_many T (d_fixity d) (d_infixes d))
      (infix_decls (map (fun f => DInfix (mkInfixDecl (with_fixity t f) f)) fs)) T) o =
    match get_defined t o with Some f => if in_dec fixity_dec f fs then Some f else get_defined T o | None => get_defined T o end).
  { clear A fs. induction fs as [|g fs' IH]; intros T0.
    - destruct (get_defined t o); auto.
    - change (infix_decls (map (fun f => DInfix (mkInfixDecl (with_fixity t f) f)) (g :: fs'))) with
        (mkInfixDecl (with_fixity t g) g :: infix_decls (map (fun f => DInfix (mkInfixDecl (with_fixity t f) f)) fs')).
      cbn [fold_left d_fixity d_infixes]. rewrite IH, get_insert_many.
      pose proof (get_with_fixity t o N g) as W. destruct (get_defined t o) as [f|].
      + destruct (in_dec fixity_dec f fs') as [I|I], (in_dec fixity_dec f (g :: fs')) as [J|J]; auto.
        * exfalso. apply J. right. auto.
        * destruct J as [->|J]; [|congruence]. rewrite (proj2 W eq_refl). auto.
        * destruct (existsb _ _); auto. destruct W as (W&_). specialize (W eq_refl). injection W as ->. exfalso. apply J. left. auto.
      + destruct (existsb _ _); auto. destruct W as (W&_). specialize (W eq_refl). discriminate. }
  rewrite G. destruct (get_defined t o) as [f|] eqn:E; auto.
  destruct (in_dec fixity_dec f fs) as [I|I]; auto. exfalso. apply I. apply A.
  clear - E. induction t as [|(k,g) t IH]; [discriminate|]. cbn [get_defined] in E. destruct (infix_eqb k o); [injection E as ->; left; auto|right; auto].
Qed.
