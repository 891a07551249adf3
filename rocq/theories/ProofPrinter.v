(** What the printer puts on the screen. *)
From Coq Require Import List Arith NArith ZArith Bool String Lia.
From Verif Require Import Prelim Chars Syntax Fixity Style SpecStyle ProofDigits SpecLexer SpecParser ProofStyle Printer SpecPrinter.
Import ListNotations.

Lemma no_esc_app s u : no_esc s -> no_esc u -> no_esc (s ++ u).
Proof. unfold no_esc. rewrite in_app_iff. tauto. Qed.
Lemma no_esc_lit c s : c <> 27%N -> no_esc s -> no_esc (c :: s).
Proof. unfold no_esc. cbn. intuition. Qed.
Lemma no_esc_nil : no_esc [].
Proof. intros []. Qed.

(** [w] run on the stack [st] leaves [st'] and shows [o]. *)
Definition shows (w : writer) (st st' : list fixity) (o : list (chr * term)) : Prop :=
  exists s, w st = Ok (s, st') /\ read s MText plain = (MText, plain, o).

Lemma shows_seq a b st st1 st2 o1 o2 : shows a st st1 o1 -> shows b st1 st2 o2 -> shows (a ;; b) st st2 (o1 ++ o2).
Proof.
  intros (s&E&R) (s'&E'&R'). exists (s ++ s'). unfold wseq. rewrite E. cbn. rewrite E'. cbn. split; auto.
  rewrite read_app, R, R'. reflexivity.
Qed.
Lemma shows_wr s st : no_esc s -> shows (wr s) st st (plainly s).
Proof. intros N. exists s. split; auto. apply read_text. auto. Qed.
Lemma shows_push f st : shows (wpush f) st (f :: st) [].
Proof. exists []. auto. Qed.
Lemma shows_pop f st : shows wpop (f :: st) st [].
Proof. exists []. auto. Qed.
Lemma shows_set st st' : shows (wset st') st st' [].
Proof. exists []. auto. Qed.

(** A bracket in the colour of depth [n]. *)
Definition look (n : nat) : term := asked (set_fg_color (rainbow_color (N.of_nat n)) cfg_default).

Lemma rainbow_rgb n : exists c, rainbow_color n = Rgb c.
Proof.
  unfold rainbow_color. assert (L : (n mod 7 < 7)%N) by (apply N.mod_lt; discriminate).
  assert (H : N.to_nat (n mod 7) < 7) by lia. revert H. generalize (N.to_nat (n mod 7)). intros k H.
  do 7 (destruct k as [|k]; [eexists; reflexivity|]). lia.
Qed.

Lemma shows_highlight c n st : c <> 27%N -> shows (wr (highlighted [c] (rainbow_color (N.of_nat n)))) st st [(c, look n)].
Proof.
  intros N. exists (highlighted [c] (rainbow_color (N.of_nat n))). split; auto. unfold highlighted.
  destruct (rainbow_rgb (N.of_nat n)) as (x&E).
  apply read_display with (t' := look n).
  rewrite sgr_params; [|unfold proper; cbn [set_fg_color c_fg cfg_default]; rewrite E; discriminate|exact I].
  rewrite read_text; [reflexivity|]. intros [E'|[]]. congruence.
Qed.

Lemma shows_grouped w st o : shows w st st o ->
  shows (write_grouped w) st st ((40%N, look (List.length st)) :: o ++ [(41%N, look (List.length st))]).
Proof.
  intros H. change (shows (write_grouped w) st st ([(40%N, look (List.length st))] ++ o ++ [(41%N, look (List.length st))])).
  unfold write_grouped, rainbow_new, shows.
  destruct (shows_seq _ _ _ _ _ _ _ (shows_highlight 40 (List.length st) st ltac:(discriminate))
    (shows_seq _ _ _ _ _ _ _ H (shows_highlight 41 (List.length st) st ltac:(discriminate)))) as (s&E&R).
  exists s. auto.
Qed.

Lemma plainly_app a b : plainly (a ++ b) = plainly a ++ plainly b.
Proof. apply map_app. Qed.
Lemma plainly_fst s : map fst (plainly s) = s.
Proof. unfold plainly. rewrite map_map. cbn. apply map_id. Qed.

(** ** Nesting *)

Section Nested.
Context (leaf : str -> Prop).

Lemma nested_app a b : nested leaf a -> nested leaf b -> nested leaf (a ++ b).
Proof.
  induction 1 as [|s o L N IH|s o F N IH|l r a i o I Ni IHi No IHo]; intros B; auto.
  - rewrite <- app_assoc. apply ne_leaf; auto.
  - rewrite <- app_assoc. apply ne_text; auto.
  - cbn. rewrite <- app_assoc. cbn. apply ne_pair; auto.
Qed.
Lemma nested_leaf s : leaf s -> nested leaf (plainly s).
Proof. intros L. rewrite <- (app_nil_r (plainly s)). apply ne_leaf; auto. constructor. Qed.
Lemma nested_text s : Forall (fun c => is_bracket c = false) s -> nested leaf (plainly s).
Proof. intros L. rewrite <- (app_nil_r (plainly s)). apply ne_text; auto. constructor. Qed.
Lemma nested_pair l r a i : In (l, r) brackets -> nested leaf i -> nested leaf ((l, a) :: i ++ [(r, a)]).
Proof. intros I N. apply ne_pair; auto. constructor. Qed.
Lemma nested_pair2 l r i : In (l, r) brackets -> nested leaf i -> nested leaf (plainly [l] ++ i ++ plainly [r]).
Proof. intros I N. apply ne_pair; auto. constructor. Qed.
End Nested.

(** ** Texts without colours *)

Definition fparens (b : bool) (s : str) : str := if b then 40%N :: s ++ [41%N] else s.

Section WithUcd.
Context {U : ucd}.

Definition pat_simple (p : pat) : bool := match p with PWild | PLit _ | PVar _ => true | _ => false end.
Definition pat_link (p : pat) : bool := match p with PLnk _ _ | PAs _ _ => true | _ => false end.

Fixpoint fpat (p : pat) : str :=
  match p with
  | PWild => [95%N]
  | PLit l => show_lit l
  | PVar s => s
  | PNeg q => fparens true (45%N :: fparens (negb (pat_simple q)) (fpat q))
  | PCon s ps => match ps with [] => s | _ => fparens true (s ++ flat_map (fun p => 32%N :: fpat p) ps) end
  | PTup ps => fparens true (commas (map fpat ps))
  | PArr ps => 91%N :: commas (map fpat ps) ++ [93%N]
  | PLnk a b => fparens true (fparens (pat_link a) (fpat a) ++ 58%N :: fparens (pat_link b) (fpat b))
  | PAs s q => s ++ 64%N :: fpat q
  end.

Fixpoint fexpr (b : bool) (e : expr) : str :=
  match e with
  | Lit l => show_lit l
  | Var i => fparens (ident_is_infix i) (show_ident i)
  | App f x => fexpr b f ++ 32%N :: fexpr b x
  | Bin l o r => fparens (negb (no_paren l)) (fexpr true l) ++ 32%N :: show_infix o ++ 32%N ::
                 fparens (negb (no_paren r)) (fexpr true r)
  | Lam p body =>
      fparens b (92%N :: fpat p ++
        (fix lams (e : expr) : str :=
           match e with
           | Lam q e' => 32%N :: fpat q ++ lams e'
           | _ => lit " -> " ++ fexpr b e
           end) body)
  | Grp e => fparens true (fexpr b e)
  | Neg e => []
  | Tup es => fparens true (commas (map (fexpr false) es))
  | List es => 91%N :: commas (map (fexpr false) es) ++ [93%N]
  | Let _ e => fexpr b e
  end.

Definition flams (b : bool) : expr -> str :=
  fix lams (e : expr) : str :=
    match e with
    | Lam q e' => 32%N :: fpat q ++ lams e'
    | _ => lit " -> " ++ fexpr b e
    end.

Definition wlams (t : fixities) (st : list fixity) : expr -> writer :=
  fix lams (b : expr) : writer :=
    match b with
    | Lam q b' => wr [32%N] ;; write_pat q ;; lams b'
    | _ => wr (lit " -> ") ;; wset st ;; write_expr t b
    end.

Context (leaf : str -> Prop).

(** [w] shows a text [s] and leaves the stack alone. *)
Definition puts (w : writer) (st : list fixity) (s : str) : Prop :=
  exists o, shows w st st o /\ map fst o = s /\ nested leaf o.

Lemma puts_wr s st : no_esc s -> leaf s \/ Forall (fun c => is_bracket c = false) s -> puts (wr s) st s.
Proof.
  intros N L. exists (plainly s). split; [apply shows_wr; auto|]. split; [apply plainly_fst|].
  destruct L; [apply nested_leaf|apply nested_text]; auto.
Qed.
Lemma puts_seq a b st s u : puts a st s -> puts b st u -> puts (a ;; b) st (s ++ u).
Proof.
  intros (o&S&M&N) (o'&S'&M'&N'). exists (o ++ o'). split; [eapply shows_seq; eauto|].
  rewrite map_app, M, M'. split; auto. apply nested_app; auto.
Qed.
Lemma puts_grouped w st s : puts w st s -> puts (write_grouped w) st (fparens true s).
Proof.
  intros (o&S&M&N). eexists. split; [apply shows_grouped; eauto|]. split.
  - cbn. rewrite map_app, M. reflexivity.
  - apply nested_pair; auto. cbn. auto.
Qed.
Lemma puts_pair w st l r s : In (l, r) brackets -> l <> 27%N -> r <> 27%N -> puts w st s ->
  puts (wr [l] ;; w ;; wr [r]) st (l :: s ++ [r]).
Proof.
  intros I Nl Nr (o&S&M&N). exists (plainly [l] ++ o ++ plainly [r]). split.
  - eapply shows_seq; [apply shows_wr|]. { intros [|[]]. congruence. }
    eapply shows_seq; eauto. apply shows_wr. intros [|[]]. congruence.
  - rewrite !map_app, !plainly_fst, M. split; auto. apply nested_pair2; auto.
Qed.
Lemma puts_eq w st s s' : puts w st s -> s = s' -> puts w st s'.
Proof. intros H <-. auto. Qed.
Lemma puts_push w f st s : puts w (f :: st) s -> puts (wpush f ;; w ;; wpop) st s.
Proof.
  intros (o&S&M&N). exists ([] ++ o ++ []). split; [|rewrite app_nil_r; auto].
  eapply shows_seq; [apply shows_push|]. eapply shows_seq; eauto. apply shows_pop.
Qed.

Lemma puts_sequence {A} (f : A -> writer) (g : A -> str) st xs :
  Forall (fun x => puts (f x) st (g x)) xs -> puts (write_sequence f xs) st (commas (map g xs)).
Proof.
  induction 1 as [|x xs H F IH].
  - apply puts_wr; [apply no_esc_nil|right; constructor].
  - destruct xs as [|y xs]; [exact H|].
    change (puts (f x ;; wr (lit ", ") ;; write_sequence f (y :: xs)) st (g x ++ lit ", " ++ commas (map g (y :: xs)))).
    apply puts_seq; auto. apply puts_seq; auto. apply puts_wr.
    + intros [|[|[]]]; discriminate.
    + right. repeat constructor.
Qed.

(** Literals never contain an escape character. *)
Lemma show_N_no_esc n : no_esc (show_N n).
Proof.
  intros H. destruct (show_N_spec n) as (_&F&_).
  rewrite Forall_forall in F. apply F in H. unfold dec_digit in H. lia.
Qed.
Lemma hex_no_esc f : forall n acc, no_esc acc -> no_esc (hex_digits f n acc).
Proof.
  induction f as [|f IH]; intros n acc H; auto. cbn [hex_digits].
  assert (L : (n mod 16 < 16)%N) by (apply N.mod_lt; discriminate).
  assert (C : no_esc ((if (n mod 16 <? 10)%N then (48 + n mod 16)%N else (87 + n mod 16)%N) :: acc)).
  { apply no_esc_lit; auto. revert L. generalize (n mod 16)%N. intros d L. destruct (d <? 10)%N; lia. }
  destruct (n / 16 =? 0)%N; auto.
Qed.
Lemma escape_no_esc q c : q <> 27%N -> no_esc (escape_debug q c).
Proof.
  intros Q. assert (U1 : no_esc ([92; 117; 123]%N ++ show_hex c ++ [125%N])).
  { repeat apply no_esc_app; try (intros H; cbn in H; intuition discriminate). apply hex_no_esc. apply no_esc_nil. }
  unfold escape_debug.
  repeat match goal with |- no_esc (if ?b then _ else _) => let E := fresh in destruct b eqn:E end; auto;
    try (intros H'; cbn in H'; intuition congruence).
  intros [->|[]]. cbv in H6. discriminate.
Qed.
Lemma show_lit_no_esc l : no_esc (show_lit l).
Proof.
  destruct l as [c|s|n|f]; cbn [show_lit].
  - unfold debug_char. repeat apply no_esc_app; try (intros [|[]]; discriminate). apply escape_no_esc. discriminate.
  - unfold debug_str. repeat apply no_esc_app; try (intros [|[]]; discriminate).
    induction s as [|c s IH]; cbn [flat_map]; [apply no_esc_nil|]. apply no_esc_app; auto. apply escape_no_esc. discriminate.
  - apply show_N_no_esc.
  - unfold show_float. repeat apply no_esc_app; try apply show_N_no_esc.
    + destruct (f_frac f); [|apply no_esc_nil]. apply no_esc_lit; [discriminate|apply show_N_no_esc].
    + destruct (Z.eqb (f_exp f) 0); [apply no_esc_nil|]. unfold show_Z. destruct (f_exp f); try apply show_N_no_esc.
      apply no_esc_lit; [discriminate|apply show_N_no_esc].
Qed.

Definition nolits : literal -> str := fun _ => [].

Lemma puts_text s st : no_esc s -> leaf s -> puts (wr s) st s.
Proof. intros. apply puts_wr; auto. Qed.
Lemma puts_punct s st : Forall (fun c => is_bracket c = false /\ c <> 27%N) s -> puts (wr s) st s.
Proof.
  intros F. apply puts_wr.
  - intros H. rewrite Forall_forall in F. apply F in H. tauto.
  - right. eapply Forall_impl; [|exact F]. intros c (H&_). exact H.
Qed.

Lemma puts_when (b : bool) w st s : puts w st s -> puts (if b then write_grouped w else w) st (fparens b s).
Proof. destruct b; auto. apply puts_grouped. Qed.

Lemma write_pat_puts : forall p, (forall s, pat_texts show_lit p s -> leaf s) ->
  (forall s, pat_texts nolits p s -> no_esc s) -> forall st, puts (write_pat p) st (fpat p).
Proof.
  fix IH 1. intros p L N st.
  assert (Q : forall ps, (forall q, In q ps -> forall st, puts (write_pat q) st (fpat q)) ->
    forall st, puts (write_sequence write_pat ps) st (commas (map fpat ps))).
  { intros ps H st'. apply puts_sequence. apply Forall_forall. auto. }
  destruct p as [|l|s|q|s ps|ps|ps|a b|s q].
  - apply puts_punct. repeat constructor; discriminate.
  - apply puts_text; [apply show_lit_no_esc|apply L; constructor].
  - apply puts_text; [apply N; constructor|apply L; constructor].
  - assert (H : forall st, puts (write_pat q) st (fpat q)).
    { apply IH; intros s Hs; [apply L|apply N]; constructor; auto. }
    cbn [write_pat fpat]. unfold fparens at 1. apply (puts_pair _ st 40 41); [cbn; auto|discriminate|discriminate|].
    assert (M : puts (wr [45%N]) st [45%N]) by (apply puts_punct; repeat constructor; discriminate).
    destruct q; cbn [pat_simple negb]; apply (puts_seq _ _ _ [45%N]); auto; try apply puts_grouped; auto.
  - assert (T : puts (wr s) st s) by (apply puts_text; [apply N; constructor|apply L; constructor]).
    destruct ps as [|q ps]; [exact T|].
    change (puts (wr (40%N :: s) ;; write_args write_pat (q :: ps) ;; wr [41%N]) st
              (fparens true (s ++ flat_map (fun p => 32%N :: fpat p) (q :: ps)))).
    assert (A : forall qs, (forall q', In q' qs -> forall st, puts (write_pat q') st (fpat q')) ->
              puts (write_args write_pat qs) st (flat_map (fun p => 32%N :: fpat p) qs)).
    { induction qs as [|q' qs IHq]; intros H.
      - apply puts_punct. constructor.
      - cbn [write_args flat_map]. change ((32%N :: fpat q') ++ flat_map (fun p => 32%N :: fpat p) qs)
          with ([32%N] ++ fpat q' ++ flat_map (fun p => 32%N :: fpat p) qs).
        apply puts_seq; [apply puts_punct; repeat constructor; discriminate|].
        apply puts_seq; [apply H; cbn; auto|]. apply IHq. intros; apply H; cbn; auto. }
    assert (B : puts (write_args write_pat (q :: ps)) st (flat_map (fun p => 32%N :: fpat p) (q :: ps))).
    { apply A. revert L N. generalize (q :: ps). clear - IH. intros qs L N.
      assert (G : forall rs, (forall x, In x rs -> In x qs) -> forall x, In x rs -> forall st, puts (write_pat x) st (fpat x)).
      { induction rs as [|x rs IHr]; intros S y Hy; [destruct Hy|]. destruct Hy as [<-|Hy].
        - apply IH; intros z Hz; [apply L|apply N]; eapply pt_con_arg; eauto; apply S; cbn; auto.
        - apply IHr; auto. intros z Hz. apply S. cbn. auto. }
      apply G; auto. }
    destruct T as (o&(u&E&R)&M&Ns). destruct B as (o'&(u'&E'&R')&M'&Ns').
    injection E as <-. exists (plainly [40%N] ++ (o ++ o') ++ plainly [41%N]). split; [|split].
    + exists ([40%N] ++ (s ++ u') ++ [41%N]). split.
      * unfold wseq, wr. cbn beta iota delta [obind]. rewrite E'. cbn beta iota delta [obind]. cbn [app]. rewrite <- app_assoc. reflexivity.
      * rewrite read_app. change (read [40%N] MText plain) with (MText, plain, plainly [40%N]). cbn beta iota.
        rewrite read_app, read_app, R, R'. reflexivity.
    + rewrite !map_app, M, M'. reflexivity.
    + apply nested_pair2; [cbn; auto|]. apply nested_app; auto.
  - cbn [write_pat fpat]. unfold fparens. apply (puts_pair _ st 40 41); [cbn; auto|discriminate|discriminate|]. apply Q.
    assert (G : forall rs, (forall x, In x rs -> In x ps) -> forall x, In x rs -> forall st, puts (write_pat x) st (fpat x)).
    { induction rs as [|x rs IHr]; intros S y Hy; [destruct Hy|]. destruct Hy as [<-|Hy].
      - apply IH; intros z Hz; [apply L|apply N]; eapply pt_tup; eauto; apply S; cbn; auto.
      - apply IHr; auto. intros z Hz. apply S. cbn. auto. }
    apply G; auto.
  - cbn [write_pat fpat]. apply (puts_pair _ st 91 93); [cbn; auto|discriminate|discriminate|]. apply Q.
    assert (G : forall rs, (forall x, In x rs -> In x ps) -> forall x, In x rs -> forall st, puts (write_pat x) st (fpat x)).
    { induction rs as [|x rs IHr]; intros S y Hy; [destruct Hy|]. destruct Hy as [<-|Hy].
      - apply IH; intros z Hz; [apply L|apply N]; eapply pt_arr; eauto; apply S; cbn; auto.
      - apply IHr; auto. intros z Hz. apply S. cbn. auto. }
    apply G; auto.
  - assert (Ha : forall st, puts (write_pat a) st (fpat a)).
    { apply IH; intros s Hs; [apply L|apply N]; apply pt_lnk_l; auto. }
    assert (Hb : forall st, puts (write_pat b) st (fpat b)).
    { apply IH; intros s Hs; [apply L|apply N]; apply pt_lnk_r; auto. }
    cbn [write_pat fpat]. apply puts_push. apply puts_grouped. apply puts_seq.
    { destruct a; cbn [pat_link]; auto; apply puts_grouped; auto. }
    apply (puts_seq _ _ _ [58%N]); [apply puts_punct; repeat constructor; discriminate|].
    destruct b; cbn [pat_link]; auto; apply puts_grouped; auto.
  - assert (H : forall st, puts (write_pat q) st (fpat q)).
    { apply IH; intros x Hs; [apply L|apply N]; apply pt_as_in; auto. }
    cbn [write_pat fpat]. change (s ++ 64%N :: fpat q) with (s ++ [64%N] ++ fpat q). rewrite app_assoc.
    apply puts_seq; auto.
    exists (plainly s ++ plainly [64%N]). split; [|split].
    + exists (s ++ [64%N]). split; auto. rewrite <- plainly_app. apply read_text.
      apply no_esc_app; [apply N; constructor|]. intros [|[]]; discriminate.
    + rewrite map_app, !plainly_fst. auto.
    + apply nested_app; [apply nested_leaf, L; constructor|]. apply nested_text. repeat constructor.
Qed.

End WithUcd.
