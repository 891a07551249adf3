(** The rest of the public interface: C67 to C71. *)
From Coq Require Import List Arith NArith ZArith Bool String Lia Sorted.
From Verif Require Import Prelim Chars Syntax Fixity Printer Lexer SpecLexer ProofBytes ProofDigits ProofTable ProofResolve Extras SpecExtras.
Import ListNotations.

(** * C67 *)

Lemma pop_app t x : pop (t ++ [x]) = (Some x, t).
Proof. unfold pop. rewrite rev_app_distr. cbn [rev app]. rewrite rev_involutive. auto. Qed.

Lemma pop_nil : pop [] = (None, []).
Proof. reflexivity. Qed.

Lemma remove_last_nil n : remove_last_next n [] = (None, (0, [])).
Proof. induction n; cbn [remove_last_next]; auto. Qed.

(** C67: asking for [k] of at most [count] entries removes the last ones and
    yields them, the newest first; the others stay as they are. *)
Theorem C67_remove_last : forall count k t,
  remove_last_take k count t =
    (firstn (min k count) (rev t), firstn (List.length t - min k count) t).
Proof.
  intros count k. revert count. induction k as [|k IH]; intros count t; cbn [remove_last_take].
  - cbn [Nat.min firstn]. rewrite Nat.sub_0_r, firstn_all. auto.
  - destruct count as [|n]; cbn [remove_last_next].
    + cbn [Nat.min firstn]. rewrite Nat.sub_0_r, firstn_all. auto.
    + destruct t as [|x t _] using rev_ind.
      * rewrite pop_nil, remove_last_nil. reflexivity.
      * rewrite pop_app, IH. cbn [Nat.min]. rewrite rev_app_distr, app_length. cbn [rev app firstn List.length].
        rewrite firstn_app. replace (List.length t + 1 - S (min k n) - List.length t) with 0 by lia.
        cbn [firstn]. rewrite app_nil_r. do 2 f_equal. lia.
Qed.

(** C67: setting a fixity returns the one it replaces and changes no other. *)
Theorem C67_add_fixity : forall r op f r' old,
  add_fixity r op f = (r', old) ->
  old = option_map (fun o => (op, o)) (get_defined (r_fix r) op) /\
  get_defined (r_fix r') op = Some f /\ r_errs r' = r_errs r /\
  (forall o, symbol o <> symbol op -> get_defined (r_fix r') o = get_defined (r_fix r) o) /\
  (forall o, has (r_fix r) op = true -> In o (map fst (r_fix r')) <-> In o (map fst (r_fix r))).
Proof.
  intros r op f r' old E. unfold add_fixity, insert in E. injection E as <- <-. cbn [r_fix r_errs].
  split; auto. split; [apply get_insert_same|]. split; auto. split.
  - intros o N. apply get_insert_other. auto.
  - intros o H. enough (X : map fst (insert_tbl (r_fix r) op f) = map fst (r_fix r)) by (rewrite X; tauto).
    unfold has in H. induction (r_fix r) as [|(k,v) t IH]; [discriminate H|]. cbn [get_defined] in H.
    cbn [insert_tbl]. destruct (infix_eqb k op); cbn [map fst]; auto. rewrite IH; auto.
Qed.

Lemma insert_fst t op f : has t op = true -> map fst (insert_tbl t op f) = map fst t.
Proof.
  unfold has. induction t as [|(k,v) t IH]; [discriminate|]. cbn [get_defined insert_tbl]. intros H.
  destruct (infix_eqb k op); cbn [map fst]; auto. rewrite IH; auto.
Qed.

Definition ins (ps : list (infix * fixity)) (t : fixities) : fixities :=
  fold_left (fun t p => insert_tbl t (fst p) (snd p)) ps t.

Lemma ins_mono ps : forall t op, has t op = true -> has (ins ps t) op = true.
Proof. induction ps as [|(o,f) ps IH]; intros t op H; auto. cbn. apply IH. apply has_insert_mono; auto. Qed.

Lemma ins_has ps : forall t p, In p ps -> has (ins ps t) (fst p) = true.
Proof.
  induction ps as [|q ps IH]; intros t p []; cbn.
  - subst q. apply ins_mono. unfold has. rewrite get_insert_same. auto.
  - apply IH; auto.
Qed.

Lemma ins_fst ps : forall t, (forall p, In p ps -> has t (fst p) = true) -> map fst (ins ps t) = map fst t.
Proof.
  induction ps as [|(o,f) ps IH]; intros t H; auto. cbn. rewrite IH.
  - apply insert_fst. apply (H (o, f)); left; auto.
  - intros p I. apply has_insert_mono. apply H; right; auto.
Qed.

Lemma ins_get ps : forall t t' op, (forall o, get_defined t o = get_defined t' o) \/ (exists p, In p ps /\ symbol (fst p) = symbol op) ->
  get_defined (ins ps t) op = get_defined (ins ps t') op.
Proof.
  induction ps as [|(o,f) ps IH]; intros t t' op H; cbn.
  - destruct H as [H|(p&[]&_)]. apply H.
  - destruct H as [H|(p&[E|I]&S)].
    + apply IH. left. intros x. destruct (infix_eqb_spec x o) as [E|E].
      * rewrite (get_defined_sym _ x o), (get_defined_sym (insert_tbl t' _ _) x o), !get_insert_same by auto. auto.
      * rewrite !get_insert_other by auto. auto.
    + subst p. cbn [fst] in S.
      destruct (in_dec (list_eq_dec N.eq_dec) (symbol op) (map (fun p => symbol (fst p)) ps)) as [I|I].
      * apply in_map_iff in I as (q&S'&I). apply IH. right. exists q. auto.
      * assert (X : forall t, get_defined (ins ps (insert_tbl t o f)) op = Some f).
        { clear IH t t'. intros t.
          assert (G : get_defined (insert_tbl t o f) op = Some f) by (rewrite (get_defined_sym _ op o) by auto; apply get_insert_same).
          revert G. generalize (insert_tbl t o f). induction ps as [|(o',f') ps IH]; intros u G; auto. cbn. apply IH.
          - intros Y. apply I. right. auto.
          - rewrite get_insert_other; auto. intros Y. apply I. left. auto. }
        rewrite !X. auto.
    + apply IH. right. exists p. auto.
Qed.

Lemma ins_nodup ps : forall t, NoDup (keys t) -> NoDup (keys (ins ps t)).
Proof. induction ps as [|(o,f) ps IH]; intros t H; auto. cbn. apply IH. apply nodup_insert; auto. Qed.

Lemma same_table t : forall t', map fst t = map fst t' -> NoDup (keys t) ->
  (forall o, In o (map fst t) -> get_defined t o = get_defined t' o) -> t = t'.
Proof.
  induction t as [|(k,v) t IH]; intros [|(k',v') t'] E N H; try discriminate E; auto.
  cbn [map fst] in E. injection E as <- E.
  assert (v = v'). { specialize (H k (or_introl eq_refl)). cbn [get_defined] in H. rewrite infix_eqb_refl in H. congruence. }
  subst v'. f_equal. cbn [keys map fst] in N. inversion N as [|? ? Nk Nt]; subst. apply IH; auto.
  intros o I. specialize (H o (or_intror I)). cbn [get_defined] in H.
  destruct (infix_eqb_spec k o) as [X|X]; auto. exfalso. apply Nk. rewrite X.
  apply in_map_iff in I as (p&<-&I). apply in_map_iff. exists p. auto.
Qed.

Lemma ins_twice ps t : NoDup (keys t) -> ins ps (ins ps t) = ins ps t.
Proof.
  intros N. apply same_table.
  - apply ins_fst. intros p I. apply ins_has; auto.
  - apply ins_nodup. apply ins_nodup. auto.
  - intros o I. destruct (in_dec (list_eq_dec N.eq_dec) (symbol o) (map (fun p => symbol (fst p)) ps)) as [J|J].
    + apply in_map_iff in J as (q&S&J). apply ins_get. right. exists q. auto.
    + assert (X : forall t, get_defined (ins ps t) o = get_defined t o).
      { clear - J. induction ps as [|(o',f') ps IH]; intros t; auto. cbn. rewrite IH.
        - apply get_insert_other. intros Y. apply J. left. auto.
        - intros Y. apply J. right. auto. }
      apply X.
Qed.

Definition pairs_of (ds : list infix_decl) : list (infix * fixity) :=
  flat_map (fun d => map (fun o => (o, d_fixity d)) (d_infixes d)) ds.

Lemma load_ins r a : load_fixities r a = mkResolver (ins (pairs_of (a_infxs a)) (r_fix r)) (r_errs r).
Proof.
  unfold load_fixities. f_equal. generalize (r_fix r). induction (a_infxs a) as [|d ds IH]; intros t; auto.
  cbn [fold_left pairs_of flat_map]. rewrite IH. unfold ins. rewrite fold_left_app. f_equal.
  unfold insert_many. generalize (d_infixes d) t. clear. induction l as [|o os IH]; intros t; auto. cbn. apply IH.
Qed.

(** C67: loading the declarations of a program before resolving it changes
    nothing: resolving loads them.  So [resolved] is resolving with a new
    resolver. *)
Theorem C67_loading_twice : forall r a, NoDup (map (fun p => symbol (fst p)) (r_fix r)) ->
  resolve_ast (load_fixities r a) a = resolve_ast r a.
Proof.
  intros r a N. unfold resolve_ast, visit_ast. do 2 f_equal.
  rewrite !load_ins. cbn [r_fix r_errs]. rewrite ins_twice; auto.
Qed.
Theorem C67_resolved : forall a, resolved a = resolve_ast (mkResolver [] []) a.
Proof. intros a. apply C67_loading_twice. constructor. Qed.

(** * C68 *)

Lemma blen_repeat c k : len_utf8 c = 1 -> blen (repeat c k) = k.
Proof. intros H. induction k; cbn; auto. rewrite IHk, H. auto. Qed.

(** C68: the width of a name is the number of bytes it takes when printed, for
    an operator together with its parentheses. *)
Theorem C68_width : forall i,
  ident_len i = blen (show_ident i) /\
  ident_width i = blen (if ident_is_infix i then [40%N] ++ show_ident i ++ [41%N] else show_ident i).
Proof.
  intros i. assert (L : ident_len i = blen (show_ident i)).
  { destruct i; auto. cbn [ident_len show_ident]. rewrite !blen_app, blen_repeat by reflexivity. cbn. lia. }
  split; auto. unfold ident_width. rewrite L. destruct (ident_is_infix i); [|lia]. rewrite !blen_app. cbn. lia.
Qed.

(** C68: an operator equals the name it becomes; it equals a name of the right
    kind only if it becomes that name. *)
Theorem C68_operator_names : forall (U : ucd) o i,
  (as_ident o = i -> infix_eq_ident o i = true) /\
  (well_cased i -> infix_eq_ident o i = true -> as_ident o = i) /\
  (infix_eq_ident o i = true -> infix_eq_symbol o (show_ident i) = true).
Proof.
  intros U o i. repeat split.
  - intros <-. destruct o; cbn; [apply str_eqb_refl|]. destruct (match s with c :: _ => is_upper c | [] => false end); cbn; apply str_eqb_refl.
  - intros W E. destruct o, i; try discriminate E; cbn in E.
    + destruct (str_eqb_spec s s0) as [->|]; [reflexivity|discriminate E].
    + destruct (str_eqb_spec s s0) as [->|]; [|discriminate E]. cbn in *. destruct s0; [destruct W|]. rewrite W. auto.
    + destruct (str_eqb_spec s s0) as [->|]; [|discriminate E]. cbn in *. destruct s0; auto. rewrite W. auto.
  - intros E. destruct o, i; try discriminate E; exact E.
Qed.

(** C68: operators are equal when their symbols are, however they are written. *)
Theorem C68_operator_equality : forall a b, infix_eqb a b = true <-> symbol a = symbol b.
Proof. intros a b. destruct (infix_eqb_spec a b); split; auto; congruence. Qed.

(** C68: comparing a symbol with a character. *)
Theorem C68_symbol_char : forall s c, symbol_eq_char s c = true <-> s = [c].
Proof.
  intros s c. unfold symbol_eq_char. split.
  - intros H. apply andb_prop in H as (_&H). destruct s as [|x s]; [discriminate|]. apply andb_prop in H as (H&E).
    apply N.eqb_eq in H. destruct s; [congruence|discriminate].
  - intros ->. cbn [blen]. rewrite Nat.add_0_r, Nat.eqb_refl, N.eqb_refl. auto.
Qed.

(** * C69 *)

Lemma digits_run ds : Forall dec_digit ds -> forall r acc, digits_of (ds ++ r) acc = digits_of r (dec_value acc ds).
Proof.
  induction 1 as [|d ds H _ IH]; intros r acc; auto. cbn [app digits_of dec_value]. unfold dec_digit in H.
  replace (N.leb 48 d && N.leb d 57)%bool with true by (symmetry; apply andb_true_iff; split; apply N.leb_le; lia).
  apply IH.
Qed.

Lemma digits_end acc : digits_of [] acc = (acc, []).
Proof. reflexivity. Qed.

Lemma show_Z_pos z : (0 < z)%Z -> show_Z z = show_N (Z.to_N z).
Proof. destruct z; try discriminate; auto. Qed.

Lemma show_Z_neg z : (z < 0)%Z -> exists s, show_Z z = 45%N :: s.
Proof. destruct z; try discriminate; cbn; eauto. Qed.

(** C69: converting panics exactly when the exponent is negative. *)
Theorem C69_panics : forall f, to_f64 f = None <-> (f_exp f < 0)%Z.
Proof.
  intros [n fr z]. unfold to_f64, show_float, parse_f64. cbn [f_int f_frac f_exp].
  destruct (show_N_spec n) as (_&D&_). rewrite digits_run by auto. rewrite show_N_value.
  destruct (Z.eqb_spec z 0) as [->|Nz].
  - rewrite app_nil_r. destruct fr as [m|]; cbn [app digits_of].
    + change (N.leb 48 46 && N.leb 46 57)%bool with false. cbn iota. change (N.eqb 46 46) with true. cbn iota.
      destruct (show_N_spec m) as (_&D'&_). rewrite <- (app_nil_r (show_N m)) at 1. rewrite digits_run by auto.
      cbn [digits_of]. split; [discriminate|lia].
    + split; [discriminate|lia].
  - destruct (Z.lt_ge_cases z 0) as [L|L].
    + split; auto. intros _. destruct (show_Z_neg z L) as (s&->). destruct fr as [m|]; cbn [app digits_of].
      * change (N.leb 48 46 && N.leb 46 57)%bool with false. cbn iota. change (N.eqb 46 46) with true. cbn iota.
        destruct (show_N_spec m) as (_&D'&_). rewrite digits_run by auto. reflexivity.
      * change (N.leb 48 45 && N.leb 45 57)%bool with false. cbn iota. reflexivity.
    + split; [|lia]. rewrite show_Z_pos by lia. destruct (show_N_spec (Z.to_N z)) as (_&Dz&_).
      destruct fr as [m|]; cbn [app].
      * cbn [digits_of]. change (N.leb 48 46 && N.leb 46 57)%bool with false. cbn iota. change (N.eqb 46 46) with true. cbn iota.
        destruct (show_N_spec m) as (_&D'&_). rewrite digits_run by auto.
        rewrite <- (app_nil_r (show_N (Z.to_N z))) at 1. rewrite digits_run by auto. cbn [digits_of]. discriminate.
      * rewrite <- (app_nil_r (show_N (Z.to_N z))) at 1. rewrite digits_run by auto. cbn [digits_of]. discriminate.
Qed.

(** C69: without exponent the value is the integer part and the fraction. *)
Theorem C69_value_partial : forall n m,
  to_f64 (mkFloat n None 0) = Some (n, 0) /\
  exists k, places_of m k /\ to_f64 (mkFloat n (Some m) 0) = Some (n * 10 ^ N.of_nat k + m, k)%N.
Proof.
  intros n m. split.
  - unfold to_f64, show_float, parse_f64. cbn [f_int f_frac f_exp Z.eqb app]. destruct (show_N_spec n) as (_&D&_).
    rewrite !app_nil_r. rewrite <- (app_nil_r (show_N n)). rewrite digits_run by auto. rewrite show_N_value. reflexivity.
  - destruct (show_N_spec m) as (Ne&D'&V&Lo&Hi&Z). exists (List.length (show_N m)). split.
    + repeat split; auto. destruct (show_N m); [congruence|cbn; lia].
    + unfold to_f64, show_float, parse_f64. cbn [f_int f_frac f_exp Z.eqb]. destruct (show_N_spec n) as (_&D&_).
      rewrite digits_run by auto. rewrite show_N_value, app_nil_r. cbn [digits_of].
      change (N.leb 48 46 && N.leb 46 57)%bool with false. cbn iota. change (N.eqb 46 46) with true. cbn iota.
      rewrite <- (app_nil_r (show_N m)) at 1. rewrite digits_run by auto. cbn [digits_of]. rewrite V. auto.
Qed.

(** C69: a positive exponent only adds its digits to the mantissa. *)
Lemma with_exponent n fr z v p : (0 < z)%Z -> to_f64 (mkFloat n fr 0) = Some (v, p) ->
  let j := List.length (show_N (Z.to_N z)) in
  to_f64 (mkFloat n fr z) = Some ((v * 10 ^ N.of_nat j + Z.to_N z)%N, match fr with None => 0 | Some _ => p + j end).
Proof.
  intros L E j. unfold to_f64, show_float, parse_f64 in *. cbn [f_int f_frac f_exp] in *.
  destruct (Z.eqb_spec z 0) as [->|_]; [lia|]. rewrite show_Z_pos by auto.
  destruct (show_N_spec (Z.to_N z)) as (_&Dz&Vz&_). destruct (show_N_spec n) as (_&D&_).
  cbn [Z.eqb] in E. rewrite app_nil_r in E. rewrite digits_run in * by auto. rewrite show_N_value in *.
  destruct fr as [m|]; cbn [app digits_of] in *.
  - change (N.leb 48 46 && N.leb 46 57)%bool with false in *. cbn iota in *. change (N.eqb 46 46) with true in *. cbn iota in *.
    destruct (show_N_spec m) as (_&D'&_). rewrite <- (app_nil_r (show_N m)) in E at 1. rewrite digits_run in E by auto. cbn [digits_of] in E.
    injection E as <- <-. rewrite digits_run by auto. rewrite <- (app_nil_r (show_N (Z.to_N z))) at 1. rewrite digits_run by auto. cbn [digits_of].
    rewrite Vz, app_length. reflexivity.
  - injection E as <- <-. rewrite <- (app_nil_r (show_N (Z.to_N z))) at 1. rewrite digits_run by auto. cbn [digits_of]. rewrite Vz. reflexivity.
Qed.

Lemma pow_grows e : (2 <= e -> 11 * e + 1 <= 10 ^ e)%N.
Proof.
  intros L. replace e with (2 + (e - 2))%N by lia. generalize (e - 2)%N as d. intros d. induction d as [|d IH] using N.peano_ind; [cbn; lia|].
  replace (2 + N.succ d)%N with (N.succ (2 + d)) by lia. rewrite N.pow_succ_r'. lia.
Qed.

(** C69: with a fraction [p] places long, and its own number of places, the
    value is that of the mantissa times the power of ten exactly if there is no
    exponent. *)
Theorem C69_right_iff : forall n fr z v p, to_f64 (mkFloat n fr 0) = Some (v, p) -> (0 <= z)%Z ->
  exists w q, to_f64 (mkFloat n fr z) = Some (w, q) /\
    (w * 10 ^ N.of_nat p = v * 10 ^ Z.to_N z * 10 ^ N.of_nat q <-> z = 0%Z)%N.
Proof.
  intros n fr z v p E L. destruct (Z.eq_dec z 0) as [->|Nz].
  - exists v, p. split; auto. split; auto. intros _. cbn [Z.to_N]. rewrite N.pow_0_r. lia.
  - eexists _, _. split; [apply (with_exponent n fr z v p); [lia|auto]|].
    split; [|contradiction]. intros X. exfalso. set (e := Z.to_N z) in *. assert (Pe : (0 < e)%N) by lia.
    destruct (show_N_spec e) as (_&_&_&Lo&Hi&_). assert (Lo' := Lo ltac:(lia)). clear Lo. set (j := List.length (show_N e)) in *.
    assert (Pj : (10 ^ N.of_nat j <= 10 * e)%N).
    { assert (J : (1 <= N.of_nat j)%N) by (destruct (show_N_spec e) as (Ne&_); subst j; destruct (show_N e); [congruence|cbn [List.length]; lia]).
      replace (N.of_nat j) with (N.succ (N.of_nat j - 1)) by lia. rewrite N.pow_succ_r'. lia. }
    assert (G : (11 * e + 1 <= 10 ^ e \/ e = 1)%N) by (destruct (N.eq_dec e 1); auto; pose proof (pow_grows e ltac:(lia)); lia).
    assert (Q : (1 <= 10 ^ N.of_nat p)%N) by (assert (10 ^ N.of_nat p <> 0)%N by (apply N.pow_nonzero; lia); lia).
    destruct fr as [m|].
    + rewrite Nat2N.inj_add, N.pow_add_r in X.
      assert (Y : (v * 10 ^ N.of_nat j + e = v * 10 ^ e * 10 ^ N.of_nat j)%N).
      { apply (N.mul_cancel_r _ _ (10 ^ N.of_nat p)); [lia|]. rewrite X. rewrite <- !N.mul_assoc. do 2 f_equal. apply N.mul_comm. }
      assert (A : (10 <= 10 ^ e)%N) by (destruct G as [G|G]; [lia|rewrite G; cbn; lia]).
      revert Y A Hi Pe. generalize (10 ^ e)%N as a. generalize (10 ^ N.of_nat j)%N as b. clear. intros b a Y A Hi Pe.
      assert (v = 0 \/ 1 <= v)%N as [->|V] by lia; [lia|].
      assert ((v + 1) * b <= v * a * b)%N by (apply N.mul_le_mono_r; nia). lia.
    + unfold to_f64, show_float, parse_f64 in E. cbn [f_int f_frac f_exp Z.eqb] in E. rewrite app_nil_r in E. destruct (show_N_spec n) as (_&D&_).
      cbn [app] in E. rewrite ?app_nil_r in E. rewrite <- (app_nil_r (show_N n)) in E. rewrite digits_run in E by auto. cbn [digits_of] in E. injection E as E1 E2. subst p.
      cbn [N.of_nat] in X. rewrite N.pow_0_r, !N.mul_1_r in X.
      destruct G as [G|G].
      * assert (v = 0 \/ 1 <= v)%N as [Zv|Zv] by lia; [rewrite Zv in X; lia|].
        revert X G Pj Zv Pe. generalize (10 ^ e)%N as a. generalize (10 ^ N.of_nat j)%N as b. clear. intros b a X G Pj Zv Pe.
        assert (v * (b + e + 1) <= v * a)%N by (apply N.mul_le_mono_l; lia). assert (e + 1 <= v * (e + 1))%N by nia. lia.
      * assert (Ej : N.of_nat j = 1%N) by (subst j; rewrite G; reflexivity). rewrite Ej, G in X. change (10 ^ 1)%N with 10%N in X. lia.
Qed.

(** C69: an exponent is written without its letter, so it becomes part of the
    digits: [1e5] is 15. *)
Theorem C69_exponent_refuted :
  to_f64 (mkFloat 1 None 5) = Some (15%N, 0) /\ to_f64 (mkFloat 1 (Some 5%N) 2) = Some (152%N, 2) /\
  show_float (mkFloat 1 None 5) = show_float (mkFloat 15 None 0).
Proof. vm_compute. auto. Qed.

(** * C70 *)

Fixpoint subs (e : expr) : list expr :=
  e :: match e with
       | Lit _ | Var _ => []
       | App a b | Bin a _ b => subs a ++ subs b
       | Lam _ a | Grp a | Neg a | Let _ a => subs a
       | Tup es | List es => flat_map subs es
       end.

Lemma subs_children e : subs e = e :: flat_map subs (children e).
Proof. destruct e; cbn [subs children flat_map]; rewrite ?app_nil_r; auto. Qed.

Lemma child_size e c : In c (children e) -> esize c < esize e.
Proof.
  assert (L : forall es, In c es -> esize c < S (list_sum (map esize es))).
  { induction es as [|x es IH]; intros []; change (list_sum (map esize (x :: es))) with (esize x + list_sum (map esize es)).
    - subst. lia.
    - specialize (IH H). lia. }
  destruct e; cbn [children esize]; intros H; try (destruct H; fail);
    repeat (destruct H as [<-|H]; [lia|]); try (destruct H; fail); auto.
Qed.

Lemma visit_subs {S : Type} (pre : S -> expr -> S) : forall n e s, esize e <= n -> visit_all pre s e = fold_left pre (subs e) s.
Proof.
  induction n as [|n IH]; intros e s L; [pose proof (esize_pos e); lia|].
  assert (C : forall c s, In c (children e) -> visit_all pre s c = fold_left pre (subs c) s).
  { intros c s' I. apply IH. pose proof (child_size _ _ I). lia. }
  assert (F : forall es s, incl es (children e) -> fold_left (visit_all pre) es s = fold_left pre (flat_map subs es) s).
  { induction es as [|x es IHe]; intros s' I; auto. cbn [fold_left flat_map]. rewrite fold_left_app, C, IHe; auto.
    - intros y Y. apply I. right. auto.
    - apply I. left. auto. }
  destruct e; cbn [visit_all subs fold_left]; auto; cbn [children] in *; rewrite ?fold_left_app.
  - rewrite !C; cbn; auto.
  - rewrite !C; cbn; auto.
  - rewrite !C; cbn; auto.
  - rewrite !C; cbn; auto.
  - rewrite !C; cbn; auto.
  - apply F. apply incl_refl.
  - apply F. apply incl_refl.
  - rewrite !C; cbn; auto.
Qed.

Lemma positions n : forall e, esize e <= n -> exists ps,
  StronglySorted before ps /\ (forall p, In p ps <-> exists x, at_ e p x) /\ Forall2 (at_ e) ps (subs e).
Proof.
  induction n as [|n IH]; intros e L; [pose proof (esize_pos e); lia|].
  assert (K : forall cs k, (forall i c, nth_error cs i = Some c -> nth_error (children e) (k + i) = Some c) ->
    exists ps, StronglySorted before ps /\
      (forall p, In p ps <-> exists i c q x, p = (k + i) :: q /\ nth_error cs i = Some c /\ at_ c q x) /\
      Forall2 (at_ e) ps (flat_map subs cs)).
  { induction cs as [|c cs IHc]; intros k H.
    - exists []. split; [constructor|]. split; [|constructor]. intros p. split; [intros []|].
      intros ([|i]&c&q&x&_&X&_); discriminate X.
    - assert (Hc : nth_error (children e) k = Some c) by (rewrite <- (Nat.add_0_r k); apply (H 0); auto).
      destruct (IH c) as (pc&Sc&Ic&Fc). { pose proof (child_size e c (nth_error_In _ _ Hc)). lia. }
      destruct (IHc (S k)) as (pr&Sr&Ir&Fr). { intros i x X. replace (S k + i) with (k + S i) by lia. apply H. auto. }
      exists (map (cons k) pc ++ pr). split; [|split].
      + assert (Ge : forall p, In p pr -> exists j q, p = j :: q /\ k < j).
        { intros p I. apply Ir in I as (i&c'&q&x&->&_). exists (S k + i), q. split; auto. lia. }
        clear - Sc Sr Ge. induction Sc as [|p pc _ IHp Hp]; cbn [map app]; auto. constructor; auto.
        apply Forall_app. split.
        * apply Forall_map. eapply Forall_impl; [|exact Hp]. intros q. apply be_same.
        * apply Forall_forall. intros q I. destruct (Ge q I) as (j&q'&->&Lt). apply be_left. auto.
      + intros p. rewrite in_app_iff, in_map_iff. split.
        * intros [(q&<-&I)|I].
          -- apply Ic in I as (x&A). exists 0, c, q, x. rewrite Nat.add_0_r. auto.
          -- apply Ir in I as (i&c'&q&x&->&E&A). exists (S i), c', q, x. split; [f_equal; lia|auto].
        * intros ([|i]&c'&q&x&->&E&A).
          -- cbn in E. injection E as <-. left. exists q. rewrite Nat.add_0_r. split; auto. apply Ic. eauto.
          -- right. apply Ir. exists i, c', q, x. split; [f_equal; lia|auto].
      + cbn [flat_map]. apply Forall2_app; auto. clear - Fc Hc. induction Fc; cbn; constructor; auto. econstructor; eauto. }
  destruct (K (children e) 0) as (ps&Sp&Ip&Fp); [auto|]. exists ([] :: ps). split; [|split].
  - constructor; auto. apply Forall_forall. intros p I. apply Ip in I as (i&c&q&x&->&_). constructor.
  - intros p. split.
    + intros [<-|I]; [exists e; constructor|]. apply Ip in I as (i&c&q&x&->&E&A). exists x. econstructor; eauto.
    + intros (x&A). inversion A; subst; [left; auto|]. right. apply Ip. exists i, c, p0, x. auto.
  - rewrite subs_children. constructor; auto. constructor.
Qed.

(** C70: a visitor that acts on an expression and walks on acts on every
    subexpression exactly once, in reading order. *)
Theorem C70_visits_everything : forall (S : Type) (pre : S -> expr -> S) s e, exists ps es,
  StronglySorted before ps /\ (forall p, In p ps <-> exists x, at_ e p x) /\ Forall2 (at_ e) ps es /\
  visit_all pre s e = fold_left pre es s.
Proof.
  intros S pre s e. destruct (positions (esize e) e (le_n _)) as (ps&A&B&C). exists ps, (subs e).
  repeat split; auto; try apply B. eapply visit_subs; eauto.
Qed.

(** C70: such a visitor is one that calls [walk_expr]. *)
Theorem C70_walks : forall (S : Type) (pre : S -> expr -> S) s e, visit_all pre s e = walk (visit_all pre) (pre s e) e.
Proof. intros S pre s e. destruct e; reflexivity. Qed.

(** * C71 *)

Lemma line_app w u : line_of (w ++ u) = line_of w + count_occ N.eq_dec u 10%N.
Proof. unfold line_of. rewrite count_occ_app. lia. Qed.

(** C71: a span between two places of a text has the text between them, as many
    line breaks, and is empty when nothing is between them. *)
Theorem C71_spans : forall w u v,
  let sp := mkSpan (loc_of w) (loc_of (w ++ u)) in
  index_span (w ++ u ++ v) sp = Some u /\
  span_lines sp = count_occ N.eq_dec u 10%N /\
  (span_is_empty sp = true <-> u = []).
Proof.
  intros w u v sp. unfold sp. repeat split.
  - unfold index_span. cbn [sp_lo sp_hi l_pos loc_of]. rewrite blen_app. apply slice_app.
  - unfold span_lines. cbn [sp_lo sp_hi l_line loc_of]. rewrite line_app. lia.
  - unfold span_is_empty. cbn [sp_lo sp_hi l_pos loc_of]. intros H. apply andb_prop in H as (_&H). apply Nat.eqb_eq in H.
    rewrite blen_app in H. destruct u as [|c u]; auto. cbn [blen] in H. pose proof (len_utf8_pos c). lia.
  - intros ->. unfold span_is_empty. rewrite app_nil_r. cbn [sp_lo sp_hi]. rewrite !Nat.eqb_refl. auto.
Qed.

(** C71: indexing panics exactly for spans that are not between two characters. *)
Theorem C71_index : forall s sp u, index_span s sp = Some u <->
  exists w v, s = w ++ u ++ v /\ l_pos (sp_lo sp) = blen w /\ l_pos (sp_hi sp) = blen (w ++ u).
Proof.
  intros s sp u. unfold index_span. split.
  - intros H. apply slice_inv in H as (w&v&->&E1&E2). exists w, v. rewrite blen_app. auto.
  - intros (w&v&->&->&->). rewrite blen_app. apply slice_app.
Qed.

Definition ex_table : fixities := [(Standard (lit "+"), mkFix 6 ALeft); (Promoted (lit "mod"), mkFix 7 ALeft); (Standard (lit "^"), mkFix 8 ARight)].
Example C67_ex : remove_last_take 2 5 ex_table =
  ([(Standard (lit "^"), mkFix 8 ARight); (Promoted (lit "mod"), mkFix 7 ALeft)], [(Standard (lit "+"), mkFix 6 ALeft)]).
Proof. reflexivity. Qed.
Example C67_ex_resolved : exists r a, resolved (mkAst [] [mkInfixDecl [Standard (lit "+")] (mkFix 3 ARight)]
    [Bin (Lit (LInt 1)) (Standard (lit "+")) (Bin (Lit (LInt 2)) (Standard (lit "*")) (Lit (LInt 3)))]) = Ok (r, a, []).
Proof. vm_compute. eauto. Qed.
Example C68_ex : ident_width (IInfix (lit "+")) = 3 /\ infix_eq_ident (Promoted (lit "mod")) (ILower (lit "mod")) = true.
Proof. split; reflexivity. Qed.
Example C69_ex : to_f64 (mkFloat 3 (Some 14%N) 0) = Some (314%N, 2).
Proof. reflexivity. Qed.
Example C70_ex : visit_all (fun n _ => S n) 0 (Tup [App (Lit (LInt 1)) (Lit (LInt 2)); Grp (Lit (LInt 3))]) = 6.
Proof. reflexivity. Qed.
Example C71_ex : index_span (lit "ab cd") (mkSpan (mkLoc 1 4 3) (mkLoc 1 6 5)) = Some (lit "cd").
Proof. reflexivity. Qed.

Print Assumptions C67_remove_last.
Print Assumptions C67_add_fixity.
Print Assumptions C67_loading_twice.
Print Assumptions C67_resolved.
Print Assumptions C68_width.
Print Assumptions C68_operator_names.
Print Assumptions C68_operator_equality.
Print Assumptions C68_symbol_char.
Print Assumptions C69_panics.
Print Assumptions C69_value_partial.
Print Assumptions C69_right_iff.
Print Assumptions C69_exponent_refuted.
Print Assumptions C70_visits_everything.
Print Assumptions C70_walks.
Print Assumptions C71_spans.
Print Assumptions C71_index.
