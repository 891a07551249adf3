(** The hash tables: C89 and C90. *)
From Coq Require Import List Arith NArith Bool Ascii String Lia Permutation.
From Verif Require Import Prelim Syntax Fixity Extras Interner SpecChars Hashed ProofHashed.
Import ListNotations.

(** * What a table is asked *)

Inductive op :=
| Has (k : infix)
| Get (k : infix)
| Insert (k : infix) (v : fixity)
| Remove (k : infix)
| Pop
| Iter
| Rehash (f : list (N * nat) -> list (N * nat)).  (* the table moves its slots *)

Inductive answer := Yes (b : bool) | Value (v : option fixity) | Entry (e : option (infix * fixity)) | All (l : fixities) | Nothing.

(** The list of pairs. *)
Definition ask_list (o : op) (t : fixities) : fixities * answer :=
  match o with
  | Has k => (t, Yes (has t k))
  | Get k => (t, Value (get_defined t k))
  | Insert k v => let (t', old) := insert t k v in (t', Value old)
  | Remove k => let (t', old) := remove t k in (t', Value old)
  | Pop => let (e, t') := pop t in (t', Entry e)
  | Iter => (t, All t)
  | Rehash _ => (t, Nothing)
  end.

(** The hash table; [None] is a panic. *)
Definition ask_hashed (hash : infix -> N) (scan : N -> list (N * nat) -> list (N * nat))
    (o : op) (m : imap infix fixity) : option (imap infix fixity * answer) :=
  match o with
  | Has k => option_map (fun r => (m, Yes (match r with Some _ => true | None => false end))) (map_get infix_eqb hash scan m k)
  | Get k => option_map (fun r => (m, Value r)) (map_get infix_eqb hash scan m k)
  | Insert k v => option_map (fun r => (fst r, Value (snd r))) (map_insert infix_eqb hash scan m k v)
  | Remove k => option_map (fun r => (fst r, Value (snd r))) (map_remove infix_eqb hash scan m k)
  | Pop => let (m', e) := map_pop m in Some (m', Entry e)
  | Iter => Some (m, All (map_iter m))
  | Rehash f => Some (rehash (f (m_slots m)) m, Nothing)
  end.

Fixpoint all_list (os : list op) (t : fixities) : fixities * list answer :=
  match os with
  | [] => (t, [])
  | o :: r => let (t1, a) := ask_list o t in let (t2, l) := all_list r t1 in (t2, a :: l)
  end.

Fixpoint all_hashed hash scan (os : list op) (m : imap infix fixity) : option (imap infix fixity * list answer) :=
  match os with
  | [] => Some (m, [])
  | o :: r => match ask_hashed hash scan o m with
              | Some (m1, a) => match all_hashed hash scan r m1 with
                                | Some (m2, l) => Some (m2, a :: l)
                                | None => None
                                end
              | None => None
              end
  end.

(** Moving slots loses none. *)
Definition moves (o : op) : Prop := match o with Rehash f => forall l, Permutation l (f l) | _ => True end.

Lemma ask_ok hash scan o m t :
  (forall a b, infix_eqb a b = true -> hash a = hash b) -> scan_ok scan -> moves o -> holds hash m t ->
  exists m', ask_hashed hash scan o m = Some (m', snd (ask_list o t)) /\ holds hash m' (fst (ask_list o t)).
Proof.
  intros C S M W. destruct o as [k|k|k v|k| | |f]; cbn [ask_hashed ask_list].
  - rewrite (get_ok hash scan C S m t k W). exists m. split; auto.
  - rewrite (get_ok hash scan C S m t k W). exists m. split; auto.
  - destruct (insert_ok hash scan C S m t k v W) as (m'&->&W'). destruct (insert t k v) as (t', old). exists m'. auto.
  - destruct (remove_ok hash scan C S m t k W) as (m'&->&W'). destruct (remove t k) as (t', old). exists m'. auto.
  - destruct (pop_ok hash m t W) as (E&W'). destruct (map_pop m) as (m', e), (pop t) as (e', t'). cbn in *. subst e'. exists m'. auto.
  - exists m. cbn. split; auto. now rewrite (h_iter _ _ _ W).
  - eexists. split; [reflexivity|]. cbn. now apply rehash_ok.
Qed.

Lemma all_ok hash scan os : (forall a b, infix_eqb a b = true -> hash a = hash b) -> scan_ok scan -> Forall moves os ->
  forall m t, holds hash m t ->
  exists m', all_hashed hash scan os m = Some (m', snd (all_list os t)) /\ holds hash m' (fst (all_list os t)).
Proof.
  intros C S M. induction M as [|o os Mo _ IH]; intros m t W; cbn [all_hashed all_list].
  - exists m. auto.
  - destruct (ask_ok hash scan o m t C S Mo W) as (m1&->&W1). destruct (ask_list o t) as (t1, a). cbn [fst snd] in *.
    destruct (IH m1 t1 W1) as (m2&->&W2). destruct (all_list os t1) as (t2, l). cbn [fst snd] in *. exists m2. auto.
Qed.

(** ** C89 *)

(** Whatever the hasher makes of a symbol, whatever the hash table looks at on
    its way and however it moves its slots, the table answers every sequence of
    requests like the list of pairs, and never panics. *)
Theorem C89_table : forall hs scan os, scan_ok scan -> Forall moves os ->
  exists m, all_hashed (fun i => hs (symbol i)) scan os imap_empty = Some (m, snd (all_list os [])) /\
    map_iter m = fst (all_list os []).
Proof.
  intros hs scan os S M.
  destruct (all_ok (fun i => hs (symbol i)) scan os) with (m := @imap_empty infix fixity) (t := @nil (infix * fixity)) as (m&E&W); auto.
  - intros a b E. apply infix_eqb_eq in E. now rewrite E.
  - apply empty_ok.
  - exists m. split; auto. apply (h_iter _ _ _ W).
Qed.

Definition exact_scan (h : N) (l : list (N * nat)) : list (N * nat) := filter (fun s => N.eqb (fst s) h) l.

Lemma exact_scan_ok : scan_ok exact_scan.
Proof.
  intros h l. split.
  - intros s B. now apply filter_In in B.
  - intros i B. apply filter_In. split; auto. cbn. apply N.eqb_refl.
Qed.

(** This rests on [Hash for Infix] ignoring the spelling, as its [Eq] does: it
    fails for every hash that tells two equal operators apart. *)
Theorem C89_consistent : forall hash,
  (forall scan os, scan_ok scan -> Forall moves os ->
     exists m, all_hashed hash scan os imap_empty = Some (m, snd (all_list os [])))
  <-> (forall a b, infix_eqb a b = true -> hash a = hash b).
Proof.
  intros hash. split.
  - intros H a b E. destruct (N.eq_dec (hash a) (hash b)) as [|Ne]; auto. exfalso.
    destruct (H exact_scan [Insert a fix_default; Get b] exact_scan_ok) as (m&A); [repeat constructor|].
    cbn in A. rewrite E in A. unfold map_get, index_of, index_by in A. cbn in A.
    destruct (N.eqb_spec (hash a) (hash b)); [congruence|]. cbn in A. discriminate.
  - intros C scan os S M. destruct (all_ok hash scan os C S M imap_empty [] (empty_ok hash)) as (m&E&_). eauto.
Qed.

(** The hash of the program is such a one, for every numbering of texts. *)
Theorem C89_program : forall number scan os, scan_ok scan -> Forall moves os ->
  exists m, all_hashed (infix_hash number) scan os imap_empty = Some (m, snd (all_list os [])).
Proof. intros number. apply C89_consistent. intros a b E. apply infix_eqb_eq in E. unfold infix_hash. now rewrite E. Qed.

(** ** C90 *)

(** Looking an operator up by its symbol alone ([Borrow<Symbol>]) is looking it
    up, in every table the program can make. *)
Theorem C90_by_symbol : forall hs scan os m l k, scan_ok scan -> Forall moves os ->
  all_hashed (fun i => hs (symbol i)) scan os imap_empty = Some (m, l) ->
  map_get_by scan m (hs (symbol k)) (fun x => str_eqb (symbol x) (symbol k)) = Some (get_defined (fst (all_list os [])) k).
Proof.
  intros hs scan os m l k S M E.
  assert (C : forall a b, infix_eqb a b = true -> hs (symbol a) = hs (symbol b)) by (intros a b X; apply infix_eqb_eq in X; now rewrite X).
  destruct (all_ok (fun i => hs (symbol i)) scan os C S M imap_empty [] (empty_ok _)) as (m'&E'&W). rewrite E' in E. injection E as -> <-.
  eapply get_by; eauto. cbn. intros x X. apply str_eqb_eq in X. now f_equal.
Qed.

(** A table whose keys are symbols, looked up by text ([Borrow<str>]): the
    number is hashed on one side and the text on the other.  Not one of the
    predefined symbols is found, even in a table that holds it alone. *)
Definition alone (n : N) : imap N fixity :=
  match map_insert N.eqb symbol_hash exact_scan imap_empty n fix_default with
  | Some (m, _) => m
  | None => imap_empty
  end.

Theorem C90_by_text_refuted : forall n s, nth_error predefined n = Some s ->
  map_get N.eqb symbol_hash exact_scan (alone (N.of_nat n)) (N.of_nat n) = Some (Some fix_default) /\
  map_get_by exact_scan (alone (N.of_nat n)) (text_hash (encoded s))
    (fun k => match nth_error predefined (N.to_nat k) with Some t => str_eqb t s | None => false end) = Some None.
Proof.
  intros n s E.
  assert (L : n < List.length predefined) by (apply nth_error_Some; congruence).
  assert (G : forallb (fun n => match nth_error predefined n with
      | Some s => match map_get N.eqb symbol_hash exact_scan (alone (N.of_nat n)) (N.of_nat n),
                        map_get_by exact_scan (alone (N.of_nat n)) (text_hash (encoded s))
                          (fun k => match nth_error predefined (N.to_nat k) with Some t => str_eqb t s | None => false end) with
                  | Some (Some f), Some None => fixity_eqb f fix_default
                  | _, _ => false
                  end
      | None => false end) (seq 0 (List.length predefined)) = true) by (vm_compute; reflexivity).
  rewrite forallb_forall in G. specialize (G n). rewrite E in G.
  assert (In n (seq 0 (List.length predefined))) as I by (apply in_seq; lia). apply G in I. clear G.
  assert (A : forall n, map_get N.eqb symbol_hash exact_scan (alone n) n = Some (Some fix_default)).
  { intros x. unfold map_get, index_of, index_by, alone. cbn. rewrite N.eqb_refl. cbn. rewrite N.eqb_refl. reflexivity. }
  rewrite A in *. split; auto. revert I. destruct (map_get_by _ _ _ _) as [[f|]|]; intros I; congruence.
Qed.

(** The hashes tell texts apart that differ in one byte, and symbols whose
    numbers do. *)
Local Open Scope N_scope.
Lemma step_back h b : N.lxor h b < 18446744073709551616 ->
  (fnv_step h b * 14886173955864302971) mod 18446744073709551616 = N.lxor h b.
Proof.
  intros L. unfold fnv_step. rewrite N.mul_mod_idemp_l by discriminate. rewrite <- N.mul_assoc.
  rewrite <- N.mul_mod_idemp_r by discriminate.
  replace ((1099511628211 * 14886173955864302971) mod 18446744073709551616) with 1 by (vm_compute; reflexivity).
  rewrite N.mul_1_r. now apply N.mod_small.
Qed.

Lemma lxor_small h b : h < 18446744073709551616 -> b < 256 -> N.lxor h b < 18446744073709551616.
Proof.
  intros H B. destruct (N.eq_dec (N.lxor h b) 0) as [->|Z]; [reflexivity|].
  change 18446744073709551616 with (2 ^ 64). apply N.log2_lt_pow2; [lia|].
  eapply N.le_lt_trans; [apply N.log2_lxor|]. apply N.max_lub_lt.
  - destruct (N.eq_dec h 0) as [->|]; [reflexivity|]. apply N.log2_lt_pow2; [lia|exact H].
  - destruct (N.eq_dec b 0) as [->|]; [reflexivity|]. apply N.log2_lt_pow2; [lia|]. change (2 ^ 64) with 18446744073709551616. lia.
Qed.

Lemma step_small h b : fnv_step h b < 18446744073709551616.
Proof. apply N.mod_lt. discriminate. Qed.

Lemma step_inj h h' b b' : h < 18446744073709551616 -> h' < 18446744073709551616 -> b < 256 -> b' < 256 ->
  fnv_step h b = fnv_step h' b' -> N.lxor h b = N.lxor h' b'.
Proof.
  intros H H' B B' E. rewrite <- (step_back h b), <- (step_back h' b') by now apply lxor_small. now rewrite E.
Qed.

Lemma steps_small l : forall h, h < 18446744073709551616 -> fold_left fnv_step l h < 18446744073709551616.
Proof. induction l as [|b l IH]; intros h H; cbn; auto. apply IH, step_small. Qed.

Lemma steps_inj l : Forall (fun b => b < 256) l -> forall h h', h < 18446744073709551616 -> h' < 18446744073709551616 ->
  fold_left fnv_step l h = fold_left fnv_step l h' -> h = h'.
Proof.
  induction 1 as [|b l B _ IH]; intros h h' H H' E; cbn in E; auto.
  apply IH in E; try apply step_small. apply step_inj in E; auto.
  assert (X : N.lxor (N.lxor h b) b = N.lxor (N.lxor h' b) b) by now rewrite E.
  now rewrite !N.lxor_assoc, !N.lxor_nilpotent, !N.lxor_0_r in X.
Qed.

Lemma fnv_one_byte a b b' c : Forall (fun x => x < 256) (b :: b' :: c) -> fnv (a ++ b :: c) = fnv (a ++ b' :: c) -> b = b'.
Proof.
  intros F E. inversion F as [|x l B F1]; subst. inversion F1 as [|x l B' C]; subst. unfold fnv in E. rewrite !fold_left_app in E. cbn in E.
  apply steps_inj in E; auto; try apply step_small. set (h := fold_left fnv_step a _) in E.
  assert (H : h < 18446744073709551616) by (apply steps_small; reflexivity).
  apply step_inj in E; auto.
  assert (X : N.lxor h (N.lxor h b) = N.lxor h (N.lxor h b')) by now rewrite E.
  now rewrite <- !N.lxor_assoc, !N.lxor_nilpotent, !N.lxor_0_l in X.
Qed.

Theorem C90_texts_apart : forall a b b' c, Forall (fun x => x < 256) (b :: b' :: c) -> b <> b' ->
  text_hash (a ++ b :: c) <> text_hash (a ++ b' :: c).
Proof.
  intros a b b' c F Ne E. apply Ne. unfold text_hash in E. rewrite <- !app_assoc in E. cbn [app] in E.
  apply (fnv_one_byte a b b' (c ++ [255])); auto.
  inversion F as [|x l B F1]; subst. inversion F1 as [|x l B' C]; subst.
  repeat constructor; auto. apply Forall_app. repeat constructor. exact C.
Qed.

Theorem C90_symbols_apart : forall n a b, a < 256 -> b < 256 -> a <> b -> symbol_hash (256 * n + a) <> symbol_hash (256 * n + b).
Proof.
  intros n a b A B Ne E. apply Ne. unfold symbol_hash in E.
  assert (D : forall x y, x < 256 -> (256 * n + x) / (256 * y) = n / y /\ (256 * n + x) mod 256 = x).
  { intros x y X. split.
    - destruct (N.eq_dec y 0) as [->|Y]; [now destruct n, x|]. rewrite <- N.div_div by (auto; discriminate). f_equal.
      rewrite N.mul_comm, N.div_add_l by discriminate. rewrite (N.div_small x) by auto. apply N.add_0_r.
    - rewrite N.add_comm, N.mul_comm, N.mod_add by discriminate. now apply N.mod_small. }
  change 256 with (256 * 1) in E at 3. change 65536 with (256 * 256) in E. change 16777216 with (256 * 65536) in E.
  pose proof (fun x => proj1 (D a x A)) as Da. pose proof (fun x => proj1 (D b x B)) as Db.
  pose proof (Da 1) as Da1. pose proof (Db 1) as Db1. change (256 * 1) with 256 in *.
  rewrite ?Da, ?Db, ?Da1, ?Db1, (proj2 (D a 1 A)), (proj2 (D b 1 B)) in E.
  apply (fnv_one_byte [] a b) in E; auto. repeat constructor; auto; apply N.mod_lt; discriminate.
Qed.

(** Published values of FNV-1a of 64 bits. *)
Example C90_ex_fnv : fnv [] = 0xcbf29ce484222325 /\ fnv [97] = 0xaf63dc4c8601ec8c /\
  fnv (map N_of_ascii (list_ascii_of_string "foobar")) = 0x85944171f73967e8.
Proof. vm_compute. auto. Qed.
Local Close Scope N_scope.

(** * Cases *)

Definition numbering (s : str) : N := match s with [c] => c | c :: d :: _ => (c * 256 + d)%N | [] => 0%N end.
Definition plus := Standard [43%N].
Definition minus := Standard [45%N].
Definition quoted := Promoted [43%N].
Definition f6 := mkFix 6%N ALeft.
Definition f7 := mkFix 7%N ALeft.

(** The same operator in its other spelling, a removal in the middle, a move. *)
Definition story := [Insert plus f6; Insert minus f6; Rehash (@rev _); Insert quoted f7; Get plus; Remove plus; Has minus; Iter; Pop; Iter].
Example C89_ex : option_map snd (all_hashed (infix_hash numbering) exact_scan story imap_empty) =
  Some [Value None; Value None; Nothing; Value (Some f6); Value (Some f7); Value (Some f7); Yes true; All [(minus, f6)]; Entry (Some (minus, f6)); All []].
Proof. reflexivity. Qed.
Example C89_ex_moves : Forall moves story.
Proof. repeat constructor. intros l. apply Permutation_rev. Qed.

(** A table that looks at everything will do as well. *)
Example C89_ex_scan : scan_ok (fun _ l => l).
Proof. intros h l. split; auto. apply incl_refl. Qed.

Example C90_ex : nth_error predefined 10 = Some [43%N].
Proof. reflexivity. Qed.

Print Assumptions C89_table.
Print Assumptions C89_consistent.
Print Assumptions C89_program.
Print Assumptions C90_by_symbol.
Print Assumptions C90_by_text_refuted.
Print Assumptions C90_texts_apart.
Print Assumptions C90_symbols_apart.
