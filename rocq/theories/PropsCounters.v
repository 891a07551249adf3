(** The counters of the lexer do not overflow: C95. *)
From Coq Require Import List Arith NArith Bool Lia String.
From Verif Require Import Prelim Chars Syntax Lexer SpecLexer SpecLexRun ProofLexer ProofLexer7 Counters.
Import ListNotations.

(** After [n] characters have been taken. *)
Definition taken (src : str) (n : nat) : lexer := Nat.iter n bump_char (untouched src).

(** Lines and columns that fit 32 bits, and a length that fits 64, everywhere in a text. *)
Definition fits (s : str) : Prop :=
  forall a b, s = a ++ b ->
  (N.of_nat (line_of a) < 4294967296 /\ N.of_nat (col_of a) < 4294967296
   /\ N.of_nat (blen a) < 18446744073709551616)%N.

Lemma at_untouched src : at_ (untouched src) [].
Proof. repeat split. intros (x&E). destruct x; discriminate. Qed.

Lemma taken_at src n : exists w, at_ (taken src n) w /\ lx_src (taken src n) = src.
Proof.
  induction n as [|n (w&A&Sx)]. { exists []. split; [apply at_untouched|reflexivity]. }
  change (taken src (S n)) with (bump_char (taken src n)).
  destruct (lx_rest (taken src n)) as [|c v] eqn:E.
  - exists w. destruct (taken src n) as [s r k li co po pr]. cbn in E. subst. auto.
  - destruct (from_bump _ _ _ E) as (u&F). exists (w ++ c :: u). split.
    + apply F. auto.
    + destruct F as (F&_). congruence.
Qed.

Lemma iter_first {A} (f : A -> A) n x : Nat.iter (S n) f x = Nat.iter n f (f x).
Proof. induction n as [|n IH]; [reflexivity|]. change (f (Nat.iter (S n) f x) = f (Nat.iter n f (f x))). rewrite IH. reflexivity. Qed.

Lemma bump_more src l w v r : at_ l w -> lx_src l = src -> lx_rest l = v ++ r -> cut (w ++ v) r ->
  exists n, at_ (Nat.iter n bump_char l) (w ++ v) /\ lx_rest (Nat.iter n bump_char l) = r.
Proof.
  revert l w. induction v as [v IH] using (induction_ltof1 _ (@List.length chr)). unfold ltof in IH.
  intros l w A Sx R C. destruct v as [|c v].
  - exists 0. rewrite app_nil_r. auto.
  - cbn [app] in R. destruct (from_bump _ _ _ R) as (u&F). assert (F' := F).
    destruct F as (F1&_&F3&F4&_). rewrite R in F3. injection F3 as F3.
    assert (exists v', v = u ++ v' /\ lx_rest (bump_char l) = v' ++ r) as (v'&->&R').
    { assert (U : u = [] \/ c = 10%N /\ u = [13%N]).
      { clear - R F3. destruct l as [s re k li co po pr]. cbn in R. subst re. cbn [bump_char] in F3.
        destruct (N.eqb_spec c 10) as [->|]; cbn [lx_rest] in F3.
        - destruct (v ++ r) as [|d z]. { destruct u; [auto|discriminate]. }
          destruct (N.eqb_spec d 13) as [->|].
          + right. split; auto. change (13%N :: z) with ([13%N] ++ z) in F3. apply app_inv_tail in F3. auto.
          + left. change (d :: z) with ([] ++ d :: z) in F3 at 1. apply app_inv_tail in F3. auto.
        - left. change (v ++ r) with ([] ++ v ++ r) in F3 at 1. apply app_inv_tail in F3. auto. }
      destruct U as [->|(->&->)].
      - exists v. auto.
      - destruct v as [|d v].
        + exfalso. destruct r as [|d r]; [discriminate|]. injection F3 as -> _.
          assert (stops (N.eqb 13) (13%N :: r)) as X by (apply C; exists w; auto). discriminate X.
        + injection F3 as <- F3. exists v. split; auto. }
    destruct (IH v') with (l := bump_char l) (w := w ++ c :: u) as (n&A'&E'); auto.
    { cbn [List.length]. rewrite app_length. lia. }
    { congruence. }
    { rewrite <- app_assoc. exact C. }
    exists (S n). rewrite iter_first. rewrite <- app_assoc in A'. auto.
Qed.

Section WithUcd.
Context {U : ucd}.

(** C95: wherever the lexer stands, it stands after some number of characters
    taken one by one. *)
Theorem C95_one_by_one : letters U -> forall src l, reachable src l ->
  exists n, curr_loc l = curr_loc (taken src n) /\ lx_rest l = lx_rest (taken src n).
Proof.
  intros HU src l R. destruct (at_reachable HU src l R) as (w&(A1&A2&A3)&S). rewrite S in A1.
  destruct (bump_more src (untouched src) [] w (lx_rest l)) as (n&(_&B2&_)&E); auto using at_untouched.
  exists n. unfold taken. rewrite E. split; auto. cbn [app] in B2. congruence.
Qed.
End WithUcd.

(** The counters of a state fit their types. *)
Definition within (l : lexer) : Prop :=
  (N.of_nat (lx_line l) < 4294967296 /\ N.of_nat (lx_col l) < 4294967296
   /\ N.of_nat (lx_pos l) < 18446744073709551616)%N.

Lemma after_eq (c : chr) r : N.eqb c 10 = true ->
  after c r = match r with d :: r' => if N.eqb d 13 then r' else r | [] => r end.
Proof. intros E. unfold after. rewrite E. reflexivity. Qed.

Lemma checked_within l : within l -> bump_checked l = Some (bump_char l) <-> within (bump_char l).
Proof.
  destruct l as [s r k li co po pr]. unfold within. cbn [lx_line lx_col lx_pos].
  intros (L&C&P). destruct r as [|c r]. { cbn. tauto. }
  unfold bump_checked, bump_char, add_checked, two32, two64.
  destruct (N.eqb c 10) eqn:E; cbn [lx_line lx_col lx_pos].
  - rewrite (after_eq c r E).
    destruct (N.ltb_spec (N.of_nat (po + len_utf8 c)) 18446744073709551616);
    destruct (N.ltb_spec (N.of_nat (li + 1)) 4294967296);
    (split; [intros X; first [discriminate | split; [lia|split; [reflexivity|lia]]]|intros X; first [lia | reflexivity]]).
  - destruct (N.ltb_spec (N.of_nat (po + len_utf8 c)) 18446744073709551616);
    destruct (N.ltb_spec (N.of_nat (co + 1)) 4294967296);
    (split; [intros X; first [discriminate | lia]|intros X; first [lia | reflexivity]]).
Qed.

Lemma wrapping_within l : within (bump_char l) -> bump_wrapping l = bump_char l.
Proof.
  destruct l as [s r k li co po pr]. unfold within. destruct r as [|c r]; [reflexivity|].
  unfold bump_wrapping, bump_char, add_wrapping, two32, two64.
  destruct (N.eqb c 10) eqn:E; cbn [lx_line lx_col lx_pos]; intros (L&C&P).
  - rewrite (after_eq c r E), !N.mod_small by assumption. rewrite !Nat2N.id. reflexivity.
  - rewrite !N.mod_small by assumption. rewrite !Nat2N.id. reflexivity.
Qed.

(** Every place in the text without the skipped carriage returns is a place of the text. *)
Lemma strip_place : forall s a b, strip s = a ++ b -> exists w v, s = w ++ v /\ strip w = a /\ cut w v.
Proof.
  intros s. induction s as [s IH] using (induction_ltof1 _ (@List.length chr)). unfold ltof in IH.
  intros a b E. destruct a as [|x a].
  { exists [], s. split; auto. split; auto. intros (y&Y). destruct y; discriminate. }
  destruct s as [|c s]; [discriminate|].
  destruct (N.eq_dec c 10) as [->|nc]; [destruct s as [|d s]; [|destruct (N.eq_dec d 13) as [->|nd]]|].
  - injection E as <- E. destruct a; [|discriminate]. exists [10%N], []. repeat split.
  - rewrite strip_pair in E. injection E as <- E.
    destruct (IH s) with (a := a) (b := b) as (w&v&->&<-&C); auto. { cbn. lia. }
    exists (10%N :: 13%N :: w), v. split; auto. split; [apply strip_pair|].
    intros (y&Y). destruct y as [|y1 [|y2 y]]; try discriminate.
    injection Y as <- <- ->. apply C. exists y. auto.
  - rewrite strip_single in E by (intros (_&z&Z); congruence). injection E as <- E.
    destruct (IH (d :: s)) with (a := a) (b := b) as (w&v&Es&<-&C); auto.
    exists (10%N :: w), v. rewrite Es. split; auto. split.
    + apply strip_single. intros (_&z&->). cbn [app] in Es. congruence.
    + intros (y&Y). destruct y as [|y1 y].
      * injection Y as ->. cbn [app] in Es. subst v. cbn [stops]. apply N.eqb_neq. auto.
      * injection Y as <- ->. apply C. exists y. auto.
  - rewrite strip_single in E by tauto. injection E as <- E.
    destruct (IH s) with (a := a) (b := b) as (w&v&->&<-&C); auto.
    exists (c :: w), v. split; auto. split; [apply strip_single; tauto|].
    intros (y&Y). destruct y as [|y1 y].
    * cbn in Y. congruence.
    * injection Y as <- ->. apply C. exists y. auto.
Qed.

Lemma fits_taken src : fits (strip src) <-> forall n, within (taken src n).
Proof.
  split.
  - intros F n. destruct (taken_at src n) as (w&(A1&A2&A3)&S). rewrite S in A1.
    assert (X : strip src = strip w ++ strip (lx_rest (taken src n))).
    { rewrite A1 at 1. eapply strip_app; eauto. }
    specialize (F _ _ X). unfold curr_loc, loc_of in A2. injection A2 as E1 E2 E3.
    unfold within. rewrite E1, E2, E3. exact F.
  - intros F a b E. destruct (strip_place _ _ _ E) as (w&v&Es&<-&C).
    destruct (bump_more src (untouched src) [] w v) as (n&(_&B2&_)&_); auto using at_untouched.
    specialize (F n). unfold taken in F. unfold curr_loc, loc_of in B2. injection B2 as E1 E2 E3.
    unfold within in F. cbn [app] in *. rewrite E1, E2, E3 in F. exact F.
Qed.

(** C95: exactly when no counter ever overflows: when all lines and columns of
    the text fit.  Then checked and wrapping arithmetic do what unbounded
    arithmetic does. *)
Theorem C95_exact : forall src,
  (forall n, bump_checked (taken src n) = Some (bump_char (taken src n))) <-> fits (strip src).
Proof.
  intros src. rewrite fits_taken. split.
  - intros B n. induction n as [|n IH]. { repeat split. }
    change (taken src (S n)) with (bump_char (taken src n)). apply checked_within; auto.
  - intros W n. apply checked_within; [apply W|]. apply (W (S n)).
Qed.
Theorem C95_wrapping : forall src, fits (strip src) ->
  forall n, bump_wrapping (taken src n) = bump_char (taken src n).
Proof. intros src F n. apply wrapping_within. exact (proj1 (fits_taken src) F (S n)). Qed.

Lemma line_short a : line_of a <= 1 + List.length a.
Proof.
  unfold line_of. induction a as [|c a IH]; cbn [count_occ List.length]; [lia|].
  destruct (N.eq_dec c 10); lia.
Qed.
Lemma take_short f s : List.length (take_while f s) <= List.length s.
Proof. induction s as [|c s IH]; cbn; [lia|]. destruct (f c); cbn; lia. Qed.
Lemma col_short a : col_of a <= 1 + List.length a.
Proof. unfold col_of. pose proof (take_short not_lf (rev a)). rewrite rev_length in *. lia. Qed.
Lemma blen_short a : List.length a <= blen a <= 4 * List.length a.
Proof.
  induction a as [|c a IH]; cbn; [lia|]. unfold blen in *. cbn.
  assert (1 <= len_utf8 c <= 4).
  { unfold len_utf8. repeat match goal with |- context [if ?b then _ else _] => destruct b end; lia. }
  lia.
Qed.
Lemma strip_short : forall s, List.length (strip s) <= List.length s.
Proof.
  intros s. induction s as [s IH] using (induction_ltof1 _ (@List.length chr)). unfold ltof in IH.
  destruct s as [|c s]; [auto|]. destruct s as [|d s]; [auto|].
  change (strip (c :: d :: s)) with (c :: if N.eqb c 10 && N.eqb d 13 then strip s else strip (d :: s)).
  destruct (N.eqb c 10 && N.eqb d 13).
  - pose proof (IH s). cbn in *. lia.
  - pose proof (IH (d :: s)). cbn [List.length] in *. lia.
Qed.

(** C95: texts of less than 2^32 - 1 characters are short enough. *)
Theorem C95_short : forall src, (N.of_nat (List.length src) < 4294967295)%N -> fits (strip src).
Proof.
  intros src L a b E. pose proof (strip_short src) as S. rewrite E, app_length in S.
  pose proof (line_short a). pose proof (col_short a). pose proof (blen_short a). lia.
Qed.

Lemma taken_repeat c m : c = 10%N \/ c = 97%N -> forall n, n <= m ->
  taken (repeat c m) n
  = mkLexer (repeat c m) (repeat c (m - n)) None
      (if N.eqb c 10 then n + 1 else 1) (if N.eqb c 10 then 1 else n + 1) n loc_default.
Proof.
  intros C n. induction n as [|n IH]; intros L.
  - rewrite Nat.sub_0_r. destruct C as [-> | ->]; reflexivity.
  - change (taken (repeat c m) (S n)) with (bump_char (taken (repeat c m) n)).
    rewrite IH by lia. replace (m - n) with (S (m - S n)) by lia.
    destruct C as [-> | ->]; cbn [repeat bump_char]; unfold len_utf8;
      cbn [N.eqb N.ltb N.compare Pos.eqb Pos.compare Pos.compare_cont].
    + f_equal; try lia. destruct (m - S n) as [|k]; reflexivity.
    + f_equal; lia.
Qed.

(** C95: this is the best bound: so many newlines, or so long a line, overflow;
    where it is not checked for, the number of the line or column becomes 0. *)
Theorem C95_bound : forall c m, c = 10%N \/ c = 97%N -> (N.of_nat m = 4294967295)%N ->
  exists n, bump_checked (taken (repeat c m) n) = None
  /\ (lx_line (bump_wrapping (taken (repeat c m) n)) = 0 \/ lx_col (bump_wrapping (taken (repeat c m) n)) = 0).
Proof.
  intros c m C M. exists (m - 1). rewrite taken_repeat by (auto; lia).
  assert (X : m - (m - 1) = 1) by lia. rewrite X.
  assert (Y : (N.of_nat (m - 1 + 1 + 1) = 4294967296)%N) by lia.
  assert (Z : (N.of_nat (m - 1 + 1) < 18446744073709551616)%N) by lia.
  apply N.ltb_lt in Z.
  destruct C as [-> | ->]; unfold bump_checked, bump_wrapping, add_checked, add_wrapping, two32, two64, len_utf8;
    cbn [repeat N.eqb N.ltb N.compare Pos.eqb Pos.compare Pos.compare_cont];
    change (match N.of_nat (m - 1 + 1) ?= 18446744073709551616 with Lt => true | _ => false end)%N
      with (N.of_nat (m - 1 + 1) <? 18446744073709551616)%N; rewrite Z, Y; split; auto.
Qed.

(** Non-vacuity: a text of two lines, with the counters on the way. *)
(** ** The depth of block comments *)

(** An opening brace that has been counted already costs nothing more. *)
Definition ahead (r : str) : nat :=
  match r with c :: r' => if N.eqb c 123 then List.length r' else List.length r | [] => 0 end.
Lemma ahead_le r : ahead r <= List.length r.
Proof. destruct r as [|c r]; cbn; auto. destruct (N.eqb c 123); lia. Qed.

Lemma rest_bump c r src k li co po pr :
  exists u, lx_rest (bump_char (mkLexer src (c :: r) k li co po pr)) = u
    /\ (u = r \/ c = 10%N /\ S (List.length u) = List.length r).
Proof.
  cbn [bump_char]. destruct (N.eqb_spec c 10) as [->|]; cbn [lx_rest]; eauto.
  destruct r as [|d r]; eauto. destruct (N.eqb d 13); eauto.
Qed.

Lemma comment_depth : forall fuel depth end_ l,
  (N.of_nat (2 * depth + ahead (lx_rest l)) < 4294967296)%N ->
  comment_loop_checked fuel depth end_ l = obind (comment_loop fuel depth end_ l) (fun r => Ok (Some r)).
Proof.
  induction fuel as [|f IH]; intros depth end_ l B.
  - destruct depth as [|d]; [reflexivity|]. cbn [comment_loop comment_loop_checked]. destruct (peek_char l); reflexivity.
  - destruct depth as [|d]; [reflexivity|]. cbn [comment_loop comment_loop_checked].
    destruct l as [src rest k li co po pr]. cbn [lx_rest] in B. destruct rest as [|c r]; [reflexivity|].
    change (peek_char (mkLexer src (c :: r) k li co po pr)) with (Some c). cbv iota.
    change (lx_prev (mkLexer src (c :: r) k li co po pr)) with pr. cbv zeta.
    destruct (rest_bump c r src k li co po pr) as (u&R&U). set (l1 := bump_char (mkLexer src (c :: r) k li co po pr)) in *.
    clearbody l1. pose proof (ahead_le u) as Au. cbn [ahead] in B.
    destruct (N.eqb_spec c 126) as [->|N1].
    + destruct U as [->|[? _]]; [|discriminate]. change (N.eqb 126 123) with false in B. cbn [List.length] in B.
      unfold on, on_char, peek_char. rewrite R. destruct r as [|c r]; [apply IH; rewrite R; cbn; lia|].
      destruct (N.eqb_spec 123 c) as [<-|N2].
      * unfold add_checked. assert (L : (N.of_nat (S d + 1) <? two31)%N = true).
        { apply N.ltb_lt. unfold two31. cbn [List.length] in B. lia. }
        rewrite L. replace (S d + 1) with (S (S d)) by lia. apply IH. rewrite R. cbn [ahead]. rewrite N.eqb_refl.
        cbn [List.length] in B. lia.
      * apply IH. rewrite R. cbn [List.length] in *. lia.
    + destruct (N.eqb_spec c 125) as [->|N3].
      * destruct U as [->|[? _]]; [|discriminate]. change (N.eqb 125 123) with false in B. cbn [List.length] in B.
        unfold on, on_char, peek_char. rewrite R. destruct r as [|c r]; [apply IH; rewrite R; cbn; lia|].
        destruct (N.eqb_spec 126 c) as [<-|N2]; [|apply IH; rewrite R; cbn [List.length] in *; lia].
        apply IH. destruct l1 as [src1 rest1 k1 li1 co1 po1 pr1]. cbn [lx_rest] in R. subst rest1.
        destruct (rest_bump 126%N r src1 k1 li1 co1 po1 pr1) as (v&Rv&V). rewrite Rv.
        destruct V as [->|[? _]]; [|discriminate]. pose proof (ahead_le r). cbn [List.length] in *. lia.
      * apply IH. rewrite R. destruct (N.eqb_spec c 123) as [->|N4].
        -- destruct U as [->|[? _]]; [lia|discriminate].
        -- cbn [List.length] in B. destruct U as [->|[_ U]]; lia.
Qed.

(** C95: nor does the depth of a block comment, in a text of less than 2^32 characters
    (two of which are the mark that opens the comment). *)
Theorem C95_depth : forall l, (N.of_nat (2 + List.length (lx_rest l)) < 4294967296)%N ->
  block_comment_checked l = obind (block_comment l) (fun r => Ok (Some r)).
Proof.
  intros l B. unfold block_comment_checked, block_comment. rewrite comment_depth.
  - destruct (comment_loop _ 1 _ l) as [[[b e] l1]|p|]; cbn [obind]; try reflexivity. destruct b; reflexivity.
  - pose proof (ahead_le (lx_rest l)). lia.
Qed.

Fixpoint marks (n : nat) : str := match n with 0 => [] | S n => 126%N :: 123%N :: marks n end.
Lemma marks_length n : List.length (marks n) = 2 * n.
Proof. induction n as [|n IH]; cbn [marks List.length]; lia. Qed.

Lemma marks_overflow : forall n fuel depth end_ l, 0 < depth -> (N.of_nat depth < 2147483648)%N ->
  (2147483648 <= N.of_nat (depth + n))%N -> 2 * n <= fuel -> lx_rest l = marks n ->
  comment_loop_checked fuel depth end_ l = Ok None.
Proof.
  induction n as [|n IH]; intros fuel depth end_ l D L G Fu R; [lia|].
  destruct fuel as [|[|f]]; try lia. destruct depth as [|d]; [lia|].
  destruct l as [src rest k li co po pr]. cbn [lx_rest] in R. subst rest.
  cbn [comment_loop_checked peek_char lx_rest marks]. change (N.eqb 126 126) with true. cbv iota.
  cbn [bump_char]. change (N.eqb 126 10) with false. cbv iota.
  unfold on, on_char, peek_char. cbn [lx_rest]. change (N.eqb 123 123) with true. cbv iota. unfold add_checked.
  destruct (N.ltb_spec (N.of_nat (S d + 1)) two31) as [Lt|Ge]; [|reflexivity]. unfold two31 in Lt.
  replace (S d + 1) with (S (S d)) in * by lia. cbn [comment_loop_checked peek_char lx_rest].
  change (N.eqb 123 126) with false. change (N.eqb 123 125) with false. cbv iota.
  apply IH; try lia. cbn [bump_char]. change (N.eqb 123 10) with false. reflexivity.
Qed.

(** C95: 2^31 nested marks (with the one before them) do overflow it. *)
Theorem C95_depth_bound : forall n l, (N.of_nat n = 2147483647)%N -> lx_rest l = marks n ->
  block_comment_checked l = Ok None.
Proof.
  intros n l Hn R. unfold block_comment_checked. rewrite (marks_overflow n); auto; try lia.
  rewrite R, marks_length. lia.
Qed.

Example C95_ex :
  let src := lit "ab" ++ [10; 13]%N ++ lit "c" in
  fits (strip src) /\ strip src = lit "ab" ++ [10%N] ++ lit "c"
  /\ map (fun n => curr_loc (taken src n)) [0; 1; 2; 3; 4]
     = [mkLoc 1 1 0; mkLoc 1 2 1; mkLoc 1 3 2; mkLoc 2 1 3; mkLoc 2 2 4].
Proof. cbv zeta. split; [apply C95_short; reflexivity|]. split; reflexivity. Qed.

(** A comment in a comment; the blank after it goes too. *)
Example C95_depth_ex : exists l',
  block_comment_checked (lexer_new (lit "a ~{ b }~ c }~ ;")) = Ok (Some (None, l'))
  /\ lx_rest l' = lit ";" /\ (N.of_nat (2 + List.length (lit "a ~{ b }~ c }~ ;")) < 4294967296)%N.
Proof. eexists. split; [vm_compute; reflexivity|]. split; reflexivity. Qed.

Print Assumptions C95_one_by_one.
Print Assumptions C95_exact.
Print Assumptions C95_wrapping.
Print Assumptions C95_short.
Print Assumptions C95_bound.
Print Assumptions C95_depth.
Print Assumptions C95_depth_bound.
