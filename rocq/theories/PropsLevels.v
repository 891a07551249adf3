(** C103: the groupings that can be asked for. *)
From Coq Require Import List Arith NArith Bool String Lia Permutation.
From Verif Require Import Prelim Syntax Fixity SpecFixity ProofTable ProofRewrite ProofFixity PropsFixity SpecLevels.
Import ListNotations.
Local Open Scope list_scope.

Lemma needs_near e : fst (needs e) <= S (snd (needs e)) /\ snd (needs e) <= S (fst (needs e)).
Proof.
  induction e; cbn [needs fst snd]; auto. destruct (needs e1), (needs e2). cbn [fst snd] in *. lia.
Qed.

(** ** Levels are needed *)

Section Needed.
Variable F : infix -> fixity.
Variable n : nat.

Definition level (o : infix) : nat := N.to_nat (fx_prec (F o)).

Definition cost (a : assoc) (e : expr) : nat :=
  match a with
  | ALeft => fst (needs e)
  | ARight => snd (needs e)
  | ANeither => Nat.max (fst (needs e)) (snd (needs e))
  end.

Lemma cost_levels a e : levels e <= cost a e.
Proof. unfold levels, cost. destruct (needs e), a; cbn; lia. Qed.

Lemma cost_bound a e x : x = fst (needs e) \/ x = snd (needs e) -> x <= S (cost a e).
Proof. pose proof (needs_near e). unfold cost. destruct a; intros [-> | ->]; lia. Qed.

Lemma needed e : legal_expr F e -> within n F e -> forall l o r, e = Bin l o r -> level o + cost (fx_assoc (F o)) e <= n.
Proof.
  induction e as [x|i|a IHa b IHb|l IHl o r IHr|p a IHa|a IHa|a IHa|es|es|d a IHa]; intros L W l0 o0 r0 E; try discriminate E.
  injection E as <- <- <-. cbn [legal_expr] in L. destruct L as (Ll&Lr&Cl&Cr).
  assert (Wo : level o < n).
  { unfold level. specialize (W o). cbn [operators] in W. assert (I : In o (operators l ++ o :: operators r)) by (apply in_or_app; right; now left).
    specialize (W I). lia. }
  assert (Wl : within n F l) by (intros x I; apply W; cbn [operators]; apply in_or_app; now left).
  assert (Wr : within n F r) by (intros x I; apply W; cbn [operators]; apply in_or_app; right; now right).
  assert (Hl : (exists a c b, l = Bin a c b) \/ needs l = (0, 0)) by (destruct l; eauto; right; reflexivity).
  assert (Hr : (exists a c b, r = Bin a c b) \/ needs r = (0, 0)) by (destruct r; eauto; right; reflexivity).
  pose proof (needs_near l) as Nl. pose proof (needs_near r) as Nr.
  assert (Kl : level o + S (Nat.min (fst (needs l)) (snd (needs l))) <= n /\ level o + fst (needs l) <= n \/
    fx_assoc (F o) = ALeft /\ level o + fst (needs l) <= n).
  { destruct Hl as [(a&c&b&->)|Hl]; [|rewrite Hl; cbn; left; lia].
    specialize (IHl Ll Wl _ _ _ eq_refl). destruct (Cl _ _ _ eq_refl) as [P|(P&A1&A2)].
    - left. unfold prec in P. assert (level o < level c) by (unfold level; lia).
      revert IHl. unfold cost. destruct (fx_assoc (F c)); lia.
    - right. split; [exact A2|]. unfold is_infixl in A1. rewrite A1 in IHl. unfold cost in IHl. unfold prec in P. unfold level in *. rewrite <- P. exact IHl. }
  assert (Kr : level o + S (Nat.min (fst (needs r)) (snd (needs r))) <= n /\ level o + snd (needs r) <= n \/
    fx_assoc (F o) = ARight /\ level o + snd (needs r) <= n).
  { destruct Hr as [(a&c&b&->)|Hr]; [|rewrite Hr; cbn; left; lia].
    specialize (IHr Lr Wr _ _ _ eq_refl). destruct (Cr _ _ _ eq_refl) as [P|(P&A1&A2)].
    - left. unfold prec in P. assert (level o < level c) by (unfold level; lia).
      revert IHr. unfold cost. destruct (fx_assoc (F c)); lia.
    - right. split; [exact A2|]. unfold is_infixr in A1. rewrite A1 in IHr. unfold cost in IHr. unfold prec in P. unfold level in *. rewrite <- P. exact IHr. }
  unfold cost. cbn [needs]. destruct (needs l) as (ll&lr), (needs r) as (rl&rr). cbn [fst snd] in *.
  destruct (fx_assoc (F o)); destruct Kl as [Kl|(Kl&Kl')]; destruct Kr as [Kr|(Kr&Kr')]; try discriminate; lia.
Qed.

End Needed.

(** ** Levels suffice *)

Definition cheaper (e : expr) : assoc := if fst (needs e) <=? snd (needs e) then ALeft else ARight.

(** Fixities for the operators of [e], the main one on level [p]. *)
Fixpoint assigned (p : nat) (a : assoc) (e : expr) : list (infix * fixity) :=
  match e with
  | Bin l o r =>
      (o, mkFix (N.of_nat p) a) ::
      match a with
      | ALeft => assigned p ALeft l ++ assigned (S p) (cheaper r) r
      | _ => assigned (S p) (cheaper l) l ++ assigned p ARight r
      end
  | _ => []
  end.

Definition sided (a : assoc) : Prop := a = ALeft \/ a = ARight.

Lemma cheaper_sided e : sided (cheaper e).
Proof. unfold cheaper, sided. destruct (_ <=? _); auto. Qed.

Lemma cheaper_cost e : cost (cheaper e) e = Nat.min (fst (needs e)) (snd (needs e)).
Proof. unfold cheaper. destruct (Nat.leb_spec (fst (needs e)) (snd (needs e))); cbn [cost]; lia. Qed.

Lemma assigned_below n e : forall p a, sided a -> p + cost a e <= n ->
  forall o f, In (o, f) (assigned p a e) -> (fx_prec f < N.of_nat n)%N.
Proof.
  induction e; intros p' a Sa H o' f I; cbn [assigned] in I; try (destruct I; fail).
  assert (P1 : p' + 1 <= n /\ match a with ALeft => p' + cost ALeft e1 <= n /\ S p' + cost (cheaper e2) e2 <= n
    | _ => S p' + cost (cheaper e1) e1 <= n /\ p' + cost ARight e2 <= n end).
  { rewrite !cheaper_cost. unfold cost in *. cbn [needs] in H. destruct (needs e1), (needs e2). cbn [fst snd] in *. destruct Sa as [-> | ->]; lia. }
  destruct P1 as (P1&P2). destruct I as [I|I]; [injection I as <- <-; cbn [fx_prec]; lia|].
  destruct Sa as [-> | ->]; destruct P2 as (P2&P3); apply in_app_or in I as [I|I].
  - eapply IHe1; eauto. now left.
  - eapply IHe2; eauto. apply cheaper_sided.
  - eapply IHe1; eauto. apply cheaper_sided.
  - eapply IHe2; eauto. now right.
Qed.

Lemma assigned_operators e : forall p a o, In o (map fst (assigned p a e)) <-> In o (operators e).
Proof.
  induction e; intros p' a o'; cbn [assigned operators]; try reflexivity. cbn [map fst In]. rewrite in_app_iff. cbn [In].
  destruct a; rewrite map_app, in_app_iff, IHe1, IHe2; tauto.
Qed.

Lemma assigned_root p a l o r : In (o, mkFix (N.of_nat p) a) (assigned p a (Bin l o r)).
Proof. cbn. now left. Qed.

Lemma assigned_legal F e : forall p a, sided a -> (forall o f, In (o, f) (assigned p a e) -> F o = f) -> legal_expr F e.
Proof.
  induction e; intros p' a Sa H; cbn [legal_expr]; auto. cbn [assigned] in H.
  assert (Fo : F o = mkFix (N.of_nat p') a) by (apply H; now left).
  destruct Sa as [-> | ->].
  - assert (H1 : forall o f, In (o, f) (assigned p' ALeft e1) -> F o = f) by (intros; apply H; right; apply in_or_app; now left).
    assert (H2 : forall o f, In (o, f) (assigned (S p') (cheaper e2) e2) -> F o = f) by (intros; apply H; right; apply in_or_app; now right).
    split; [eapply IHe1; eauto; now left|]. split; [eapply IHe2; eauto; apply cheaper_sided|]. split.
    + intros a c b ->. right. unfold prec, is_infixl. rewrite Fo, (H1 _ _ (assigned_root _ _ _ _ _)). auto.
    + intros a c b ->. left. unfold prec. rewrite Fo, (H2 _ _ (assigned_root _ _ _ _ _)). cbn [fx_prec]. lia.
  - assert (H1 : forall o f, In (o, f) (assigned (S p') (cheaper e1) e1) -> F o = f) by (intros; apply H; right; apply in_or_app; now left).
    assert (H2 : forall o f, In (o, f) (assigned p' ARight e2) -> F o = f) by (intros; apply H; right; apply in_or_app; now right).
    split; [eapply IHe1; eauto; apply cheaper_sided|]. split; [eapply IHe2; eauto; now right|]. split.
    + intros a c b ->. left. unfold prec. rewrite Fo, (H1 _ _ (assigned_root _ _ _ _ _)). cbn [fx_prec]. lia.
    + intros a c b ->. right. unfold prec, is_infixr. rewrite Fo, (H2 _ _ (assigned_root _ _ _ _ _)). auto.
Qed.

Lemma assigned_perm e : forall p a, Permutation (map fst (assigned p a e)) (operators e).
Proof.
  induction e; intros p' a; cbn [assigned operators]; auto. cbn [map fst].
  apply Permutation_trans with (o :: operators e1 ++ operators e2); [|apply Permutation_middle]. apply perm_skip.
  destruct a; rewrite map_app; now apply Permutation_app.
Qed.

Lemma found (t : fixities) o f : NoDup (keys t) -> In (o, f) t -> get t o = f.
Proof.
  unfold get. induction t as [|(k&v) t IH]; intros D I; [destruct I|]. cbn [get_defined].
  inversion D as [|? ? N1 D1]; subst. destruct I as [I|I].
  - injection I as -> ->. now rewrite infix_eqb_refl.
  - destruct (infix_eqb_spec k o) as [Q|Q]; [|now apply IH]. exfalso. apply N1. cbn [fst]. rewrite Q.
    apply (in_map (fun x => symbol (fst x))) in I. exact I.
Qed.

(** ** C103 *)

(** A grouping of different operators is what resolution makes of the expression,
    for some table whose precedences for these operators are below [n], exactly
    when the levels it needs are at most [n]. *)
Theorem C103_obtainable : forall n e0 e, simple_operands e0 -> inorder e0 = inorder e ->
  NoDup (map symbol (operators e)) ->
  ((exists t, within n (get t) e /\ rewrite t e0 = Ok (inl e)) <-> levels e <= n).
Proof.
  intros n e0 e S1 I D. split.
  - intros (t&W&R). apply C03_success_iff_legal_grouping in R as (_&L); auto.
    destruct e as [x|i|a b|l o r|p a|a|a|es|es|d a]; try (cbn; lia).
    pose proof (needed (get t) n _ L W _ _ _ eq_refl) as K. pose proof (cost_levels (fx_assoc (get t o)) (Bin l o r)). lia.
  - intros H. exists (assigned 0 (cheaper e) e).
    assert (Nd : NoDup (keys (assigned 0 (cheaper e) e))).
    { unfold keys. rewrite <- (map_map fst symbol). eapply Permutation_NoDup; [|exact D]. apply Permutation_map, Permutation_sym, assigned_perm. }
    assert (C : 0 + cost (cheaper e) e <= n).
    { rewrite cheaper_cost. unfold levels in H. destruct (needs e). exact H. }
    split.
    + intros o Io. apply (assigned_operators e 0 (cheaper e)) in Io. apply in_map_iff in Io as ((o'&f)&E&Io). cbn [fst] in E. subst o'.
      rewrite (found _ _ _ Nd Io). eapply assigned_below; eauto. apply cheaper_sided.
    + apply C03_success_iff_legal_grouping; auto. split; auto. apply (assigned_legal (get (assigned 0 (cheaper e) e)) e 0 (cheaper e)); [apply cheaper_sided|].
      intros o f Io. now apply found.
Qed.
Print Assumptions C103_obtainable.

Lemma needs_sum e : let n := List.length (operators e) in
  (n = 0 -> needs e = (0, 0)) /\ (0 < n -> fst (needs e) + snd (needs e) <= n + 1).
Proof.
  induction e; cbn [needs operators List.length fst snd]; try (split; [reflexivity|lia]).
  rewrite app_length. cbn [List.length]. cbv zeta in *. destruct (needs e1) as (ll&lr), (needs e2) as (rl&rr). cbn [fst snd] in *.
  destruct IHe1 as (A1&A2), IHe2 as (B1&B2). split; [lia|]. intros _.
  assert (A : ll = 0 /\ lr = 0 /\ List.length (operators e1) = 0 \/ ll + lr <= List.length (operators e1) + 1 /\ 0 < List.length (operators e1)).
  { destruct (Nat.eq_dec (List.length (operators e1)) 0) as [Z|Z]; [left; injection (A1 Z) as -> ->; auto|right; lia]. }
  assert (B : rl = 0 /\ rr = 0 /\ List.length (operators e2) = 0 \/ rl + rr <= List.length (operators e2) + 1 /\ 0 < List.length (operators e2)).
  { destruct (Nat.eq_dec (List.length (operators e2)) 0) as [Z|Z]; [left; injection (B1 Z) as -> ->; auto|right; lia]. }
  clear A1 A2 B1 B2. lia.
Qed.

(** The ten levels that can be declared are enough for every grouping of up to
    twenty different operators. *)
Theorem C103_twenty : forall e0 e, simple_operands e0 -> inorder e0 = inorder e ->
  NoDup (map symbol (operators e)) -> List.length (operators e) <= 20 ->
  exists t, within 10 (get t) e /\ rewrite t e0 = Ok (inl e).
Proof.
  intros e0 e S1 I D H. apply (proj2 (C103_obtainable 10 e0 e S1 I D)). pose proof (needs_sum e) as (A&B).
  unfold levels. destruct (needs e) as (l&r). cbn [fst snd] in B. destruct (List.length (operators e)); [injection (A eq_refl) as -> ->; cbn; lia|].
  specialize (B ltac:(lia)). lia.
Qed.
Print Assumptions C103_twenty.

Local Open Scope string_scope.

Lemma ex_simple : simple_operands (Bin (xv "a") (std "+") (Bin (xv "b") (std "*") (Bin (xv "c") (std "-") (xv "d")))).
Proof. simple_ops. Qed.

(** a + ((b * c) - d) needs one level more than there are changes of side. *)
Example C103_ex :
  let e0 := Bin (xv "a") (std "+") (Bin (xv "b") (std "*") (Bin (xv "c") (std "-") (xv "d"))) in
  let e := Bin (xv "a") (std "+") (Bin (Bin (xv "b") (std "*") (xv "c")) (std "-") (xv "d")) in
  simple_operands e0 /\ inorder e0 = inorder e /\ NoDup (map symbol (operators e)) /\ levels e = 2 /\
  levels (Bin (Bin (xv "a") (std "+") (xv "b")) (std "*") (xv "c")) = 1.
Proof.
  split; [exact ex_simple|]. split; [reflexivity|]. split; [|split; reflexivity].
  repeat constructor; cbn; intuition discriminate.
Qed.

(** Twenty-one operators, grouped to the right and to the left in turn, need
    eleven levels. *)
Fixpoint zigzag (k : nat) (left : bool) : expr :=
  match k with
  | 0 => xv "x"
  | S k' =>
      let o := Standard (repeat 43%N k) in
      if left then Bin (zigzag k' false) o (xv "x") else Bin (xv "x") o (zigzag k' true)
  end.

Example C103_twenty_one : List.length (operators (zigzag 21 true)) = 21 /\ levels (zigzag 21 true) = 11 /\
  NoDup (map symbol (operators (zigzag 21 true))) /\
  List.length (operators (zigzag 20 true)) = 20 /\ levels (zigzag 20 true) = 10.
Proof.
  split; [reflexivity|]. split; [reflexivity|]. split; [|split; reflexivity].
  apply (NoDup_map_inv (@List.length chr)). 
  vm_compute. repeat constructor; cbn; intuition discriminate.
Qed.
