(** C114: in a text that is read, brackets match, and so do backslashes and
    arrows, [let] and [in]. *)
From Coq Require Import List Arith NArith Bool String Lia.
From Verif Require Import Prelim Chars Syntax Lexer SpecLexer ProofLexer Parser SpecParser SpecMatch
  ProofParser3 ProofParser7 ProofParser8 ProofParser9 PropsParser PropsLexer PropsRepl.
Import ListNotations.
Local Open Scope string_scope.
Local Open Scope list_scope.

Definition fits (p : bool) (st ts : list token) : Prop := matched st (single p ts).

Lemma single_brack p t ts : p = false \/ t <> TBrackR -> single p (TBrackL :: t :: ts) = TBrackL :: single p (t :: ts).
Proof. intros H. destruct t; try reflexivity. destruct H as [->|H]; [|congruence]. destruct ts as [|[] ts]; reflexivity. Qed.
Lemma fits_brack p t ts st : p = false \/ t <> TBrackR -> fits p st (TBrackL :: t :: ts) <-> fits p (TBrackR :: st) (t :: ts).
Proof. intros H. unfold fits. rewrite single_brack by exact H. reflexivity. Qed.
Lemma fits_plain p t ts st : closer t = None -> closes t = false -> fits p st (t :: ts) <-> fits p st ts.
Proof. intros H K. unfold fits. destruct t; try discriminate; reflexivity. Qed.
Lemma fits_operator p o i ts st : operator o i -> fits p st (o :: ts) <-> fits p st ts.
Proof. intros []; reflexivity. Qed.
Lemma fits_open p t c ts st : closer t = Some c -> t <> TBrackL -> t <> TLambda -> fits p st (t :: ts) <-> fits p (c :: st) ts.
Proof. intros H K J. unfold fits. destruct t; try discriminate; try congruence; injection H as <-; reflexivity. Qed.
Lemma fits_close p t ts st : closes t = true -> t <> TArrow -> fits p (t :: st) (t :: ts) <-> fits p st ts.
Proof. intros H K. unfold fits. destruct t; try discriminate; try congruence; cbn; intuition. Qed.
Lemma fits_lambda p ts st : fits p st (TLambda :: ts) <-> fits true (TArrow :: st) ts.
Proof. reflexivity. Qed.
Lemma fits_arrow p ts st : fits p (TArrow :: st) (TArrow :: ts) <-> fits false st ts.
Proof. unfold fits. cbn. intuition. Qed.
Lemma fits_empty ts st : fits true st (TBrackL :: TBrackR :: TBrackR :: ts) <-> fits true st ts.
Proof. unfold fits. cbn. intuition. Qed.

Lemma pats_start q ts ps r : pats q ts ps r -> match ts with [] => q = Juxt \/ exists k, q = Commas k | (t, _) :: _ => t <> TBrackR end.
Proof.
  induction 1; try discriminate; auto; try (destruct ts as [|[t0 k0] ts0]; cbn [app] in *; auto;
    try (match goal with H : _ \/ exists _, _ |- _ => destruct H as [H|[? H]]; discriminate H end)).
  eauto.
Qed.
Lemma mapp {A B} (f : A -> B) (xs ys : list A) r' : map f (xs ++ ys) ++ r' = map f xs ++ map f ys ++ r'.
Proof. now rewrite map_app, app_assoc. Qed.
Lemma mcons (t : token) (k : nat) (ys : list ptok) r' : map fst ((t, k) :: ys) ++ r' = t :: map fst ys ++ r'.
Proof. reflexivity. Qed.
Lemma mnil r' : map (@fst token nat) [] ++ r' = r'.
Proof. reflexivity. Qed.

Lemma fits_operators ts is r : operators ts is r -> forall st r', fits false st (map fst ts ++ r') <-> fits false st r'.
Proof.
  induction 1 as [t i k r O N|t i k k' ts is r O H IH]; intros st r'.
  - apply (fits_operator _ _ _ _ _ O).
  - rewrite !mcons, (fits_operator _ _ _ _ _ O). rewrite fits_plain by reflexivity. apply IH.
Qed.
Lemma fits_declares ts d r : declares ts d r -> forall st r', fits false st (map fst ts ++ r') <-> fits false st r'.
Proof.
  intros [t a k n k' us is r0 A L O|t a k us is r0 A N O] st r'; rewrite !mcons, fits_plain by (destruct A; reflexivity);
    rewrite ?fits_plain by reflexivity; apply (fits_operators _ _ _ O).
Qed.
Lemma fits_pats q ts ps r : pats q ts ps r -> forall st r', fits true st (map fst ts ++ r') <-> fits true st r'.
Proof.
  induction 1; intros st r'; unfold ptok in *; rewrite ?mapp, ?mcons, ?mnil; rewrite ?fits_empty; try reflexivity;
    try (rewrite ?fits_plain by reflexivity; rewrite ?mapp, ?IHpats, ?IHpats1, ?IHpats2; reflexivity).
  all: try (rewrite (fits_open _ _ TParenR) by (reflexivity || discriminate); rewrite ?mapp, ?IHpats, ?IHpats1, ?IHpats2;
    cbn [map app fst]; now rewrite fits_close by (reflexivity || discriminate)).
  apply pats_start in H0. destruct ts as [|[t0 k0] ts]; [destruct H0 as [?|[? ?]]; discriminate|].
  rewrite mapp. specialize (IHpats1 (TBrackR :: st) (map fst (us ++ [(TBrackR, k')]) ++ r')). cbn [map app fst] in *.
  rewrite fits_brack by auto. rewrite IHpats1, mapp, IHpats2. cbn [map app fst]. now rewrite fits_close by (reflexivity || discriminate).
Qed.
Lemma fits_commas (cs : list ptok) st r' : Forall (fun x => fst x = TComma) cs -> fits false st (map fst cs ++ r') <-> fits false st r'.
Proof. induction 1 as [|x cs E F IH]; [reflexivity|]. cbn [map app]. rewrite E. exact IH. Qed.
Lemma fits_exprs lay q ts es r : exprs lay q ts es r -> forall st r', fits false st (map fst ts ++ r') <-> fits false st r'.
Proof.
  induction 1 as [c ts e r A IA N|c ts x o i k t k' us e r A IA I B IB|c ts f us e r A IA B IB|c f r N
    |c f t k ts x us e r T L A IA B IB|x k r|s k r|s k r|k ts p ps k' us e r A B IB|k k' r|k s b k1 k' r
    |k cs k' r N F|k t k1 ts e k' r A IA|k t k1 ts e us es k' r A IA B IB N|k ts es k' r A IA|k ts d k' us e r A B IB
    |r N|k ts e us es r A IA B IB|k r|t k ts e k' us es r A IA B IB|t k ts e us es r A IA N B IB]; intros st r'.
  - apply IA.
  - rewrite mapp, IA, mcons, (fits_operator _ _ _ _ _ I). apply IB.
  - rewrite mapp, IA. apply IB.
  - reflexivity.
  - rewrite mapp, IA. apply IB.
  - reflexivity.
  - reflexivity.
  - reflexivity.
  - rewrite mcons, fits_lambda, mapp, (fits_pats _ _ _ _ A), mcons, fits_arrow. apply IB.
  - unfold fits. cbn. intuition.
  - unfold fits. cbn. intuition.
  - rewrite mcons, (fits_open _ _ TParenR), mapp, (fits_commas _ _ _ F), mcons by (reflexivity || discriminate).
    now rewrite fits_close by (reflexivity || discriminate).
  - rewrite mcons, (fits_open _ _ TParenR), mapp, IA, mcons by (reflexivity || discriminate). now rewrite fits_close by (reflexivity || discriminate).
  - rewrite mcons, (fits_open _ _ TParenR), mapp, IA, mapp, IB, mcons by (reflexivity || discriminate). now rewrite fits_close by (reflexivity || discriminate).
  - rewrite mcons, mapp, mcons.
    assert (E : forall z, z <> [] -> fits false st (TBrackL :: z) <-> fits false (TBrackR :: st) z)
      by (intros [|t z] Z; [congruence|apply fits_brack; auto]).
    rewrite E by (destruct ts; discriminate). rewrite IA. now rewrite fits_close by (reflexivity || discriminate).
  - rewrite mcons, (fits_open _ _ TIn), mapp, (fits_declares _ _ _ A), mcons by (reflexivity || discriminate).
    rewrite fits_close by (reflexivity || discriminate). apply IB.
  - reflexivity.
  - rewrite mcons, fits_plain by reflexivity. rewrite mapp, IA. apply IB.
  - reflexivity.
  - rewrite mapp, IA, mcons, fits_plain by reflexivity. apply IB.
  - rewrite mapp, IA. apply IB.
Qed.
Lemma fits_program lay ts ds : program lay ts ds -> fits false [] (map fst ts).
Proof.
  assert (D : forall ts d r r', decl_of lay ts d r -> fits false [] (map fst ts ++ r') <-> fits false [] r').
  { intros us d r r' [vs i r0 H|t k vs e r0 E]; [apply (fits_declares _ _ _ H)|apply (fits_exprs _ _ _ _ _ E)]. }
  induction 1 as [|ts d k us ds H P IH|ts d us ds H N P IH]; [reflexivity| |]; unfold ptok in *; rewrite map_app, (D _ _ _ _ H); auto.
Qed.

(** Counting. *)
Lemma times_matched k : forall ts st, k = 0 \/ k = 2 \/ k = 4 \/ k = 6 -> matched st ts ->
  times (is_t (S k)) ts = times (is_t k) ts + times (is_t (S k)) st.
Proof.
  induction ts as [|t ts IH]; intros st K M; [now rewrite M|]. cbn [matched] in M.
  destruct t; cbn [closer closes] in M;
    try (cbn [times]; rewrite (IH _ K M)); try (destruct st as [|c st]; [contradiction|]; destruct M as [-> M]; cbn [times]; rewrite (IH _ K M));
    destruct K as [->|[->|[->| ->]]]; cbn [times is_t]; lia.
Qed.
Lemma times_single f p : forall n ts, List.length ts <= n -> f TBrackR = false -> times f (single p ts) = times f ts.
Proof.
  intros n. revert p. induction n as [|n IH]; intros p ts L B; [destruct ts; [reflexivity|cbn in L; lia]|].
  destruct ts as [|t ts]; [reflexivity|]. cbn [List.length] in L.
  assert (G : forall q, times f (single q ts) = times f ts) by (intros q; apply IH; auto; lia).
  destruct t; try (cbn [single times]; rewrite G; reflexivity).
  destruct ts as [|u ts]; [reflexivity|]. destruct u; try (rewrite single_brack by (right; discriminate); cbn [times]; now rewrite G).
  destruct ts as [|u ts]; [reflexivity|]. destruct u; try (change (single p (TBrackL :: ?x)) with (TBrackL :: single p x); cbn [times]; now rewrite G).
  all: try (cbn [single times]; specialize (G p); cbn [single times] in G; congruence).
  assert (G2 : times f (single p ts) = times f ts) by (apply IH; auto; cbn in L; lia).
  destruct p; cbn [single times]; rewrite ?B, G2; lia.
Qed.
Lemma times_fewer f p : forall n ts, List.length ts <= n -> times f (single p ts) <= times f ts.
Proof.
  intros n. revert p. induction n as [|n IH]; intros p ts L; [destruct ts; [reflexivity|cbn in L; lia]|].
  destruct ts as [|t ts]; [reflexivity|]. cbn [List.length] in L.
  assert (G : forall q, times f (single q ts) <= times f ts) by (intros q; apply IH; lia).
  destruct t; try (cbn [single times]; apply Nat.add_le_mono_l, G).
  destruct ts as [|u ts]; [reflexivity|]. destruct u; try (rewrite single_brack by (right; discriminate); cbn [times] in *; apply Nat.add_le_mono_l, G).
  destruct ts as [|u ts]; [reflexivity|].
  destruct u; try (cbn [single times]; specialize (G p); cbn [single times] in G; lia).
  assert (G2 : times f (single p ts) <= times f ts) by (apply IH; cbn in L; lia).
  destruct p; cbn [single times]; lia.
Qed.
Lemma single_same : forall n ts, List.length ts <= n -> (forall a b, ts <> a ++ [TBrackL; TBrackR; TBrackR] ++ b) -> forall p, single p ts = ts.
Proof.
  induction n as [|n IH]; intros ts L H p; [destruct ts; [reflexivity|cbn in L; lia]|].
  destruct ts as [|t ts]; [reflexivity|]. cbn [List.length] in L.
  assert (G : forall q, single q ts = ts) by (intros q; apply IH; [lia|]; intros a b ->; now apply (H (t :: a) b)).
  destruct t; try (cbn [single]; rewrite G; reflexivity).
  destruct ts as [|u ts]; [reflexivity|]. destruct u; try (rewrite single_brack by (right; discriminate); now rewrite G).
  destruct ts as [|u ts]; [reflexivity|]. specialize (G p).
  destruct u; try (cbn [single] in *; congruence). exfalso. now apply (H [] ts).
Qed.

(** ** C114 *)

Section WithUcd.
Context {U : ucd}.
Hypothesis HU : letters U.

(** C114: if a text is read, its tokens match, but for the empty list among the
    parameters of a lambda, which is closed twice. *)
Theorem C114_matched : forall src a l, no_lfcr src -> parse src = POk a l ->
  exists ts, ctokens [] src ts /\ matched [] (single false (map fst ts)).
Proof.
  intros src a l N P. destruct (proj1 (C35_parse_is_grammar HU src a N)) as (ts&ds&T&Pr&->); [eauto|].
  exists ts. split; auto. exact (fits_program _ _ _ Pr).
Qed.

(** Everywhere but there, brackets match. *)
Theorem C114_brackets_partial : forall src ts a l, no_lfcr src -> ctokens [] src ts ->
  (forall x y, map fst ts <> x ++ [TBrackL; TBrackR; TBrackR] ++ y) -> parse src = POk a l -> matched [] (map fst ts).
Proof.
  intros src ts a l N T H P. destruct (C114_matched src a l N P) as (us&T'&M).
  apply (sees_source HU) in T; auto. apply (sees_source HU) in T'; auto. rewrite (sees_unique _ _ _ T' T) in M.
  now rewrite (single_same _ _ (le_n _) H) in M.
Qed.

(** As many opening as closing parentheses, backslashes as arrows, [let] as [in];
    at least as many closing as opening brackets. *)
Theorem C114_counts : forall src ts a l, no_lfcr src -> ctokens [] src ts -> parse src = POk a l ->
  times (is_t 0) (map fst ts) = times (is_t 1) (map fst ts) /\
  times (is_t 4) (map fst ts) = times (is_t 5) (map fst ts) /\
  times (is_t 6) (map fst ts) = times (is_t 7) (map fst ts) /\
  times (is_t 2) (map fst ts) <= times (is_t 3) (map fst ts).
Proof.
  intros src ts a l N T P. destruct (C114_matched src a l N P) as (us&T'&M).
  apply (sees_source HU) in T; auto. apply (sees_source HU) in T'; auto. rewrite (sees_unique _ _ _ T' T) in M.
  assert (G : forall k, k = 0 \/ k = 4 \/ k = 6 -> times (is_t k) (map fst ts) = times (is_t (S k)) (map fst ts)).
  { intros k K. assert (E := times_matched k _ _ ltac:(tauto) M). rewrite !(times_single _ _ _ _ (le_n _)) in E
      by (destruct K as [->|[->| ->]]; reflexivity). cbn [times] in E. lia. }
  split; [|split; [|split]]; [apply G; auto..|].
  assert (E := times_matched 2 _ _ ltac:(tauto) M). rewrite (times_single (is_t 2) _ _ _ (le_n _)) in E by reflexivity.
  pose proof (times_fewer (is_t 3) false _ (map fst ts) (le_n _)). cbn [times] in E. lia.
Qed.
End WithUcd.
Print Assumptions C114_matched.
Print Assumptions C114_brackets_partial.
Print Assumptions C114_counts.

(** ** Examples *)

Local Existing Instance ucd_none.

Ltac look_ := match goal with
  | |- sees _ [] => eexists; vm_compute; reflexivity
  | |- sees _ (_ :: _) => eexists; split; [vm_compute; reflexivity|split; [vm_compute; reflexivity|split; [reflexivity|]]]
  end.

(** The code: an empty list has to be closed twice to be read as a parameter, so
    not all brackets match. *)
Theorem C114_brackets_refuted : exists src ts a l, no_lfcr src /\ ctokens [] src ts /\ parse src = POk a l /\ ~ matched [] (map fst ts) /\
  times (is_t 2) (map fst ts) < times (is_t 3) (map fst ts).
Proof.
  exists (lit "\[]] -> a"), [(TLambda, 2); (TBrackL, 3); (TBrackR, 4); (TBrackR, 5); (TArrow, 8); (TLower (lit "a"), 10)].
  do 2 eexists. split; [apply clean_ok; vm_compute; reflexivity|]. split.
  - apply (sees_source letters_none); [apply clean_ok; vm_compute; reflexivity|repeat look_].
  - split; [vm_compute; reflexivity|]. split; [cbn; intuition discriminate|cbn; lia].
Qed.
Print Assumptions C114_brackets_refuted.
(** With matching brackets it is rejected. *)
Example C114_ex_rejected : match parse (lit "\[] -> a") with PErr _ _ => True | _ => False end.
Proof. vm_compute. exact I. Qed.

Definition match_ex : str := lit "f (let infix + in [\(x, [y]) -> x, []]) [[]; a".
Definition match_ex' : str := lit "f (let infix + in [\(x, [y]) -> x, [b]]) [[c]]; a".
(** A text with a bracket left open is rejected, whatever else is in it. *)
Example C114_ex_open : match parse match_ex with POk _ _ => False | _ => True end.
Proof. vm_compute. exact I. Qed.
Example C114_ex : exists ts, ctokens [] match_ex' ts /\ matched [] (single false (map fst ts)).
Proof.
  destruct (parse match_ex') as [a l| | |] eqn:P; try (vm_compute in P; discriminate P).
  apply (C114_matched letters_none match_ex' a l); auto. apply clean_ok; vm_compute; reflexivity.
Qed.
Example C114_ex_partial : exists src ts a l, no_lfcr src /\ ctokens [] src ts /\ parse src = POk a l /\ 
  (forall x y, map fst ts <> x ++ [TBrackL; TBrackR; TBrackR] ++ y) /\ times (is_t 2) (map fst ts) = 1.
Proof.
  exists (lit "\[x] -> (x)"),
    [(TLambda, 2); (TBrackL, 3); (TLower (lit "x"), 4); (TBrackR, 5); (TArrow, 8); (TParenL, 10); (TLower (lit "x"), 11); (TParenR, 12)].
  do 2 eexists. split; [apply clean_ok; vm_compute; reflexivity|]. split.
  - apply (sees_source letters_none); [apply clean_ok; vm_compute; reflexivity|repeat look_].
  - split; [vm_compute; reflexivity|]. split; [|reflexivity]. intros x y E. cbn [map fst] in E.
    repeat (destruct x as [|? x]; cbn [app] in E; [discriminate E|]; try discriminate E; injection E as _ E).
Qed.
