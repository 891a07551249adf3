(** Left and right are treated alike (C99). *)
From Coq Require Import String List Arith NArith Bool Lia.
From Verif Require Import Prelim Syntax Fixity SpecFixity SpecMirror ProofTable ProofRewrite ProofResolve
  ProofResolve2 ProofFixity.
Import ListNotations.

Lemma turned_twice f : turned (turned f) = f.
Proof. destruct f as [p []]; reflexivity. Qed.
Lemma turned_decl_twice d : turned_decl (turned_decl d) = d.
Proof. destruct d as [os f]. unfold turned_decl. cbn [d_infixes d_fixity]. now rewrite turned_twice. Qed.

Lemma mirror_twice : forall n e, esize e <= n -> mirror (mirror e) = e.
Proof.
  assert (L : forall n es, (forall e, esize e <= n -> mirror (mirror e) = e) -> list_sum (map esize es) <= n ->
    map mirror (map mirror es) = es).
  { intros n es IH. induction es as [|x es IHes]; intros S; [reflexivity|].
    change (list_sum (map esize (x :: es))) with (esize x + list_sum (map esize es)) in S.
    cbn [map]. rewrite IH by lia. rewrite IHes by lia. reflexivity. }
  induction n as [|n IH]; intros e S; [pose proof (esize_pos e); lia|].
  destruct e as [l|i|a b|a o b|p a|a|a|es|es|d a]; cbn [esize mirror] in *; auto;
    try (rewrite !IH by lia; reflexivity).
  - rewrite (L n) by (auto; lia). reflexivity.
  - rewrite (L n) by (auto; lia). reflexivity.
  - rewrite turned_decl_twice, IH by lia. reflexivity.
Qed.
Lemma mirror_mirror e : mirror (mirror e) = e.
Proof. exact (mirror_twice _ e (le_n _)). Qed.

(** ** Readings *)

Inductive alternates : list item -> Prop :=
| alt_one e : alternates [Operand e]
| alt_more e o its : alternates its -> alternates (Operand e :: Operator o :: its).

Lemma alternates_app xs o ys : alternates xs -> alternates ys -> alternates (xs ++ Operator o :: ys).
Proof. induction 1; intros A; cbn [app]; constructor; auto. Qed.
Lemma alternates_words : forall e, alternates (words e).
Proof.
  induction e as [l|i|a A b B|a A o b B|p a A|a A|a A|es|es|d a A]; cbn [words]; try constructor.
  apply alternates_app; auto.
Qed.

Lemma chain_build its : alternates its -> (forall x, In (Operand x) its -> not_bin x) -> chain (build its) = its.
Proof.
  induction 1 as [e|e o its A IH]; intros N; cbn [build].
  - apply chain_not_bin. apply N. left; auto.
  - destruct A as [x|x p its A].
    + cbn [chain]. now rewrite IH by (intros; apply N; right; right; auto).
    + cbn [build] in *. cbn [chain] in *. now rewrite IH by (intros; apply N; right; right; auto).
Qed.

Lemma words_single e : not_bin e -> words e = [Operand (build (words e))].
Proof. destruct e; intros N; cbn [words build]; auto. now elim (N e1 o e2). Qed.
Lemma mirror_not_bin e : not_bin e -> not_bin (mirror e).
Proof. destruct e; intros N; intros ? ? ? E; try discriminate E. now elim (N e1 o e2). Qed.
Lemma words_not_bin e : forall x, In (Operand x) (words e) -> not_bin x.
Proof.
  induction e as [l|i|a A b B|a A o b B|p a A|a A|a A|es|es|d a A]; cbn [words]; intros x H;
    try (destruct H as [H|[]]; injection H as <-; intros ? ? ?; discriminate).
  apply in_app_or in H as [H|[H|H]]; auto. discriminate.
Qed.
Lemma chain_backwards_eq e : chain (backwards e) = words (mirror e).
Proof. apply chain_build; [apply alternates_words|apply words_not_bin]. Qed.

Definition back_item (i : item) : item :=
  match i with Operand x => Operand (backwards x) | Operator o => Operator o end.

Lemma words_mirror_chain e : (forall x, In (Operand x) (chain e) -> not_bin x) ->
  words (mirror e) = rev (map back_item (chain e)).
Proof.
  assert (One : forall x, not_bin x -> words (mirror x) = [Operand (backwards x)]).
  { intros x N. apply words_single. now apply mirror_not_bin. }
  induction e as [l|i|a A b B|a A o b B|p a A|a A|a A|es|es|d a A]; intros N;
    try (apply One; apply N; left; reflexivity).
  cbn [mirror words chain map rev back_item]. rewrite B by (intros; apply N; right; right; auto).
  rewrite One by (apply N; left; reflexivity). now rewrite <- app_assoc.
Qed.
Lemma chain_backwards e : flat e -> chain (backwards e) = rev (map back_item (chain e)).
Proof. intros Fl. rewrite chain_backwards_eq. apply words_mirror_chain. intros x H. now apply (flat_chain e Fl x). Qed.

(** ** Groupings *)

Fixpoint mirror_tree (g : gtree) : gtree :=
  match g with Leaf e => Leaf (mirror e) | Node l o r => Node (mirror_tree r) o (mirror_tree l) end.
Definition mirror_item (i : item) : item :=
  match i with Operand x => Operand (mirror x) | Operator o => Operator o end.

Lemma as_expr_mirror g : as_expr (mirror_tree g) = mirror (as_expr g).
Proof. induction g as [e|l IHl o r IHr]; cbn; congruence. Qed.
Lemma yield_mirror g : yield (mirror_tree g) = rev (map mirror_item (yield g)).
Proof.
  induction g as [e|l IHl o r IHr]; cbn [mirror_tree yield]; auto.
  rewrite map_app, rev_app_distr, IHl, IHr. cbn [map rev mirror_item]. now rewrite <- app_assoc.
Qed.
Lemma root_mirror g : root (mirror_tree g) = root g.
Proof. destruct g; reflexivity. Qed.
Lemma root_in g c : root g = Some c -> In (Operator c) (yield g).
Proof. destruct g as [e|l o r]; cbn; intros E; inversion E; subst. apply in_or_app. right; left; auto. Qed.

Lemma left_turned F G c p : G c = turned (F c) -> G p = turned (F p) -> left_ok F c p -> right_ok G p c.
Proof.
  unfold left_ok, right_ok, prec, is_infixl, is_infixr. intros -> ->. cbn [turned fx_prec fx_assoc].
  intros [L|(E&A&B)]; [now left|]. right. rewrite A, B. auto.
Qed.
Lemma right_turned F G c p : G c = turned (F c) -> G p = turned (F p) -> right_ok F p c -> left_ok G c p.
Proof.
  unfold left_ok, right_ok, prec, is_infixl, is_infixr. intros -> ->. cbn [turned fx_prec fx_assoc].
  intros [L|(E&A&B)]; [now left|]. right. rewrite A, B. auto.
Qed.
Lemma legal_mirror F G g : (forall o, In (Operator o) (yield g) -> G o = turned (F o)) ->
  legal F g -> legal G (mirror_tree g).
Proof.
  induction g as [e|l IHl o r IHr]; cbn [mirror_tree legal yield]; auto. intros H (L1&L2&L3&L4).
  assert (Ho : G o = turned (F o)) by (apply H; apply in_or_app; right; left; auto).
  repeat apply conj.
  - apply IHr; auto. intros; apply H; apply in_or_app; right; right; auto.
  - apply IHl; auto. intros; apply H; apply in_or_app; auto.
  - intros c C. rewrite root_mirror in C. apply right_turned with F; auto.
    apply H. apply in_or_app. right; right. now apply root_in.
  - intros c C. rewrite root_mirror in C. apply left_turned with F; auto.
    apply H. apply in_or_app. left. now apply root_in.
Qed.

Lemma Forall2_rev {A B} (R : A -> B -> Prop) xs ys : Forall2 R xs ys -> Forall2 R (rev xs) (rev ys).
Proof. induction 1; cbn [rev]; [constructor|]. apply Forall2_app; auto. Qed.

Lemma resolves_bin F e g : legal F g -> 1 < List.length (chain e) ->
  Forall2 (item_rel (resolves F)) (chain e) (yield g) -> resolves F e (as_expr g).
Proof. intros L N H. destruct e; cbn [chain List.length] in N; try lia. now constructor. Qed.

Lemma backwards_list F G es es' :
  Forall2 (fun x y => resolves F x y /\ (forall G0, flat x ->
     (forall o, In o (ops_in x) -> G0 o = turned (F o)) -> resolves G0 (backwards x) (mirror y))) es es' ->
  Forall flat es -> (forall o, In o (flat_map ops_in es) -> G o = turned (F o)) ->
  Forall2 (resolves G) (map (fun x => build (words x)) (map mirror es)) (map mirror es').
Proof.
  induction 1 as [|x y xs ys [_ K] _ IH]; intros Fl H; cbn [map]; constructor; inversion Fl; subst.
  - apply K; auto. intros o Ho. apply H. cbn [flat_map]. apply in_or_app; auto.
  - apply IH; auto. intros o Ho. apply H. cbn [flat_map]. apply in_or_app; auto.
Qed.

Lemma resolves_mirror F e e' : resolves F e e' -> forall G, flat e ->
  (forall o, In o (ops_in e) -> G o = turned (F o)) -> resolves G (backwards e) (mirror e').
Proof.
  intros H.
  induction H as [F l|F i|F a b a' b' H1 IH1 H2 IH2|F a o b g L H|F p a a' H IH|F a a' H IH|F a a' H IH
                 |F es es' H|F es es' H|F d a a' H IH] using resolves_ind';
    intros G Fl HG; unfold backwards; cbn [mirror words build]; try (constructor; fail).
  - inversion Fl; subst. cbn [ops_in] in HG. constructor; [apply IH1|apply IH2]; auto;
      intros; apply HG; apply in_or_app; auto.
  - change (build (words (mirror b) ++ Operator o :: words (mirror a))) with (backwards (Bin a o b)).
    rewrite <- as_expr_mirror. pose proof (chain_backwards (Bin a o b) Fl) as C. apply resolves_bin.
    + apply legal_mirror with F; auto. intros c Hc. apply HG. apply ops_chain. rewrite item_rel_ops; eauto.
    + rewrite C, rev_length, map_length. cbn [chain List.length]. lia.
    + rewrite C, yield_mirror. apply Forall2_rev.
      assert (K : forall x, In (Operand x) (chain (Bin a o b)) -> flat x /\ incl (ops_in x) (ops_in (Bin a o b))).
      { intros x Hx. split; [now apply (flat_chain _ Fl x)|now apply ops_operand]. }
      revert K. clear - H HG. induction H as [|x y xs ys Hxy _ IH]; intros K; cbn [map]; constructor.
      * destruct Hxy as [x y [_ Hxy]|c]; cbn [back_item mirror_item]; constructor.
        destruct (K x (or_introl eq_refl)) as [Fx Ix]. apply Hxy; auto.
      * apply IH. intros; apply K; right; auto.
  - inversion Fl; subst. constructor. apply IH; auto.
  - inversion Fl; subst. constructor. apply IH; auto.
  - inversion Fl; subst. constructor. apply IH; auto.
  - inversion Fl; subst. constructor. apply (backwards_list F); auto.
  - inversion Fl; subst. constructor. apply (backwards_list F); auto.
  - inversion Fl; subst. constructor. apply IH; auto. intros o Ho. specialize (HG o Ho). unfold scoped.
    change (in_decl (turned_decl d) o) with (in_decl d o). destruct (in_decl d o); auto.
Qed.

(** ** Back again *)

Definition back_words (i : item) : list item :=
  match i with Operand x => words (mirror x) | Operator o => [Operator o] end.
Lemma words_mirror_build its : alternates its -> words (mirror (build its)) = flat_map back_words (rev its).
Proof.
  induction 1 as [e|e o its A IH]; [cbn; now rewrite app_nil_r|].
  assert (E : build (Operand e :: Operator o :: its) = Bin e o (build its)) by reflexivity.
  rewrite E. cbn [mirror words]. rewrite IH. cbn [rev]. rewrite !flat_map_app. cbn. rewrite app_nil_r.
  now rewrite <- app_assoc.
Qed.

Lemma again : forall n e, esize e <= n -> words (mirror (build (words e))) = words (mirror e).
Proof.
  assert (L : forall n es, (forall e, esize e <= n -> words (mirror (build (words e))) = words (mirror e)) ->
    list_sum (map esize es) <= n ->
    map (fun x => build (words x)) (map mirror (map (fun x => build (words x)) es))
    = map (fun x => build (words x)) (map mirror es)).
  { intros n es IH. induction es as [|x es IHes]; intros S; [reflexivity|].
    change (list_sum (map esize (x :: es))) with (esize x + list_sum (map esize es)) in S.
    cbn [map]. rewrite IH by lia. rewrite IHes by lia. reflexivity. }
  induction n as [|n IH]; intros e S; [pose proof (esize_pos e); lia|].
  destruct e as [l|i|a b|a o b|p a|a|a|es|es|d a]; cbn [esize] in S;
    try (cbn [mirror words build]; rewrite !IH by lia; reflexivity); try reflexivity.
  - rewrite words_mirror_build by apply alternates_words. cbn [words mirror].
    rewrite rev_app_distr. cbn [rev]. rewrite !flat_map_app.
    rewrite <- !words_mirror_build by apply alternates_words. rewrite !IH by lia.
    cbn. now rewrite <- app_assoc.
  - cbn [mirror words build]. now rewrite (L n) by (auto; lia).
  - cbn [mirror words build]. now rewrite (L n) by (auto; lia).
Qed.

Lemma build_words_flat : forall e, flat e -> build (words e) = e.
Proof.
  intros e. remember (esize e) as n eqn:Sz. assert (Le : esize e <= n) by lia. clear Sz. revert e Le.
  induction n as [|n IH]; intros e S Fl; [pose proof (esize_pos e); lia|].
  assert (L : forall es, list_sum (map esize es) <= n -> Forall flat es -> map (fun x => build (words x)) es = es).
  { induction es as [|x es IHes]; intros Ss Fs; [reflexivity|].
    change (list_sum (map esize (x :: es))) with (esize x + list_sum (map esize es)) in Ss.
    inversion Fs; subst. cbn [map]. rewrite IH by (auto; lia). rewrite IHes by (auto; lia). reflexivity. }
  destruct Fl as [l|i|a b A B|a o b N A B|p a A|a A|a A|es A|es A|d a A]; cbn [esize] in S; cbn [words build]; auto;
    try (rewrite !IH by (auto; lia); reflexivity); try (rewrite L by (auto; lia); reflexivity).
  rewrite words_single by auto. cbn [app build]. rewrite !IH by (auto; lia). reflexivity.
Qed.

Lemma backwards_twice e : flat e -> backwards (backwards e) = e.
Proof.
  intros Fl. unfold backwards. rewrite (again _ _ (le_n _)), mirror_mirror. now apply build_words_flat.
Qed.

(** ** Shapes *)

Lemma build_parts (P : expr -> Prop) :
  (forall a o b, not_bin a -> P a -> P b -> P (Bin a o b)) ->
  forall its, alternates its -> (forall x, In (Operand x) its -> not_bin x /\ P x) -> P (build its).
Proof.
  intros HB its. induction 1 as [e|e o its A IH]; intros H.
  - apply H. left; auto.
  - change (P (Bin e o (build its))). destruct (H e (or_introl eq_refl)). apply HB; auto.
    apply IH. intros; apply H; right; right; auto.
Qed.

Lemma flat_words : forall n e, esize e <= n -> forall x, In (Operand x) (words e) -> not_bin x /\ flat x.
Proof.
  induction n as [|n IH]; intros e S x H; [pose proof (esize_pos e); lia|].
  split; [now apply words_not_bin with e|].
  assert (B : forall a, esize a <= n -> flat (build (words a))).
  { intros a Sa. apply (build_parts flat); [intros; now constructor|apply alternates_words|].
    intros y Hy. now apply (IH a). }
  assert (Bs : forall es, list_sum (map esize es) <= n -> Forall flat (map (fun x => build (words x)) es)).
  { induction es as [|y es IHes]; intros Ss; cbn [map]; constructor;
      change (list_sum (map esize (y :: es))) with (esize y + list_sum (map esize es)) in Ss.
    - apply B. lia.
    - apply IHes. lia. }
  destruct e as [l|i|a b|a o b|p a|a|a|es|es|d a]; cbn [esize] in S; cbn [words] in H;
    try (destruct H as [H|[]]; injection H as <-; constructor; auto; first [apply B; lia|apply Bs; lia]).
  apply in_app_or in H as [H|[H|H]]; [apply (IH a); auto; lia|discriminate|apply (IH b); auto; lia].
Qed.
Lemma flat_backwards e : flat (backwards e).
Proof.
  apply (build_parts flat); [intros; now constructor|apply alternates_words|].
  intros x H. exact (flat_words _ _ (le_n _) x H).
Qed.

Lemma nodup_words : forall n e, esize e <= n -> nodup_lets e -> forall x, In (Operand x) (words e) -> not_bin x /\ nodup_lets x.
Proof.
  induction n as [|n IH]; intros e S N x H; [pose proof (esize_pos e); lia|].
  split; [now apply words_not_bin with e|].
  assert (B : forall a, esize a <= n -> nodup_lets a -> nodup_lets (build (words a))).
  { intros a Sa Na. apply (build_parts nodup_lets); [intros; now constructor|apply alternates_words|].
    intros y Hy. now apply (IH a). }
  assert (Bs : forall es, list_sum (map esize es) <= n -> Forall nodup_lets es ->
    Forall nodup_lets (map (fun x => build (words x)) es)).
  { induction es as [|y es IHes]; intros Ss Ns; cbn [map]; constructor; inversion Ns; subst;
      change (list_sum (map esize (y :: es))) with (esize y + list_sum (map esize es)) in Ss.
    - apply B; auto. lia.
    - apply IHes; auto. lia. }
  destruct N as [l|i|a b Na Nb|a o b Na Nb|p a Na|a Na|a Na|es Ns|es Ns|d a Nd Na]; cbn [esize] in S; cbn [words] in H;
    try (destruct H as [H|[]]; injection H as <-; constructor; auto; first [apply B; auto; lia|apply Bs; auto; lia]).
  apply in_app_or in H as [H|[H|H]]; [apply (IH a); auto; lia|discriminate|apply (IH b); auto; lia].
Qed.
Lemma nodup_mirror : forall n e, esize e <= n -> nodup_lets e -> nodup_lets (mirror e).
Proof.
  induction n as [|n IH]; intros e S N; [pose proof (esize_pos e); lia|].
  assert (Bs : forall es, list_sum (map esize es) <= n -> Forall nodup_lets es -> Forall nodup_lets (map mirror es)).
  { induction es as [|y es IHes]; intros Ss Ns; cbn [map]; constructor; inversion Ns; subst;
      change (list_sum (map esize (y :: es))) with (esize y + list_sum (map esize es)) in Ss.
    - apply IH; auto. lia.
    - apply IHes; auto. lia. }
  destruct N as [l|i|a b Na Nb|a o b Na Nb|p a Na|a Na|a Na|es Ns|es Ns|d a Nd Na]; cbn [esize] in S; cbn [mirror];
    constructor; auto; first [apply IH; auto; lia|apply Bs; auto; lia].
Qed.
Lemma nodup_backwards e : nodup_lets e -> nodup_lets (backwards e).
Proof.
  intros N. apply (build_parts nodup_lets); [intros; now constructor|apply alternates_words|].
  intros x H. exact (nodup_words _ _ (le_n _) (nodup_mirror _ _ (le_n _) N) x H).
Qed.

Lemma ops_build its : alternates its ->
  ops_in (build its) = flat_map (fun i => match i with Operand x => ops_in x | Operator o => [o] end) its.
Proof.
  induction 1 as [e|e o its A IH]; [cbn; now rewrite app_nil_r|].
  change (build (Operand e :: Operator o :: its)) with (Bin e o (build its)). cbn. now rewrite IH.
Qed.
Lemma ops_words : forall n e, esize e <= n -> ops_in (build (words e)) = ops_in e.
Proof.
  induction n as [|n IH]; intros e S; [pose proof (esize_pos e); lia|].
  assert (Bs : forall es, list_sum (map esize es) <= n -> flat_map ops_in (map (fun x => build (words x)) es) = flat_map ops_in es).
  { induction es as [|y es IHes]; intros Ss; cbn [map flat_map]; auto;
      change (list_sum (map esize (y :: es))) with (esize y + list_sum (map esize es)) in Ss.
    rewrite IH, IHes by lia. reflexivity. }
  destruct e as [l|i|a b|a o b|p a|a|a|es|es|d a]; cbn [esize] in S;
    try (cbn [words build ops_in]; rewrite ?IH by lia; reflexivity); try (cbn [words build ops_in]; apply Bs; lia).
  rewrite ops_build by apply alternates_words. cbn [words]. rewrite flat_map_app. cbn [flat_map].
  rewrite <- !ops_build by apply alternates_words. rewrite !IH by lia. reflexivity.
Qed.
Lemma ops_mirror : forall n e, esize e <= n -> forall o, In o (ops_in (mirror e)) -> In o (ops_in e).
Proof.
  induction n as [|n IH]; intros e S o H; [pose proof (esize_pos e); lia|].
  assert (Bs : forall es, list_sum (map esize es) <= n -> In o (flat_map ops_in (map mirror es)) -> In o (flat_map ops_in es)).
  { induction es as [|y es IHes]; intros Ss; cbn [map flat_map]; auto;
      change (list_sum (map esize (y :: es))) with (esize y + list_sum (map esize es)) in Ss.
    intros K. apply in_or_app. apply in_app_or in K as [K|K]; [left; apply IH; auto; lia|right; apply IHes; auto; lia]. }
  destruct e as [l|i|a b|a c b|p a|a|a|es|es|d a]; cbn [esize] in S; cbn [mirror ops_in] in *; auto;
    try (apply IH; auto; lia); try (apply Bs; auto; lia).
  - apply in_or_app. apply in_app_or in H as [H|H]; [left|right]; apply IH; auto; lia.
  - apply in_or_app. apply in_app_or in H as [H|[H|H]]; [right; right|right; left|left]; auto; apply IH; auto; lia.
Qed.
Lemma ops_backwards e o : In o (ops_in (backwards e)) -> In o (ops_in e).
Proof. unfold backwards. rewrite (ops_words _ _ (le_n _)). exact (ops_mirror _ _ (le_n _) o). Qed.

(** ** C99 *)

(** C99: an expression as the parser delivers it is grouped as [e'] exactly if,
    written from right to left and with the fixities turned, it is grouped as the
    mirror image of [e']. *)
Theorem C99_groupings : forall F G e e', flat e -> (forall o, In o (ops_in e) -> G o = turned (F o)) ->
  (resolves F e e' <-> resolves G (backwards e) (mirror e')).
Proof.
  intros F G e e' Fl H. split; intros R.
  - exact (resolves_mirror F e e' R G Fl H).
  - rewrite <- (backwards_twice e Fl), <- (mirror_mirror e').
    apply (resolves_mirror G _ _ R F (flat_backwards e)). intros o Ho.
    rewrite H by now apply ops_backwards. now rewrite turned_twice.
Qed.

Definition listed (ds : list infix_decl) (o : infix) : bool := existsb (fun d => in_decl d o) ds.

Lemma declared_turned F G ds o : (listed ds o = true \/ G o = turned (F o)) ->
  declared G (map turned_decl ds) o = turned (declared F ds o).
Proof.
  assert (X : forall ds, existsb (fun d => in_decl d o) (map turned_decl ds) = existsb (fun d => in_decl d o) ds).
  { induction ds0 as [|d ds0 IH]; cbn [map existsb]; auto. rewrite IH. reflexivity. }
  induction ds as [|d ds IH]; cbn [listed existsb map declared]; intros H.
  - destruct H as [H|H]; [discriminate|exact H].
  - rewrite X. fold (listed ds o) in *. destruct (listed ds o) eqn:E.
    + apply IH. now left.
    + change (in_decl (turned_decl d) o) with (in_decl d o). destruct (in_decl d o); auto.
      destruct H as [H|H]; auto. discriminate H.
Qed.

Lemma Forall2_map_iff {A B C D} (R : A -> B -> Prop) (S : C -> D -> Prop) (f : A -> C) (g : B -> D) : forall xs ys,
  (forall x y, In x xs -> (R x y <-> S (f x) (g y))) -> (Forall2 R xs ys <-> Forall2 S (map f xs) (map g ys)).
Proof.
  induction xs as [|x xs IH]; intros ys H; destruct ys as [|y ys]; cbn [map]; split; intros K; inversion K; subst; constructor;
    try (apply H; auto; now left); apply IH; auto; intros; apply H; now right.
Qed.

(** C99: the same of whole programs.  Every operator that occurs in an expression
    is either declared in the program or has its fixity turned in the table. *)
Theorem C99_programs : forall r r' a, r_errs r = [] -> r_errs r' = [] ->
  Forall flat (a_exprs a) -> Forall nodup_lets (a_exprs a) ->
  (forall o, In o (flat_map ops_in (a_exprs a)) ->
     listed (a_infxs a) o = true \/ get (r_fix r') o = turned (get (r_fix r) o)) ->
  forall es,
    (exists r1, resolve_ast r a = Ok (r1, mkAst (a_kinds a) (a_infxs a) es, []))
    <-> (exists r1, resolve_ast r' (backwards_ast a)
          = Ok (r1, mkAst (a_kinds a) (map turned_decl (a_infxs a)) (map mirror es), [])).
Proof.
  intros r r' a E1 E2 Fl N H es.
  assert (Fb : Forall flat (a_exprs (backwards_ast a))).
  { apply Forall_forall. intros x Hx. apply in_map_iff in Hx as (y&<-&_). apply flat_backwards. }
  assert (Nb : Forall nodup_lets (a_exprs (backwards_ast a))).
  { apply Forall_forall. intros x Hx. apply in_map_iff in Hx as (y&<-&Hy). apply nodup_backwards.
    now apply (proj1 (Forall_forall _ _) N). }
  assert (Acc : forall r a es, r_errs r = [] -> Forall flat (a_exprs a) -> Forall nodup_lets (a_exprs a) ->
    ((exists r1, resolve_ast r a = Ok (r1, mkAst (a_kinds a) (a_infxs a) es, []))
     <-> Forall2 (resolves (declared (get (r_fix r)) (a_infxs a))) (a_exprs a) es)).
  { clear. intros r a es E Fl N. split.
    - intros (r1&R). destruct (resolve_ast_spec r a E Fl N) as (r2&a2&errs&R2&_&_&_&_&C&_).
      rewrite R in R2. injection R2 as <- <- <-. exact (C eq_refl).
    - intros F2. eexists. exact (resolve_ast_complete r a es E Fl N F2). }
  rewrite (Acc r a es E1 Fl N). rewrite (Acc r' (backwards_ast a) (map mirror es) E2 Fb Nb).
  cbn [backwards_ast a_infxs a_exprs]. apply Forall2_map_iff. intros x y Hx. apply C99_groupings.
  - now apply (proj1 (Forall_forall _ _) Fl).
  - intros o Ho. apply declared_turned. apply H. apply in_flat_map. eauto.
Qed.

(** C99: and one is rejected exactly if the other is. *)
Corollary C99_rejected : forall r r' a, r_errs r = [] -> r_errs r' = [] ->
  Forall flat (a_exprs a) -> Forall nodup_lets (a_exprs a) ->
  (forall o, In o (flat_map ops_in (a_exprs a)) ->
     listed (a_infxs a) o = true \/ get (r_fix r') o = turned (get (r_fix r) o)) ->
  forall r1 a1 errs1 r2 a2 errs2,
  resolve_ast r a = Ok (r1, a1, errs1) -> resolve_ast r' (backwards_ast a) = Ok (r2, a2, errs2) ->
  (errs1 = [] <-> errs2 = []).
Proof.
  intros r r' a E1 E2 Fl N H r1 a1 errs1 r2 a2 errs2 R1 R2.
  assert (Fb : Forall flat (a_exprs (backwards_ast a))).
  { apply Forall_forall. intros x Hx. apply in_map_iff in Hx as (y&<-&_). apply flat_backwards. }
  assert (Nb : Forall nodup_lets (a_exprs (backwards_ast a))).
  { apply Forall_forall. intros x Hx. apply in_map_iff in Hx as (y&<-&Hy). apply nodup_backwards.
    now apply (proj1 (Forall_forall _ _) N). }
  assert (MM : forall es, map mirror (map mirror es) = es).
  { induction es as [|e es IH]; cbn [map]; auto. now rewrite mirror_mirror, IH. }
  destruct (resolve_ast_spec r a E1 Fl N) as (r3&a3&errs3&R3&K3&I3&_).
  rewrite R1 in R3. injection R3 as <- <- <-.
  destruct (resolve_ast_spec r' (backwards_ast a) E2 Fb Nb) as (r4&a4&errs4&R4&K4&I4&_).
  rewrite R2 in R4. injection R4 as <- <- <-.
  destruct a1 as [k1 i1 es1], a2 as [k2 i2 es2]. cbn [a_kinds a_infxs backwards_ast] in *. subst k1 i1 k2 i2.
  split; intros ->.
  - destruct (proj1 (C99_programs r r' a E1 E2 Fl N H es1) (ex_intro _ _ R1)) as (r5&R5). congruence.
  - rewrite <- (MM es2) in R2.
    destruct (proj2 (C99_programs r r' a E1 E2 Fl N H (map mirror es2)) (ex_intro _ _ R2)) as (r5&R5). congruence.
Qed.

(** a - b * c - d with infixl 6 -, infixl 7 *: written backwards, with infixr 6 -
    and infixr 7 *, d - c * b - a. *)
Local Open Scope string_scope.
Example C99_ex :
  let v (n : string) := Var (ILower (lit n)) in
  let op (n : string) := Standard (lit n) in
  let t := [(op "-", mkFix 6 ALeft); (op "*", mkFix 7 ALeft)] in
  let t' := [(op "-", mkFix 6 ARight); (op "*", mkFix 7 ARight)] in
  let e := Bin (v "a") (op "-") (Bin (v "b") (op "*") (Bin (v "c") (op "-") (v "d"))) in
  flat e /\ (forall o, In o (ops_in e) -> get t' o = turned (get t o))
  /\ backwards e = Bin (v "d") (op "-") (Bin (v "c") (op "*") (Bin (v "b") (op "-") (v "a")))
  /\ rewrite t e = Ok (inl (Bin (Bin (v "a") (op "-") (Bin (v "b") (op "*") (v "c"))) (op "-") (v "d")))
  /\ rewrite t' (backwards e) = Ok (inl (Bin (v "d") (op "-") (Bin (Bin (v "c") (op "*") (v "b")) (op "-") (v "a")))).
Proof.
  cbv zeta. split; [repeat (constructor; try (intros ? ? ?; discriminate))|].
  split; [intros o H; cbn in H; intuition (subst; reflexivity)|]. vm_compute. auto.
Qed.

Print Assumptions C99_groupings.
Print Assumptions C99_programs.
Print Assumptions C99_rejected.
