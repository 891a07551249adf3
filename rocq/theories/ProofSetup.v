(** Lemmas about Setup.v. *)
From Coq Require Import List Arith NArith Bool String Lia.
From Verif Require ProofLexer2.
From Verif Require Import Prelim Chars Syntax Repl Setup SpecSetup ProofTable ProofRepl SpecRepl.
Import ListNotations.
Local Open Scope string_scope.
Local Open Scope list_scope.

Lemma under_iff p n q : under p n q <-> q = join_path p n.
Proof.
  unfold join_path. split.
  - intros H. destruct H as [n|p n|p c n N].
    + reflexivity.
    + replace (ends_with [47%N] (p ++ [47%N])) with true.
      * rewrite orb_true_r, <- app_assoc. reflexivity.
      * symmetry. apply ends_iff. exists p. reflexivity.
    + replace (ends_with [47%N] (p ++ [c])) with false.
      * destruct p; cbn [is_nil orb app]; rewrite <- ?app_assoc; reflexivity.
      * symmetry. apply ends_false. intros (x&E). apply app_inj_tail in E as (_&E). auto.
  - intros ->. destruct (is_nil p) eqn:E.
    + apply is_nil_spec in E as ->. constructor.
    + cbn [orb]. destruct (ends_with [47%N] p) eqn:E2.
      * apply ends_iff in E2 as (x&->). rewrite <- app_assoc. constructor.
      * apply ends_false in E2. destruct (exists_last (l := p)) as (x&c&->); [destruct p; discriminate|].
        rewrite <- app_assoc. cbn. constructor. intros ->. apply E2. exists x. reflexivity.
Qed.

Lemma look_app d e p : look (d ++ e) p = match look d p with Some n => Some n | None => look e p end.
Proof. induction d as [|(q,n) d IH]; cbn; auto. destruct (str_eqb q p); auto. Qed.
Lemma look_one q n p : look [(q, n)] p = if str_eqb q p then Some n else None.
Proof. reflexivity. Qed.
Lemma eqb_eq a b : str_eqb a b = true <-> a = b.
Proof. split; [apply ProofLexer2.str_eqb_eq|intros ->; apply str_eqb_refl]. Qed.
Lemma eqb_neq a b : str_eqb a b = false <-> a <> b.
Proof. rewrite <- eqb_eq. destruct (str_eqb a b); intuition congruence. Qed.

Lemma create_dir_spec v d p d' : create_dir v d p = Some d' ->
  look d p = None /\ forall q, look d' q = if str_eqb p q then Some NDir else look d q.
Proof.
  unfold create_dir, exists_. destruct (look d p) eqn:L; [discriminate|]. cbn [orb]. destruct (v_no_dir v p); [discriminate|].
  intros E. injection E as <-. split; auto. intros q. rewrite look_app, look_one. destruct (str_eqb p q) eqn:Q.
  - apply eqb_eq in Q as <-. rewrite L. reflexivity.
  - destruct (look d q); reflexivity.
Qed.
Lemma open_file_spec v d p d' : look d p = None -> open_file v d p = Some d' ->
  forall q, look d' q = if str_eqb p q then Some (NFile []) else look d q.
Proof.
  unfold open_file. intros L. rewrite L. destruct (v_no_file v p); [discriminate|].
  intros E. injection E as <-. intros q. rewrite look_app, look_one. destruct (str_eqb p q) eqn:Q.
  - apply eqb_eq in Q as <-. rewrite L. reflexivity.
  - destruct (look d q); reflexivity.
Qed.

(** The directory chosen, and what became of the disk. *)
Lemma cfg_dir v home d acts d' p : try_cfg_dir v home d = (acts, d', p) ->
  (d' = d \/ exists h, home = Some h /\ p = Some (join_path h (lit ".pemdas")) /\ look d (join_path h (lit ".pemdas")) = None
     /\ forall q, look d' q = if str_eqb (join_path h (lit ".pemdas")) q then Some NDir else look d q) /\
  match p with
  | Some dir => (exists h, home = Some h /\ dir = join_path h (lit ".pemdas") /\ look d' dir = Some NDir) \/ dir = lit "."
  | None => True
  end.
Proof.
  unfold try_cfg_dir. destruct home as [h|].
  - unfold exists_, is_dir. destruct (look d (join_path h (lit ".pemdas"))) as [[|t]|] eqn:L.
    + intros E. injection E as <- <- <-. split; auto. left. eauto.
    + intros E. injection E as <- <- <-. split; auto.
    + destruct (create_dir v d _) as [d1|] eqn:C; intros E; injection E as <- <- <-.
      * apply create_dir_spec in C as (_&C). split; [right; exists h; auto|]. left. exists h. repeat split.
        rewrite C, str_eqb_refl. reflexivity.
      * split; auto.
  - intros E. injection E as <- <- <-. split; auto.
Qed.

(** Asking again, when the directory is there. *)
Lemma cfg_again v v' home d acts d' dir : try_cfg_dir v home d = (acts, d', Some dir) ->
  forall d2, (forall q n, look d' q = Some n -> look d2 q = Some n) -> try_cfg_dir v' home d2 = (acts, d2, Some dir).
Proof.
  intros E d2 M. unfold try_cfg_dir in *. destruct home as [h|].
  - unfold exists_, is_dir in *. destruct (look d (join_path h (lit ".pemdas"))) as [[|t]|] eqn:L.
    + injection E as <- <- <-. rewrite (M _ _ L). reflexivity.
    + injection E as <- <- <-. rewrite (M _ _ L). reflexivity.
    + destruct (create_dir v d _) as [d1|] eqn:C; [|discriminate]. injection E as <- <- <-.
      apply create_dir_spec in C as (_&C). rewrite (M (join_path h (lit ".pemdas")) NDir); [reflexivity|].
      rewrite C, str_eqb_refl. reflexivity.
  - injection E as <- <- <-. reflexivity.
Qed.

(** * Removing *)

Lemma join_app p n : join_path p n = join_path p [] ++ n.
Proof.
  unfold join_path. destruct (is_nil p || ends_with [47%N] p); [rewrite app_nil_r; reflexivity|].
  rewrite <- app_assoc. reflexivity.
Qed.
Lemma entry_of_iff p q n : entry_of p q = Some n <-> q = join_path p n /\ n <> [] /\ ~ In 47%N n.
Proof.
  unfold entry_of. split.
  - destruct (starts_with _ q) eqn:S; [|discriminate]. apply starts_with_spec in S as (x&->).
    rewrite skipn_app, skipn_all, Nat.sub_diag. cbn [app skipn].
    destruct (is_nil x || existsb (N.eqb 47) x) eqn:E; [discriminate|]. intros H. injection H as <-.
    apply orb_false_iff in E as (E1&E2). split; [symmetry; apply join_app|]. split; [destruct x; discriminate|].
    intros I. rewrite (proj2 (existsb_exists _ _)) in E2; [discriminate|]. exists 47%N. split; [exact I|reflexivity].
  - intros (->&N&I). rewrite (join_app p n), starts_with_app, skipn_app, skipn_all, Nat.sub_diag. cbn [app skipn].
    destruct n as [|c n]; [congruence|]. cbn [is_nil orb]. destruct (existsb (N.eqb 47) (c :: n)) eqn:E; auto.
    apply existsb_exists in E as (x&Ix&Ex). apply N.eqb_eq in Ex as <-. contradiction.
Qed.
Lemma read_dir_in v d p ns n : read_dir v d p = Some ns -> n <> [] -> ~ In 47%N n ->
  (In n ns <-> look d (join_path p n) <> None).
Proof.
  unfold read_dir. destruct (negb _ || _); [discriminate|]. intros E Nn Ni. injection E as <-. rewrite in_flat_map. split.
  - intros ((q,m)&I&J). cbn [fst] in J. destruct (entry_of p q) as [k|] eqn:K; [|destruct J]. destruct J as [<-|[]].
    apply entry_of_iff in K as (->&_). intros L. clear - I L. induction d as [|(q',m') d IH]; [destruct I|].
    cbn [look] in L. destruct (str_eqb q' (join_path p k)) eqn:Q; [discriminate|]. destruct I as [I|I]; auto.
    injection I as -> ->. rewrite str_eqb_refl in Q. discriminate.
  - intros L. assert (exists m, In (join_path p n, m) d) as (m&I).
    { clear - L. induction d as [|(q',m') d IH]; [elim L; reflexivity|]. cbn [look] in L.
      destruct (str_eqb q' (join_path p n)) eqn:Q; [apply eqb_eq in Q as <-; exists m'; cbn; auto|].
      destruct (IH L) as (m&I). exists m. right. exact I. }
    exists (join_path p n, m). split; auto. cbn [fst]. rewrite (proj2 (entry_of_iff p (join_path p n) n)); cbn; auto.
Qed.
Lemma look_filter f d q : (forall n m, f (q, n) = f (q, m)) -> look (filter f d) q = if f (q, NDir) then look d q else None.
Proof.
  intros H. induction d as [|(p,n) d IH]; cbn [filter look]; [destruct (f _); reflexivity|].
  destruct (str_eqb p q) eqn:E.
  - apply eqb_eq in E as ->. rewrite (H n NDir). destruct (f (q, NDir)) eqn:F; auto. cbn [look]. rewrite str_eqb_refl. reflexivity.
  - destruct (f (p, n)); auto. cbn [look]. rewrite E. exact IH.
Qed.
Lemma remove_file_spec v d p d' : remove_file v d p = Some d' ->
  (exists t, look d p = Some (NFile t)) /\ forall q, look d' q = if str_eqb q p then None else look d q.
Proof.
  unfold remove_file. destruct (look d p) as [[|t]|] eqn:L; try discriminate. destruct (v_no_remove v p); [discriminate|].
  intros E. injection E as <-. split; [eauto|]. intros q. unfold remove_path. rewrite look_filter by reflexivity. cbn [fst].
  destruct (str_eqb q p); reflexivity.
Qed.
(** Removal without the messages. *)
Definition name_of (v : env) (p : str) : str :=
  match v_canon v p, v_canon v (lit ".") with
  | Some a, Some b => if str_eqb b a then local_history else global_history
  | _, _ => global_history
  end.
Lemma history_name_of v p : snd (history_name v p) = name_of v p.
Proof. unfold history_name, name_of. destruct (v_canon v p), (v_canon v (lit ".")); reflexivity. Qed.

Fixpoint removed (v : env) (p name : str) (d : disk) (ns : list str) : option disk :=
  match ns with
  | [] => Some d
  | n :: ns' =>
      if str_eqb n name && exists_ d (join_path p n) then
        match remove_file v d (join_path p n) with
        | Some d' => removed v p name d' ns'
        | None => None
        end
      else removed v p name d ns'
  end.
Lemma remove_named_removed v p name : forall ns d, snd (remove_named v p name d ns) = removed v p name d ns.
Proof.
  induction ns as [|n ns IH]; intros d; cbn [remove_named removed]; auto. destruct (_ && _); auto. destruct (remove_file _ _ _) as [d'|]; auto.
  rewrite <- IH. destruct (remove_named v p name d' ns); reflexivity.
Qed.

Definition uninstalled (v : env) (d : disk) (p : str) : option disk :=
  match read_dir v d p with
  | Some ns =>
      match removed v p (name_of v p) d ns with
      | Some d1 =>
          match read_dir v d1 p with
          | Some ms => if match ms with [] => str_eqb (name_of v p) global_history | _ => false end then remove_dir_all v d1 p else Some d1
          | None => Some d1
          end
      | None => None
      end
  | None => Some d
  end.
Lemma uninstall_uninstalled v d p : snd (uninstall_artifacts v d p) = uninstalled v d p.
Proof.
  unfold uninstall_artifacts, uninstalled. rewrite <- history_name_of. destruct (history_name v p) as (acts&name). cbn [snd].
  destruct (read_dir v d p) as [ns|]; auto. rewrite <- remove_named_removed. destruct (remove_named v p name d ns) as (more&[d1|]); auto. cbn [snd].
  destruct (read_dir v d1 p) as [[|m ms]|]; auto. destruct (str_eqb name global_history); auto.
Qed.

Lemma removed_spec v p name ns : forall d d', removed v p name d ns = Some d' ->
  (forall q, look d' q = look d q \/ q = join_path p name /\ look d' q = None /\ exists t, look d q = Some (NFile t)) /\
  (In name ns -> look d' (join_path p name) = None) /\ (~ In name ns -> d' = d).
Proof.
  induction ns as [|n ns IH]; intros d d' E; cbn [removed] in E.
  - injection E as <-. cbn. repeat split; auto; tauto.
  - destruct (str_eqb n name) eqn:Q; cbn [andb] in E.
    + apply eqb_eq in Q as ->. unfold exists_ in E. destruct (look d (join_path p name)) as [m|] eqn:L.
      * destruct (remove_file v d (join_path p name)) as [d1|] eqn:R; [|discriminate].
        apply remove_file_spec in R as ((t&Lt)&R). destruct (IH _ _ E) as (A&B&C).
        assert (G : look d' (join_path p name) = None).
        { destruct (A (join_path p name)) as [X|(_&X&_)]; auto. rewrite X, R, str_eqb_refl. reflexivity. }
        split; [|split; auto].
        -- intros q. destruct (str_eqb q (join_path p name)) eqn:Q.
           ++ apply eqb_eq in Q as ->. right. split; auto. split; auto. eauto.
           ++ destruct (A q) as [X|(->&_)]; [|rewrite str_eqb_refl in Q; discriminate]. left. rewrite X, R, Q. reflexivity.
        -- cbn. intros N. elim N. auto.
      * destruct (IH _ _ E) as (A&B&C).
        assert (G : look d' (join_path p name) = None).
        { destruct (A (join_path p name)) as [X|(_&X&_)]; auto. rewrite X. exact L. }
        split; auto. split; auto. cbn. intros N. elim N. auto.
    + destruct (IH _ _ E) as (A&B&C). apply eqb_neq in Q. split; auto. split.
      * intros [X|X]; auto. elim (Q X).
      * intros N. apply C. intros X. apply N. right. exact X.
Qed.

(** What is said while removing. *)
Lemma remove_named_says v p name : forall ns d acts r, remove_named v p name d ns = (acts, r) ->
  (acts = [] /\ r = Some d) \/
  acts = [errln (lit "deleting history file found at " ++ join_path p name)] /\ look d (join_path p name) <> None /\
  match r with Some d' => look d' (join_path p name) = None | None => True end.
Proof.
  assert (G : forall ns d, look d (join_path p name) = None -> remove_named v p name d ns = ([], Some d)).
  { induction ns as [|n ns IH]; intros d L; cbn [remove_named]; auto. destruct (str_eqb n name) eqn:Q; cbn [andb]; auto.
    apply eqb_eq in Q as ->. unfold exists_. rewrite L. auto. }
  induction ns as [|n ns IH]; intros d acts r E; cbn [remove_named] in E; [injection E as <- <-; auto|].
  destruct (str_eqb n name) eqn:Q; cbn [andb] in E; [|eauto]. apply eqb_eq in Q as ->. unfold exists_ in E.
  destruct (look d (join_path p name)) eqn:L; [|rewrite <- L in *; eauto]. right.
  destruct (remove_file v d (join_path p name)) as [d'|] eqn:R.
  - apply remove_file_spec in R as (_&R). rewrite G in E by (rewrite R, str_eqb_refl; reflexivity). injection E as <- <-. split; auto.
    split; [discriminate|]. rewrite R, str_eqb_refl. reflexivity.
  - injection E as <- <-. split; auto. split; [discriminate|exact I].
Qed.
