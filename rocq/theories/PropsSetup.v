(** Starting the program and removing its files: C64 and C65. *)
From Coq Require Import List Arith NArith Bool String Lia.
From Verif Require Import Prelim Chars Syntax Repl Setup SpecSetup ProofTable ProofRepl SpecRepl ProofSetup.
Import ListNotations.
Local Open Scope string_scope.
Local Open Scope list_scope.

(** ** C64 *)

(** Nothing that exists is changed; what is created is the program's own
    directory and an empty file for the history; messages go to the standard
    error. *)
Theorem C64_creates_only_its_own : forall v home d acts d' p, try_history_path v home d = (acts, d', p) ->
  (forall q n, look d q = Some n -> look d' q = Some n) /\
  (forall q n, look d q = None -> look d' q = Some n ->
     (own_dir home q /\ n = NDir) \/ (own_file home q /\ n = NFile [])) /\
  (forall q, p = Some q -> own_file home q /\ look d' q <> None) /\
  (forall a, In a acts -> exists m, a = AErr m).
Proof.
  intros v home d acts d' p E. unfold try_history_path in E. destruct (try_cfg_dir v home d) as ((acts1&d1)&dir) eqn:C.
  assert (Ac : forall a, In a acts1 -> exists m, a = AErr m).
  { unfold try_cfg_dir in C. intros a I. destruct home as [h|].
    - destruct (exists_ _ _); [destruct (is_dir _ _)|destruct (create_dir _ _ _)]; injection C as <- _ _; cbn in I;
        try contradiction; destruct I as [<-|[<-|[]]]; unfold errln; eauto.
    - injection C as <- _ _. cbn in I. destruct I as [<-|[<-|[]]]; unfold errln; eauto. }
  pose proof (cfg_dir _ _ _ _ _ _ C) as (D&W).
  assert (M : forall q n, look d q = Some n -> look d1 q = Some n).
  { intros q n L. destruct D as [-> | (h&_&_&N&D)]; auto. rewrite D. destruct (str_eqb _ q) eqn:Q; auto.
    apply eqb_eq in Q as <-. congruence. }
  assert (New : forall q n, look d q = None -> look d1 q = Some n -> own_dir home q /\ n = NDir).
  { intros q n L L1. destruct D as [-> | (h&->&_&N&D)]; [congruence|]. rewrite D in L1. destruct (str_eqb _ q) eqn:Q; [|congruence].
    apply eqb_eq in Q as <-. injection L1 as <-. split; auto. constructor. apply under_iff. reflexivity. }
  destruct dir as [dir|].
  2:{ injection E as <- <- <-. split; [exact M|]. split; [|split; [discriminate|exact Ac]]. intros q n L L1. left. eauto. }
  assert (O : own_file home (join_path dir global_history)).
  { destruct W as [(h&->&->&_) | ->].
    - econstructor; apply under_iff; reflexivity.
    - constructor. }
  destruct (exists_ d1 (join_path dir global_history)) eqn:Ex.
  - injection E as <- <- <-. split; [exact M|]. split; [|split; [|exact Ac]].
    + intros q n L L1. left. eauto.
    + intros q Q. injection Q as <-. split; auto. unfold exists_ in Ex. destruct (look d1 _); discriminate.
  - assert (L1 : look d1 (join_path dir global_history) = None) by (unfold exists_ in Ex; destruct (look d1 _); [discriminate|reflexivity]).
    destruct (open_file v d1 _) as [d2|] eqn:Op.
    + pose proof (open_file_spec _ _ _ _ L1 Op) as S2. injection E as <- <- <-. split; [|split; [|split; [|exact Ac]]].
      * intros q n L. rewrite S2. destruct (str_eqb _ q) eqn:Q; auto. apply eqb_eq in Q as <-. rewrite (M _ _ L) in L1. discriminate.
      * intros q n L L2. rewrite S2 in L2. destruct (str_eqb _ q) eqn:Q; [|left; eauto]. apply eqb_eq in Q as <-. injection L2 as <-. auto.
      * intros q Q. destruct (v_no_sync v _); [discriminate|]. injection Q as <-. split; auto. rewrite S2, str_eqb_refl. discriminate.
    + injection E as <- <- <-. split; [exact M|]. split; [|split; [discriminate|exact Ac]]. intros q n L L2. left. eauto.
Qed.

(** Which place is chosen: below the home directory, silently, unless there is
    a file in the way or no home directory is known. *)
Theorem C64_place : forall v home d acts d' r, try_history_path v home d = (acts, d', Some r) ->
  (forall h q, home = Some h -> under h (lit ".pemdas") q -> (forall t, look d q <> Some (NFile t)) ->
     under q (lit ".history") r /\ acts = [] /\ look d' q = Some NDir) /\
  (forall h q t, home = Some h -> under h (lit ".pemdas") q -> look d q = Some (NFile t) ->
     r = lit "./.history" /\ acts <> []) /\
  (home = None -> r = lit "./.history" /\ acts <> []).
Proof.
  intros v home d acts d' r E. pose proof (proj1 (C64_creates_only_its_own _ _ _ _ _ _ E)) as Keep. unfold try_history_path in E.
  destruct (try_cfg_dir v home d) as ((acts1&d1)&[dir|]) eqn:C; [|discriminate].
  assert (K : acts1 = acts /\ r = join_path dir global_history /\ forall q n, look d1 q = Some n -> look d' q = Some n).
  { destruct (exists_ d1 _) eqn:Ex; [injection E as <- <- <-; auto|]. destruct (open_file v d1 _) as [d2|] eqn:Op; [|discriminate].
    assert (L1 : look d1 (join_path dir global_history) = None) by (unfold exists_ in Ex; destruct (look d1 _); [discriminate|reflexivity]).
    pose proof (open_file_spec _ _ _ _ L1 Op) as S2.
    destruct (v_no_sync v _); [discriminate|]. injection E as <- <- <-. split; auto. split; auto. intros q n L. rewrite S2.
    destruct (str_eqb _ q) eqn:Q; auto. apply eqb_eq in Q as <-. congruence. }
  destruct K as (<-&->&K). split; [|split].
  - intros h q -> Uq N. apply under_iff in Uq as ->. unfold try_cfg_dir, exists_, is_dir in C.
    destruct (look d (join_path h (lit ".pemdas"))) as [[|t]|] eqn:L.
    + injection C as <- <- <-. split; [apply under_iff; reflexivity|]. auto.
    + elim (N t). reflexivity.
    + destruct (create_dir v d _) as [d2|] eqn:Cr; [|discriminate]. injection C as <- <- <-.
      split; [apply under_iff; reflexivity|]. split; auto. apply K. apply create_dir_spec in Cr as (_&Cr). rewrite Cr, str_eqb_refl. reflexivity.
  - intros h q t -> Uq L. apply under_iff in Uq as ->. unfold try_cfg_dir, exists_, is_dir in C. rewrite L in C.
    injection C as <- <- <-. split; [reflexivity|discriminate].
  - intros ->. injection C as <- <- <-. split; [reflexivity|discriminate].
Qed.

(** The next start finds everything in place and changes nothing, whatever the
    system would refuse by then. *)
Theorem C64_again : forall v v' home d acts d' r, try_history_path v home d = (acts, d', Some r) ->
  try_history_path v' home d' = (acts, d', Some r).
Proof.
  intros v v' home d acts d' r E. pose proof (C64_creates_only_its_own _ _ _ _ _ _ E) as (_&_&P&_). specialize (P _ eq_refl) as (_&P).
  unfold try_history_path in *. destruct (try_cfg_dir v home d) as ((acts1&d1)&[dir|]) eqn:C; [|discriminate].
  assert (K : acts1 = acts /\ r = join_path dir global_history /\ forall q n, look d1 q = Some n -> look d' q = Some n).
  { destruct (exists_ d1 _) eqn:Ex; [injection E as <- <- <-; auto|]. destruct (open_file v d1 _) as [d2|] eqn:Op; [|discriminate].
    assert (L1 : look d1 (join_path dir global_history) = None) by (unfold exists_ in Ex; destruct (look d1 _); [discriminate|reflexivity]).
    pose proof (open_file_spec _ _ _ _ L1 Op) as S2.
    destruct (v_no_sync v _); [discriminate|]. injection E as <- <- <-. split; auto. split; auto. intros q n L. rewrite S2.
    destruct (str_eqb _ q) eqn:Q; auto. apply eqb_eq in Q as <-. congruence. }
  destruct K as (<-&->&K). rewrite (cfg_again v v' home d acts1 d1 dir C d' K). unfold exists_.
  destruct (look d' (join_path dir global_history)); [reflexivity|congruence].
Qed.

(** Whatever happens to the files, the program starts: it loads the history,
    greets, and goes into its loop; without a place for the history the path is
    empty. *)
Theorem C64_starts : forall {U : ucd} v home d es acts d' st, main v home d es = (acts, d', st) ->
  exists errs p more, (forall a, In a errs -> exists m, a = AErr m) /\
    acts = errs ++ ALoadHistory p :: AOut (lit "Pemdas, version 0.1.0" ++ [10%N])
             :: AOut (lit "history stored at """ ++ p ++ [34; 10]%N) :: AOut (lit "    :quit, :q               exit REPL
    :fixities               display the fixities of infixes defined in session
    :help, :h               display list of REPL commands" ++ [10%N]) :: more /\
    run (session_new p) es = (more, st) /\ (p = [] \/ own_file home p /\ look d' p <> None).
Proof.
  intros U v home d es acts d' st E. unfold main in E. destruct (try_history_path v home d) as ((errs&d1)&p) eqn:T.
  destruct (C64_creates_only_its_own _ _ _ _ _ _ T) as (_&_&Pl&Er). unfold run_repl in E.
  set (h := match p with Some p0 => p0 | None => [] end) in *.
  destruct (run (session_new h) es) as (more&st1) eqn:R. pose proof (f_equal (fun x => fst (fst x)) E) as E1. cbn [fst] in E1.
  assert (d1 = d' /\ st1 = st) as (<-&<-) by (split; congruence). clear E. rewrite <- E1. exists errs, h, more. split; [exact Er|].
  split.
  { assert (M : (lit "history stored at " ++ [34%N] ++ h ++ [34%N]) ++ [10%N] = lit "history stored at """ ++ h ++ [34; 10]%N).
    { change (lit "history stored at """) with (lit "history stored at " ++ [34%N]). rewrite <- !app_assoc. reflexivity. }
    unfold init_msg, outln. change (s_hist (session_new h)) with h. rewrite M. reflexivity. }
  split; [exact R|]. unfold h. destruct p as [p|]; auto.
Qed.

(** ** C65 *)

(** Only the history file and the directory itself, once empty, are removed. *)
Theorem C65_removes_only_its_own : forall v d p acts d', uninstall_artifacts v d p = (acts, Some d') -> connected d p ->
  forall q, look d' q = look d q \/
    look d' q = None /\
    ((exists n t, (n = lit ".history" \/ n = lit ".pemdas_history") /\ under p n q /\ look d q = Some (NFile t)) \/
     (q = p /\ look d q = Some NDir /\
      forall n r, look d r <> None -> under p n r -> n <> [] -> ~ In 47%N n -> n = lit ".history")).
Proof.
  intros v d p acts d' E Cn q. apply (f_equal snd) in E. rewrite uninstall_uninstalled in E. cbn [snd] in E. unfold uninstalled in E. destruct (read_dir v d p) as [ns|] eqn:Rd; [|injection E as <-; auto].
  destruct (removed v p (name_of v p) d ns) as [d1|] eqn:Rn; [|discriminate].
  pose proof (removed_spec _ _ _ _ _ _ Rn) as (A&B&_).
  assert (Hn : name_of v p = lit ".history" \/ name_of v p = lit ".pemdas_history").
  { unfold name_of. destruct (v_canon v p) as [a|], (v_canon v (lit ".")) as [b|]; try (left; reflexivity). destruct (str_eqb b a); [right|left]; reflexivity. }
  assert (A' : look d1 q = look d q \/ look d1 q = None /\ exists n t, (n = lit ".history" \/ n = lit ".pemdas_history") /\ under p n q /\ look d q = Some (NFile t)).
  { destruct (A q) as [X|(->&X&t&Y)]; auto. right. split; [exact X|]. exists (name_of v p), t. split; [exact Hn|]. split; [apply under_iff; reflexivity|exact Y]. }
  destruct (read_dir v d1 p) as [ms|] eqn:Rd1; [|injection E as <-; tauto].
  destruct ms as [|m ms]; [|injection E as <-; tauto].
  destruct (str_eqb (name_of v p) global_history) eqn:G; [|injection E as <-; tauto]. apply eqb_eq in G.
  unfold remove_dir_all in E. destruct (negb (is_dir d1 p) || v_no_remove v p) eqn:Nd; [discriminate|]. injection E as <-.
  apply orb_false_iff in Nd as (Nd&_). apply negb_false_iff in Nd.
  assert (Dp : look d p = Some NDir).
  { unfold read_dir in Rd. destruct (negb (is_dir d p) || v_no_list v p) eqn:X; [discriminate|]. apply orb_false_iff in X as (X&_).
    apply negb_false_iff in X. unfold is_dir in X. destruct (look d p) as [[|]|]; congruence. }
  assert (Only : forall n r, look d r <> None -> under p n r -> n <> [] -> ~ In 47%N n -> n = lit ".history").
  { intros n r L Ur Nn Ni. apply under_iff in Ur as ->. destruct (A (join_path p n)) as [X|(X&_)].
    - exfalso. rewrite <- X in L. apply (read_dir_in _ _ _ _ _ Rd1 Nn Ni) in L. destruct L.
    - rewrite (join_app p n), (join_app p (name_of v p)) in X. apply app_inv_head in X. rewrite X. exact G. }
  rewrite look_filter by reflexivity. cbn [fst].
  destruct (str_eqb q p) eqn:Q; cbn [orb negb].
  - apply eqb_eq in Q as ->. right. split; auto.
  - destruct (starts_with (join_path p []) q) eqn:Sq; cbn [negb]; [|exact (ltac:(tauto))].
    destruct A' as [X|(X&Y)]; [|right; auto]. destruct (look d q) as [n|] eqn:L; auto. right. split; auto.
    exfalso. apply starts_with_spec in Sq as (x&->).
    destruct (Cn (join_path p [] ++ x) x) as (k&y&r&->&Nk&Ik&Ur&Lr&Y).
    { rewrite L. discriminate. }
    { apply under_iff. symmetry. apply join_app. }
    pose proof (Only k r Lr Ur Nk Ik) as ->. apply under_iff in Ur as ->.
    assert (L1 : look d1 (join_path p (lit ".history")) = None).
    { destruct (look d1 (join_path p (lit ".history"))) eqn:L1; auto.
      exfalso. assert (Z : look d1 (join_path p (lit ".history")) <> None) by congruence.
      apply (read_dir_in _ _ _ _ _ Rd1 Nk Ik) in Z. destruct Z. }
    destruct Y as [-> | Y].
    + rewrite app_nil_r, <- join_app in X. congruence.
    + destruct (A (join_path p (lit ".history"))) as [Z|(_&_&t&Z)]; congruence.
Qed.

(** Removal undoes a start that had to create everything.  Missing: the same
    for the current directory, where it does not hold (see below). *)
Theorem C65_undoes_start_partial : forall v h d acts d' q r,
  try_history_path v (Some h) d = (acts, d', Some r) -> under h (lit ".pemdas") q ->
  (forall x s, under q x s -> look d s = None) -> look d q = None ->
  (forall a b, v_canon v q = Some a -> v_canon v (lit ".") = Some b -> a <> b) ->
  (forall s, v_no_list v s = false /\ v_no_remove v s = false) ->
  exists said d'', uninstall_artifacts v d' q = (said, Some d'') /\ forall s, look d'' s = look d s.
Proof.
  intros v h d acts d' q r E Uq Fr Lq Cn Al. pose proof Uq as Uq0. apply under_iff in Uq0 as ->. set (q := join_path h (lit ".pemdas")) in *.
  unfold try_history_path, try_cfg_dir, exists_ in E. fold q in E. rewrite Lq in E.
  destruct (create_dir v d q) as [d1|] eqn:C; [|discriminate]. apply create_dir_spec in C as (_&C).
  assert (Lh : look d1 (join_path q global_history) = None).
  { rewrite C. destruct (str_eqb q (join_path q global_history)) eqn:Q.
    - exfalso. apply eqb_eq in Q. rewrite join_app in Q. apply (f_equal (@List.length N)) in Q. rewrite app_length in Q. cbn in Q.
      unfold join_path in Q. destruct (is_nil q || ends_with [47%N] q); rewrite ?app_nil_r, ?app_length in Q; cbn in Q; lia.
    - apply (Fr global_history). apply under_iff. reflexivity. }
  rewrite Lh in E. destruct (open_file v d1 _) as [d2|] eqn:Op; [|discriminate]. pose proof (open_file_spec _ _ _ _ Lh Op) as S2.
  destruct (v_no_sync v _); [discriminate|]. injection E as <- <- <-.
  assert (Hn : name_of v q = global_history).
  { unfold name_of. destruct (v_canon v q) as [a|] eqn:A, (v_canon v (lit ".")) as [b|] eqn:B; auto.
    destruct (str_eqb b a) eqn:Q; auto. apply eqb_eq in Q as ->. elim (Cn _ _ eq_refl eq_refl). reflexivity. }
  assert (Nq : join_path q global_history <> q).
  { intros Q. rewrite join_app in Q. apply (f_equal (@List.length N)) in Q. rewrite app_length in Q. cbn in Q.
    unfold join_path in Q. destruct (is_nil q || ends_with [47%N] q); rewrite ?app_nil_r, ?app_length in Q; cbn in Q; lia. }
  assert (D2 : look d2 q = Some NDir).
  { rewrite S2. destruct (str_eqb _ q) eqn:Q; [apply eqb_eq in Q; congruence|]. rewrite C, str_eqb_refl. reflexivity. }
  assert (G : exists d'', uninstalled v d2 q = Some d'' /\ forall s, look d'' s = look d s).
  2:{ destruct G as (d''&G&L). rewrite <- uninstall_uninstalled in G. destruct (uninstall_artifacts v d2 q) as (said&o). cbn [snd] in G. subst o. eauto. }
  unfold uninstalled. rewrite Hn.
  assert (Rd : exists ns, read_dir v d2 q = Some ns).
  { unfold read_dir, is_dir. rewrite D2, (proj1 (Al q)). cbn. eauto. }
  destruct Rd as (ns&Rd). rewrite Rd.
  assert (Rn : exists d3, removed v q global_history d2 ns = Some d3).
  { assert (G : forall ns d2', (look d2' (join_path q global_history) = None \/ exists t, look d2' (join_path q global_history) = Some (NFile t)) ->
      exists d3, removed v q global_history d2' ns = Some d3).
    { clear - Al. induction ns as [|n ns IH]; intros d2' L; cbn [removed]; [eauto|].
      destruct (str_eqb n global_history) eqn:Q; cbn [andb]; [|auto]. apply eqb_eq in Q as ->. unfold exists_.
      destruct (look d2' (join_path q global_history)) eqn:L2; [|auto]. destruct L as [L|(t&L)]; [congruence|].
      destruct (remove_file v d2' (join_path q global_history)) as [d3|] eqn:R.
      - apply IH. left. apply remove_file_spec in R as (_&R). rewrite R, str_eqb_refl. reflexivity.
      - exfalso. unfold remove_file in R. rewrite L2 in R. injection L as ->. rewrite (proj2 (Al _)) in R. discriminate. }
    apply G. right. exists []. rewrite S2, str_eqb_refl. reflexivity. }
  destruct Rn as (d3&Rn). rewrite Rn. pose proof (removed_spec _ _ _ _ _ _ Rn) as (A&B&_).
  assert (I : In global_history ns).
  { apply (read_dir_in _ _ _ _ _ Rd); [discriminate|cbn; intuition discriminate|]. rewrite S2, str_eqb_refl. discriminate. }
  specialize (B I).
  assert (D3 : look d3 q = Some NDir) by (destruct (A q) as [X|(X&_)]; congruence).
  assert (All3 : forall s, look d3 s = if str_eqb q s then Some NDir else look d s).
  { intros s. destruct (str_eqb q s) eqn:Q; [apply eqb_eq in Q as <-; auto|].
    destruct (str_eqb (join_path q global_history) s) eqn:Q2.
    - apply eqb_eq in Q2 as <-. rewrite B. symmetry. apply (Fr global_history). apply under_iff. reflexivity.
    - destruct (A s) as [X|(X&_)]; [|rewrite <- X, str_eqb_refl in Q2; discriminate]. rewrite X, S2, Q2, C, Q. reflexivity. }
  destruct (read_dir v d3 q) as [ms|] eqn:Rd3.
  2:{ unfold read_dir, is_dir in Rd3. rewrite D3, (proj1 (Al q)) in Rd3. discriminate. }
  assert (ms = []) as ->.
  { destruct ms as [|m ms]; auto. exfalso. assert (Im : In m (m :: ms)) by (cbn; auto).
    unfold read_dir in Rd3. destruct (negb (is_dir d3 q) || v_no_list v q); [discriminate|]. injection Rd3 as Rd3.
    rewrite <- Rd3 in Im. apply in_flat_map in Im as ((s&k)&Is&J). cbn [fst] in J. destruct (entry_of q s) as [m'|] eqn:Em; [|destruct J].
    destruct J as [<-|[]]. apply entry_of_iff in Em as (->&Nm&_).
    assert (L3 : look d3 (join_path q m') <> None).
    { clear - Is. induction d3 as [|(a,b) d3 IH]; [destruct Is|]. cbn [look]. destruct (str_eqb a _) eqn:Q; [discriminate|].
      destruct Is as [Is|Is]; auto. injection Is as -> ->. rewrite str_eqb_refl in Q. discriminate. }
    rewrite All3 in L3. destruct (str_eqb q (join_path q m')) eqn:Q.
    - apply eqb_eq in Q. rewrite join_app in Q. apply (f_equal (@List.length N)) in Q. rewrite app_length in Q. cbn in Q.
      unfold join_path in Q. destruct m'; [congruence|].
      destruct (is_nil q || ends_with [47%N] q); rewrite ?app_nil_r, ?app_length in Q; cbn in Q; lia.
    - apply L3. apply (Fr m'). apply under_iff. reflexivity. }
  rewrite str_eqb_refl. unfold remove_dir_all, is_dir. rewrite D3, (proj2 (Al q)). cbn [negb orb]. eexists. split; [reflexivity|].
  intros s. rewrite look_filter by reflexivity. cbn [fst]. destruct (str_eqb s q) eqn:Q; cbn [orb negb].
  - apply eqb_eq in Q as ->. auto.
  - destruct (starts_with (join_path q []) s) eqn:Sq; cbn [negb].
    + symmetry. apply starts_with_spec in Sq as (x&->). apply (Fr x). apply under_iff. symmetry. apply join_app.
    + rewrite All3. destruct (str_eqb q s) eqn:Q2; auto. apply eqb_eq in Q2 as ->. rewrite str_eqb_refl in Q. discriminate.
Qed.

(** What is said about it, on the standard error: that the history file is
    deleted, exactly if it is (or if deleting it fails and the program stops
    there), and that the directory could not be deleted, exactly if it is still
    there and can be listed. *)
Theorem C65_messages : forall v d p acts o, uninstall_artifacts v d p = (acts, o) ->
  (forall a, In a acts -> exists m, a = AErr m) /\
  (forall q, In (AErr (lit "deleting history file found at " ++ q ++ [10%N])) acts ->
     (exists n, (n = lit ".history" \/ n = lit ".pemdas_history") /\ under p n q) /\ look d q <> None /\
     forall d', o = Some d' -> look d' q = None) /\
  (forall d', o = Some d' ->
     (forall n q t, n = lit ".history" \/ n = lit ".pemdas_history" -> under p n q -> look d q = Some (NFile t) -> look d' q = None ->
        In (AErr (lit "deleting history file found at " ++ q ++ [10%N])) acts) /\
     (In (AErr (lit "could not delete non-empty directory `" ++ p ++ lit "`" ++ [10%N])) acts <->
        look d' p = Some NDir /\ v_no_list v p = false)).
Proof.
  intros v d p acts o E. unfold uninstall_artifacts in E.
  destruct (history_name v p) as (h&name) eqn:Hn.
  assert (Hh : h = [] \/ exists m, h = [AErr (69%N :: m)]).
  { unfold history_name in Hn. destruct (v_canon v p); [destruct (v_canon v (lit "."))|]; injection Hn as <- <-; auto; right; eexists; reflexivity. }
  assert (Nm : name = lit ".history" \/ name = lit ".pemdas_history").
  { unfold history_name in Hn. destruct (v_canon v p); [destruct (v_canon v (lit "."))|]; injection Hn as <- <-; auto. destruct (str_eqb _ _); auto. }
  set (del q := AErr (lit "deleting history file found at " ++ q ++ [10%N])).
  set (not_ := AErr (lit "could not delete non-empty directory `" ++ p ++ lit "`" ++ [10%N])).
  assert (Hq : forall q, ~ In (del q) h) by (intros q I; destruct Hh as [-> | (m&->)]; [destruct I|destruct I as [I|[]]; discriminate I]).
  assert (Hp : ~ In not_ h) by (intros I; destruct Hh as [-> | (m&->)]; [destruct I|destruct I as [I|[]]; discriminate I]).
  assert (He : forall a, In a h -> exists m, a = AErr m) by (intros a I; destruct Hh as [-> | (m&->)]; [destruct I|destruct I as [<-|[]]; eauto]).
  destruct (read_dir v d p) as [ns|] eqn:Rd.
  2:{ injection E as <- <-. split; [|split].
    - intros a I. apply in_app_or in I as [I|[<-|[]]]; auto. unfold errln. eauto.
    - intros q I. exfalso. apply in_app_or in I as [I|[I|[]]]; [exact (Hq _ I)|discriminate I].
    - intros d' X. injection X as <-. split; [congruence|]. split.
      + intros I. exfalso. apply in_app_or in I as [I|[I|[]]]; [exact (Hp I)|discriminate I].
      + intros (L&V). exfalso. unfold read_dir, is_dir in Rd. rewrite L, V in Rd. discriminate. }
  assert (Dp : look d p = Some NDir /\ v_no_list v p = false).
  { unfold read_dir in Rd. destruct (negb (is_dir d p) || v_no_list v p) eqn:X; [discriminate|]. apply orb_false_iff in X as (X&Y). split; auto.
    apply negb_false_iff in X. unfold is_dir in X. destruct (look d p) as [[|]|]; congruence. }
  destruct (remove_named v p name d ns) as (more&r) eqn:Rn. pose proof (remove_named_says _ _ _ _ _ _ _ Rn) as Sy.
  assert (Sd : errln (lit "deleting history file found at " ++ join_path p name) = del (join_path p name)) by (unfold errln, del; rewrite <- app_assoc; reflexivity).
  rewrite Sd in Sy.
  assert (Inj : forall q q', del q = del q' -> q = q').
  { intros q q' X. injection X as X. apply app_inv_tail in X. exact X. }
  assert (Mq : forall q, In (del q) more -> q = join_path p name /\ look d q <> None).
  { intros q I. destruct Sy as [(->&_)|(->&L&_)]; [destruct I|]. destruct I as [I|[]]. apply Inj in I as <-. auto. }
  assert (Mp : ~ In not_ more) by (intros I; destruct Sy as [(->&_)|(->&_)]; [destruct I|destruct I as [I|[]]; discriminate I]).
  assert (Me : forall a, In a more -> exists m, a = AErr m) by (intros a I; destruct Sy as [(->&_)|(->&_)]; [destruct I|destruct I as [<-|[]]; unfold del; eauto]).
  assert (Rs : removed v p name d ns = r) by (rewrite <- remove_named_removed, Rn; reflexivity).
  destruct r as [d1|].
  2:{ injection E as <- <-. split; [|split; [|discriminate]].
    - intros a I. apply in_app_or in I as [I|I]; auto.
    - intros q I. apply in_app_or in I as [I|I]; [destruct (Hq _ I)|]. destruct (Mq _ I) as (->&L). split; [|split; [auto|discriminate]].
      exists name. split; auto. apply under_iff. reflexivity. }
  pose proof (removed_spec _ _ _ _ _ _ Rs) as (A&B&_).
  assert (D1 : look d1 p = Some NDir) by (destruct (A p) as [X|(_&_&t&X)]; [rewrite X; apply Dp|destruct Dp; congruence]).
  destruct (read_dir v d1 p) as [ms|] eqn:Rd1.
  2:{ exfalso. unfold read_dir, is_dir in Rd1. rewrite D1, (proj2 Dp) in Rd1. discriminate. }
  assert (D : forall q, In (del q) more -> look d1 q = None).
  { intros q I. destruct Sy as [(->&_)|(->&_&L)]; [destruct I|]. destruct I as [I|[]]. apply Inj in I as <-. exact L. }
  assert (D' : forall q t, look d q = Some (NFile t) -> look d1 q = None -> In (del q) more).
  { intros q t L L1. destruct (A q) as [X|(->&_)]; [congruence|]. destruct Sy as [(->&X)|(->&_)]; [injection X as ->; congruence|]. left. reflexivity. }
  assert (Fin : forall d' tl, (forall q, In (del q) tl -> False) -> (forall a, In a tl -> exists m, a = AErr m) ->
    (forall q, look d1 q = None -> look d' q = None) ->
    (forall n q t, n = lit ".history" \/ n = lit ".pemdas_history" -> under p n q -> look d q = Some (NFile t) -> look d' q = None -> look d1 q = None) ->
    (In not_ tl <-> look d' p = Some NDir) ->
    (forall a, In a (h ++ more ++ tl) -> exists m, a = AErr m) /\
    (forall q, In (del q) (h ++ more ++ tl) ->
      (exists n, (n = lit ".history" \/ n = lit ".pemdas_history") /\ under p n q) /\ look d q <> None /\
      forall d2, Some d' = Some d2 -> look d2 q = None) /\
    (forall d2, Some d' = Some d2 ->
      (forall n q t, n = lit ".history" \/ n = lit ".pemdas_history" -> under p n q -> look d q = Some (NFile t) -> look d2 q = None ->
         In (del q) (h ++ more ++ tl)) /\
      (In not_ (h ++ more ++ tl) <-> look d2 p = Some NDir /\ v_no_list v p = false))).
  { intros d' tl T1 T2 T3 T4 T5. split; [|split].
    - intros a I. apply in_app_or in I as [I|I]; auto. apply in_app_or in I as [I|I]; auto.
    - intros q I. apply in_app_or in I as [I|I]; [destruct (Hq _ I)|]. apply in_app_or in I as [I|I]; [|destruct (T1 _ I)].
      pose proof (D _ I) as L1. destruct (Mq _ I) as (->&L). split; [exists name; split; auto; apply under_iff; reflexivity|]. split; auto.
      intros d2 X. injection X as <-. auto.
    - intros d2 X. injection X as <-. split.
      + intros n q t Nn Uq L L2. apply in_or_app. right. apply in_or_app. left. eauto.
      + rewrite !in_app_iff, T5. split; [intros [I|[I|I]]; [destruct (Hp I)|destruct (Mp I)|split; [exact I|apply Dp]]|intros (I&_); auto]. }
  assert (Nt : errln (lit "could not delete non-empty directory `" ++ p ++ lit "`") = not_) by (unfold errln, not_; rewrite <- !app_assoc; reflexivity).
  rewrite Nt in E.
  destruct (match ms with [] => str_eqb name global_history | _ => false end) eqn:Em.
  - destruct ms as [|m ms]; [|discriminate]. apply eqb_eq in Em. unfold remove_dir_all in E. unfold is_dir in E. rewrite D1 in E. cbn [negb orb] in E.
    destruct (v_no_remove v p).
    { injection E as <- <-. split; [|split; [|discriminate]].
      - intros a I. apply in_app_or in I as [I|I]; auto.
      - intros q I. apply in_app_or in I as [I|I]; [destruct (Hq _ I)|]. destruct (Mq _ I) as (->&L). split; [|split; [auto|discriminate]].
        exists name. split; auto. apply under_iff. reflexivity. }
    injection E as <- <-. rewrite <- (app_nil_r more). apply Fin; cbn [In]; try tauto.
    + intros q L. rewrite look_filter by reflexivity. destruct (negb _); auto.
    + intros n q t Nn Uq L _. destruct (look d1 q) eqn:L1; auto. exfalso. apply under_iff in Uq as ->.
      assert (X : look d1 (join_path p n) <> None) by congruence. apply (read_dir_in _ _ _ _ _ Rd1) in X; [destruct X|..]; destruct Nn as [-> | ->]; try discriminate; cbn; intuition discriminate.
    + split; [intros []|]. rewrite look_filter by reflexivity. cbn [fst]. rewrite str_eqb_refl. discriminate.
  - injection E as <- <-. apply Fin.
    + intros q [I|[]]. discriminate I.
    + intros a [<-|[]]. unfold not_. eauto.
    + auto.
    + auto.
    + cbn [In]. tauto.
Qed.

(** * Examples *)

Definition willing : env :=
  mkEnv (fun _ => false) (fun _ => false) (fun _ => false) (fun p => if str_eqb p (lit ".") then Some (lit "/home/u/src") else Some p)
    (fun _ => false) (fun _ => false) (fun _ => []).
Definition home_u : disk := [(lit "/home/u", NDir); (lit "/home/u/notes", NFile (lit "x"))].

Example C64_ex : try_history_path willing (Some (lit "/home/u")) home_u =
  ([], home_u ++ [(lit "/home/u/.pemdas", NDir); (lit "/home/u/.pemdas/.history", NFile [])], Some (lit "/home/u/.pemdas/.history")).
Proof. vm_compute. reflexivity. Qed.
Example C64_ex_in_the_way : snd (try_history_path willing (Some (lit "/home/u")) [(lit "/home/u/.pemdas", NFile [])]) = Some (lit "./.history").
Proof. vm_compute. reflexivity. Qed.
Example C64_ex_refused : snd (try_history_path (mkEnv (fun _ => true) (fun _ => false) (fun _ => false) (fun _ => None) (fun _ => false) (fun _ => false) (fun _ => []))
  (Some (lit "/home/u")) home_u) = None.
Proof. vm_compute. reflexivity. Qed.

Example C65_ex : forall d' r acts, try_history_path willing (Some (lit "/home/u")) home_u = (acts, d', Some r) ->
  uninstall_artifacts willing d' (lit "/home/u/.pemdas")
  = ([AErr (lit "deleting history file found at /home/u/.pemdas/.history" ++ [10%N])], Some home_u).
Proof. intros d' r acts E. vm_compute in E. injection E as <- <- <-. vm_compute. reflexivity. Qed.
Example C65_ex_connected : connected (home_u ++ [(lit "/home/u/.pemdas", NDir); (lit "/home/u/.pemdas/.history", NFile [])]) (lit "/home/u/.pemdas").
Proof.
  intros q x L Uq. apply under_iff in Uq as ->. rewrite join_app in L.
  exists (lit ".history"), [], (lit "/home/u/.pemdas/.history").
  replace (look _ _) with (if str_eqb (lit ".history") x then Some (NFile []) else None) in L by reflexivity.
  destruct (str_eqb (lit ".history") x) eqn:Q; [|congruence]. apply eqb_eq in Q as <-.
  split; [reflexivity|]. split; [discriminate|]. split; [cbn; intuition discriminate|]. split; [apply under_iff; reflexivity|].
  split; [discriminate|auto].
Qed.

(** In the current directory the history file has another name than the one
    that is looked for, and it stays. *)
Theorem C65_current_directory_refuted : exists v d acts d' r said d'',
  try_history_path v None d = (acts, d', Some r) /\ look d r = None /\
  uninstall_artifacts v d' (lit ".") = (said, Some d'') /\ look d'' r = Some (NFile []).
Proof.
  exists willing, [(lit ".", NDir)]. eexists _, _, _, _, _. vm_compute. auto.
Qed.

(** "Non-empty" is said of the current directory even when nothing is left in it. *)
Theorem C65_nonempty_refuted : exists v d acts d', uninstall_artifacts v d (lit "/w") = (acts, Some d') /\
  In (AErr (lit "could not delete non-empty directory `/w`" ++ [10%N])) acts /\
  forall n r, under (lit "/w") n r -> look d' r = None.
Proof.
  exists (mkEnv (fun _ => false) (fun _ => false) (fun _ => false) (fun _ => Some (lit "/w")) (fun _ => false) (fun _ => false) (fun _ => [])).
  exists [(lit "/w", NDir); (lit "/w/.pemdas_history", NFile [])]. eexists _, [(lit "/w", NDir)].
  split; [vm_compute; reflexivity|]. split; [right; left; reflexivity|].
  intros n r Ur. apply under_iff in Ur as ->. reflexivity.
Qed.

Print Assumptions C65_messages.
Print Assumptions C65_nonempty_refuted.
Print Assumptions C64_creates_only_its_own.
Print Assumptions C64_place.
Print Assumptions C64_again.
Print Assumptions C64_starts.
Print Assumptions C65_removes_only_its_own.
Print Assumptions C65_undoes_start_partial.
Print Assumptions C65_current_directory_refuted.
