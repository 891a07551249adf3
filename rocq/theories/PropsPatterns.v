(** Signs and empty lists in patterns, over whole programs: C57 and C58. *)
From Coq Require Import List Arith NArith Bool Lia String.
From Verif Require Import Prelim Chars Syntax Lexer SpecLexer SpecLexRun Parser SpecParser ProofParser2 ProofParser3 ProofParser4 ProofParser6 ProofParser7 PropsParser.
Import ListNotations.

(** * Counting in a tree *)

Definition total {A} (f : A -> nat) (l : list A) : nat := list_sum (map f l).

Section Count.
(** What a pattern counts by itself. *)
Variable own : pat -> nat.

Fixpoint in_pat (p : pat) : nat :=
  own p + match p with
          | PNeg q | PAs _ q => in_pat q
          | PCon _ ps | PTup ps | PArr ps => list_sum (map in_pat ps)
          | PLnk a b => in_pat a + in_pat b
          | _ => 0
          end.

Fixpoint in_expr (e : expr) : nat :=
  match e with
  | App a b | Bin a _ b => in_expr a + in_expr b
  | Lam p e => in_pat p + in_expr e
  | Grp e | Neg e | Let _ e => in_expr e
  | Tup es | List es => list_sum (map in_expr es)
  | _ => 0
  end.

Definition in_ast (a : ast) : nat := total in_expr (a_exprs a).
End Count.

(** Negative patterns; patterns of the empty list. *)
Definition is_neg (p : pat) : nat := match p with PNeg _ => 1 | _ => 0 end.
Definition is_empty (p : pat) : nat := match p with PArr [] => 1 | _ => 0 end.

(** * Counting in a text *)

(** Minus signs directly after an opening parenthesis; [b]: the token before is one. *)
Fixpoint kept (b : bool) (ts : list ptok) : nat :=
  match ts with
  | [] => 0
  | (TDash, _) :: r => (if b then 1 else 0) + kept false r
  | (TParenL, _) :: r => kept true r
  | _ :: r => kept false r
  end.
Fixpoint ends_open (b : bool) (ts : list ptok) : bool :=
  match ts with
  | [] => b
  | (TParenL, _) :: r => ends_open true r
  | _ :: r => ends_open false r
  end.

(** Where one is between a backslash and its arrow. *)
Inductive place := Outside | Within | Opened | Closed.   (* after an opening bracket; after the closing one of an empty list *)

Definition move (s : place) (t : token) : place :=
  match s, t with
  | Outside, TLambda => Within
  | Outside, _ => Outside
  | _, TArrow => Outside
  | _, TBrackL => Opened
  | Opened, TBrackR => Closed
  | _, _ => Within
  end.
Fixpoint moves (s : place) (ts : list ptok) : place :=
  match ts with [] => s | (t, _) :: r => moves (move s t) r end.

(** Brackets that close at once, and those among them followed by another closing
    bracket; only between a backslash and its arrow. *)
Fixpoint closed_at_once (s : place) (ts : list ptok) : nat :=
  match ts with
  | [] => 0
  | (t, _) :: r => match s, t with Opened, TBrackR => 1 | _, _ => 0 end + closed_at_once (move s t) r
  end.
Fixpoint closed_twice (s : place) (ts : list ptok) : nat :=
  match ts with
  | [] => 0
  | (t, _) :: r => match s, t with Closed, TBrackR => 1 | _, _ => 0 end + closed_twice (move s t) r
  end.

(** * Proofs *)

Lemma total_nil {A} (f : A -> nat) : total f [] = 0. Proof. reflexivity. Qed.
Lemma total_cons {A} (f : A -> nat) x l : total f (x :: l) = f x + total f l. Proof. reflexivity. Qed.
Lemma total_app {A} (f : A -> nat) x y : total f (x ++ y) = total f x + total f y.
Proof. unfold total. now rewrite map_app, list_sum_app. Qed.

Lemma kept_app x : forall b y, kept b (x ++ y) = kept b x + kept (ends_open b x) y.
Proof. induction x as [|(t, k) x IH]; intros b y; auto. destruct t; cbn; rewrite ?IH; lia. Qed.
Lemma ends_app x : forall b y, ends_open b (x ++ y) = ends_open (ends_open b x) y.
Proof. induction x as [|(t, k) x IH]; intros b y; auto. destruct t; cbn; rewrite ?IH; auto. Qed.
Lemma moves_app x : forall s y, moves s (x ++ y) = moves (moves s x) y.
Proof. induction x as [|(t, k) x IH]; intros s y; auto. cbn. apply IH. Qed.
Lemma once_app x : forall s y, closed_at_once s (x ++ y) = closed_at_once s x + closed_at_once (moves s x) y.
Proof. induction x as [|(t, k) x IH]; intros s y; auto. cbn. rewrite IH. lia. Qed.
Lemma twice_app x : forall s y, closed_twice s (x ++ y) = closed_twice s x + closed_twice (moves s x) y.
Proof. induction x as [|(t, k) x IH]; intros s y; auto. cbn. rewrite IH. lia. Qed.

(** Which flags a kind of pattern may begin with. *)
Definition flag (q : pkind) (b : bool) : Prop :=
  match q with Plain | Con => True | Head => b = true | _ => b = false end.

Ltac both H :=
  let A := fresh "A" in let B := fresh "B" in
  try (pose proof (H false ltac:(first [exact I|reflexivity])) as A; destruct A);
  try (pose proof (H true ltac:(first [exact I|reflexivity])) as B; destruct B); clear H.
Ltac instances := repeat match goal with H : forall b, flag _ b -> _ |- _ => both H end.
Ltac split_kind := repeat match goal with H : ?q = Plain \/ ?q = Inner |- _ => destruct H; subst q end.
Ltac count_kept := cbn [kept ends_open app]; rewrite ?kept_app, ?ends_app; cbn [kept ends_open];
  repeat match goal with
         | H : ends_open ?b ?x = _ |- context [ends_open ?b ?x] => rewrite H
         | H : kept ?b ?x = _ |- context [kept ?b ?x] => rewrite H
         end; cbn [kept ends_open];
  repeat match goal with
         | H : ends_open ?b ?x = _ |- context [ends_open ?b ?x] => rewrite H
         | H : kept ?b ?x = _ |- context [kept ?b ?x] => rewrite H
         end;
  rewrite ?total_cons, ?total_nil.

Lemma in_neg p : in_pat is_neg (PNeg p) = S (in_pat is_neg p). Proof. reflexivity. Qed.
Lemma in_as own s p : in_pat own (PAs s p) = own (PAs s p) + in_pat own p. Proof. reflexivity. Qed.
Lemma in_con own s ps : in_pat own (PCon s ps) = own (PCon s ps) + total (in_pat own) ps. Proof. reflexivity. Qed.
Lemma in_tup own ps : in_pat own (PTup ps) = own (PTup ps) + total (in_pat own) ps. Proof. reflexivity. Qed.
Lemma in_arr own ps : in_pat own (PArr ps) = own (PArr ps) + total (in_pat own) ps. Proof. reflexivity. Qed.

Lemma pats_kept q ts ps r : pats q ts ps r -> forall fl, flag q fl ->
  ends_open fl ts = false /\ kept fl ts = total (in_pat is_neg) ps.
Proof.
  induction 1; intros fl F; split_kind; cbn [flag] in F; try subst fl; instances;
    repeat rewrite total_cons, total_nil in *; rewrite ?total_nil in *;
    repeat match goal with fl : bool |- _ => destruct fl end; count_kept;
    rewrite ?in_neg, ?in_as, ?in_con, ?in_tup, ?in_arr, ?total_cons, ?total_nil; cbn [is_neg]; try (split; [reflexivity|]; cbn; lia).
  all: split; auto; try lia.
Qed.

Definition eflag (q : ekind) (b : bool) : Prop :=
  match q with SpecParser.KExpr _ | KApp _ | KAtom => True | _ => b = false end.

Lemma operators_kept ts is r : operators ts is r -> ends_open false ts = false /\ kept false ts = 0.
Proof.
  induction 1 as [t k i r O _|t k i k' ts is r O _ IH].
  - destruct O; auto.
  - destruct O; cbn; auto.
Qed.

Lemma declares_kept ts d r : declares ts d r -> forall b, ends_open b ts = false /\ kept b ts = 0.
Proof.
  intros [t a k n k' ts' is r' A _ O|t a k ts' is r' A _ O] b; apply operators_kept in O as (O1&O2); destruct A; cbn; auto.
Qed.

Lemma commas_kept cs : Forall (fun x : ptok => fst x = TComma) cs -> cs <> [] -> forall b, ends_open b cs = false /\ kept b cs = 0.
Proof.
  induction 1 as [|(t, k) cs E _ IH]; intros Ne b; [congruence|]. cbn in E. subst t. cbn.
  destruct cs as [|c cs]; [auto|]. apply IH. discriminate.
Qed.

Lemma in_lams own e ps : in_expr own (fold_right Lam e ps) = total (in_pat own) ps + in_expr own e.
Proof. induction ps as [|p ps IH]; auto. cbn [fold_right in_expr]. rewrite IH, total_cons. lia. Qed.
Lemma in_etup own es : in_expr own (Tup es) = total (in_expr own) es. Proof. reflexivity. Qed.
Lemma in_elist own es : in_expr own (List es) = total (in_expr own) es. Proof. reflexivity. Qed.

Ltac eboth H :=
  let A := fresh "A" in let B := fresh "B" in
  try (pose proof (H false ltac:(first [exact I|reflexivity])) as A; destruct A);
  try (pose proof (H true ltac:(first [exact I|reflexivity])) as B; destruct B); clear H.
Ltac einstances := repeat match goal with H : forall b, eflag _ b -> _ |- _ => eboth H end.

(** Of the arguments, what [f] counts is not theirs. *)
Definition head_count own (q : ekind) : nat := match q with KArgs _ f => in_expr own f | _ => 0 end.

Lemma exprs_kept lay q ts es r : exprs lay q ts es r -> forall fl, eflag q fl ->
  ends_open fl ts = false /\ head_count is_neg q + kept fl ts = total (in_expr is_neg) es.
Proof.
  induction 1; intros fl F; cbn [eflag] in F; try subst fl;
    repeat match goal with H : exprs lay _ (?x :: ?us) _ _ |- _ => let w := fresh "w" in remember (x :: us) as w end;
    einstances; cbn [head_count] in *;
    try match goal with H : pats Juxt _ _ _ |- _ => apply pats_kept with (fl := false) in H; [destruct H|reflexivity] end;
    try match goal with H : declares _ _ _ |- _ => apply declares_kept with (b := false) in H; destruct H end;
    try match goal with H : Forall _ ?cs, N : ?cs <> [] |- _ => pose proof (commas_kept cs H N true) as (?&?) end;
    try match goal with H : operator _ _ |- _ => destruct H end;
    repeat rewrite total_cons, total_nil in *; rewrite ?total_nil in *;
    repeat match goal with fl : bool |- _ => destruct fl end; cbn [kept ends_open] in *; count_kept;
    rewrite ?in_lams, ?in_etup, ?in_elist, ?total_cons, ?total_nil in *; cbn [in_expr] in *; try (split; [reflexivity|]; lia).
  all: split; auto; try lia.
Qed.

(** Empty lists. *)
Definition entry (q : pkind) (s : place) : Prop :=
  match q with Juxt | Commas _ => s = Within | _ => s <> Outside end.

Ltac places := repeat match goal with
  | H : forall s, entry ?q s -> _ |- _ =>
      try destruct (H Opened ltac:(discriminate)) as (?&?&?);
      try destruct (H Closed ltac:(discriminate)) as (?&?&?);
      destruct (H Within ltac:(first [reflexivity|discriminate])) as (?&?&?); clear H
  end.
Ltac at_places := cbn [moves closed_at_once closed_twice move app]; rewrite ?moves_app, ?once_app, ?twice_app;
  cbn [moves closed_at_once closed_twice move];
  repeat (match goal with
         | H : moves ?b ?x = _ |- context [moves ?b ?x] => rewrite H
         | H : closed_at_once ?b ?x = _ |- context [closed_at_once ?b ?x] => rewrite H
         | H : closed_twice ?b ?x = _ |- context [closed_twice ?b ?x] => rewrite H
         end; cbn [moves closed_at_once closed_twice move]).

Lemma pats_empty q ts ps r : pats q ts ps r -> forall s, entry q s ->
  moves s ts = Within /\ closed_at_once s ts = total (in_pat is_empty) ps /\ closed_twice s ts = total (in_pat is_empty) ps.
Proof.
  induction 1; intros pl En; split_kind; cbn [entry] in En; places;
    repeat rewrite total_cons, total_nil in *; rewrite ?total_nil in *;
    (destruct pl; try congruence); try discriminate; at_places;
    rewrite ?in_as, ?in_con, ?in_tup, ?in_arr, ?total_cons, ?total_nil; cbn [is_empty];
    try (split; [reflexivity|]; split; cbn; lia).
  all: try (repeat split; auto; cbn; lia).
Qed.

Lemma operators_out ts is r : operators ts is r ->
  moves Outside ts = Outside /\ closed_at_once Outside ts = 0 /\ closed_twice Outside ts = 0.
Proof. induction 1 as [t k i r O _|t k i k' ts is r O _ IH]; destruct O; cbn; auto. Qed.

Lemma declares_out ts d r : declares ts d r ->
  moves Outside ts = Outside /\ closed_at_once Outside ts = 0 /\ closed_twice Outside ts = 0.
Proof.
  intros [t a k n k' ts' is r' A _ O|t a k ts' is r' A _ O]; apply operators_out in O as (O1&O2&O3); destruct A; cbn; auto.
Qed.

Lemma commas_out cs : Forall (fun x : ptok => fst x = TComma) cs ->
  moves Outside cs = Outside /\ closed_at_once Outside cs = 0 /\ closed_twice Outside cs = 0.
Proof. induction 1 as [|(t, k) cs E _ IH]; cbn in *; auto. subst t. auto. Qed.

Lemma exprs_empty lay q ts es r : exprs lay q ts es r ->
  moves Outside ts = Outside /\ head_count is_empty q + closed_at_once Outside ts = total (in_expr is_empty) es
  /\ head_count is_empty q + closed_twice Outside ts = total (in_expr is_empty) es.
Proof.
  induction 1;
    repeat match goal with H : exprs lay _ (?x :: ?us) _ _ |- _ => let w := fresh "w" in remember (x :: us) as w end;
    repeat match goal with H : _ /\ _ |- _ => destruct H end;
    try match goal with H : pats Juxt _ _ _ |- _ => apply pats_empty with (s := Within) in H; [destruct H as (?&?&?)|reflexivity] end;
    try match goal with H : declares _ _ _ |- _ => apply declares_out in H; destruct H as (?&?&?) end;
    try match goal with H : Forall _ ?cs, N : ?cs <> [] |- _ => apply commas_out in H; destruct H as (?&?&?) end;
    try match goal with H : operator _ _ |- _ => destruct H end;
    repeat rewrite total_cons, total_nil in *; rewrite ?total_nil in *; cbn [head_count] in *;
    at_places; rewrite ?in_lams, ?in_etup, ?in_elist, ?total_cons, ?total_nil in *; cbn [in_expr] in *.
  all: try (repeat split; auto; lia).
Qed.

Definition in_decl own (d : decl) : nat := match d with DExpr e => in_expr own e | DInfix _ => 0 end.

Lemma program_kept lay ts ds : program lay ts ds -> kept false ts = total (in_decl is_neg) ds /\ ends_open false ts = false.
Proof.
  assert (D : forall ts d r, decl_of lay ts d r -> kept false ts = in_decl is_neg d /\ ends_open false ts = false).
  { intros t d r [t' d' r' H|t' k t'' e r' H].
    - apply declares_kept with (b := false) in H. cbn. tauto.
    - apply exprs_kept with (fl := false) in H; [|exact I]. cbn [head_count] in H. rewrite total_cons, total_nil in H.
      unfold in_decl. destruct H as (A&B). split; [lia|exact A]. }
  induction 1 as [|ts d k us ds H _ IH|ts d us ds H _ _ IH]; auto; apply D in H; destruct H as (A&B), IH as (C&E);
    rewrite kept_app, ends_app, total_cons, B; cbn [kept ends_open]; split; auto; lia.
Qed.

Lemma program_empty lay ts ds : program lay ts ds -> closed_at_once Outside ts = total (in_decl is_empty) ds /\
  closed_twice Outside ts = total (in_decl is_empty) ds /\ moves Outside ts = Outside.
Proof.
  assert (D : forall ts d r, decl_of lay ts d r -> closed_at_once Outside ts = in_decl is_empty d /\
    closed_twice Outside ts = in_decl is_empty d /\ moves Outside ts = Outside).
  { intros t d r [t' d' r' H|t' k t'' e r' H].
    - apply declares_out in H. cbn. tauto.
    - apply exprs_empty in H. cbn [head_count] in H. rewrite total_cons, total_nil in H.
      unfold in_decl. destruct H as (A&B&C). repeat split; auto; lia. }
  induction 1 as [|ts d k us ds H _ IH|ts d us ds H _ _ IH]; auto; apply D in H; destruct H as (A&B&C), IH as (E&F&G);
    rewrite once_app, twice_app, moves_app, total_cons, C; cbn [closed_at_once closed_twice moves move]; repeat split; auto; lia.
Qed.

Lemma in_pushed own ds : forall a, in_ast own (fold_left ast_push ds a) = in_ast own a + total (in_decl own) ds.
Proof.
  induction ds as [|d ds IH]; intros a; cbn [fold_left]; [rewrite total_nil; lia|].
  rewrite IH, total_cons. destruct d; unfold in_ast; cbn [ast_push a_exprs in_decl]; [lia|].
  rewrite total_app, total_cons, total_nil. lia.
Qed.

Section WithUcd.
Context {U : ucd}.

(** The negative patterns of a program are the minus signs directly after an
    opening parenthesis: no others. *)
Theorem C57_exact : letters U -> forall src a l ts, no_lfcr src -> parse src = POk a l -> ctokens [] src ts ->
  in_ast is_neg a = kept false ts.
Proof.
  intros HU src a l ts N E T. destruct (proj1 (parse_iff HU src a N)) as (ts'&ds&T'&P&->); [eauto|].
  replace ts with ts' by (apply (sees_source HU) in T, T'; auto; eapply sees_unique; eauto).
  apply program_kept in P as (P&_). now rewrite in_pushed, P.
Qed.

(** The patterns of the empty list in a program are the brackets closed at once
    between a backslash and its arrow, and all of them are followed by another
    closing bracket. *)
Theorem C58_exact : letters U -> forall src a l ts, no_lfcr src -> parse src = POk a l -> ctokens [] src ts ->
  closed_at_once Outside ts = in_ast is_empty a /\ closed_twice Outside ts = in_ast is_empty a.
Proof.
  intros HU src a l ts N E T. destruct (proj1 (parse_iff HU src a N)) as (ts'&ds&T'&P&->); [eauto|].
  replace ts with ts' by (apply (sees_source HU) in T, T'; auto; eapply sees_unique; eauto).
  apply program_empty in P as (P&Q&_). rewrite in_pushed. auto.
Qed.
End WithUcd.

(** * Cases *)

(** A sign that is kept, one that is lost in a list, one that is lost in a tuple, and
    one that is an operator; an empty list inside a list. *)
Definition signs := lit "(\(-x) [-y, [-z]] (a, -b) -> a - (\[ []], []]] -> b))".
Definition signs_tokens : list ptok :=
  [(TParenL, 2); (TLambda, 3); (TParenL, 4); (TDash, 5); (TLower (lit "x"), 6); (TParenR, 7); (TBrackL, 9); (TDash, 10)].
Example C57_ex_counts : option_map (fun t => (total (in_expr is_neg) (snd t), total (in_expr is_empty) (snd t))) (p signs) = Some (1, 2).
Proof. vm_compute. reflexivity. Qed.
Example C57_ex_kept : kept false signs_tokens = 1.
Proof. reflexivity. Qed.
Example C58_ex_counts : closed_at_once Outside [(TLambda, 2); (TBrackL, 3); (TBrackR, 4); (TArrow, 7)] = 1 /\
  closed_twice Outside [(TLambda, 2); (TBrackL, 3); (TBrackR, 4); (TArrow, 7)] = 0.
Proof. split; reflexivity. Qed.

Print Assumptions C57_exact.
Print Assumptions C58_exact.
