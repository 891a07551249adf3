(** The hash table of the interner: C91. *)
From Coq Require Import List Arith NArith Bool String Lia Permutation.
From Verif Require Import Prelim Interner SpecInterner ProofTable ProofInterner PropsInterner HashedLexicon ProofHashedLexicon.
From Verif Require Hashed.
Import ListNotations.

(** * What the interner is asked *)

Inductive request :=
| Intern (s : str)
| Text (id : N)
| Move (f : list (N * (sref * N)) -> list (N * (sref * N))).  (* the table moves its slots *)

Inductive reply := Symbol (id : N) | Shown (t : outcome (option str)) | Moved.

Fixpoint serve (grant : nat -> nat) (qs : list request) (x : lexicon) : list reply :=
  match qs with
  | [] => []
  | Intern s :: r => Symbol (snd (intern grant x s)) :: serve grant r (fst (intern grant x s))
  | Text id :: r => Shown (lookup x id) :: serve grant r x
  | Move _ :: r => Moved :: serve grant r x
  end.

(** [None] is a dangling key. *)
Fixpoint hserve (grant : nat -> nat) hash scan (qs : list request) (x : hlex) : option (hlex * list reply) :=
  match qs with
  | [] => Some (x, [])
  | Intern s :: r =>
      match hintern grant hash scan x s with
      | Some (x1, id) => option_map (fun p => (fst p, Symbol id :: snd p)) (hserve grant hash scan r x1)
      | None => None
      end
  | Text id :: r => option_map (fun p => (fst p, Shown (hlookup x id) :: snd p)) (hserve grant hash scan r x)
  | Move f :: r => option_map (fun p => (fst p, Moved :: snd p)) (hserve grant hash scan r (hmove f x))
  end.

Definition loses_none (q : request) : Prop := match q with Move f => forall l, Permutation l (f l) | _ => True end.

(** The texts asked to be interned. *)
Definition interned (qs : list request) : list str :=
  flat_map (fun q => match q with Intern s => [s] | _ => [] end) qs.

Lemma hserve_ok grant hash scan qs : allocator grant -> sees scan -> Forall loses_none qs ->
  forall h x ss, same hash h x ss ->
  exists h', hserve grant hash scan qs h = Some (h', serve grant qs x) /\
    same hash h' (SpecInterner.run grant x (interned qs)) (fold_left remember (interned qs) ss).
Proof.
  intros G Se F. induction F as [|q qs Fq _ IH]; intros h x ss W; [cbn; eauto|].
  destruct q as [s|id|f]; cbn [hserve serve interned flat_map app].
  - destruct (hintern_ok grant G hash scan Se h x ss s W) as (h1&->&W1).
    destruct (IH h1 _ _ W1) as (h2&->&W2). exists h2. split; auto.
  - destruct (IH h _ _ W) as (h2&->&W2). exists h2. rewrite (hlookup_ok hash h x ss id W). split; auto.
  - destruct (IH (hmove f h) x ss) as (h2&->&W2); [now apply hmove_ok|]. exists h2. split; auto.
Qed.

Opaque predefined.
Lemma hstart_ok grant hash scan : allocator grant -> sees scan ->
  exists h, hreserved grant hash scan predefined = Some h /\ same hash h (lexicon_default grant) predefined.
Proof.
  intros G Se. destruct (hinterns_ok grant G hash scan Se predefined _ _ _ (hempty_ok grant hash (List.length predefined)))
    as (h&E&W). rewrite remember_predefined in W. exists h. split; [exact E|exact W].
Qed.

(** ** C91 *)

(** Whatever the hasher makes of a text, whatever slots the table looks at on its
    way and however it moves them, the interner answers every sequence of
    requests as the list does, and none of its keys ever dangles. *)
Theorem C91_interner : forall grant hash scan qs,
  allocator grant -> sees scan -> Forall loses_none qs ->
  exists h h', hreserved grant hash scan predefined = Some h /\
    hserve grant hash scan qs h = Some (h', serve grant qs (lexicon_default grant)).
Proof.
  intros grant hash scan qs G Se F. destruct (hstart_ok grant hash scan G Se) as (h&E&W).
  destruct (hserve_ok grant hash scan qs G Se F h _ _ W) as (h'&E'&_). eauto.
Qed.

(** The debug assertions of [intern] (lines 55-56), at every moment of a run:
    interning the text again gives the same symbol and changes nothing; looking
    the symbol up gives the text exactly as long as there are no more than 2^32
    texts. *)
Theorem C91_asserts : forall grant hash scan qs h h' l s,
  allocator grant -> sees scan -> Forall loses_none qs ->
  hreserved grant hash scan predefined = Some h ->
  hserve grant hash scan qs h = Some (h', l) ->
  exists h1 id, hintern grant hash scan h' s = Some (h1, id) /\
    hintern grant hash scan h1 s = Some (h1, id) /\
    ((N.of_nat (distinct (interned qs ++ [s])) <= limit)%N -> hlookup h1 id = Ok (Some s)) /\
    (~ In s predefined -> ~ In s (interned qs) -> (limit <= N.of_nat (distinct (interned qs)))%N ->
     hlookup h1 id <> Ok (Some s)).
Proof.
  intros grant hash scan qs h h' l s G Se F E0 E.
  destruct (hstart_ok grant hash scan G Se) as (h0&E1&W0). rewrite E0 in E1. injection E1 as <-.
  destruct (hserve_ok grant hash scan qs G Se F h _ _ W0) as (h2&E2&W2). rewrite E in E2. injection E2 as X1 X2; subst h2 l.
  change (SpecInterner.run grant (lexicon_default grant) (interned qs)) with (state grant (interned qs)) in W2.
  change (fold_left remember (interned qs) predefined) with (strings (interned qs)) in W2.
  destruct (hintern_ok grant G hash scan Se _ _ _ s W2) as (h1&E3&W3).
  destruct (hintern_ok grant G hash scan Se _ _ _ s W3) as (h3&E4&W4).
  exists h1, (symbol_of grant (interned qs) s). split; [exact E3|].
  assert (St : fst (intern grant (state grant (interned qs)) s) = state grant (interned qs ++ [s])).
  { unfold state, SpecInterner.run. now rewrite fold_left_app. }
  split; [|split].
  - unfold hintern in *. rewrite (sa_live _ _ _ _ W3), (search_ok _ _ Se _ _ _ _ W3).
    pose proof (intern_spec grant G _ _ s (sa_wf _ _ _ _ W2)) as IS.
    unfold symbol_of. destruct (intern grant (state grant (interned qs)) s) as (x1, id). cbn [fst snd] in *.
    destruct IS as (_&->&_). unfold remember. destruct (index_of s (strings (interned qs))) as [i|] eqn:Ei.
    + rewrite Ei. reflexivity.
    + assert (Ni : forall i, index_of s (strings (interned qs) ++ [s]) = Some i -> i = List.length (strings (interned qs))).
      { intros i. revert i. clear -Ei. induction (strings (interned qs)) as [|t ss IH]; intros i.
        - cbn. destruct (str_eqb_spec s s); [intros X; congruence|congruence].
        - cbn in *. destruct (str_eqb t s); [discriminate|]. destruct (index_of s ss); [discriminate|].
          destruct (index_of s (ss ++ [s])) as [j|]; cbn; [|discriminate]. intros X. injection X as <-. now rewrite (IH eq_refl j eq_refl). }
      destruct (index_of s (strings (interned qs) ++ [s])) as [i|] eqn:Ej.
      * cbn. now rewrite (Ni i eq_refl).
      * exfalso. apply index_of_none in Ej. apply Ej, in_or_app. right. now left.
  - intros B. rewrite (hlookup_ok hash h1 _ _ _ W3), St.
    exact (C41_text_is_permanent grant (interned qs) s [] G B).
  - intros P I L. rewrite (hlookup_ok hash h1 _ _ _ W3). intros C.
    assert (Ns : ~ In s (strings (interned qs))).
    { rewrite (strings_in). intros X. apply in_app_or in X. tauto. }
    pose proof (proj2 (index_of_none _ _) Ns) as Ei.
    rewrite symbol_of_spec, Ei in C by auto. unfold remember in W3. rewrite Ei in W3.
    pose proof (wf_vec _ _ (sa_wf _ _ _ _ W3)) as Wv. revert C Wv.
    unfold lookup. generalize (fst (intern grant (state grant (interned qs)) s)) as x.
    intros x C Wv. rewrite <- (strings_distinct grant G) in L.
    set (n := List.length (strings (interned qs))) in *. set (j := N.to_nat (num n)) in *.
    assert (Lj : j < n).
    { pose proof (N.mod_lt (N.of_nat n) 4294967296 ltac:(discriminate)). unfold j, num, limit in *. lia. }
    assert (X : exists r t, nth_error (x_vec x) j = Some r /\ deref (live x) r = Some t /\ In t (strings (interned qs))).
    { clear C W3. unfold n in Lj. clearbody j. clear -Wv Lj. revert Wv Lj. generalize (x_vec x) as vec.
      generalize (strings (interned qs)) as ss. intros ss vec Wv Lj. revert j vec Wv Lj.
      induction ss as [|t ss IH]; intros j vec Wv Lj; [cbn in Lj; lia|].
      inversion Wv as [|r t' vec' ss' D Wv']; subst. destruct j as [|j].
      - exists r, t. cbn. auto.
      - destruct (IH j vec' Wv') as (r0&t0&A&B&M); [cbn in Lj; lia|]. exists r0, t0. cbn. auto. }
    destruct X as (r&t&E5&D&M). rewrite E5, D in C. injection C as ->. exact (Ns M).
Qed.

(** A table that puts the text where FNV says and that looks at the slots of a
    text's bucket only. *)
Definition bucket_scan (h : N) (l : list (N * (sref * N))) : list (N * (sref * N)) :=
  filter (fun p => N.eqb (N.modulo (fst p) 8) (N.modulo h 8)) l.

Lemma bucket_scan_sees : sees bucket_scan.
Proof.
  intros h l. split.
  - intros p B. now apply filter_In in B.
  - intros v B. apply filter_In. split; auto. cbn [fst]. apply N.eqb_refl.
Qed.

Example C91_ex :
  option_map snd (match hreserved exact Hashed.text_hash bucket_scan predefined with
    | Some h => hserve exact Hashed.text_hash bucket_scan
                  [Intern (lit "x"); Intern (lit "+"); Move (@rev _); Intern (lit "yy"); Intern (lit "x"); Text 29] h
    | None => None
    end)
  = Some [Symbol 28; Symbol 10; Moved; Symbol 29; Symbol 28; Shown (Ok (Some (lit "yy")))].
Proof. vm_compute. reflexivity. Qed.

(** A search that overlooks a slot (here: all) numbers the same text twice. *)
Example C91_overlooked :
  option_map snd (match hreserved exact Hashed.text_hash (fun _ _ => []) [] with
    | Some h => hserve exact Hashed.text_hash (fun _ _ => []) [Intern (lit "x"); Intern (lit "x")] h
    | None => None
    end) = Some [Symbol 0; Symbol 1].
Proof. vm_compute. reflexivity. Qed.

Print Assumptions C91_interner.
Print Assumptions C91_asserts.
