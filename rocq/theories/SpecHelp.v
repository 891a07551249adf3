(** The commands that a help text announces, read off its layout. *)
From Coq Require Import List NArith Bool String.
From Verif Require Import Prelim Chars.
Import ListNotations.
Local Open Scope string_scope.
Local Open Scope list_scope.
Local Open Scope N_scope.

(** The lines of a text, each up to a newline. *)
Fixpoint rows (s : str) : list str :=
  match s with
  | [] => [[]]
  | 10 :: s' => [] :: rows s'
  | c :: s' => match rows s' with l :: ls => (c :: l) :: ls | [] => [[c]] end
  end.

(** The number of leading spaces, and what follows them. *)
Fixpoint indent (s : str) : nat * str :=
  match s with
  | 32 :: s' => let (n, r) := indent s' in (S n, r)
  | _ => (O, s)
  end.

(** What stands before two spaces in a row, and whether anything follows. *)
Fixpoint left_column (s : str) : str * bool :=
  match s with
  | 32 :: 32 :: s' => ([], true)
  | c :: s' => let (l, b) := left_column s' in (c :: l, b)
  | [] => ([], false)
  end.

(** The words between single spaces. *)
Fixpoint pieces (s : str) : list str :=
  match s with
  | [] => [[]]
  | 32 :: s' => [] :: pieces s'
  | c :: s' => match pieces s' with l :: ls => (c :: l) :: ls | [] => [[c]] end
  end.
Fixpoint spaced (ws : list str) : str :=
  match ws with
  | [] => []
  | [w] => w
  | w :: ws' => w ++ 32 :: spaced ws'
  end.

(** The names of a heading such as [:quit, :q], and the rest of it. *)
Fixpoint names_of_heading (ws : list str) : list str * list str :=
  match ws with
  | w :: ws' =>
      match rev w with
      | 44 :: v => let (ns, r) := names_of_heading ws' in (rev v :: ns, r)
      | _ => ([w], ws')
      end
  | [] => ([], [])
  end.

(** A usage is a name and what may be written after it.  A heading that is not
    explained only introduces the usages below it; a line that starts with a
    dash or an angle bracket, eight spaces in, is one of them for each name. *)
Fixpoint usages (names : list str) (ls : list str) : list (str * str) :=
  match ls with
  | [] => []
  | l :: ls' =>
      match indent l with
      | (4%nat, (58 :: _) as t) =>
          let (h, explained) := left_column t in
          let (ns, r) := names_of_heading (pieces h) in
          (if explained then map (fun n => (n, spaced r)) ns else []) ++ usages ns ls'
      | (8%nat, ((45 :: _) | (60 :: _)) as t) => map (fun n => (n, fst (left_column t))) names ++ usages names ls'
      | _ => usages names ls'
      end
  end.

Definition announced (help : str) : list (str * str) := usages [] (rows help).

(** What may be typed for the words of a usage: [<x>] stands for a word, [<x>?]
    and [[<x>]] for at most one, [<x>*] for any number, [<x>+] for at least one,
    anything else for itself. *)
Definition blank_end (w : str) : option chr :=
  match w with 60 :: _ => match rev w with c :: _ => Some c | [] => None end | 91 :: 60 :: _ => Some 63 | _ => None end.
Definition a_word (w : str) : Prop := w <> [] /\ Forall (fun c => is_white c = false) w.
Inductive fills : list str -> list str -> Prop :=
| fi_nil : fills [] []
| fi_same p ps ws : blank_end p = None -> fills ps ws -> fills (p :: ps) (p :: ws)
| fi_one p e ps w ws : blank_end p = Some e -> a_word w -> fills ps ws -> fills (p :: ps) (w :: ws)
| fi_none p ps ws : blank_end p = Some 63 \/ blank_end p = Some 42 -> fills ps ws -> fills (p :: ps) ws
| fi_more p ps w ws : blank_end p = Some 42 \/ blank_end p = Some 43 -> a_word w -> fills (p :: ps) ws -> fills (p :: ps) (w :: ws).
Definition pattern (u : str * str) : list str := match snd u with [] => [] | o => pieces o end.

(** The command lines that are announced. *)
Definition offered (help : str) (n : str) (ws : list str) : Prop :=
  exists u, In u (announced help) /\ fst u = n /\ fills (pattern u) ws.
