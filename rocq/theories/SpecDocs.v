(** How composed text ought to look. *)
From Coq Require Import List NArith Bool.
From Verif Require Import Prelim Style SpecStyle Docs.
Import ListNotations.

(** What a configuration asks for on top of the attributes around it. *)
Definition over (c : config) (t : term) : term :=
  mkTerm (t_bold t || c_bold c) (t_dim t || c_dim c) (t_italic t || c_italic c)
    (t_underlined t || c_underlined c) (t_blinking t || c_blinking c) (t_inverted t || c_inverted c)
    (t_hidden t || c_hidden c) (t_strike t || c_strike c)
    (match c_fg c with Some x => Some x | None => t_fg t end)
    (match c_bg c with Some x => Some x | None => t_bg t end).

(** Every part has the attributes around it and those it asks for itself. *)
Fixpoint wanted (d : doc) (t : term) : list (chr * term) :=
  match d with
  | DText s => map (fun c => (c, t)) s
  | DStyled d c => wanted d (over c t)
  | DAnd a b | DThen a b => wanted a t ++ wanted b t
  | DHigh d col => wanted d (over (set_fg_color col cfg_default) t)
  end.

(** The texts, in order. *)
Fixpoint texts (d : doc) : str :=
  match d with
  | DText s => s
  | DStyled d _ | DHigh d _ => texts d
  | DAnd a b | DThen a b => texts a ++ texts b
  end.

(** A configuration the builder methods can make, without the two mistakes of
    C44 (foreground [Normal]) and C45 (a palette colour as background). *)
Definition sound (c : config) : Prop := c_reset c = false /\ proper (c_fg c) /\ is_rgb (c_bg c).

Inductive bare : doc -> Prop :=
| ba_text s : no_esc s -> bare (DText s)
| ba_and a b : bare a -> bare b -> bare (DAnd a b)
| ba_then a b : bare a -> bare b -> bare (DThen a b).

(** Inside a style: nothing follows a styled part. *)
Inductive under : doc -> Prop :=
| un_bare d : bare d -> under d
| un_and a b : bare a -> under b -> under (DAnd a b)
| un_then a b : bare a -> under b -> under (DThen a b)
| un_style d c : sound c -> c <> cfg_default -> under d -> under (DStyled d c)
| un_high d col : col <> Ansi Normal -> under d -> under (DHigh d col).

Inductive tidy : doc -> Prop :=
| ti_text s : no_esc s -> tidy (DText s)
| ti_and a b : tidy a -> tidy b -> tidy (DAnd a b)
| ti_then a b : tidy a -> tidy b -> tidy (DThen a b)
| ti_style d c : sound c -> under d -> tidy (DStyled d c)
| ti_high d col : col <> Ansi Normal -> under d -> tidy (DHigh d col).

(** All texts are plain. *)
Inductive clean : doc -> Prop :=
| cl_text s : no_esc s -> clean (DText s)
| cl_and a b : clean a -> clean b -> clean (DAnd a b)
| cl_then a b : clean a -> clean b -> clean (DThen a b)
| cl_style d c : clean d -> clean (DStyled d c)
| cl_high d col : clean d -> clean (DHigh d col).

(** All texts are plain and all configurations sound. *)
Inductive soundly : doc -> Prop :=
| so_text s : no_esc s -> soundly (DText s)
| so_and a b : soundly a -> soundly b -> soundly (DAnd a b)
| so_then a b : soundly a -> soundly b -> soundly (DThen a b)
| so_style d c : sound c -> soundly d -> soundly (DStyled d c)
| so_high d col : col <> Ansi Normal -> soundly d -> soundly (DHigh d col).

(** How composed text does look: a styled part begins with what it asks for on
    top of what is in force, or with nothing if it asks for nothing, and when it
    ends nothing is in force any more. *)
Fixpoint looks (d : doc) (u : term) : list (chr * term) * term :=
  match d with
  | DText s => (map (fun c => (c, u)) s, u)
  | DAnd a b | DThen a b =>
      let (x, u1) := looks a u in let (y, u2) := looks b u1 in (x ++ y, u2)
  | DStyled d c => (fst (looks d (match cfg_bytes c with [] => plain | _ :: _ => over c u end)), plain)
  | DHigh d col => (fst (looks d (over (set_fg_color col cfg_default) u)), plain)
  end.

(** Every text that is not empty finds in force ([u]) what is wanted ([w]). *)
Fixpoint right (d : doc) (w u : term) : Prop * term :=
  match d with
  | DText s => (s = [] \/ u = w, u)
  | DAnd a b | DThen a b =>
      let (p, u1) := right a w u in let (q, u2) := right b w u1 in (p /\ q, u2)
  | DStyled d c => (fst (right d (over c w) (match cfg_bytes c with [] => plain | _ :: _ => over c u end)), plain)
  | DHigh d col =>
      let c := set_fg_color col cfg_default in (fst (right d (over c w) (over c u)), plain)
  end.
