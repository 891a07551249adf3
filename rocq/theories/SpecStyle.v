(** A terminal, as specification for styled text: it interprets SGR escape
    sequences (ECMA-48 and the usual extensions) and shows every other
    character with the attributes in force. *)
From Coq Require Import List NArith Bool String.
From Verif Require Import Prelim Style.
Import ListNotations.
Local Open Scope N_scope.

(** Attributes in force on a terminal.  An absent colour is the default one. *)
Record term := mkTerm {
  t_bold : bool; t_dim : bool; t_italic : bool; t_underlined : bool; t_blinking : bool;
  t_inverted : bool; t_hidden : bool; t_strike : bool;
  t_fg : option color; t_bg : option color
}.

Definition plain : term := mkTerm false false false false false false false false None None.

(** The palette: colour of a foreground code. *)
Definition palette : list (N * ansi) :=
  [ (30, Black); (31, Red); (32, Green); (33, Yellow); (34, Blue); (35, Magenta);
    (36, Cyan); (37, White); (90, LightBlack); (91, LightRed); (92, LightGreen);
    (93, LightYellow); (94, LightBlue); (95, LightMagenta); (96, LightCyan);
    (97, LightWhite) ].

Definition palette_at (off n : N) : option color :=
  option_map (fun p => Ansi (snd p)) (find (fun p => fst p + off =? n) palette).

(** One parameter of an SGR sequence. *)
Definition sgr1 (n : N) (t : term) : term :=
  match t with
  | mkTerm b d i u bl iv h s fg bg =>
      if n =? 0 then plain
      else if n =? 1 then mkTerm true d i u bl iv h s fg bg
      else if n =? 2 then mkTerm b true i u bl iv h s fg bg
      else if n =? 3 then mkTerm b d true u bl iv h s fg bg
      else if n =? 4 then mkTerm b d i true bl iv h s fg bg
      else if n =? 5 then mkTerm b d i u true iv h s fg bg
      else if n =? 7 then mkTerm b d i u bl true h s fg bg
      else if n =? 8 then mkTerm b d i u bl iv true s fg bg
      else if n =? 9 then mkTerm b d i u bl iv h true fg bg
      else match palette_at 0 n, palette_at 10 n with
           | Some c, _ => mkTerm b d i u bl iv h s (Some c) bg
           | None, Some c => mkTerm b d i u bl iv h s fg (Some c)
           | None, None => t
           end
  end.

Definition with_fg (c : color) (t : term) : term :=
  match t with mkTerm b d i u bl iv h s fg bg => mkTerm b d i u bl iv h s (Some c) bg end.
Definition with_bg (c : color) (t : term) : term :=
  match t with mkTerm b d i u bl iv h s fg bg => mkTerm b d i u bl iv h s fg (Some c) end.

(** A whole SGR sequence; 38;2;r;g;b and 48;2;r;g;b select RGB colours. *)
Fixpoint sgr (ns : list N) (t : term) : term :=
  match ns with
  | [] => t
  | n :: ns' =>
      if (n =? 38) || (n =? 48)
      then match ns' with
           | m :: r :: g :: b :: ns'' =>
               if m =? 2
               then sgr ns'' ((if n =? 38 then with_fg else with_bg) (Rgb (mkRgb r g b)) t)
               else sgr ns' t
           | _ => sgr ns' t
           end
      else sgr ns' (sgr1 n t)
  end.

(** The terminal's reader. *)
Inductive mode :=
| MText
| MEsc                                  (* after ESC *)
| MCsi (done : list N) (cur : N).       (* inside ESC[ *)

Definition read1 (c : chr) (m : mode) (t : term) : mode * term * list (chr * term) :=
  match m with
  | MText => if c =? 27 then (MEsc, t, []) else (MText, t, [(c, t)])
  | MEsc => if c =? 91 then (MCsi [] 0, t, []) else (MText, t, [])
  | MCsi done cur =>
      if (48 <=? c) && (c <=? 57) then (MCsi done (cur * 10 + (c - 48)), t, [])
      else if c =? 59 then (MCsi (done ++ [cur]) 0, t, [])
      else if c =? 109 then (MText, sgr (done ++ [cur]) t, [])
      else (MText, t, [])
  end.

Fixpoint read (s : str) (m : mode) (t : term) : mode * term * list (chr * term) :=
  match s with
  | [] => (m, t, [])
  | c :: s' =>
      let '(m1, t1, o1) := read1 c m t in
      let '(m2, t2, o2) := read s' m1 t1 in
      (m2, t2, o1 ++ o2)
  end.

(** What appears on the screen: each visible character with its attributes. *)
Definition shown (s : str) (t : term) : list (chr * term) := snd (read s MText t).

(** The attributes left in force afterwards; the reader must be back in text. *)
Definition after (s : str) (t : term) : option term :=
  match read s MText t with (MText, t', _) => Some t' | _ => None end.

(** Visible text. *)
Definition visible (s : str) : str := map fst (shown s plain).

Definition no_esc (s : str) : Prop := ~ In 27 s.

(** The appearance a configuration asks for. *)
Definition asked (c : config) : term :=
  mkTerm (c_bold c) (c_dim c) (c_italic c) (c_underlined c) (c_blinking c)
    (c_inverted c) (c_hidden c) (c_strike c) (c_fg c) (c_bg c).

(** Colours that are colours: [Normal] means none. *)
Definition proper (c : option color) : Prop := c <> Some (Ansi Normal).
Definition is_rgb (c : option color) : Prop :=
  match c with Some (Ansi _) => False | _ => True end.

(** What a chain of builder calls says about one format: the last call about
    it decides, a toggle inverting what was there. *)
Definition about_format (f : format) (was : bool) (b : builder) : bool :=
  match b with
  | BSet g => if format_code f =? format_code g then true else was
  | BUnset g => if format_code f =? format_code g then false else was
  | BToggle g => if format_code f =? format_code g then negb was else was
  | _ => was
  end.

Definition says_format (f : format) (bs : list builder) : bool :=
  fold_left (about_format f) bs false.

Definition about_fg (was : option color) (b : builder) : option color :=
  match b with
  | BFg a => Some (Ansi a) | BFgRgb c => Some (Rgb c) | BResetColors => None | _ => was
  end.
Definition about_bg (was : option color) (b : builder) : option color :=
  match b with
  | BBg a => Some (Ansi a) | BBgRgb c => Some (Rgb c) | BResetColors => None | _ => was
  end.

(** Background code of a palette colour. *)
Definition bg_code (a : ansi) : N := ansi_code a + 10.

Definition byte (n : N) : Prop := n < 256.
Definition is_color (c : rgb) : Prop := byte (red c) /\ byte (green c) /\ byte (blue c).
Definition hex_of (c : rgb) : N := red c * 65536 + green c * 256 + blue c.
