(** Composed styled text: src/text/style.rs:383-560, 762-958. *)
From Coq Require Import List NArith.
From Verif Require Import Prelim Style.
Import ListNotations.

(** Items that can be displayed: text, [Style] (src/text/style.rs:387), [And]
    (762), [Then] (804) and [Highlighted] (924) of such items.  Any other
    [Display] is represented by the text it writes.  Simplification: writing
    does not fail, no width or alignment is given to the formatter. *)
Inductive doc :=
| DText (s : str)
| DStyled (d : doc) (c : config)
| DAnd (a b : doc)
| DThen (a b : doc)
| DHigh (d : doc) (col : color).

(** [Display]: src/text/style.rs:841-905 and 943-950. *)
Fixpoint display (d : doc) : str :=
  match d with
  | DText s => s
  | DStyled d c => style_display c (display d)
  | DAnd a b | DThen a b => display a ++ display b
  | DHigh d col => style_display (set_fg_color col cfg_default) (display d)
  end.

(** A [Style] by its two fields. *)
Record style := mkStyle { s_item : doc; s_conf : config }.
Definition of_style (s : style) : doc := DStyled (s_item s) (s_conf s).

(** src/text/style.rs:390-392 *)
Definition style_new (d : doc) : style := mkStyle d cfg_default.
(** src/text/style.rs:407-416 *)
Definition style_fg (col : color) (s : style) : style := mkStyle (s_item s) (set_fg_color col (s_conf s)).
Definition style_bg (col : color) (s : style) : style := mkStyle (s_item s) (set_bg_color col (s_conf s)).
(** src/text/style.rs:429-434: the items of an iterator in the style of [s]. *)
Definition share_iter (s : style) (ds : list doc) : list style := map (fun d => mkStyle d (s_conf s)) ds.
(** src/text/style.rs:436-438 *)
Definition prepend (s : style) (other : doc) : style := mkStyle (DAnd other (s_item s)) (s_conf s).
(** src/text/style.rs:440-442 *)
Definition append (s : style) (other : doc) : style := mkStyle (DAnd (s_item s) other) (s_conf s).
(** src/text/style.rs:444-451 *)
Definition then_with (s : style) (other : doc) (f : style -> style) : doc :=
  DThen (of_style s) (of_style (f (mkStyle other (s_conf s)))).
(** src/text/style.rs:453-459 *)
Definition fresh_suffix (s : style) (r : doc) : doc := DThen (of_style s) r.
Definition fresh_prefix (s : style) (l : doc) : doc := DThen l (of_style s).
(** src/text/style.rs:479-482 *)
Definition style_reset_colors (s : style) : style := mkStyle (s_item s) (reset_colors (s_conf s)).
(** src/text/style.rs:769-771 and 807-809 *)
Definition doc_and (a b : doc) : doc := DAnd a b.
Definition doc_then (a b : doc) : doc := DThen a b.
(** src/text/style.rs:811-813 *)
Definition doc_styled (d : doc) : style := style_new d.

(** src/text/style.rs:907-909 *)
Definition blue (d : doc) : style := style_fg (Ansi Blue) (style_new d).
(** src/text/style.rs:919-922 *)
Definition wrapped_blue (l r d : doc) : style := append (append (style_new l) (of_style (blue d))) r.

(** src/text/style.rs:926-935: [From<Style<T>>] for [Highlighted<T>]. *)
Definition to_highlighted (s : style) : doc :=
  DHigh (s_item s) (match c_fg (s_conf s) with Some c => c | None => Ansi Normal end).
(** src/text/style.rs:937-941 *)
Definition from_highlighted (d : doc) (col : color) : style := style_fg col (style_new d).
