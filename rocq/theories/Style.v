(** Colours and text styles: src/text/color.rs and src/text/style.rs. *)
From Coq Require Import List NArith Bool String.
From Verif Require Import Prelim.
Import ListNotations.
Local Open Scope N_scope.

(** src/text/color.rs:1-21 *)
Inductive ansi :=
| Normal | Black | Red | Green | Yellow | Blue | Magenta | Cyan | White
| LightBlack | LightRed | LightGreen | LightYellow | LightBlue | LightMagenta
| LightCyan | LightWhite.

(** src/text/color.rs:4-20: the discriminants, [as u8]. *)
Definition ansi_code (a : ansi) : N :=
  match a with
  | Normal => 0
  | Black => 30 | Red => 31 | Green => 32 | Yellow => 33 | Blue => 34
  | Magenta => 35 | Cyan => 36 | White => 37
  | LightBlack => 90 | LightRed => 91 | LightGreen => 92 | LightYellow => 93
  | LightBlue => 94 | LightMagenta => 95 | LightCyan => 96 | LightWhite => 97
  end.

(** src/text/color.rs:64-66 *)
Definition as_fg (a : ansi) : N := ansi_code a.

(** src/text/color.rs:72-74 *)
Definition as_bg (a : ansi) : N := ansi_code a.

(** src/text/color.rs:111-121: [Display] of [Fg]. *)
Definition show_fg (a : ansi) : str := show_N (ansi_code a).

(** src/text/color.rs:126-136: [Display] of [Bg]; all sums fit in a [u8]. *)
Definition show_bg (a : ansi) : str := show_N (ansi_code a + 10).

(** src/text/color.rs:80-100 *)
Definition ansi_str (a : ansi) : str :=
  lit match a with
      | Normal => "0" | Black => "30" | Red => "31" | Green => "32" | Yellow => "33"
      | Blue => "34" | Magenta => "35" | Cyan => "36" | White => "37"
      | LightBlack => "90" | LightRed => "91" | LightGreen => "92"
      | LightYellow => "93" | LightBlue => "94" | LightMagenta => "95"
      | LightCyan => "96" | LightWhite => "97"
      end%string.

(** src/text/color.rs:32-35 *)
Definition ansi_rainbow_table : list ansi :=
  [Red; LightRed; Yellow; Green; Blue; Magenta; LightMagenta].

(** src/text/color.rs:38-58 *)
Definition ansi_all : list ansi :=
  [Black; Red; Green; Yellow; Blue; Magenta; Cyan; White; LightBlack; LightRed;
   LightGreen; LightYellow; LightBlue; LightMagenta; LightCyan; LightWhite].

(** src/text/color.rs:76-78 *)
Definition ansi_rainbow (n : N) : ansi :=
  nth (N.to_nat (n mod 7)) ansi_rainbow_table Red.

(** src/text/color.rs:153-154 *)
Record rgb := mkRgb { red : N; green : N; blue : N }.

(** [u8::saturating_add] and [u8::saturating_sub]. *)
Definition sat_add (a b : N) : N := N.min 255 (a + b).
Definition sat_sub (a b : N) : N := a - b.

(** src/text/color.rs:166-175.  [2 << 23] is 2^24. *)
Definition from_hex_checked (v : N) : option rgb :=
  if v <? N.shiftl 2 23
  then Some (mkRgb (N.land (N.shiftr v 16) 255) (N.land (N.shiftr v 8) 255) (N.land v 255))
  else None.

(** src/text/color.rs:177-182 *)
Definition from_hex_unchecked (v : N) : rgb :=
  mkRgb (N.land (N.shiftr v 16) 255) (N.land (N.shiftr v 8) 255) (N.land v 255).

(** [u32::to_be_bytes] *)
Definition to_be_bytes (v : N) : list N :=
  [v / 16777216 mod 256; v / 65536 mod 256; v / 256 mod 256; v mod 256].

(** src/text/color.rs:184-187 *)
Definition from_hex_be_bytes (v : N) : rgb :=
  match tl (to_be_bytes v) with
  | [r; g; b] => mkRgb r g b
  | _ => mkRgb 0 0 0
  end.

(** src/text/color.rs:189-191 *)
Definition brighten (c : rgb) (by_ : N) : rgb :=
  mkRgb (sat_add (red c) by_) (sat_add (green c) by_) (sat_add (green c) by_).

(** src/text/color.rs:193-195 *)
Definition incr (c : rgb) (dr dg db : N) : rgb :=
  mkRgb (sat_add (red c) dr) (sat_add (green c) dg) (sat_add (green c) db).

(** src/text/color.rs:197-199 *)
Definition decr (c : rgb) (dr dg db : N) : rgb :=
  mkRgb (sat_sub (red c) dr) (sat_sub (green c) dg) (sat_sub (green c) db).

(** src/text/color.rs:201-204 *)
Definition incr_red (c : rgb) (by_ : N) := mkRgb (sat_add (red c) by_) (green c) (blue c).
(** src/text/color.rs:206-209 *)
Definition decr_red (c : rgb) (by_ : N) := mkRgb (sat_sub (red c) by_) (green c) (blue c).
(** src/text/color.rs:211-214 *)
Definition incr_blued (c : rgb) (by_ : N) := mkRgb (red c) (sat_add (green c) by_) (blue c).
(** src/text/color.rs:216-219 *)
Definition decr_blue (c : rgb) (by_ : N) := mkRgb (red c) (sat_sub (green c) by_) (blue c).
(** src/text/color.rs:221-224 *)
Definition incr_green (c : rgb) (by_ : N) := mkRgb (red c) (green c) (sat_add (blue c) by_).
(** src/text/color.rs:226-229 *)
Definition decr_green (c : rgb) (by_ : N) := mkRgb (red c) (green c) (sat_sub (blue c) by_).

(** src/text/color.rs:232-236 *)
Definition show_rgb (c : rgb) : str :=
  show_N (red c) ++ [59] ++ show_N (green c) ++ [59] ++ show_N (blue c).

(** src/text/color.rs:238-242 *)
Inductive color := Ansi (a : ansi) | Rgb (c : rgb).

(** src/text/color.rs:262-268 *)
Definition from_hex_saturated (v : N) : color :=
  Rgb match from_hex_checked v with Some c => c | None => mkRgb 255 255 255 end.

(** src/text/color.rs:270-283: the iterator as the list of what it yields;
    for the five-byte array the first four are skipped. *)
Definition fg_bytes (c : color) : list N :=
  match c with
  | Ansi a => skipn 4 [0; 0; 0; 0; as_fg a]
  | Rgb c => [38; 2; red c; green c; blue c]
  end.

(** src/text/color.rs:285-298 *)
Definition bg_bytes (c : color) : list N :=
  match c with
  | Ansi a => skipn 4 [0; 0; 0; 0; as_bg a]
  | Rgb c => [48; 2; red c; green c; blue c]
  end.

(** src/text/color.rs:336-348 *)
Definition roygbiv : list color :=
  map (fun v => Rgb (from_hex_unchecked v))
    [14942979; 16747520; 16772352; 32806; 19967; 7669639; 8465318].

(** [Rainbow] (src/text/color.rs:329-332) is its [usize] counter; 349-353. *)
Definition rainbow_new (n : N) : N := n.

(** src/text/color.rs:355-359 *)
Definition tick (n : N) : N := (n + 1) mod 18446744073709551616.

(** src/text/color.rs:361-365 *)
Definition untick (n : N) : N := (n + 18446744073709551615) mod 18446744073709551616.

(** src/text/color.rs:367-369 *)
Definition rainbow_color (n : N) : color :=
  nth (N.to_nat (n mod 7)) roygbiv (Ansi Normal).

(** src/text/style.rs:254-299 *)
Inductive format :=
| FReset | FBold | FDim | FItalic | FUnderlined | FBlinking | FInverted | FHidden
| FStrikethrough.

(** src/text/style.rs:259-298: discriminants. *)
Definition format_code (f : format) : N :=
  match f with
  | FReset => 0 | FBold => 1 | FDim => 2 | FItalic => 3 | FUnderlined => 4
  | FBlinking => 5 | FInverted => 7 | FHidden => 8 | FStrikethrough => 9
  end.

(** src/text/style.rs:49 *)
Definition format_all : list format :=
  [FReset; FBold; FDim; FItalic; FUnderlined; FBlinking; FInverted; FHidden; FStrikethrough].

(** src/text/style.rs:68-71 *)
Definition maybe_from_u8 (b : N) : option format :=
  find (fun f => b =? format_code f) format_all.

(** src/text/style.rs:62-66 *)
Definition from_u8 (b : N) : format :=
  match maybe_from_u8 b with Some f => f | None => FReset end.

(** src/text/style.rs:137-142: [Option] of a unit struct is a boolean. *)
Record config := mkCfg {
  c_reset : bool; c_bold : bool; c_dim : bool; c_italic : bool; c_underlined : bool;
  c_blinking : bool; c_inverted : bool; c_hidden : bool; c_strike : bool;
  c_fg : option color; c_bg : option color
}.

(** src/text/style.rs:151-155 *)
Definition cfg_default : config :=
  mkCfg false false false false false false false false false None None.

(** src/text/style.rs:212-226: the field of a format, read and written. *)
Definition get_field (f : format) (c : config) : bool :=
  match f with
  | FReset => c_reset c | FBold => c_bold c | FDim => c_dim c | FItalic => c_italic c
  | FUnderlined => c_underlined c | FBlinking => c_blinking c
  | FInverted => c_inverted c | FHidden => c_hidden c | FStrikethrough => c_strike c
  end.

Definition put_field (f : format) (b : bool) (c : config) : config :=
  match c with
  | mkCfg r bo d i u bl iv h s fg bg =>
      match f with
      | FReset => mkCfg b bo d i u bl iv h s fg bg
      | FBold => mkCfg r b d i u bl iv h s fg bg
      | FDim => mkCfg r bo b i u bl iv h s fg bg
      | FItalic => mkCfg r bo d b u bl iv h s fg bg
      | FUnderlined => mkCfg r bo d i b bl iv h s fg bg
      | FBlinking => mkCfg r bo d i u b iv h s fg bg
      | FInverted => mkCfg r bo d i u bl b h s fg bg
      | FHidden => mkCfg r bo d i u bl iv b s fg bg
      | FStrikethrough => mkCfg r bo d i u bl iv h b fg bg
      end
  end.

(** src/text/style.rs:162-166 with the setters 215-220 *)
Definition set_format (f : format) (c : config) : config := put_field f true c.

(** src/text/style.rs:168-175 *)
Definition reset_format (f : format) (c : config) : config := put_field f false c.

(** src/text/style.rs:177-187 *)
Definition toggle_format (f : format) (c : config) : config :=
  if get_field f c then put_field f false c else put_field f true c.

(** src/text/style.rs:303-308 *)
Definition set_fg_color (col : color) (c : config) : config :=
  match c with mkCfg r bo d i u bl iv h s fg bg => mkCfg r bo d i u bl iv h s (Some col) bg end.

(** src/text/style.rs:310-315 *)
Definition set_bg_color (col : color) (c : config) : config :=
  match c with mkCfg r bo d i u bl iv h s fg bg => mkCfg r bo d i u bl iv h s fg (Some col) end.

(** src/text/style.rs:317-321 *)
Definition reset_colors (c : config) : config :=
  match c with mkCfg r bo d i u bl iv h s fg bg => mkCfg r bo d i u bl iv h s None None end.

(** src/text/style.rs:195-199 *)
Definition non_color_bytes (c : config) : list N :=
  flat_map (fun f => if get_field f c then [format_code f] else []) format_all.

(** src/text/style.rs:201-209 *)
Definition color_bytes (c : config) : list N :=
  match c_fg c with Some col => fg_bytes col | None => [] end
  ++ match c_bg c with Some col => bg_bytes col | None => [] end.

(** src/text/style.rs:189-193 *)
Definition cfg_bytes (c : config) : list N := non_color_bytes c ++ color_bytes c.

(** src/text/style.rs:323-340.  Writing to the formatter never fails in the
    model: the result is the text written. *)
Definition write_start (c : config) : str :=
  [27; 91]
  ++ match cfg_bytes c with
     | [] => [48]
     | n :: bs => show_N n ++ flat_map (fun e => 59 :: show_N e) bs
     end
  ++ [109].

(** src/text/style.rs:342-344 *)
Definition write_end (c : config) : str := [27; 91; 48; 109].

(** src/text/style.rs:346-364 *)
Definition style_str_start (c : config) : str :=
  let buf := [27; 91] in
  let buf1 := match cfg_bytes c with [] => buf | n :: _ => buf ++ show_N n end in
  let buf2 := fold_left (fun b e => b ++ [59] ++ show_N e) (tl (cfg_bytes c)) buf1 in
  let buf3 := if Nat.eqb (List.length buf2) 2 then buf2 ++ [48] else buf2 in
  buf3 ++ [109].

(** src/text/style.rs:846-850: [Display] of [Style], given the text that the
    wrapped item displays. *)
Definition style_display (c : config) (item : str) : str :=
  write_start c ++ item ++ write_end c.

(** src/text/style.rs:950-957 with [Style::new] (390-392), [set_fg] (407-410):
    [Display] of [Highlighted]. *)
Definition highlighted (item : str) (col : color) : str :=
  style_display (set_fg_color col cfg_default) item.

(** What the builder methods of [Style] do to its configuration:
    src/text/style.rs:574-591 (formats), 599-611 (ANSI colours), 418-426 and
    626-650 (RGB colours), 478-481 ([reset_colors]). *)
Inductive builder :=
| BSet (f : format) | BUnset (f : format) | BToggle (f : format)
| BFg (a : ansi) | BBg (a : ansi) | BFgRgb (c : rgb) | BBgRgb (c : rgb)
| BResetColors.

Definition apply_builder (c : config) (b : builder) : config :=
  match b with
  | BSet f => set_format f c
  | BUnset f => reset_format f c
  | BToggle f => toggle_format f c
  | BFg a => set_fg_color (Ansi a) c
  | BBg a => set_bg_color (Ansi a) c
  | BFgRgb x => set_fg_color (Rgb x) c
  | BBgRgb x => set_bg_color (Rgb x) c
  | BResetColors => reset_colors c
  end.

(** The style built by a chain of calls on [Style::new]. *)
Definition styled (bs : list builder) : config := fold_left apply_builder bs cfg_default.

(** src/text/style.rs:757-764: named RGB colours. *)
Definition named_rgb : list (string * rgb) :=
  [ ("Maroon", mkRgb 128 0 0); ("Orange", mkRgb 255 128 0); ("Crimson", mkRgb 220 20 60);
    ("Teal", mkRgb 0 128 128); ("Azure", mkRgb 0 128 255); ("Purple", mkRgb 128 0 128);
    ("Indigo", mkRgb 75 0 130); ("Violet", mkRgb 238 130 238) ]%string.
