(** The printer: src/syntax/fixity.rs:120-133, 192-203 and 580-940, with the [Display]
    implementations it uses. *)
From Coq Require Import List NArith ZArith Bool String.
From Verif Require Import Prelim Chars Syntax Fixity Style.
Import ListNotations.
Local Open Scope N_scope.

(** * Literals *)

(** Lowercase hexadecimal digits: [{:x}]. *)
Fixpoint hex_digits (fuel : nat) (n : N) (acc : str) : str :=
  match fuel with
  | O => acc
  | S f => let d := n mod 16 in
           let c := if d <? 10 then 48 + d else 87 + d in
           if n / 16 =? 0 then c :: acc else hex_digits f (n / 16) (c :: acc)
  end.
Definition show_hex (n : N) : str := hex_digits (S (N.size_nat n)) n [].

Section WithUcd.
Context {U : ucd}.

(** [core::unicode::printable::is_printable]; below U+0080 it is fixed. *)
Definition is_printable (c : chr) : bool :=
  if c <? 32 then false else if c <? 127 then true else if c =? 127 then false else u_printable c.

(** [char::is_grapheme_extended]; false below U+0300. *)
Definition is_grext (c : chr) : bool := if c <? 768 then false else u_grext c.

(** [char::escape_debug_ext] of the Rust standard library; which of the two
    quotes is escaped depends on the caller. *)
Definition escape_debug (quote : chr) (c : chr) : str :=
  if c =? 0 then [92; 48]
  else if c =? 9 then [92; 116]
  else if c =? 13 then [92; 114]
  else if c =? 10 then [92; 110]
  else if c =? 92 then [92; 92]
  else if c =? quote then [92; quote]
  else if is_grext c then [92; 117; 123] ++ show_hex c ++ [125]
  else if is_printable c then [c]
  else [92; 117; 123] ++ show_hex c ++ [125].

(** [Debug] of [char] and of [str]. *)
Definition debug_char (c : chr) : str := [39] ++ escape_debug 39 c ++ [39].
Definition debug_str (s : str) : str := [34] ++ flat_map (escape_debug 34) s ++ [34].

(** [Display] of [isize]. *)
Definition show_Z (z : Z) : str :=
  match z with
  | Z0 => show_N 0
  | Zpos p => show_N (Npos p)
  | Zneg p => 45 :: show_N (Npos p)
  end.

(** src/syntax/token.rs:133-144 *)
Definition show_float (f : float) : str :=
  show_N (f_int f)
  ++ match f_frac f with Some n => 46 :: show_N n | None => [] end
  ++ (if Z.eqb (f_exp f) 0 then [] else show_Z (f_exp f)).

(** src/syntax/token.rs:173-182 *)
Definition show_lit (l : literal) : str :=
  match l with
  | LChar c => debug_char c
  | LStr s => debug_str s
  | LInt n => show_N n
  | LFrac f => show_float f
  end.

End WithUcd.

(** * Names *)

(** src/syntax/ast.rs:262-274; [ends_with] on a one-byte name is equality. *)
Definition show_infix (o : infix) : str :=
  match o with
  | Standard s => s
  | Promoted s =>
      if Nat.eqb (blen s) 1 && str_eqb s [39] then [96] ++ s ++ [96] else 39 :: s
  end.

(** src/syntax/ast.rs:342-356 *)
Definition show_ident (i : ident) : str :=
  match i with
  | INil => lit "[]"
  | ICommas k => [40] ++ repeat 44 k ++ [41]
  | IUpper s | ILower s | IInfix s => s
  end.

(** src/syntax/ast.rs:305-307 *)
Definition ident_is_infix (i : ident) : bool := match i with IInfix _ => true | _ => false end.

(** * Fixities *)

(** src/syntax/fixity.rs:40-46 *)
Definition assoc_keyword (a : assoc) : str :=
  match a with ALeft => lit "infixl" | ARight => lit "infixr" | ANeither => lit "infix" end.

(** src/syntax/fixity.rs:32-38 *)
Definition assoc_adjective (a : assoc) : str :=
  match a with
  | ALeft => lit "left-associative"
  | ARight => lit "right-associative"
  | ANeither => lit "non-associative"
  end.

(** src/syntax/fixity.rs:28-30 *)
Definition is_neither (a : assoc) : bool :=
  match a with ALeft | ARight => false | ANeither => true end.

(** src/syntax/fixity.rs:129-133 *)
Definition show_fixity (f : fixity) : str :=
  assoc_keyword (fx_assoc f) ++ [32] ++ show_N (fx_prec f).

(** src/text/style.rs:740 and 762 with 599-605, 626-640: [set_fg_red],
    [set_fg_purple]. *)
Definition in_red (s : str) : str := style_display (set_fg_color (Ansi Red) cfg_default) s.
Definition in_purple (s : str) : str :=
  style_display (set_fg_color (Rgb (mkRgb 128 0 128)) cfg_default) s.

(** src/syntax/fixity.rs:120-126 *)
Definition write_alignable (f : fixity) : str :=
  in_red (assoc_keyword (fx_assoc f))
  ++ (if is_neither (fx_assoc f) then [32] else [])
  ++ [32] ++ in_purple (show_N (fx_prec f)).

(** src/syntax/fixity.rs:192-203: [Display] of [AssocError]. *)
Definition show_assoc_error (e : assoc_error) : str :=
  lit "found " ++ assoc_adjective (fx_assoc (e_prev_fix e)) ++ lit " operator `" ++ show_infix (e_prev e)
  ++ lit "` and " ++ assoc_adjective (fx_assoc (e_curr_fix e)) ++ lit " operator `" ++ show_infix (e_curr e)
  ++ lit "` in the same infix expression".

(** * Expressions *)

(** A method of [Printer] that writes: it gets the printer's stack (top first;
    src/syntax/fixity.rs:580-583) and returns the text written and the stack
    left.  The table is a parameter.  Simplification: what was already written
    when a panic occurs is lost. *)
Definition writer : Type := list fixity -> outcome (str * list fixity).

Definition wr (s : str) : writer := fun st => Ok (s, st).
Definition wseq (a b : writer) : writer := fun st =>
  obind (a st) (fun '(s, st1) => obind (b st1) (fun '(u, st2) => Ok (s ++ u, st2))).
Definition wpush (f : fixity) : writer := fun st => Ok ([], f :: st).
Definition wpop : writer := fun st => Ok ([], tl st).
Definition wset (st' : list fixity) : writer := fun _ => Ok ([], st').
Infix ";;" := wseq (at level 60, right associativity).

(** src/syntax/fixity.rs:635-646 *)
Definition write_grouped (print : writer) : writer := fun st =>
  let rainbow := rainbow_new (N.of_nat (List.length st)) in
  (wr (highlighted [40] (rainbow_color rainbow)) ;; print
   ;; wr (highlighted [41] (rainbow_color rainbow))) st.

(** src/syntax/fixity.rs:649-661, and the same loop at 795-804 and 812-821. *)
Definition write_sequence {A} (f : A -> writer) : list A -> writer :=
  fix go (xs : list A) : writer :=
    match xs with
    | [] => wr []
    | [x] => f x
    | x :: xs' => f x ;; wr (lit ", ") ;; go xs'
    end.

Section WithUcd.
Context {U : ucd}.

(** src/syntax/fixity.rs:685-688: the loop over the arguments. *)
Definition write_args (f : pat -> writer) : list pat -> writer :=
  fix go (ps : list pat) : writer :=
    match ps with
    | [] => wr []
    | p :: ps' => wr [32] ;; f p ;; go ps'
    end.

(** src/syntax/fixity.rs:648-724 *)
Fixpoint write_pat (p : pat) : writer :=
  match p with
  | PWild => wr [95]
  | PLit l => wr (show_lit l)
  | PVar s => wr s
  | PNeg q =>
      wr [40]
      ;; match q with
         | PWild | PLit _ | PVar _ => wr [45] ;; write_pat q
         | _ => wr [45] ;; write_grouped (write_pat q)
         end
      ;; wr [41]
  | PCon s ps =>
      match ps with
      | [] => wr s
      | _ => wr (40 :: s) ;; write_args write_pat ps ;; wr [41]
      end
  | PTup ps => wr [40] ;; write_sequence write_pat ps ;; wr [41]
  | PArr ps => wr [91] ;; write_sequence write_pat ps ;; wr [93]
  | PLnk l r =>
      let parens q w := match q with PLnk _ _ | PAs _ _ => write_grouped w | _ => w end in
      wpush (mkFix 5 ARight)
      ;; write_grouped (parens l (write_pat l) ;; wr [58] ;; parens r (write_pat r))
      ;; wpop
  | PAs s q => wr (s ++ [64]) ;; write_pat q
  end.

(** src/syntax/fixity.rs:744-753 *)
Definition no_paren (e : expr) : bool :=
  match e with Grp _ | List _ | Lit _ | Tup _ | Var _ => true | _ => false end.

(** src/syntax/fixity.rs:726-826.  [wset]s are the assignments of
    [std::mem::take] and of [self.stack]. *)
Fixpoint write_expr (t : fixities) (e : expr) : writer :=
  let ppr e' := if no_paren e' then write_expr t e' else write_grouped (write_expr t e') in
  match e with
  | Lit l => wr (show_lit l)
  | Var i => if ident_is_infix i then wr ([40] ++ show_ident i ++ [41]) else wr (show_ident i)
  | App f x => write_expr t f ;; wr [32] ;; write_expr t x
  | Bin l o r =>
      wpush (get t o)
      ;; ppr l ;; wr ([32] ++ show_infix o ++ [32]) ;; ppr r
      ;; wpop
  | Lam p body => fun st =>
      let (l, r) := match st with [] => ([], []) | _ => ([40], [41]) end in
      (wr (l ++ [92]) ;; wset [] ;; write_pat p
       ;; (fix lams (b : expr) : writer :=
             match b with
             | Lam q b' => wr [32] ;; write_pat q ;; lams b'
             | _ => wr (lit " -> ") ;; wset st ;; write_expr t b
             end) body
       ;; wr r) st
  | Grp e' => write_grouped (write_expr t e')
  | Neg _ => fun _ => Panic PTodoNeg
  | Tup es => fun st =>
      (wset [] ;; wr [40] ;; write_sequence (write_expr t) es ;; wr [41] ;; wset st) st
  | List es => fun st =>
      (wset [] ;; wr [91] ;; write_sequence (write_expr t) es ;; wr [93] ;; wset st) st
  | Let _ body => write_expr t body
  end.

(** src/syntax/fixity.rs:586-591 and 614-623: [Printer::new] and [print_expr];
    the text printed. *)
Definition print_expr (t : fixities) (e : expr) : outcome str :=
  obind (write_expr t e []) (fun '(s, _) => Ok ([32; 32] ++ s ++ [10])).

End WithUcd.

(** * The listing of fixities *)

(** [collect::<IndexSet<_>>()]: in order of first occurrence. *)
Definition index_set (fs : list fixity) : list fixity :=
  fold_left (fun acc f => if existsb (fixity_eqb f) acc then acc else acc ++ [f]) fs [].

(** src/syntax/fixity.rs:845-850: one line of the listing, without its end. *)
Definition write_ops (f : fixity) (ops : list infix) : str :=
  match ops with
  | [] => []
  | o :: ops' =>
      write_alignable f ++ [32] ++ show_infix o
      ++ flat_map (fun o' => lit ", " ++ show_infix o') ops'
  end.

(** src/syntax/fixity.rs:839-857 and 917-938: the loop over the distinct
    fixities; [n] is the [enumerate] index. *)
Fixpoint write_lines (entries : list (infix * fixity)) (n len : nat) (fs : list fixity) : str :=
  match fs with
  | [] => []
  | f :: fs' =>
      let infxs := map fst (filter (fun x => fixity_eqb f (snd x)) entries) in
      match infxs with
      | [] => []
      | _ => write_ops f infxs ++ (if Nat.ltb (n + 1) len then [10] else [])
      end ++ write_lines entries (n + 1) len fs'
  end.

(** src/syntax/fixity.rs:828-859 *)
Definition write_fixities (t : fixities) : str :=
  if Nat.eqb (List.length t) 0 then []
  else let fs := index_set (map snd t) in write_lines t 0 (List.length fs) fs.

(** src/syntax/fixity.rs:625-633 *)
Definition print_fixities (t : fixities) : str := write_fixities t ++ [10].

(** src/syntax/fixity.rs:863-937: [FixityEntries] is the list of its entries;
    [write_fixities] (907-937), to which [print_fixities] (877-905) adds a newline. *)
Definition write_entries (entries : list (infix * fixity)) : str :=
  let fs := index_set (map snd entries) in write_lines entries 0 (List.length fs) fs.
