(** Remaining functions of the public interface: src/syntax/token.rs:9-163,
    src/syntax/ast.rs:213-342 and 402-456, src/syntax/fixity.rs:260-262,
    357-400, src/text/symbol.rs:50-71, src/text/grapheme.rs:333-345. *)
From Coq Require Import List Arith NArith ZArith Bool String.
From Verif Require Import Prelim Chars Syntax Fixity Printer.
Import ListNotations.

(** * The table of fixities *)

(** [IndexMap::pop]: the last entry. *)
Definition pop (t : fixities) : option (infix * fixity) * fixities :=
  match rev t with [] => (None, t) | x :: r => (Some x, rev r) end.

(** src/syntax/fixity.rs:260-262.  The iterator is lazy: its state is how many
    numbers of the range are left and the table it borrows.  [rev] makes [next]
    take the range from its other end; the closure ignores the number.  One
    call of [next] goes on while [pop] gives nothing. *)
Fixpoint remove_last_next (count : nat) (t : fixities)
    : option (infix * fixity) * (nat * fixities) :=
  match count with
  | 0 => (None, (0, t))
  | S n => match pop t with
           | (Some x, t') => (Some x, (n, t'))
           | (None, t') => remove_last_next n t'
           end
  end.

(** [k] calls of [next]: what they yield and the table left. *)
Fixpoint remove_last_take (k count : nat) (t : fixities) : list (infix * fixity) * fixities :=
  match k with
  | 0 => ([], t)
  | S k' => match remove_last_next count t with
            | (None, (_, t')) => ([], t')
            | (Some x, (n, t')) => let (xs, t2) := remove_last_take k' n t' in (x :: xs, t2)
            end
  end.

(** src/syntax/fixity.rs:375-379 *)
Definition add_fixity (r : resolver) (op : infix) (f : fixity) : resolver * option (infix * fixity) :=
  let (t, old) := insert (r_fix r) op f in
  (mkResolver t (r_errs r), option_map (fun o => (op, o)) old).

(** src/syntax/fixity.rs:361-363 *)
Definition resolved (a : ast) : outcome (resolver * ast * list assoc_error) :=
  resolve_ast (load_fixities (mkResolver [] []) a) a.

(** src/syntax/fixity.rs:398-400 *)
Definition resolve_expr (r : resolver) (e : expr) : outcome (expr + assoc_error) :=
  rewrite (r_fix r) e.

(** src/syntax/fixity.rs:357-359 *)
Definition fixity_entries (r : resolver) : list (infix * fixity) := r_fix r.

(** * Names *)

(** src/syntax/ast.rs:300-303 *)
Definition is_unit (i : ident) : bool := match i with ICommas 0 => true | _ => false end.

(** src/syntax/ast.rs:315-321 *)
Definition ident_len (i : ident) : nat :=
  match i with
  | INil => 2
  | ICommas n => 2 + n
  | IUpper s | ILower s | IInfix s => blen s
  end.

(** src/syntax/ast.rs:309-313 *)
Definition ident_width (i : ident) : nat :=
  ident_len i + if ident_is_infix i then 2 else 0.

(** src/syntax/ast.rs:231-235 *)
Definition infix_eq_symbol (o : infix) (s : str) : bool := str_eqb (symbol o) s.

(** src/syntax/ast.rs:237-245 *)
Definition infix_eq_ident (o : infix) (i : ident) : bool :=
  match o, i with
  | Promoted p, IUpper s | Promoted p, ILower s => str_eqb p s
  | Standard p, IInfix s => str_eqb p s
  | _, _ => false
  end.

(** src/syntax/ast.rs:220-229 *)
Definition as_ident `{U : ucd} (o : infix) : ident :=
  match o with
  | Standard s => IInfix s
  | Promoted s => if match s with c :: _ => is_upper c | [] => false end then IUpper s else ILower s
  end.

(** src/text/symbol.rs:61-69 and, the same test, src/text/grapheme.rs:338-345. *)
Definition symbol_eq_char (s : str) (c : chr) : bool :=
  Nat.eqb (len_utf8 c) (blen s) &&
  match s with
  | x :: s' => N.eqb x c && match s' with [] => true | _ => false end
  | [] => false
  end.

(** src/text/grapheme.rs:405-417: [Match] of a slice. *)
Definition match_any {T S : Type} (check : T -> S -> bool) (ts : list T) (x : S) : bool :=
  existsb (fun t => check t x) ts.

(** * Positions *)

(** src/syntax/token.rs:71-75 *)
Record locspan := mkSpan { sp_lo : loc; sp_hi : loc }.

(** src/syntax/token.rs:82-87 and 59-65: the text of a span. *)
Definition index_span (s : str) (sp : locspan) : option str := slice s (l_pos (sp_lo sp)) (l_pos (sp_hi sp)).

(** src/syntax/token.rs:89-91: [abs_diff]. *)
Definition span_lines (sp : locspan) : nat :=
  (l_line (sp_hi sp) - l_line (sp_lo sp)) + (l_line (sp_lo sp) - l_line (sp_hi sp)).

(** src/syntax/token.rs:93-95 *)
Definition span_is_empty (sp : locspan) : bool :=
  Nat.eqb (l_line (sp_lo sp)) (l_line (sp_hi sp)) &&
  Nat.eqb (l_col (sp_lo sp)) (l_col (sp_hi sp)) &&
  Nat.eqb (l_pos (sp_lo sp)) (l_pos (sp_hi sp)).

(** * Fractional numbers *)

(** [f64::from_str] on texts made of digits, points and minus signs that begin
    with a digit (all that [Float::string] makes): digits, or digits, a point
    and any number of digits.  Everything else of the syntax it accepts needs
    another character or another first one.  The value is returned exactly, as
    an integer and the number of its decimal places; the nearest [f64] is a
    function of it. *)
Fixpoint digits_of (s : str) (acc : N) : N * str :=
  match s with
  | c :: s' => if (N.leb 48 c && N.leb c 57)%bool then digits_of s' (acc * 10 + (c - 48))%N else (acc, s)
  | [] => (acc, [])
  end.

Definition parse_f64 (s : str) : option (N * nat) :=
  let (n, r) := digits_of s 0%N in
  match r with
  | [] => Some (n, 0)
  | c :: r' =>
      if N.eqb c 46 then
        let (m, r2) := digits_of r' n in
        match r2 with [] => Some (m, List.length r') | _ => None end
      else None
  end.

(** src/syntax/token.rs:159-161; [string] (145-157) writes the same text as
    [write_fmt_str] (131-143), which is [show_float].  The panic of [unwrap] is
    [None]. *)
Definition to_f64 (f : float) : option (N * nat) := parse_f64 (show_float f).

(** * The visitor *)

(** src/syntax/ast.rs:441-460 *)
Definition walk {S : Type} (visit : S -> expr -> S) (s : S) (e : expr) : S :=
  match e with
  | Lit _ | Var _ => s
  | App a b | Bin a _ b => visit (visit s a) b
  | Lam _ a | Grp a | Neg a | Let _ a => visit s a
  | Tup es | List es => fold_left visit es s
  end.

(** A visitor whose [visit_expr] does [pre] and then walks on; with [pre] doing
    nothing this is the default of src/syntax/ast.rs:410-412.  [walk] is
    unfolded for the sake of the guard checker. *)
Fixpoint visit_all {S : Type} (pre : S -> expr -> S) (s : S) (e : expr) : S :=
  match e with
  | Lit _ | Var _ => pre s e
  | App a b | Bin a _ b => visit_all pre (visit_all pre (pre s e) a) b
  | Lam _ a | Grp a | Neg a | Let _ a => visit_all pre (pre s e) a
  | Tup es | List es => fold_left (visit_all pre) es (pre s e)
  end.

(** src/syntax/ast.rs:406-408 and 422-430 *)
Definition walk_ast {S : Type} (visit : S -> expr -> S) (s : S) (a : ast) : S :=
  fold_left visit (a_exprs a) s.
