(** The lexer: src/syntax/lexer.rs. *)
From Coq Require Import List Arith NArith Bool String.
From Verif Require Import Prelim Chars Syntax.
Import ListNotations.

(** src/syntax/lexer.rs:12-21.  [lx_rest] is what the peekable character
    iterator still has to yield.  Simplification: unbounded line and column. *)
Record lexer := mkLexer {
  lx_src : str;
  lx_rest : str;
  lx_curr : option token;
  lx_line : nat;
  lx_col : nat;
  lx_pos : nat;
  lx_prev : loc
}.

(** src/syntax/lexer.rs:40-42 *)
Definition lx_done (l : lexer) : bool := match lx_rest l with [] => true | _ => false end.

(** src/syntax/lexer.rs:48-54 *)
Definition curr_loc (l : lexer) : loc := mkLoc (lx_line l) (lx_col l) (lx_pos l).

(** src/syntax/lexer.rs:77-79 *)
Definition peek_char (l : lexer) : option chr :=
  match lx_rest l with [] => None | c :: _ => Some c end.

(** src/syntax/lexer.rs:81-84; [EOF] is NUL (line 23). *)
Definition current_char (l : lexer) : chr :=
  match peek_char l with Some c => c | None => 0%N end.

(** src/syntax/lexer.rs:86-88, for a character and for a predicate. *)
Definition on_char (f : chr -> bool) (l : lexer) : bool :=
  match peek_char l with Some c => f c | None => false end.
Definition on (c : chr) (l : lexer) : bool := on_char (N.eqb c) l.

(** src/syntax/lexer.rs:90-106; the character returned is [peek_char l]. *)
Definition bump_char (l : lexer) : lexer :=
  match l with
  | mkLexer src rest curr line col pos prev =>
      match rest with
      | [] => l
      | c :: r =>
          let pos := pos + len_utf8 c in
          if N.eqb c 10
          then mkLexer src (match r with
                            | d :: r' => if N.eqb d 13 then r' else r
                            | [] => r
                            end) curr (line + 1) 1 pos prev
          else mkLexer src r curr line (col + 1) pos prev
      end
  end.

(** src/syntax/lexer.rs:44-46 and the assignments to [prev_loc]. *)
Definition set_prev (p : loc) (l : lexer) : lexer :=
  mkLexer (lx_src l) (lx_rest l) (lx_curr l) (lx_line l) (lx_col l) (lx_pos l) p.
Definition set_curr (t : option token) (l : lexer) : lexer :=
  mkLexer (lx_src l) (lx_rest l) t (lx_line l) (lx_col l) (lx_pos l) (lx_prev l).

(** src/syntax/lexer.rs:121-127.  The loop bumps at least one character per
    round, so as many rounds as characters suffice (ProofLexer.v). *)
Fixpoint eat_n (n : nat) (f : chr -> bool) (l : lexer) : lexer :=
  match n with
  | 0 => l
  | S n' => if on_char f l then eat_n n' f (bump_char l) else l
  end.
Definition eat_while (f : chr -> bool) (l : lexer) : lexer := eat_n (List.length (lx_rest l)) f l.

(** src/syntax/lexer.rs:129-132 *)
Definition eat_whitespace (l : lexer) : lexer :=
  let l1 := eat_while is_white l in set_prev (curr_loc l1) l1.

(** src/syntax/lexer.rs:26-38 *)
Definition lexer_new (src : str) : lexer :=
  eat_whitespace (mkLexer src src None 1 1 0 loc_default).

(** src/syntax/lexer.rs:179-183 *)
Definition eat_with_trailing (f : chr -> bool) (l : lexer) : lexer :=
  eat_while is_trailing (eat_while f l).

(** [&self.src[a..b]] *)
Definition src_slice (l : lexer) (a b : nat) : outcome str :=
  match slice (lx_src l) a b with Some s => Ok s | None => Panic PSlice end.

(** [char::to_digit], for radix 10 and 16. *)
Definition to_digit (radix : N) (c : chr) : option N :=
  if digit_in radix c
  then Some (if ascii_digit c then c - 48 else if ascii_lower c then c - 87 else c - 55)%N
  else None.

(** [usize::from_str_radix] and [u32::from_str_radix] of the Rust standard
    library; [limit] is one more than the largest value. *)
Fixpoint parse_digits (radix limit acc : N) (s : str) : N + interror :=
  match s with
  | [] => inl acc
  | c :: s' =>
      match to_digit radix c with
      | None => inr IInvalidDigit
      | Some d =>
          if N.ltb (acc * radix + d) limit
          then parse_digits radix limit (acc * radix + d) s'
          else inr IPosOverflow
      end
  end.

Definition parse_uint (radix limit : N) (s : str) : N + interror :=
  match s with
  | [] => inr IIncomplete
  | [c] => if N.eqb c 43 || N.eqb c 45 then inr IInvalidDigit else parse_digits radix limit 0 s
  | c :: s' => if N.eqb c 43 then parse_digits radix limit 0 s' else parse_digits radix limit 0 s
  end.

Definition usize_limit : N := 18446744073709551616.
Definition u32_limit : N := 4294967296.

(** [char::from_u32] *)
Definition char_from_u32 (n : N) : option chr :=
  if (N.ltb n 55296 || (N.leb 57344 n && N.ltb n 1114112))%N then Some n else None.

(** src/syntax/lexer.rs:185-192 *)
Definition lex_number (l : lexer) : outcome (token * lexer) :=
  let l1 := eat_while ascii_digit l in
  obind (src_slice l (lx_pos l) (lx_pos l1)) (fun s =>
  Ok (match parse_uint 10 usize_limit s with
      | inl n => TLit (LInt n)
      | inr e => TError (EInvalidInt (lx_prev l) e)
      end, l1)).

(** src/syntax/lexer.rs:412-415 *)
Definition line_comment (l : lexer) : lexer := eat_while (fun c => negb (N.eqb c 10)) l.

(** src/syntax/lexer.rs:422-450: the loop; every round bumps a character.
    The result tells whether it was interrupted, and [end]. *)
Fixpoint comment_loop (fuel depth : nat) (end_ : loc) (l : lexer) : outcome (bool * loc * lexer) :=
  match depth with
  | 0 => Ok (false, end_, l)
  | S d =>
      match peek_char l with
      | None => Ok (true, end_, l)
      | Some c =>
          match fuel with
          | 0 => NoFuel
          | S f =>
              if N.eqb c 126
              then let l1 := bump_char l in
                   if on 123%N l1 then comment_loop f (S depth) end_ l1
                   else comment_loop f depth end_ l1
              else if N.eqb c 125
              then let l1 := bump_char l in
                   if on 126%N l1 then comment_loop f d end_ (bump_char l1)
                   else comment_loop f depth end_ l1
              else comment_loop f depth (lx_prev l) (bump_char l)
          end
      end
  end.

(** src/syntax/lexer.rs:417-459 *)
Definition block_comment (l : lexer) : outcome (option lexerror * lexer) :=
  obind (comment_loop (List.length (lx_rest l)) 1 (lx_prev l) l) (fun r =>
  match r with
  | (true, end_, l1) => Ok (Some (EUnterminatedComment (lx_prev l) end_), l1)
  | (false, _, l1) => Ok (None, bump_char l1)
  end).

(** src/syntax/lexer.rs:386-404: the loop of [string]; every round bumps a
    character.  The result tells whether the string was terminated. *)
Fixpoint string_loop (fuel : nat) (buf : str) (escaped : bool) (l : lexer)
    : outcome (bool * str * lexer) :=
  match peek_char l with
  | None => Ok (false, buf, l)
  | Some c =>
      match fuel with
      | 0 => NoFuel
      | S f =>
          let l1 := bump_char l in
          if escaped
          then if is_escapable c then string_loop f (buf ++ [get_escaped c]) false l1
               else if N.eqb c 10 then string_loop f buf false (eat_whitespace l1)
               else string_loop f (buf ++ [c]) false l1
          else if N.eqb c 34 then Ok (true, buf, l1)
          else if N.eqb c 92 then string_loop f buf true l1
          else string_loop f (buf ++ [c]) false l1
      end
  end.

(** src/syntax/lexer.rs:380-410 *)
Definition lex_string (l : lexer) : outcome (token * lexer) :=
  let l1 := bump_char l in
  obind (string_loop (List.length (lx_rest l1)) [] false l1) (fun r =>
  match r with
  | (true, buf, l2) => Ok (TLit (LStr buf), l2)
  | (false, _, l2) => Ok (TError (EUnterminatedString (lx_prev l)), l2)
  end).

Definition not_quote (c : chr) : bool := negb (N.eqb c 39).

(** src/syntax/lexer.rs:276-331: a unicode escape, after [\u]. *)
Definition lex_unicode (start : loc) (l : lexer) : outcome (token * lexer) :=
  let l1 := if on 43%N l then bump_char l else l in
  let esc_loc := curr_loc l1 in
  let c := current_char l1 in
  if is_hex c
  then
    let l2 := eat_while is_hex l1 in
    let a := lx_pos l1 in
    let b := lx_pos l2 in
    if on 39%N l2
    then
      let l3 := bump_char l2 in
      if Nat.eqb a b
      then Ok (TError (EInvalidUnicode esc_loc CpEmpty), bump_char l3)
      else if Nat.leb (b - a) 6
      then
        let l4 := bump_char l3 in
        obind (src_slice l4 a b) (fun s =>
        match parse_uint 16 u32_limit s with
        | inr _ => Panic PCodePoint
        | inl int =>
            match char_from_u32 int with
            | Some c => Ok (TLit (LChar c), l4)
            | None => Ok (TError (EInvalidUnicode esc_loc (CpNotInCharRange s int)), l4)
            end
        end)
      else
        obind (src_slice l3 a b) (fun s =>
        Ok (TError (EInvalidUnicode esc_loc (CpTooLong s)), l3))
    else
      let l3 := eat_while not_quote l2 in
      Ok (TError (EUnterminatedChar start (curr_loc l3)), l3)
  else
    Ok (TError (EInvalidUnicode esc_loc (CpBadConnector c)), eat_while not_quote l1).

(** src/syntax/lexer.rs:272-352: after the backslash. *)
Definition lex_char_escape (start : loc) (l : lexer) : outcome (token * lexer) :=
  match peek_char l with
  | None => Ok (TError (EUnterminatedChar start (lx_prev l)), l)
  | Some c =>
      if N.eqb c 117 || N.eqb c 85 then lex_unicode start (bump_char l)
      else if is_escapable c
      then let l1 := bump_char l in
           if on 39%N l1 then Ok (TLit (LChar (get_escaped c)), bump_char l1)
           else let l2 := eat_while not_quote l1 in
                Ok (TError (EUnterminatedChar start (lx_prev l2)), bump_char l2)
      else let l1 := eat_while not_quote l in
           Ok (TError (EInvalidEscape c start (lx_prev l1)), bump_char l1)
  end.

Section WithUcd.
Context {U : ucd}.

(** src/syntax/lexer.rs:259-378 *)
Definition lex_char (l : lexer) : outcome (token * lexer) :=
  let start := lx_prev l in
  let l1 := bump_char l in
  let c := current_char l1 in
  if N.eqb c 39 then let l2 := bump_char l1 in Ok (TError (EEmptyChar start (lx_prev l2)), l2)
  else if N.eqb c 92 then lex_char_escape start (bump_char l1)
  else if N.eqb c 0 then Ok (TError (EUnterminatedChar start (lx_prev l1)), l1)
  else
    let l2 := bump_char l1 in
    if on 39%N l2 then Ok (TLit (LChar c), bump_char l2)
    else if on_char is_white l2
    then let l3 := bump_char l2 in
         obind (src_slice l3 (lx_pos l1) (lx_pos l3)) (fun s => Ok (TAffix s true, l3))
    else if is_ident_start c
    then let l3 := eat_with_trailing is_ident_char l2 in
         obind (src_slice l3 (lx_pos l1) (lx_pos l3)) (fun s => Ok (TAffix s true, l3))
    else
      let l3 := eat_while (fun c => (not_quote c && is_alnum c) || N.eqb c 95) l2 in
      Ok (TError (EUnterminatedChar start (lx_prev l2)), l3).

(** src/syntax/lexer.rs:462-477 *)
Definition identifier (c : chr) (s : str) : outcome token :=
  if is_lower c
  then Ok (if is_upper c then TUpper s else TLower s)
  else Panic PIdentStart.

(** src/syntax/lexer.rs:246-257 *)
Definition lex_ident (c : chr) (l : lexer) : outcome (token * lexer) :=
  let l1 := eat_with_trailing is_ident_char l in
  obind (src_slice l1 (lx_pos l) (lx_pos l1)) (fun s =>
  if str_eqb s (lit "_") then Ok (TUnderscore, l1)
  else if str_eqb s (lit "infixl") then Ok (TInfixL, l1)
  else if str_eqb s (lit "infixr") then Ok (TInfixR, l1)
  else if str_eqb s (lit "infix") then Ok (TInfix, l1)
  else if str_eqb s (lit "let") then Ok (TLet, l1)
  else if str_eqb s (lit "in") then Ok (TIn, l1)
  else obind (identifier c s) (fun t => Ok (t, l1))).

(** src/syntax/lexer.rs:230-244 *)
Definition promoted_operator (l : lexer) : outcome (token * lexer) :=
  let loc := curr_loc l in
  let l1 := eat_with_trailing is_ident_char (bump_char l) in
  obind (src_slice l1 (lx_pos l) (lx_pos l1)) (fun s =>
  if on 96%N l1 then Ok (TAffix s true, bump_char l1)
  else Ok (TError (EInvalidPromotedInfix loc s), l1)).

(** src/syntax/lexer.rs:143-162 *)
Definition lex_backquote (l : lexer) : outcome (token * lexer) :=
  let l1 := bump_char l in
  let loc := curr_loc l1 in
  if on_char is_ident_start l1
  then promoted_operator l1
  else
    let l2 := eat_while (fun c => negb (N.eqb c 96)) l1 in
    let l3 := if on 96%N l2 then bump_char l2 else l2 in
    obind (src_slice l3 (lx_pos l1) (lx_pos l2)) (fun s =>
    Ok (TError (EInvalidPromotedInfix loc s), l3)).

(** src/syntax/lexer.rs:194-221.  The alternatives that start with a
    non-ASCII character are kept although no operator starts with one. *)
Definition operator (lex : lexer -> outcome (token * lexer)) (l : lexer)
    : outcome (token * lexer) :=
  let l1 := eat_with_trailing is_infix_char l in
  obind (src_slice l1 (lx_pos l) (lx_pos l1)) (fun s =>
  if str_eqb s (lit "~")
  then if on 123%N l1
       then obind (block_comment (bump_char l1)) (fun r =>
            match r with
            | (Some err, l2) => Ok (TError err, l2)
            | (None, l2) => lex l2
            end)
       else Ok (TAffix (lit "~") false, l1)
  else if str_eqb s (lit "~~") then lex (line_comment l1)
  else if str_eqb s (lit "\") || str_eqb s [955%N] then Ok (TLambda, l1)
  else if str_eqb s (lit "-") then Ok (TDash, l1)
  else if str_eqb s (lit "->") || str_eqb s [8594%N] || str_eqb s [10230%N]
          || str_eqb s [8614%N] || str_eqb s [10236%N] then Ok (TArrow, l1)
  else if str_eqb s (lit "@") then Ok (TAt, l1)
  else Ok (TAffix s false, l1)).

(** src/syntax/lexer.rs:134-177, with fuel for the recursion through comments. *)
Fixpoint lex_f (fuel : nat) (l0 : lexer) : outcome (token * lexer) :=
  match fuel with
  | 0 => NoFuel
  | S fuel' =>
      let l1 := eat_whitespace l0 in
      let l := set_prev (curr_loc l1) l1 in
      match peek_char l with
      | None => Ok (TEof, l)
      | Some c =>
          if N.eqb c 59 then Ok (TSemi, bump_char l)
          else if N.eqb c 39 then lex_char l
          else if N.eqb c 34 then lex_string l
          else if ascii_digit c then lex_number l
          else if N.eqb c 96 then lex_backquote l
          else if is_ident_start c then lex_ident c l
          else if N.eqb c 40 then Ok (TParenL, bump_char l)
          else if N.eqb c 41 then Ok (TParenR, bump_char l)
          else if N.eqb c 91 then Ok (TBrackL, bump_char l)
          else if N.eqb c 93 then Ok (TBrackR, bump_char l)
          else if N.eqb c 123 then Ok (TCurlyL, bump_char l)
          else if N.eqb c 125 then Ok (TCurlyR, bump_char l)
          else if N.eqb c 44 then Ok (TComma, bump_char l)
          else if is_infix_char c then operator (lex_f fuel') l
          else Ok (TError EUnknown, l)
      end
  end.

(** Each recursive call has consumed at least the two characters of a comment
    mark, so this fuel suffices (ProofLexer.v). *)
Definition lex (l : lexer) : outcome (token * lexer) := lex_f (S (List.length (lx_rest l))) l.

(** src/syntax/lexer.rs:63-75 *)
Definition lx_peek (l : lexer) : outcome (option token * lexer) :=
  match lx_curr l with
  | Some t => Ok (Some t, l)
  | None =>
      obind (lex l) (fun r =>
      match r with
      | (TEof, l1) => Ok (None, l1)
      | (t, l1) => Ok (Some t, set_curr (Some t) l1)
      end)
  end.

(** src/syntax/lexer.rs:108-113 *)
Definition lx_bump (l : lexer) : token * lexer :=
  match lx_curr l with
  | Some t => (t, set_curr None l)
  | None => (TEof, l)
  end.

(** src/syntax/lexer.rs:482-491: the iterator. *)
Definition lx_next (l : lexer) : outcome (option (token * (loc * loc)) * lexer) :=
  obind (lex l) (fun r =>
  let (t, l1) := r in
  match t with
  | TEof => Ok (None, l1)
  | _ => Ok (Some (t, (lx_prev l1, curr_loc l1)), l1)
  end).

End WithUcd.
