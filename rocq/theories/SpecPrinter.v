(** What printing should achieve, stated without reference to the printer's
    functions or state. *)
From Coq Require Import List Arith NArith Bool String.
From Verif Require Import Prelim Chars Syntax Style SpecStyle SpecLexer SpecParser.
Import ListNotations.

(** The expression without its parentheses and the declarations of its [let]s,
    which are not printed. *)
Fixpoint bare (e : expr) : expr :=
  match e with
  | Lit _ | Var _ => e
  | App f x => App (bare f) (bare x)
  | Bin l o r => Bin (bare l) o (bare r)
  | Lam p e => Lam p (bare e)
  | Grp e => bare e
  | Neg e => Neg (bare e)
  | Tup es => Tup (map bare es)
  | List es => List (map bare es)
  | Let _ e => bare e
  end.

(** No negation anywhere. *)
Inductive positive : expr -> Prop :=
| po_lit x : positive (Lit x)
| po_var i : positive (Var i)
| po_app f x : positive f -> positive x -> positive (App f x)
| po_bin a o b : positive a -> positive b -> positive (Bin a o b)
| po_lam p e : positive e -> positive (Lam p e)
| po_grp e : positive e -> positive (Grp e)
| po_tup es : Forall positive es -> positive (Tup es)
| po_list es : Forall positive es -> positive (List es)
| po_let d e : positive e -> positive (Let d e).

(** * Texts that read back *)

Section WithUcd.
Context {U : ucd}.

(** Characters that a literal shows as themselves or by an escape of the
    language (tab, newline, carriage return, quotes, backslash). *)
Definition graphic (c : chr) : Prop :=
  In c [9; 10; 13]%N \/
  (32 <= c < 127)%N \/
  (127 < c)%N /\ u_printable c = true /\ ((768 <= c)%N -> u_grext c = false).

Inductive readable_lit : literal -> Prop :=
| rl_char c : graphic c -> readable_lit (LChar c)
| rl_str s : Forall graphic s -> readable_lit (LStr s)
| rl_int n : (n < 2 ^ 64)%N -> readable_lit (LInt n).

(** A name on its own is one token.  (No superscript or subscript is a letter;
    the model's character table does not know.) *)
Definition a_name (s : str) : Prop := lexeme s (TLower s) [] /\ stops script s.

(** How an operator should be written. *)
Definition op_text (o : infix) : str :=
  match o with Standard s => s | Promoted s => 39%N :: s end.

(** Written so and followed by the character [c], it is one token. *)
Definition an_operator (o : infix) (c : chr) : Prop :=
  (exists t, lexeme (op_text o) t [c] /\ operator t o) /\ ~ In 10%N (symbol o) /\ ~ In 27%N (symbol o).

(** Patterns; the flag is set inside a tuple or list, not for the first
    element of a tuple. *)
Inductive readable_pat : bool -> pat -> Prop :=
| rp_wild q : readable_pat q PWild
| rp_var q s : a_name s -> readable_pat q (PVar s)
| rp_lit x : readable_lit x -> readable_pat true (PLit x)
| rp_as q s p : a_name s -> readable_pat false p -> readable_pat q (PAs s p)
| rp_neg q p : readable_pat false p -> readable_pat q (PNeg p)
| rp_tup q p p' ps : readable_pat false p -> Forall (readable_pat true) (p' :: ps) ->
    readable_pat q (PTup (p :: p' :: ps))
| rp_arr q ps : ps <> [] -> Forall (readable_pat true) ps -> readable_pat q (PArr ps).

(** Expressions that can be an argument, and applications of those. *)
Definition is_arg (e : expr) : bool :=
  match e with Lit _ | Var _ | Grp _ | Tup _ | List _ => true | _ => false end.
Definition is_spine (e : expr) : bool :=
  match e with App _ _ => true | _ => is_arg e end.

Inductive readable : expr -> Prop :=
| re_lit x : readable_lit x -> readable (Lit x)
| re_name s : a_name s -> readable (Var (ILower s))
| re_commas n : n <> 0 -> readable (Var (ICommas n))
| re_section s : lexeme s (TAffix s false) [41%N] -> readable (Var (IInfix s))
| re_app f x : is_spine f = true -> is_arg x = true -> readable f -> readable x -> readable (App f x)
| re_bin a o b : an_operator o 32 -> readable a -> readable b -> readable (Bin a o b)
| re_lam p e : readable_pat false p -> readable e -> readable (Lam p e)
| re_grp e : readable e -> readable (Grp e)
| re_tup es : List.length es <> 1 -> Forall readable es -> readable (Tup es)
| re_list es : Forall readable es -> readable (List es)
| re_let d e : readable e -> readable (Let d e).

End WithUcd.

(** * Brackets and colours on the screen *)

Definition brackets : list (chr * chr) := [(40, 41); (91, 93)]%N.
Definition is_bracket : chr -> bool := mem (lit "()[]").

(** Text in the default appearance. *)
Definition plainly (s : str) : list (chr * term) := map (fun c => (c, plain)) s.

(** [nested leaf o]: every bracket outside the texts of [leaf] is matched, and
    both brackets of a pair look the same; everything else is plain. *)
Inductive nested (leaf : str -> Prop) : list (chr * term) -> Prop :=
| ne_nil : nested leaf []
| ne_leaf s o : leaf s -> nested leaf o -> nested leaf (plainly s ++ o)
| ne_text s o : Forall (fun c => is_bracket c = false) s -> nested leaf o -> nested leaf (plainly s ++ o)
| ne_pair l r a i o : In (l, r) brackets -> nested leaf i -> nested leaf o ->
    nested leaf ((l, a) :: i ++ (r, a) :: o).

(** Matching brackets, in the usual way: a stack of the closing brackets
    expected. *)
Fixpoint matched (open : list chr) (s : str) : bool :=
  match s with
  | [] => match open with [] => true | _ => false end
  | c :: s' =>
      match find (fun p => N.eqb (fst p) c) brackets with
      | Some (_, r) => matched (r :: open) s'
      | None => if is_bracket c
                then match open with r :: open' => N.eqb r c && matched open' s' | [] => false end
                else matched open s'
      end
  end.

(** [texts e t]: the text [t] of a name or literal occurs in [e].  [show] gives
    the text of a literal. *)
Section Texts.
Variable show : literal -> str.
Inductive pat_texts : pat -> str -> Prop :=
| pt_lit l : pat_texts (PLit l) (show l)
| pt_var s : pat_texts (PVar s) s
| pt_neg p s : pat_texts p s -> pat_texts (PNeg p) s
| pt_con s ps : pat_texts (PCon s ps) s
| pt_con_arg s ps p x : In p ps -> pat_texts p x -> pat_texts (PCon s ps) x
| pt_tup ps p x : In p ps -> pat_texts p x -> pat_texts (PTup ps) x
| pt_arr ps p x : In p ps -> pat_texts p x -> pat_texts (PArr ps) x
| pt_lnk_l a b x : pat_texts a x -> pat_texts (PLnk a b) x
| pt_lnk_r a b x : pat_texts b x -> pat_texts (PLnk a b) x
| pt_as s p : pat_texts (PAs s p) s
| pt_as_in s p x : pat_texts p x -> pat_texts (PAs s p) x.

Inductive texts : expr -> str -> Prop :=
| tx_lit l : texts (Lit l) (show l)
| tx_upper s : texts (Var (IUpper s)) s
| tx_lower s : texts (Var (ILower s)) s
| tx_infix s : texts (Var (IInfix s)) s
| tx_app_f f x s : texts f s -> texts (App f x) s
| tx_app_x f x s : texts x s -> texts (App f x) s
| tx_bin_l a o b s : texts a s -> texts (Bin a o b) s
| tx_bin_o a o b : texts (Bin a o b) (symbol o)
| tx_bin_r a o b s : texts b s -> texts (Bin a o b) s
| tx_lam_p p e s : pat_texts p s -> texts (Lam p e) s
| tx_lam p e s : texts e s -> texts (Lam p e) s
| tx_grp e s : texts e s -> texts (Grp e) s
| tx_neg e s : texts e s -> texts (Neg e) s
| tx_tup es e s : In e es -> texts e s -> texts (Tup es) s
| tx_list es e s : In e es -> texts e s -> texts (List es) s
| tx_let d e s : texts e s -> texts (Let d e) s.
End Texts.

(** * The listing of fixities *)

Definition fixity_dec (a b : fixity) : {a = b} + {a <> b}.
Proof. decide equality; [decide equality|apply N.eq_dec]. Defined.

(** The distinct fixities of a list, in the order of their first occurrence. *)
Fixpoint firsts (fs : list fixity) : list fixity :=
  match fs with
  | [] => []
  | f :: fs' => f :: filter (fun g => if fixity_dec f g then false else true) (firsts fs')
  end.

(** One line: the fixity, with the numbers aligned, and its operators. *)
Definition listing_line (f : fixity) (os : list infix) : str :=
  keyword (fx_assoc f) ++ (match fx_assoc f with ANeither => lit "  " | _ => lit " " end)
  ++ show_N (fx_prec f) ++ [32%N] ++ commas (map op_text os).

Fixpoint lines (ls : list str) : str :=
  match ls with
  | [] => []
  | [l] => l
  | l :: ls' => l ++ 10%N :: lines ls'
  end.

(** The operators of a table with a given fixity. *)
Definition with_fixity (t : list (infix * fixity)) (f : fixity) : list infix :=
  map fst (filter (fun x => if fixity_dec f (snd x) then true else false) t).
