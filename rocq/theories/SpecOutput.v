(** What a session shows: prompts, messages and the responses to commands.
    Nothing here refers to the functions of the session; the text of the help
    screen is shared with Repl.v. *)
From Coq Require Import List NArith Bool String.
From Verif Require Import Prelim Chars Syntax Fixity SpecGrapheme SpecLexer SpecParser SpecFixity SpecStyle SpecPrinter Repl SpecRepl.
Import ListNotations.
Local Open Scope string_scope.
Local Open Scope list_scope.

(** * Prompts *)

Definition esc (s : string) : str := 27%N :: lit s.
Definition first_prompt : str := esc "[32m> " ++ esc "[0m".
Definition second_prompt : str := esc "[34m |  " ++ esc "[0m".

(** Lines that open a brace and do not close it; [x] is what they add. *)
Definition opening (l x : str) : Prop :=
  exists n, trimmed l (repeat 123%N (S n) ++ x) /\ ~ starts 123 x /\ ~ ends 92 x /\ ~ ends 125 x.
Definition closing (l : str) : Prop :=
  exists n x m, trimmed l (repeat 123%N (S n) ++ x ++ repeat 125%N (S m)).
Definition plain_line (l : str) : Prop :=
  exists x, trimmed l x /\ x <> [] /\ ~ starts 58 x /\ ~ starts 123 x /\ ~ ends 92 x.
Definition backslashed (l : str) : Prop :=
  exists x, trimmed l (x ++ [92%N]) /\ ~ starts 58 x.
Definition aside (l : str) : Prop := white l \/ exists c, trimmed l (58%N :: c).

(** [prompt_after p e q]: the prompt before and after an event. *)
Inductive prompt_after (p : str) : event -> str -> Prop :=
| pa_open w l x : opening l x -> prompt_after p (Line w l) second_prompt
| pa_backslash w l : backslashed l -> prompt_after p (Line w l) first_prompt
| pa_plain w l : plain_line l -> prompt_after p (Line w l) first_prompt
| pa_close w l : closing l -> prompt_after p (Line w l) p
| pa_aside w l : aside l -> prompt_after p (Line w l) p
| pa_failed m : prompt_after p (Failed m) p.

(** * Messages about rejected texts *)

Definition position_text (a : loc) (m : str) : Prop :=
  exists x y z, decimal (l_pos a) x /\ decimal (l_line a) y /\ decimal (l_col a) z /\
    m = lit "[" ++ x ++ lit "]:" ++ y ++ lit ":" ++ z.

Definition code_point_text (a : loc) (e : cperror) (m : str) : Prop :=
  match e with
  | CpEmpty => exists p, position_text a p /\ m = lit "expected codepoint for unicode escape at " ++ p
  | CpBadConnector c => m = lit "invalid character `" ++ [c]
      ++ lit "` found following unicode escape `\u`; expected `+` or hexadecimal after"
  | CpTooLong s => m = lit "unicode escape `" ++ s ++ lit "` is more than the maximum length of 6 hex digits"
  | CpNotInCharRange s n => exists d, decimal (N.to_nat n) d /\
      m = lit "the integer `" ++ s ++ lit "` (" ++ d ++ lit ") is out of the range for valid character values"
  end.

(** The description of a mistake; nothing is said about two apostrophes, at
    which the program stops. *)
Inductive mistake_text : lexerror -> str -> Prop :=
| mt_escape c a b : mistake_text (EInvalidEscape c a b) (lit "the sequence `\" ++ [c] ++ lit "` is not a valid character escape")
| mt_int a p : position_text a p ->
    mistake_text (EInvalidInt a IPosOverflow)
      (lit "the token at " ++ p ++ lit " is too large to be correctly parsed into an integer")
| mt_infix a s p : position_text a p ->
    mistake_text (EInvalidPromotedInfix a s) (lit "invalid identifier `" ++ s ++ lit "` in operator promotion at " ++ p)
| mt_char a b p : position_text a p ->
    mistake_text (EUnterminatedChar a b) (lit "unterminated character literal starting at " ++ p)
| mt_string a p : position_text a p ->
    mistake_text (EUnterminatedString a) (lit "unterminated string literal starting at " ++ p)
| mt_comment a b y z : decimal (l_line a) y -> decimal (l_col a) z ->
    mistake_text (EUnterminatedComment a b) (lit "block comment starting at " ++ y ++ lit ":" ++ z ++ lit " was not terminated")
| mt_unicode a e m : code_point_text a e m -> mistake_text (EInvalidUnicode a e) m
| mt_unknown : mistake_text EUnknown (lit "unknown lexer error").

Definition as_written (t : token) : Prop :=
  match t with
  | TLit _ | TEof | TError _ | TAffix _ true => False
  | _ => True
  end.

Section WithUcd.
Context {U : ucd}.
Variable literal_text : literal -> str.

(** [named_in t s m]: the token [t], written [s], is called [m] in messages. *)
Inductive named_in : token -> str -> str -> Prop :=
| na_written t s : as_written t -> named_in t s s
| na_promoted n s : named_in (TAffix n true) s (39%N :: n)
| na_literal l s : named_in (TLit l) s (literal_text l)
| na_end : named_in TEof [] [0%N]
| na_mistake x s m : mistake_text x m -> named_in (TError x) s m.

Definition wanted : list (token * string) :=
  [(TParenL, "("); (TParenR, ")"); (TBrackL, "["); (TBrackR, "]"); (TLambda, "\"); (TArrow, "->"); (TIn, "in")].

(** [stands src w g s v t]: in [src] the token [t] stands as [s], after [w] and
    the gap [g], before [v]; the end of the text counts as a token. *)
Definition stands (src w g s v : str) (t : token) : Prop :=
  src = w ++ g ++ s ++ v /\ gap g (s ++ v) /\
  (lexeme s t v \/ (exists x, t = TError x /\ mistake (w ++ g) s x v) \/ (t = TEof /\ s = [] /\ v = [])).

(** [blames src m a]: [m] names a token of [src] that cannot stand where it
    does, without the position [a], which is before the gap before the token or
    after the token. *)
Inductive blames (src : str) : str -> loc -> Prop :=
| bl_unexpected w g s v t m a : stands src w g s v t -> named_in t s m ->
    a = loc_of w \/ a = loc_of (w ++ g ++ s) ->
    blames src (lit "unexpected token `" ++ m ++ lit "`") a
| bl_expected w g s v t m a x n : stands src w g s v t -> named_in t s m ->
    a = loc_of w \/ a = loc_of (w ++ g ++ s) -> In (x, n) wanted -> t <> x ->
    blames src (lit "expected `" ++ lit n ++ lit "`, but found `" ++ m ++ lit "`") a.

(** The message for a text typed in: the position follows. *)
Definition complaint (src m : str) : Prop :=
  exists a b p, blames src b a /\ position_text a p /\
    (m = b ++ lit " found at " ++ p /\ (exists x, b = lit "unexpected" ++ x)
     \/ m = b ++ lit " at " ++ p /\ (exists x, b = lit "expected" ++ x)).

(** The message for a text from the file [q]: the position is in front. *)
Definition file_complaint (q src m : str) : Prop :=
  exists a b y z, blames src b a /\ decimal (l_line a) y /\ decimal (l_col a) z /\
    m = esc "[31m[Error]:" ++ esc "[0m  " ++ esc "[34m(" ++ q ++ lit ":" ++ y ++ lit ":" ++ z ++ lit ") " ++ esc "[0m" ++ b.

(** * Responses to commands *)

(** [lists es m]: [m] shows the operators [es] with their fixities, one line for
    each fixity, and leaves the colours as they were. *)
Definition lists (es : list (infix * fixity)) (m : str) : Prop :=
  (forall o f, In (o, f) es -> no_esc (symbol o) /\ o <> Promoted (lit "'")) ->
  visible m = SpecPrinter.lines (map (fun f => listing_line f (with_fixity es f)) (firsts (map snd es))) /\
  SpecStyle.after m plain = Some plain.

(** [t] lists the operators that have a fixity. *)
Definition table_of (D : infix -> option fixity) (t : list (infix * fixity)) : Prop :=
  NoDup (map (fun x => symbol (fst x)) t) /\
  (forall o f, D o = Some f <-> exists o', In (o', f) t /\ symbol o' = symbol o).

(** The operator meant by a word: one that starts with a letter or an
    underscore is promoted. *)
Definition operator_of (x : str) (o : infix) : Prop :=
  match x with
  | [] => False
  | c :: _ => o = if is_alpha c || N.eqb c 95 then Promoted x else Standard x
  end.
(** [picked D os found missing]: those that have a fixity, those that do not. *)
Inductive picked (D : infix -> option fixity) : list infix -> list infix -> list infix -> Prop :=
| pk_nil : picked D [] [] []
| pk_found o os a b : D o <> None -> picked D os a b -> picked D (o :: os) (o :: a) b
| pk_missing o os a b : D o = None -> picked D os a b -> picked D (o :: os) a (o :: b).

Fixpoint commaed (xs : list str) : str :=
  match xs with
  | [] => []
  | [x] => x
  | x :: xs' => x ++ lit ", " ++ commaed xs'
  end.

Definition is_paren (c : chr) : bool := N.eqb c 40 || N.eqb c 41.

(** What is written when the file [q] with the items [ds] has been read. *)
Definition file_report (F : infix -> fixity) (q : str) (ds : list decl) (acts : list action) : Prop :=
  let G := declared F (infix_decls ds) in
  ((exists es', Forall2 (resolves G) (input_exprs ds) es') /\
   exists n m, decimal (List.length (infix_decls ds)) n /\
     lists (flat_map (fun d => map (fun o => (o, d_fixity d)) (d_infixes d)) (infix_decls ds)) m /\
     acts = [AOut (n ++ lit " fixities read from `" ++ q ++ lit "`" ++ [10%N]); AOut (m ++ [10%N])]) \/
  ((forall es', ~ Forall2 (resolves G) (input_exprs ds) es') /\
   exists xs ss, Forall2 clash_text xs ss /\ xs <> [] /\
     acts = [AOut (esc "[31m[Error]:" ++ esc "[0m " ++ esc "[34m(" ++ q ++ lit ")" ++ esc "[0m"
                   ++ flat_map (fun s => [10; 32; 32]%N ++ s) ss ++ [10%N])] /\
     NoDup (map (fun x => (symbol (e_prev x), e_prev_fix x, symbol (e_curr x), e_curr_fix x)) xs) /\
     forall x, In x xs -> exists e, In e (input_exprs ds) /\ clash_in G e (e_prev x) (e_prev_fix x) (e_curr x) (e_curr_fix x)).

(** [loading w k F ps acts]: the files [ps], the first of which is the [k]-th
    one read, are loaded one after another. *)
Inductive loading (w : world) : nat -> (infix -> fixity) -> list str -> list action -> Prop :=
| lo_nil k F : loading w k F [] []
| lo_missing k F p q e ps acts : path_of p q -> w_read w k q = inr e -> loading w (S k) F ps acts ->
    loading w k F (p :: ps) (ARead q :: AErr (lit "unable to read `" ++ q ++ lit "`" ++ [10%N]) :: AErr (e ++ [10%N]) :: acts)
| lo_read k F p q x t ds rep ps acts : path_of p q -> w_read w k q = inl x -> loaded_text q x t ->
    parses t ds -> file_report F q ds rep -> loading w (S k) (declared F (infix_decls ds)) ps acts ->
    loading w k F (p :: ps) (ARead q :: rep ++ acts)
| lo_rejected k F p q x t m ps acts : path_of p q -> w_read w k q = inl x -> loaded_text q x t ->
    (forall ds, ~ parses t ds) -> file_complaint q t m -> loading w (S k) F ps acts ->
    loading w k F (p :: ps) (ARead q :: AOut (m ++ [10%N]) :: acts).

(** The command lines that are understood. *)
Definition known (c : str) : Prop :=
  (exists n arg, In n [":cd"; ":clear"; ":history"; ":info"; ":i"; ":load"; ":shell"] /\ command c n arg) \/
  In c (map lit [":help"; ":h"; ":?"; ":reset"; ":r"; ":fixities"]) \/ quits c.

(** What is done and written in response to the command line [c], when [h] is
    the path of the history, [D] gives the fixities that were declared and [F]
    those in force. *)
Inductive responds (w : world) (h : str) (D : infix -> option fixity) (F : infix -> fixity) (c : str) : list action -> Prop :=
| rs_help : In c (map lit [":help"; ":h"; ":?"]) -> responds w h D F c [AOut (help_msg ++ [10%N])]
| rs_quit : c = lit ":q" \/ c = lit ":quit" ->
    responds w h D F c [ASaveHistory h; AOut (lit "exiting Pemdas REPL" ++ [10%N])]
| rs_quit_quietly : c = lit ":q --no-history" \/ c = lit ":quit --no-history" ->
    responds w h D F c [AOut (lit "exiting Pemdas REPL" ++ [10%N])]
| rs_cd_nowhere : command c ":cd" [] -> responds w h D F c [AErr (lit "no directory provided to `:cd` command" ++ [10%N])]
| rs_cd p : command c ":cd" p -> p <> [] -> w_chdir w p = None -> responds w h D F c [AChdir p]
| rs_cd_failed p e : command c ":cd" p -> p <> [] -> w_chdir w p = Some e ->
    responds w h D F c [AChdir p; AErr (lit "could not change current directory to `" ++ p ++ lit "`: " ++ e ++ [10%N])]
| rs_clear_history : command c ":clear" (lit "--history") ->
    responds w h D F c [AClearHistory; AOut (lit "session history cleared" ++ [10%N])]
| rs_clear_fixities names n : command c ":clear" (lit "--fixities") -> names_of D names -> decimal (List.length names) n ->
    responds w h D F c [AOut (n ++ lit " fixities cleared" ++ [10%N])]
| rs_clear_session o names n : command c ":clear" o ->
    In o (map lit ["--session"; "--history --fixities"; "--fixities --history"]) ->
    names_of D names -> decimal (List.length names) n ->
    responds w h D F c [AClearHistory; AOut (n ++ lit " fixities cleared, session history cleared" ++ [10%N])]
| rs_clear_other o : command c ":clear" o ->
    ~ In o (map lit ["--history"; "--fixities"; "--session"; "--history --fixities"; "--fixities --history"]) ->
    responds w h D F c [AErr (lit "unknown option(s) passed to command `:clear`: " ++ o ++ [10%N])]
| rs_history_clear : command c ":history" (lit "--clear") ->
    responds w h D F c [AClearHistory; AOut (lit "session history cleared" ++ [10%N])]
| rs_history_clear_file : command c ":history" (lit "--clear --file") ->
    responds w h D F c [AClearHistory; ASaveHistory h; AOut (lit "session history and file cleared" ++ [10%N])]
| rs_history_set_nothing b : command c ":history" (lit "--set" ++ b) -> trimmed b [] ->
    responds w h D F c [AErr (lit "no filepath provided for command `:history --set`" ++ [10%N])]
| rs_history_set b p : command c ":history" (lit "--set" ++ b) -> trimmed b p -> p <> [] ->
    responds w h D F c [AOut (lit "session history filepath changed to" ++ [10; 32; 32]%N ++ p ++ [10%N])]
| rs_history_save : command c ":history" (lit "--save") ->
    responds w h D F c [ASaveHistory h; AOut (lit "session history written to file located at" ++ [10; 32; 32]%N ++ h ++ [10%N])]
| rs_history_save_as b p : command c ":history" (lit "--save" ++ b) -> b <> [] -> starts_white b -> trimmed b p ->
    responds w h D F c [ASaveHistory p; AOut (lit "session history written to file located at" ++ [10; 32; 32]%N ++ h ++ [10%N])]
| rs_history_other o : command c ":history" o -> o <> lit "--clear" -> o <> lit "--clear --file" ->
    (forall b, o <> lit "--set" ++ b) -> (forall b, starts_white b -> o <> lit "--save" ++ b) ->
    responds w h D F c [AErr (lit "invalid option/argument to `:history` command: `" ++ o ++ lit "`" ++ [10%N]);
                        AErr (history_usage ++ [10%N])]
| rs_reset names n : c = lit ":reset" \/ c = lit ":r" -> names_of D names -> decimal (List.length names - 1) n ->
    responds w h D F c [AOut (n ++ lit " fixities removed" ++ [10%N])]
| rs_list t m : In c (map lit [":info"; ":i"; ":fixities"]) -> table_of D t -> lists t m ->
    responds w h D F c [AOut (m ++ [10%N])]
| rs_info name arg t ws os found es m : name = ":info" \/ name = ":i" -> command c name arg -> arg <> [] -> table_of D t ->
    word_list (filter (fun c => negb (is_paren c)) arg) ws -> Forall2 operator_of ws os -> picked D os found [] ->
    Forall2 (fun o x => In x t /\ symbol (fst x) = symbol o) found es -> lists es m ->
    responds w h D F c [AOut (m ++ [10%N])]
| rs_info_missing name arg t ws os found missing es m names : name = ":info" \/ name = ":i" -> command c name arg -> arg <> [] -> table_of D t ->
    word_list (filter (fun c => negb (is_paren c)) arg) ws -> Forall2 operator_of ws os -> picked D os found missing -> missing <> [] ->
    Forall2 (fun o x => In x t /\ symbol (fst x) = symbol o) found es -> lists es m -> Forall2 operator_text missing names ->
    responds w h D F c [AOut (m ++ [10%N]); AOut (lit "the following were not defined: " ++ commaed names)]
| rs_load_nothing : command c ":load" [] -> responds w h D F c [AErr (lit "`:load` command missing option/argument" ++ [10%N])]
| rs_load_prelude : command c ":load" (lit "--prelude") ->
    responds w h D F c [AOut (lit "loaded 23 fixities from Haskell prelude" ++ [10%N])]
| rs_load_math : command c ":load" (lit "--math") ->
    responds w h D F c [AOut (lit "loaded 8 fixities for arithmetic operators" ++ [10%N])]
| rs_load arg ps acts : command c ":load" arg -> arg <> [] -> arg <> lit "--prelude" -> arg <> lit "--math" ->
    word_list arg ps -> loading w 0 F ps acts -> responds w h D F c acts
| rs_shell_nothing : command c ":shell" [] ->
    responds w h D F c [AErr (lit "no command provided to `:shell/:sh` command" ++ [10%N]); AErr (lit "USAGE: :shell CMD <ARG>*" ++ [10%N])]
| rs_shell arg prog args out : command c ":shell" arg -> word_list arg (prog :: args) -> w_spawn w prog args = inl out ->
    responds w h D F c [ASpawn prog args; AOut out]
| rs_shell_failed arg prog args e : command c ":shell" arg -> word_list arg (prog :: args) -> w_spawn w prog args = inr e ->
    responds w h D F c [ASpawn prog args; AErr (e ++ [10%N])]
| rs_unknown : ~ known c -> responds w h D F c [AErr (lit "unknown command: `" ++ c ++ lit "`" ++ [10%N])].

End WithUcd.
