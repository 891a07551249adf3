(** What an interactive session should do with its input, stated on texts and
    fixity assignments.  Nothing here refers to the functions of the session;
    only the types of events and worlds are shared with Repl.v. *)
From Coq Require Import List NArith Bool String.
From Verif Require Import Prelim Chars Syntax Fixity SpecGrapheme SpecLexer SpecParser SpecFixity Repl.
Import ListNotations.
Local Open Scope string_scope.
Local Open Scope list_scope.

(** * Lines *)

(** What a line asks for: nothing, a command, keeping text for later, or
    evaluating the kept text followed by this one. *)
Inductive reaction :=
| Nothing
| Command (c : str)
| Hold (t : str)
| Say (t : str).

Definition starts (c : chr) (s : str) : Prop := exists s', s = c :: s'.
Definition ends (c : chr) (s : str) : Prop := exists s', s = s' ++ [c].

(** 58 colon, 92 backslash, 123 and 125 braces, 32 space, 10 newline *)
Inductive reads : str -> reaction -> Prop :=
| rd_blank l : white l -> reads l Nothing
| rd_command l c : trimmed l (58%N :: c) -> reads l (Command (58%N :: c))
| rd_infix l x : trimmed l (lit "infix" ++ x ++ [32; 92]%N) ->
    reads l (Hold (lit "infix" ++ x ++ [10]%N))
| rd_backslash l x : trimmed l (x ++ [92]%N) -> ~ starts 58 x ->
    (forall y, x <> lit "infix" ++ y ++ [32]%N) ->
    reads l (Hold (x ++ [10; 32]%N))
| rd_open l n x : trimmed l (repeat 123%N (S n) ++ x) -> ~ starts 123 x ->
    ~ ends 92 x -> ~ ends 125 x -> reads l (Hold x)
| rd_close l n x m : trimmed l (repeat 123%N (S n) ++ x ++ repeat 125%N (S m)) ->
    ~ starts 123 x -> ~ ends 125 x -> reads l (Say x)
| rd_plain l x : trimmed l x -> x <> [] -> ~ starts 58 x -> ~ starts 123 x -> ~ ends 92 x ->
    reads l (Say x).

(** * Sessions as sequences of evaluations and commands *)

Inductive item :=
| Evaluate (t : str)
| Invoke (w : world) (c : str)
| Refuse
| Notice (msg : str).

(** [grouped b es is b']: with the text [b] kept, the events [es] amount to
    [is], after which the text [b'] is kept. *)
Inductive grouped : str -> list event -> list item -> str -> Prop :=
| gr_nil b : grouped b [] [] b
| gr_failed b msg es is b' : grouped b es is b' -> grouped b (Failed msg :: es) (Notice msg :: is) b'
| gr_nothing b w l es is b' : reads l Nothing -> grouped b es is b' -> grouped b (Line w l :: es) is b'
| gr_hold b w l t es is b' : reads l (Hold t) -> grouped (b ++ t) es is b' ->
    grouped b (Line w l :: es) is b'
| gr_say b w l t es is b' : reads l (Say t) -> grouped [] es is b' ->
    grouped b (Line w l :: es) (Evaluate (b ++ t) :: is) b'
| gr_command w l c es is b' : reads l (Command c) -> grouped [] es is b' ->
    grouped [] (Line w l :: es) (Invoke w c :: is) b'
| gr_refuse b w l c es is b' : b <> [] -> reads l (Command c) -> grouped b es is b' ->
    grouped b (Line w l :: es) (Refuse :: is) b'.

(** * Commands *)

(** The command line [c] is the word [name] and the argument text [arg]. *)
Definition command (c : str) (name : string) (arg : str) : Prop :=
  exists b, c = lit name ++ b /\ starts_white b /\ trimmed b arg.

(** The words of a text. *)
Inductive word_list : str -> list str -> Prop :=
| wl_nil s : white s -> word_list s []
| wl_cons s a p b ws : splits s a p b -> word_list b ws -> word_list s (p :: ws).

(** The commands that forget the fixities, and those that may bring in new
    ones. *)
Definition clears_fixities (c : str) : Prop :=
  c = lit ":reset" \/ c = lit ":r" \/ command c ":clear" (lit "--fixities")
  \/ command c ":clear" (lit "--session")
  \/ command c ":clear" (lit "--history --fixities")
  \/ command c ":clear" (lit "--fixities --history").
Definition loads_something (c : str) : Prop := exists arg, arg <> [] /\ command c ":load" arg.

(** The decimal digits of a number. *)
Definition decimal (n : nat) (s : str) : Prop :=
  exists ds, digits_of 10 (N.of_nat n) ds /\ s = map (N.add 48) ds.

(** [names] lists the operators that have a fixity, each once. *)
Definition names_of (defined : infix -> option fixity) (names : list str) : Prop :=
  NoDup names /\ forall o, In (symbol o) names <-> defined o <> None.

(** What a command does to the world besides writing: change the directory,
    run a program, read files, clear or write the history.  [h] is the path of
    the history. *)
Definition forgets_history (c : str) : Prop :=
  command c ":history" (lit "--clear") \/
  exists o, command c ":clear" o /\
    In o [lit "--history"; lit "--session"; lit "--history --fixities"; lit "--fixities --history"].

(** The path meant by an argument of the load command: the first of two
    enclosing quotation marks is dropped, the second is kept. *)
Inductive path_of : str -> str -> Prop :=
| po_quoted x : path_of (34%N :: x ++ [34%N]) (x ++ [34%N])
| po_quote : path_of [34%N] []
| po_bare p : (forall x, p <> 34%N :: x ++ [34%N]) -> p <> [34%N] -> path_of p p.

Inductive effect (h c : str) : list action -> Prop :=
| ef_cd p : p <> [] -> command c ":cd" p -> effect h c [AChdir p]
| ef_shell arg prog args : command c ":shell" arg -> word_list arg (prog :: args) ->
    effect h c [ASpawn prog args]
| ef_load arg ps qs : command c ":load" arg -> arg <> [] -> arg <> lit "--prelude" -> arg <> lit "--math" ->
    word_list arg ps -> Forall2 path_of ps qs -> effect h c (map ARead qs)
| ef_forget : forgets_history c -> effect h c [AClearHistory]
| ef_clear_file : command c ":history" (lit "--clear --file") -> effect h c [AClearHistory; ASaveHistory h]
| ef_save : command c ":history" (lit "--save") -> effect h c [ASaveHistory h]
| ef_save_as b p : command c ":history" (lit "--save" ++ b) -> b <> [] -> starts_white b -> trimmed b p ->
    effect h c [ASaveHistory p]
| ef_leave : c = lit ":q" \/ c = lit ":quit" -> effect h c [ASaveHistory h].

Definition performs (h c : str) (as_ : list action) : Prop :=
  effect h c as_ \/ as_ = [] /\ forall as', ~ effect h c as'.

(** The path of the history after a command. *)
Inductive history_path (h c : str) : str -> Prop :=
| hp_set b p : command c ":history" (lit "--set" ++ b) -> trimmed b p -> p <> [] -> history_path h c p
| hp_kept : (forall b p, command c ":history" (lit "--set" ++ b) -> trimmed b p -> p = []) -> history_path h c h.

(** * Files *)

(** The lines of a text. *)
Fixpoint join (ls : list str) : str :=
  match ls with
  | [] => []
  | [l] => l
  | l :: ls' => l ++ 10%N :: join ls'
  end.
Definition text_lines (t : str) (ls : list str) : Prop :=
  t = join ls /\ ls <> [] /\ Forall (all not_lf) ls.

(** Any number of slashes, each perhaps followed by a dot. *)
Inductive dot_slashes : str -> Prop :=
| ds_nil : dot_slashes []
| ds_slash z : dot_slashes z -> dot_slashes (47%N :: z)
| ds_dot z : dot_slashes z -> dot_slashes (47%N :: 46%N :: z).
(** A path whose last component, up to slashes and single dots at its end, is
    a nonempty name and [.hs]. *)
Definition hs_path (p : str) : Prop :=
  exists d f z, p = d ++ f ++ lit ".hs" ++ z /\ (d = [] \/ ends 47 d) /\ f <> [] /\ ~ In 47%N f
    /\ dot_slashes z.

(** The lines of a Haskell source that start with the letters of a fixity
    declaration, trimmed. *)
Inductive fixity_lines : list str -> list str -> Prop :=
| fl_nil : fixity_lines [] []
| fl_take l x ls xs : trimmed l (lit "infix" ++ x) -> fixity_lines ls xs ->
    fixity_lines (l :: ls) ((lit "infix" ++ x) :: xs)
| fl_skip l ls xs : (forall x, ~ trimmed l (lit "infix" ++ x)) -> fixity_lines ls xs ->
    fixity_lines (l :: ls) xs.

(** The text evaluated when the file [p] with contents [t] is loaded. *)
Inductive loaded_text (p t : str) : str -> Prop :=
| lt_whole : ~ hs_path p -> loaded_text p t t
| lt_haskell ls xs : hs_path p -> text_lines t ls -> fixity_lines ls xs ->
    loaded_text p t (List.concat xs).

(** * Fixities in force *)

Section WithUcd.
Context {U : ucd}.

(** The text [t] is the sequence of declarations and expressions [ds]. *)
Definition parses (t : str) (ds : list decl) : Prop :=
  exists ts, ctokens [] t ts /\ program Nat.ltb ts ds.

(** A fixity declaration as it is usually written. *)
Definition declaration_text (x : str) (d : infix_decl) : Prop :=
  exists a n os ss, Forall2 spelled os ss /\ os <> [] /\
    match n with Some n => (n <= 9)%N | None => hd [] ss <> lit "-" /\ hd [] ss <> lit "@" end /\
    x = keyword a ++ prec_text n ++ 32%N :: commas ss /\
    d = mkInfixDecl os (mkFix match n with Some n => n | None => 9%N end a).

(** Evaluating a text: its declarations come into force, all or none. *)
Inductive evaluates (F : infix -> fixity) (t : str) : (infix -> fixity) -> Prop :=
| ev_parsed ds : parses t ds -> evaluates F t (declared F (infix_decls ds))
| ev_rejected : (forall ds, ~ parses t ds) -> evaluates F t F.

Inductive loads (w : world) : nat -> (infix -> fixity) -> list str -> (infix -> fixity) -> Prop :=
| ld_nil k F : loads w k F [] F
| ld_missing k F p q e ps F' : path_of p q -> w_read w k q = inr e ->
    loads w (S k) F ps F' -> loads w k F (p :: ps) F'
| ld_read k F p q c t F1 ps F' : path_of p q -> w_read w k q = inl c -> loaded_text q c t ->
    evaluates F t F1 -> loads w (S k) F1 ps F' -> loads w k F (p :: ps) F'.

(** The fixities of a list of named operators over others. *)
Definition over (tbl : list (string * fixity)) (F : infix -> fixity) (o : infix) : fixity :=
  match find (fun x => str_eqb (lit (fst x)) (symbol o)) tbl with
  | Some (_, f) => f
  | None => F o
  end.

(** The fixities the arithmetic preset really has; compare [doc_math]. *)
Definition code_math : list (string * fixity) :=
  [ ("+", mkFix 6 ALeft); ("-", mkFix 6 ALeft);
    ("*", mkFix 6 ALeft); ("/", mkFix 6 ALeft); ("%", mkFix 6 ALeft);
    ("^", mkFix 8 ARight); ("^^", mkFix 8 ARight); ("**", mkFix 8 ARight) ].

(** [evolves F i F']: the fixities in force before and after an item. *)
Inductive evolves (F : infix -> fixity) : item -> (infix -> fixity) -> Prop :=
| vo_evaluate t F' : evaluates F t F' -> evolves F (Evaluate t) F'
| vo_clear w c : clears_fixities c -> evolves F (Invoke w c) (fun _ => mkFix 9 ALeft)
| vo_prelude w c : command c ":load" (lit "--prelude") -> evolves F (Invoke w c) (over doc_prelude F)
| vo_math w c : command c ":load" (lit "--math") -> evolves F (Invoke w c) (over code_math F)
| vo_files w c arg ps F' : command c ":load" arg -> arg <> lit "--prelude" -> arg <> lit "--math" ->
    word_list arg ps -> loads w 0 F ps F' -> evolves F (Invoke w c) F'
| vo_other w c : ~ clears_fixities c -> ~ loads_something c -> evolves F (Invoke w c) F
| vo_refuse : evolves F Refuse F
| vo_notice msg : evolves F (Notice msg) F.

Inductive evolution (F : infix -> fixity) : list item -> (infix -> fixity) -> Prop :=
| en_nil : evolution F [] F
| en_cons i F1 is F' : evolves F i F1 -> evolution F1 is F' -> evolution F (i :: is) F'.

(** Texts the resolution theorems speak about: no newline followed by a
    carriage return, and no let that lists an operator twice (see C10). *)
Definition tidy (t : str) : Prop :=
  no_lfcr t /\ forall ds, parses t ds -> Forall nodup_lets (input_exprs ds).

(** The [k]-th file the command line [c] asks to load. *)
Definition asks_for (c : str) (k : nat) (q : str) : Prop :=
  exists arg ps p, command c ":load" arg /\ arg <> lit "--prelude" /\ arg <> lit "--math" /\
    word_list arg ps /\ nth_error ps k = Some p /\ path_of p q.

(** The texts evaluated in the course of some items. *)
Definition evaluated (is : list item) (t : str) : Prop :=
  In (Evaluate t) is
  \/ exists w c k p x, In (Invoke w c) is /\ asks_for c k p /\ w_read w k p = inl x
       /\ loaded_text p x t.

(** The texts that an event makes a session evaluate when [b] is kept. *)
Definition event_text (b : str) (e : event) (t : str) : Prop :=
  exists w l, e = Line w l /\
    ((exists x, reads l (Say x) /\ t = b ++ x) \/
     (b = [] /\ exists c k q x, reads l (Command c) /\ asks_for c k q /\ w_read w k q = inl x /\ loaded_text q x t)).

(** Texts that may stop the program: they contain a name that starts with an
    uppercase letter or an underscore, a fixity keyword followed by a number
    above 9, or two apostrophes. *)
Inductive dangerous (t : str) : panic -> Prop :=
| dg_name w r : t = w ++ r -> odd_name r -> dangerous t PIdentStart
| dg_prec w k g d v : t = w ++ k ++ g ++ d ++ v -> In k [lit "infixl"; lit "infixr"; lit "infix"] ->
    gap g (d ++ v) -> d <> [] -> all digit d -> stops digit v -> (9 < value 10 d)%N -> dangerous t PTodoPrec
| dg_empty w v : t = w ++ [39; 39]%N ++ v -> dangerous t PTodoEmptyChar.

End WithUcd.

(** * What evaluation writes *)

(** The label of messages, with its colours. *)
Definition error_prefix : str :=
  27%N :: lit "[0m" ++ 27%N :: lit "[31m[Error]:" ++ 27%N :: lit "[0m " ++ 27%N :: lit "[0m".

Definition adjective (a : assoc) : str :=
  match a with
  | ALeft => lit "left-associative"
  | ARight => lit "right-associative"
  | ANeither => lit "non-associative"
  end.
(** How an operator is named in messages: a promoted one after an apostrophe. *)
Definition operator_text (o : infix) (s : str) : Prop :=
  match o with
  | Standard x => s = x
  | Promoted x => x <> [39%N] -> s = 39%N :: x
  end.
Definition clash_text (x : assoc_error) (s : str) : Prop :=
  exists p c, operator_text (e_prev x) p /\ operator_text (e_curr x) c /\
    s = lit "found " ++ adjective (fx_assoc (e_prev_fix x)) ++ lit " operator `" ++ p ++ lit "` and "
        ++ adjective (fx_assoc (e_curr_fix x)) ++ lit " operator `" ++ c ++ lit "` in the same infix expression".
(** One clash on the line of the label, several each on its own line. *)
Definition clashes_text (xs : list assoc_error) (s : str) : Prop :=
  exists ss, Forall2 clash_text xs ss /\
    s = match ss with [s1] => s1 | _ => flat_map (fun s1 => [10; 32; 32]%N ++ s1) ss end.

(** What is written for a text that is the items [ds], when the fixities [F] are
    in force before: the first item if it is an expression, grouped by the
    fixities after all declarations of the text, or nothing, provided all the
    expressions of the text can be grouped; otherwise genuine clashes. *)
Definition shows (printed : expr -> str -> Prop) (F : infix -> fixity) (ds : list decl) (acts : list action) : Prop :=
  let G := declared F (infix_decls ds) in
  (exists es', Forall2 (resolves G) (input_exprs ds) es' /\
     match ds, es' with
     | DExpr _ :: _, e :: _ => exists m, printed e m /\ acts = [AOut m]
     | _, _ => acts = []
     end) \/
  ((forall es', ~ Forall2 (resolves G) (input_exprs ds) es') /\
   exists xs m, acts = [AErr (error_prefix ++ m ++ [10%N])] /\ clashes_text xs m /\ xs <> [] /\
     NoDup (map (fun x => (symbol (e_prev x), e_prev_fix x, symbol (e_curr x), e_curr_fix x)) xs) /\
     forall x, In x xs -> exists e, In e (input_exprs ds) /\ clash_in G e (e_prev x) (e_prev_fix x) (e_curr x) (e_curr_fix x)).

(** The command lines that leave the session. *)
Definition quits (c : str) : Prop :=
  c = lit ":q" \/ c = lit ":quit" \/ c = lit ":q --no-history" \/ c = lit ":quit --no-history".
