(** The interactive session: src/repl/session.rs.

    A step of the loop takes an event and yields the actions performed, in
    order, and what becomes of the session.  Actions are the calls the program
    makes on its environment; what the environment answers is part of the event.
    Simplification: text already written by a call of a printing macro before a
    panic inside that same call is not recorded. *)
From Coq Require Import List NArith Bool String.
From Verif Require Import Prelim Chars Syntax Fixity Style Lexer Parser Printer Grapheme Messages.
Import ListNotations.
Local Open Scope string_scope.
Local Open Scope list_scope.
Local Open Scope N_scope.

(** * Library functions on strings *)

(** [str::starts_with] and [str::ends_with] *)
Fixpoint starts_with (p s : str) : bool :=
  match p, s with
  | [], _ => true
  | c :: p', d :: s' => N.eqb c d && starts_with p' s'
  | _ :: _, [] => false
  end.
Definition ends_with (p s : str) : bool := starts_with (rev p) (rev s).

(** [str::trim_start_matches] and [trim_end_matches] with a character *)
Fixpoint trim_start_matches (c : chr) (s : str) : str :=
  match s with
  | d :: s' => if N.eqb d c then trim_start_matches c s' else s
  | [] => []
  end.
Definition trim_end_matches (c : chr) (s : str) : str := rev (trim_start_matches c (rev s)).

(** [str::split] with the predicate [sep]; [cur] is the current piece. *)
Fixpoint pieces (sep : chr -> bool) (cur s : str) : list str :=
  match s with
  | [] => [cur]
  | c :: s' => if sep c then cur :: pieces sep [] s' else pieces sep (cur ++ [c]) s'
  end.

(** [str::split_whitespace] *)
Definition is_nil (s : str) : bool := match s with [] => true | _ => false end.
Definition split_whitespace (s : str) : list str :=
  filter (fun p => negb (is_nil p)) (pieces is_white [] s).

(** [str::lines].  Simplification: a carriage return before the newline stays
    (lines are only used trimmed, and it is white space). *)
Definition lines (s : str) : list str := pieces (N.eqb 10) [] s.

(** [Path::extension] on Unix: of the last component, what follows its last
    dot, if something precedes that dot. *)
Definition file_name (p : str) : option str :=
  match rev (filter (fun c => negb (is_nil c || str_eqb c (lit "."))) (pieces (N.eqb 47) [] p)) with
  | c :: _ => if str_eqb c (lit "..") then None else Some c
  | [] => None
  end.
Definition extension (p : str) : option str :=
  match file_name p with
  | Some f => match rev (pieces (N.eqb 46) [] f) with
              | [_] | [] => None
              | [_; []] => None
              | e :: _ => Some e
              end
  | None => None
  end.

(** The slices [&s[n..]] of src/repl/session.rs. *)
Definition after (n : nat) (s : str) : outcome str :=
  match skip_bytes n s with Some r => Ok r | None => Panic PSlice end.
(** The slices [&s[0..s.len() - n]]. *)
Definition without_last (n : nat) (s : str) : outcome str :=
  match slice s 0 (blen s - n) with Some r => Ok r | None => Panic PSlice end.

(** * State, actions, environment *)

(** src/repl/session.rs:127-132; [s_cont] is [prompt.is_continued()] (95-125). *)
Record session := mkSession {
  s_res : resolver;
  s_buf : str;
  s_cont : bool;
  s_hist : str
}.

Definition set_res (s : session) (r : resolver) : session :=
  mkSession r (s_buf s) (s_cont s) (s_hist s).
Definition set_buf (s : session) (b : str) : session :=
  mkSession (s_res s) b (s_cont s) (s_hist s).
Definition set_cont (s : session) (b : bool) : session :=
  mkSession (s_res s) (s_buf s) b (s_hist s).
Definition set_hist (s : session) (p : str) : session :=
  mkSession (s_res s) (s_buf s) (s_cont s) p.

Inductive action :=
| AOut (s : str)                          (* text written to standard output *)
| AErr (s : str)                          (* text written to standard error *)
| ALoadHistory (path : str)
| ASaveHistory (path : str)
| AClearHistory
| AChdir (path : str)
| ASpawn (prog : str) (args : list str)
| ARead (path : str).

(** [println!] and [eprintln!] *)
Definition outln (s : str) : action := AOut (s ++ [10]).
Definition errln (s : str) : action := AErr (s ++ [10]).

(** Answers of the environment during one line.  [w_read k p]: the contents of
    the file or the name of the error, for the [k]-th file read. *)
Record world := mkWorld {
  w_read : nat -> str -> str + str;
  w_chdir : str -> option str;
  w_spawn : str -> list str -> str + str
}.

(** What [readline] returns. *)
Inductive event :=
| Line (w : world) (s : str)
| Eof
| Interrupted
| Failed (msg : str).

Inductive status :=
| Running (s : session)
| Ended
| Crashed (p : panic)
| Stuck.

Definition answer {A} (acts : list action) (o : outcome A) (k : A -> list action * status)
    : list action * status :=
  match o with
  | Ok a => let (more, st) := k a in (acts ++ more, st)
  | Panic p => (acts, Crashed p)
  | NoFuel => (acts, Stuck)
  end.

Section WithUcd.
Context {U : ucd}.

(** * Evaluating text *)

(** src/repl/session.rs:169-179 *)
Definition feed_input (r : resolver) (src : str) : outcome (resolver * (ast + repl_error)) :=
  match parse src with
  | POk a _ =>
      obind (resolve_ast (load_fixities r a) a) (fun '(r1, a1, errs) =>
      match errs with
      | [] => Ok (r1, inl a1)
      | _ => Ok (r1, inr (ErrResolver errs))
      end)
  | PErr e _ => Ok (r, inr (ErrParser e))
  | PPanic p => Panic p
  | PFuel => NoFuel
  end.

(** src/repl/session.rs:181-195 *)
Definition read_buffer (s : session) : list action * status :=
  let input := s_buf s in
  let s := set_buf s [] in
  answer [] (feed_input (s_res s) input) (fun '(r, res) =>
  let s := set_res s r in
  match res with
  | inl a =>
      match fst (iter_next (iter_new a)) with
      | Some (DExpr e) => answer [] (print_expr (r_fix r) e) (fun t => ([AOut t], Running s))
      | _ => ([], Running s)
      end
  | inr e => answer [] (show_error e) (fun t => ([errln t], Running s))
  end).

(** src/repl/session.rs:199-217: the text of a file that is parsed. *)
Definition relevant (path text : str) : str :=
  if match extension path with Some e => str_eqb e (lit "hs") | None => false end
  then List.concat (filter (starts_with (lit "infix")) (map trim (lines text)))
  else text.

(** src/repl/session.rs:220-223 *)
Definition declared_entries (a : ast) : list (infix * fixity) :=
  flat_map (fun d => map (fun o => (o, d_fixity d)) (d_infixes d)) (a_infxs a).

(** src/repl/session.rs:197-235 *)
Definition read_file (w : world) (k : nat) (s : session) (p : str) : list action * status :=
  match w_read w k p with
  | inl text =>
      answer [ARead p] (feed_input (s_res s) (relevant p text)) (fun '(r, res) =>
      let s := set_res s r in
      match res with
      | inl a =>
          ([outln (show_nat (List.length (a_infxs a)) ++ lit " fixities read from `" ++ p ++ lit "`");
            outln (write_entries (declared_entries a))], Running s)
      | inr e => answer [] (show_error_with_path e p) (fun t => ([outln t], Running s))
      end)
  | inr kind =>
      ([ARead p; errln (lit "unable to read `" ++ p ++ lit "`"); errln kind], Running s)
  end.

(** src/repl/session.rs:525-529 *)
Definition unquote (p : str) : outcome str :=
  if starts_with [34] p && ends_with [34] p then after 1 p else Ok p.

(** src/repl/session.rs:524-531 *)
Fixpoint read_files (w : world) (k : nat) (s : session) (ps : list str) : list action * status :=
  match ps with
  | [] => ([], Running s)
  | p :: ps' =>
      answer [] (unquote p) (fun p =>
      let (acts, st) := read_file w k s p in
      match st with
      | Running s' => let (more, st') := read_files w (S k) s' ps' in (acts ++ more, st')
      | _ => (acts, st)
      end)
  end.

(** * Commands *)

(** [IndexMap::get_key_value], used by src/syntax/fixity.rs:347-355. *)
Fixpoint get_entry (t : fixities) (op : infix) : option (infix * fixity) :=
  match t with
  | [] => None
  | (k, f) :: t' => if infix_eqb k op then Some (k, f) else get_entry t' op
  end.
Definition entries_for (t : fixities) (ops : list infix) : list (infix * fixity) :=
  flat_map (fun o => match get_entry t o with Some x => [x] | None => [] end) ops.

(** src/repl/session.rs:494-500 *)
Definition as_infix (s : str) : infix :=
  match s with
  | c :: _ => if is_alpha c || N.eqb c 95 then Promoted s else Standard s
  | [] => Standard s
  end.

(** src/repl/session.rs:489-510, from the text after the command name *)
Definition info (t : fixities) (s : str) : list action :=
  let ops := map as_infix
    (split_whitespace (filter (fun c => negb (N.eqb c 40 || N.eqb c 41)) s)) in
  let defined := filter (has t) ops in
  let undefined := filter (fun o => negb (has t o)) ops in
  outln (write_entries (entries_for t defined))
  :: match undefined with
     | [] => []
     | o :: os => [AOut (lit "the following were not defined: " ++ show_infix o
                         ++ flat_map (fun o => lit ", " ++ show_infix o) os)]
     end.

Definition unknown_command (s : str) : action := errln (lit "unknown command: `" ++ s ++ lit "`").

(** src/repl/session.rs:325-376 *)
Definition help_msg : str := lit "Pemdas commands:
    :cd <path>?             change the current working directory to the
                            given path
    :clear
        --fixities          clear all fixities for the current session
        --history           clear the history for the current session
        --session           clear all fixities and history for the current
                            session (equivalent to using the options
                            `--fixities history` or `--history --fixities`)
    :fixities               display the fixities of infixes defined in session
    :help, :h, :?           display this list of commands
    :history
        --clear             clear the history for the current session
        --clear --file      clear the history along with the contents of the
                            history file for the current session
        --set <path>        set the path to which this session's history will
                            be saved (non-existent files will be created)
        --save [<path>]     saves the current session history in the file
                            located at <path>
    :info, :i [<infix>]     display the fixity of the given infixes
                            (same as `:fixities` if no infixes are provided)
                            * note that as inputs, promoted infixes
                              should not contain the apostrophe prefix or
                              backtick circumfix even though the printed
                              outputs may contain them
    :load
        --prelude           load the same fixities as those defined in the
                            Haskell prelude
        --math              load the fixities for the arithmetic operators
                            +, -, *, /, %, ^, ^^, and **
        <path>+             load and process the file associated with the
                            given path(s), bringing in to scope any defined
                            fixities
                            * files may end in any file-extension
                            * if any file is a Haskell module (i.e., has a
                              `.hs` file extension), then only fixities that
                              were declared at the top-level are processed
                              (e.g., imports and fixity declarations in class
                              declarations or in let-expressions may be
                              ignored)
    :quit, :q               exit Pemdas
        --no-history        exit Pemdas without saving history
    :reset, :r              shortcut for `:clear --fixities`: reset the
                            fixities defined in the current session
    :save <path>            save the fixities of this session as a list of
                            fixity declarations to the file located at <path>
        --append            * append declarations to file instead of
                              overwriting file if file at <path> exists
    :shell
        <program> <args>*   spawn a child process and run the given input
                            as the program
".

(** src/repl/session.rs:412-431 *)
Definition cmd_clear (s : session) (opt : str) : list action * status :=
  if str_eqb opt (lit "--history") then
    ([AClearHistory; outln (lit "session history cleared")], Running s)
  else if str_eqb opt (lit "--fixities") then
    let (r, k) := clear (s_res s) in
    ([outln (show_nat k ++ lit " fixities cleared")], Running (set_res s r))
  else if str_eqb opt (lit "--session") || str_eqb opt (lit "--history --fixities")
          || str_eqb opt (lit "--fixities --history") then
    let (r, k) := clear (s_res s) in
    ([AClearHistory; outln (show_nat k ++ lit " fixities cleared, session history cleared")],
     Running (set_res s r))
  else ([errln (lit "unknown option(s) passed to command `:clear`: " ++ opt)], Running s).

Definition history_usage : str := lit "USAGE:
  :history --clear
  :history --set <path>
  :history --save [<path>]".

(** src/repl/session.rs:432-475 *)
Definition cmd_history (s : session) (opt : str) : list action * status :=
  if str_eqb opt (lit "--clear") then
    ([AClearHistory; outln (lit "session history cleared")], Running s)
  else if str_eqb opt (lit "--clear --file") then
    ([AClearHistory; ASaveHistory (s_hist s); outln (lit "session history and file cleared")], Running s)
  else if starts_with (lit "--set") opt then
    answer [] (after 5 opt) (fun p =>
    match trim p with
    | [] => ([errln (lit "no filepath provided for command `:history --set`")], Running s)
    | p => ([outln (lit "session history filepath changed to" ++ [10; 32; 32] ++ p)],
            Running (set_hist s p))
    end)
  else if is_prefix (is_str (lit "--save")) opt then
    let said := outln (lit "session history written to file located at" ++ [10; 32; 32] ++ s_hist s) in
    if Nat.eqb (blen opt) 6 then ([ASaveHistory (s_hist s); said], Running s)
    else answer [] (after 6 opt) (fun p => ([ASaveHistory (trim p); said], Running s))
  else
    ([errln (lit "invalid option/argument to `:history` command: `" ++ opt ++ lit "`");
      errln history_usage], Running s).

(** src/repl/session.rs:512-532 *)
Definition cmd_load (w : world) (s : session) (arg : str) : list action * status :=
  if is_nil arg then ([errln (lit "`:load` command missing option/argument")], Running s)
  else if str_eqb arg (lit "--prelude") then
    let (r, k) := load_hs_prelude (s_res s) in
    ([outln (lit "loaded " ++ show_nat k ++ lit " fixities from Haskell prelude")], Running (set_res s r))
  else if str_eqb arg (lit "--math") then
    let (r, k) := load_arithmetic (s_res s) in
    ([outln (lit "loaded " ++ show_nat k ++ lit " fixities for arithmetic operators")],
     Running (set_res s r))
  else read_files w 0 s (split_whitespace arg).

(** src/repl/session.rs:534-561.  Simplification: the two failures of a child
    process (spawning, waiting) are one answer of the environment. *)
Definition cmd_shell (w : world) (s : session) (arg : str) : list action * status :=
  match split_whitespace arg with
  | prog :: args =>
      (ASpawn prog args :: [match w_spawn w prog args with inl out => AOut out | inr e => errln e end],
       Running s)
  | [] =>
      ([errln (lit "no command provided to `:shell/:sh` command");
        errln (lit "USAGE: :shell CMD <ARG>*")], Running s)
  end.

(** src/repl/session.rs:380-393 *)
Definition cmd_cd (w : world) (s : session) (arg : str) : list action * status :=
  match arg with
  | [] => ([errln (lit "no directory provided to `:cd` command")], Running s)
  | p => (AChdir p :: match w_chdir w p with
                      | Some kind => [errln (lit "could not change current directory to `" ++ p
                                             ++ lit "`: " ++ kind)]
                      | None => []
                      end, Running s)
  end.

(** src/repl/session.rs:397-411 *)
Definition cmd_quit (s : session) (c : str) : list action * status :=
  let bye := outln (lit "exiting Pemdas REPL") in
  if str_eqb c (lit ":quit") || str_eqb c (lit ":q") then ([ASaveHistory (s_hist s); bye], Ended)
  else if str_eqb c (lit ":quit --no-history") || str_eqb c (lit ":q --no-history") then ([bye], Ended)
  else ([unknown_command c], Running s).

(** src/repl/session.rs:378-569; [Ended] is the result [false]. *)
Definition read_command (w : world) (s : session) (input : str) : list action * status :=
  let c := trim input in
  let named (n : string) := is_prefix (is_str (lit n)) c in
  let is (n : string) := str_eqb c (lit n) in
  if named ":cd" then answer [] (after 3 c) (fun x => cmd_cd w s (trim x))
  else if is ":help" || is ":h" || is ":?" then ([outln help_msg], Running s)
  else if named ":q" || named ":quit" then cmd_quit s c
  else if named ":clear" then answer [] (after 6 c) (fun x => cmd_clear s (trim x))
  else if named ":history" then answer [] (after 8 c) (fun x => cmd_history s (trim x))
  else if is ":reset" || is ":r" then
    let (r, k) := clear (s_res s) in
    ([outln (show_nat (k - 1) ++ lit " fixities removed")], Running (set_res s r))
  else if is ":info" || is ":i" || is ":fixities" then
    ([AOut (print_fixities (r_fix (s_res s)))], Running s)
  else if named ":info" || named ":i" then
    answer [] (after (if named ":info" then 5 else 2) c) (fun x => (info (r_fix (s_res s)) x, Running s))
  else if named ":load" then answer [] (after 5 c) (fun x => cmd_load w s (trim x))
  else if named ":shell" then answer [] (after 6 c) (fun x => cmd_shell w s x)
  else ([unknown_command c], Running (set_buf s [])).

(** * The loop *)

(** src/repl/session.rs:269-319 *)
Definition read_line (w : world) (sess : session) (line : str) : list action * status :=
  let s := trim line in
  let push t := set_buf sess (s_buf sess ++ t) in
  if is_nil s then ([], Running sess)
  else if starts_with [58] (trim s) then
    if is_nil (s_buf sess) then read_command w sess s
    else ([errln (lit "cannot call a command in multiline mode!")], Running sess)
  else if (starts_with (lit "infix") (trim s) || starts_with (lit "infixl") (trim s)
           || starts_with (lit "infixr") (trim s)) && ends_with [32; 92] (trim s) then
    answer [] (without_last 2 s) (fun x => ([], Running (set_cont (push (x ++ [10])) false)))
  else if ends_with [92] s then
    answer [] (without_last 1 s) (fun x => ([], Running (set_cont (push (x ++ [10; 32])) false)))
  else if starts_with [123] s then
    let s := trim_start_matches 123 s in
    if negb (ends_with [125] s) then ([], Running (set_cont (push s) true))
    else read_buffer (push (trim_end_matches 125 s))
  else read_buffer (set_cont (push s) false).

(** src/repl/session.rs:263-321 *)
Definition step (sess : session) (e : event) : list action * status :=
  match e with
  | Eof | Interrupted => ([], Ended)
  | Failed msg => ([errln (lit "Error: " ++ msg)], Running sess)
  | Line w line => read_line w sess line
  end.

(** src/repl/session.rs:262-322 over a finite history. *)
Fixpoint run (sess : session) (es : list event) : list action * status :=
  match es with
  | [] => ([], Running sess)
  | e :: es' =>
      let (acts, st) := step sess e in
      match st with
      | Running s => let (more, st') := run s es' in (acts ++ more, st')
      | _ => (acts, st)
      end
  end.

(** src/repl/session.rs:92-93, 118-124 and 165-167: the prompt shown. *)
Definition prompt_str (s : session) : str :=
  if s_cont s then [27] ++ lit "[34m |  " ++ [27] ++ lit "[0m"
  else [27] ++ lit "[32m> " ++ [27] ++ lit "[0m".

(** src/repl/session.rs:134-148; the path comes from src/repl/setup.rs,
    modelled in Setup.v. *)
Definition session_new (hist : str) : session := mkSession (mkResolver [] []) [] false hist.

(** src/repl/session.rs:150-163 *)
Definition init_msg (s : session) : list action :=
  [outln (lit "Pemdas, version 0.1.0");
   outln (lit "history stored at " ++ [34] ++ s_hist s ++ [34]);
   outln (lit "    :quit, :q               exit REPL
    :fixities               display the fixities of infixes defined in session
    :help, :h               display list of REPL commands")].

(** src/repl/session.rs:250-323 *)
Definition run_repl (hist : str) (es : list event) : list action * status :=
  let s := session_new hist in
  let (acts, st) := run s es in (ALoadHistory (s_hist s) :: init_msg s ++ acts, st).

End WithUcd.
