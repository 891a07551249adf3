(** Starting the program and removing its files: src/repl/setup.rs,
    src/repl.rs, src/main.rs and src/repl/session.rs:134-148.

    The file system is a list of paths with what is found there.
    Simplifications: two different paths never mean the same place; reasons for
    which the system refuses a request, other than those that follow from what
    is already there, are arbitrary answers of the environment. *)
From Coq Require Import List NArith Bool String.
From Verif Require Import Prelim Chars Syntax Repl.
Import ListNotations.
Local Open Scope string_scope.
Local Open Scope list_scope.
Local Open Scope N_scope.

Inductive node := NDir | NFile (text : str).
Definition disk := list (str * node).

Fixpoint look (d : disk) (p : str) : option node :=
  match d with
  | [] => None
  | (q, n) :: d' => if str_eqb q p then Some n else look d' p
  end.
(** [Path::exists] and [Path::is_dir] *)
Definition exists_ (d : disk) (p : str) : bool := match look d p with Some _ => true | None => false end.
Definition is_dir (d : disk) (p : str) : bool := match look d p with Some NDir => true | _ => false end.

(** [PathBuf::join] with a relative path *)
Definition join_path (p q : str) : str :=
  if is_nil p || ends_with [47] p then p ++ q else p ++ 47 :: q.

(** What the environment answers: [true] refuses.  [v_canon] is
    [Path::canonicalize]; [v_reason] is the text of the error when a request
    about a path fails. *)
Record env := mkEnv {
  v_no_dir : str -> bool;
  v_no_file : str -> bool;
  v_no_sync : str -> bool;
  v_canon : str -> option str;
  v_no_list : str -> bool;
  v_no_remove : str -> bool;
  v_reason : str -> str
}.

(** [fs::create_dir] *)
Definition create_dir (v : env) (d : disk) (p : str) : option disk :=
  if exists_ d p || v_no_dir v p then None else Some (d ++ [(p, NDir)]).

(** [File::options().create(true).write(true).open(p)]: an existing file is
    left as it is. *)
Definition open_file (v : env) (d : disk) (p : str) : option disk :=
  match look d p with
  | Some NDir => None
  | Some (NFile _) => if v_no_file v p then None else Some d
  | None => if v_no_file v p then None else Some (d ++ [(p, NFile [])])
  end.

(** src/repl/setup.rs:6-7 *)
Definition local_history : str := lit ".pemdas_history".
Definition global_history : str := lit ".history".

(** src/repl/setup.rs:9-30.  [home] is the value [HOME] had when the program was
    compiled: [option_env!] is expanded by the compiler. *)
Definition try_cfg_dir (v : env) (home : option str) (d : disk) : list action * disk * option str :=
  match home with
  | Some h =>
      let dir := join_path h (lit ".pemdas") in
      if exists_ d dir then
        if is_dir d dir then ([], d, Some dir)
        else ([errln (lit "`/.pemdas` exists but is not a directory!");
               errln (lit "defaulting to current directory")], d, Some (lit "."))
      else match create_dir v d dir with
           | Some d' => ([], d', Some dir)
           | None => ([], d, None)
           end
  | None =>
      ([errln (lit "environment variable HOME is not set");
        errln (lit "defaulting to current directory")], d, Some (lit "."))
  end.

(** src/repl/setup.rs:34-51 *)
Definition try_history_path (v : env) (home : option str) (d : disk) : list action * disk * option str :=
  match try_cfg_dir v home d with
  | (acts, d1, Some dir) =>
      let p := join_path dir global_history in
      if exists_ d1 p then (acts, d1, Some p)
      else match open_file v d1 p with
           | Some d2 => (acts, d2, if v_no_sync v p then None else Some p)
           | None => (acts, d1, None)
           end
  | (acts, d1, None) => (acts, d1, None)
  end.

Section WithUcd.
Context {U : ucd}.

(** src/main.rs:6-8, src/repl.rs:4-6, src/repl/session.rs:134-143 and 250-323:
    the whole program, with the files it leaves before the first line is read.
    An error becomes the empty path. *)
Definition main (v : env) (home : option str) (d : disk) (es : list event) : list action * disk * status :=
  let '(acts, d', p) := try_history_path v home d in
  let (more, st) := run_repl match p with Some p => p | None => [] end es in
  (acts ++ more, d', st).

End WithUcd.

(** * Removing the files *)

(** The name of [q] if it is an entry of the directory [p]. *)
Definition entry_of (p q : str) : option str :=
  let pre := join_path p [] in
  if starts_with pre q
  then let n := skipn (List.length pre) q in
       if is_nil n || existsb (N.eqb 47) n then None else Some n
  else None.

(** [fs::read_dir]: the names of the entries.  Simplification: reading an entry
    never fails. *)
Definition read_dir (v : env) (d : disk) (p : str) : option (list str) :=
  if negb (is_dir d p) || v_no_list v p then None
  else Some (flat_map (fun x => match entry_of p (fst x) with Some n => [n] | None => [] end) d).

Definition remove_path (d : disk) (p : str) : disk := filter (fun x => negb (str_eqb (fst x) p)) d.

(** [fs::remove_file] *)
Definition remove_file (v : env) (d : disk) (p : str) : option disk :=
  match look d p with
  | Some (NFile _) => if v_no_remove v p then None else Some (remove_path d p)
  | _ => None
  end.

(** [fs::remove_dir_all] *)
Definition remove_dir_all (v : env) (d : disk) (p : str) : option disk :=
  if negb (is_dir d p) || v_no_remove v p then None
  else Some (filter (fun x => negb (str_eqb (fst x) p || starts_with (join_path p []) (fst x))) d).

(** src/repl/setup.rs:56-64 *)
Definition history_name (v : env) (p : str) : list action * str :=
  let failed q :=
    ([errln (lit "Error canonicalizing `" ++ p ++ lit "` and `.` for comparison while identifying history file name to delete: "
             ++ v_reason v q)], global_history) in
  match v_canon v p with
  | Some a => match v_canon v (lit ".") with
              | Some b => ([], if str_eqb b a then local_history else global_history)
              | None => failed (lit ".")
              end
  | None => failed p
  end.

(** src/repl/setup.rs:68-76: the loop over the entries; [None] is a panic. *)
Fixpoint remove_named (v : env) (p name : str) (d : disk) (ns : list str) : list action * option disk :=
  match ns with
  | [] => ([], Some d)
  | n :: ns' =>
      if str_eqb n name && exists_ d (join_path p n) then
        let said := errln (lit "deleting history file found at " ++ join_path p n) in
        match remove_file v d (join_path p n) with
        | Some d' => let (more, r) := remove_named v p name d' ns' in (said :: more, r)
        | None => ([said], None)
        end
      else remove_named v p name d ns'
  end.

(** src/repl/setup.rs:53-91 *)
Definition uninstall_artifacts (v : env) (d : disk) (p : str) : list action * option disk :=
  let (acts, name) := history_name v p in
  match read_dir v d p with
  | Some ns =>
      let (more, r) := remove_named v p name d ns in
      match r with
      | Some d1 =>
          match read_dir v d1 p with
          | Some ms =>
              if match ms with [] => str_eqb name global_history | _ => false end
              then (acts ++ more, remove_dir_all v d1 p)
              else (acts ++ more ++ [errln (lit "could not delete non-empty directory `" ++ p ++ lit "`")], Some d1)
          | None => (acts ++ more, Some d1)
          end
      | None => (acts ++ more, None)
      end
  | None => (acts ++ [errln (lit "Error calling `uninstall_artifacts(" ++ p ++ lit ")`: " ++ v_reason v p)], Some d)
  end.
