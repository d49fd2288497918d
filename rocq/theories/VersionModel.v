(** Model of qiskit/ignis/version.py and of the version read by setup.py.

    Simplifications.  Characters are the first 256 code points, bytes are characters. A path
    is the list of its names, and ROOT_DIR is absolute.  Programs are run by a parameter,
    which sees the command, the environment and the working directory, and tells whether
    the program started, its return code and what it wrote to stdout. *)
From Verif Require Import Base LogModel.
Local Open Scope string_scope.
Local Open Scope list_scope.
Local Open Scope nat_scope.

(** The exceptions of this file, and calls that return or raise. *)
Inductive verr := OSError | UnicodeDecodeError.
Inductive vres (A : Type) := Val (a : A) | Raise (e : verr).
Arguments Val {A} a.
Arguments Raise {A} e.

Definition path := list pystr.
(** What [subprocess.Popen] and [communicate] give: the program cannot be started (an
    OSError), or ends with a return code, negative when a signal killed it. *)
Inductive proc := NotStarted | Finished (returncode : Z) (out : pystr).
Record world := {
  w_file : pystr;                              (* text of VERSION.txt *)
  w_environ : dict pystr pystr;                (* os.environ *)
  w_root : path;                               (* version.py:22 ROOT_DIR *)
  w_exists : path -> bool;                     (* os.path.exists *)
  w_run : list pystr -> dict pystr pystr -> path -> proc
}.
(** [os.path.dirname]. *)
Definition dirname (p : path) : path := removelast p.

(** version.py:26-35: the environment of git. *)
Definition minimal_env (environ : dict pystr pystr) : dict pystr pystr :=
  let env := fold_left (fun env k => match dget environ k with Some v => dset env k v | None => env end) [str "SYSTEMROOT"; str "PATH"] [] in
  dset (dset (dset env (str "LANGUAGE") (str "C")) (str "LANG") (str "C")) (str "LC_ALL") (str "C").
(** version.py:25-42 [_minimal_ext_cmd]. *)
Definition minimal_ext_cmd (w : world) (cmd : list pystr) : vres pystr :=
  match w_run w cmd (minimal_env (w_environ w)) (dirname (w_root w)) with
  | NotStarted => Raise OSError
  | Finished rc out => if (0 <? rc)%Z then Raise OSError else Val out
  end.
(** [bytes.strip] and [bytes.decode('ascii')]. *)
Definition bytes_space (c : ascii) : bool := between 9 13 (code c) || (code c =? 32).
Definition decode_ascii (b : pystr) : vres pystr := if forallb (fun c => code c <? 128) b then Val b else Raise UnicodeDecodeError.
(** version.py:45-54 [git_version]; a UnicodeDecodeError is not an OSError. *)
Definition rev_parse : list pystr := [str "git"; str "rev-parse"; str "HEAD"].
Definition git_version (w : world) : vres pystr :=
  match minimal_ext_cmd w rev_parse with
  | Val out => decode_ascii (strip_by bytes_space out)
  | Raise OSError => Val (str "Unknown")
  | Raise e => Raise e
  end.
(** version.py:57-58 [VERSION]. *)
Definition VERSION (w : world) : pystr := strip (w_file w).
(** version.py:61-80 [get_version_info]. *)
Definition tags : list pystr := [str "git"; str "tag"; str "-l"; str "--points-at"; str "HEAD"].
Definition get_version_info (w : world) : vres pystr :=
  if negb (w_exists w (dirname (dirname (w_root w)) ++ [str ".git"])) then Val (VERSION w)
  else match minimal_ext_cmd w tags with
       | Raise _ => Val (VERSION w)
       | Val [] =>
           match git_version w with
           | Val g => Val (VERSION w ++ str ".dev0+" ++ firstn 7 g)
           | Raise e => Raise e
           end
       | Val _ => Val (VERSION w)
       end.
(** setup.py:45-46: the version given to setuptools, by [rstrip]. *)
Definition setup_version (w : world) : pystr := rev (drop_while is_space (rev (w_file w))).
