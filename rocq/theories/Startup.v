(** Model of what importing the package does: acetn/utils/logger.py 7-42 (the
    logger), acetn/evolution/_extensions/__init__.py (the compiled extension),
    and the two places that use the outcome, evolve.py 33 (debug mode) and
    als_solver.py 105 (import of the extension by the cutensor solver).

    Importing acetn.ipeps runs ipeps_config.py 7 first, which imports the package
    acetn.evolution (evolution/__init__.py 8: the extension; then line 12,
    evolve.py 6: the logger).  Environment values are strings of 8-bit
    characters, of which only a-z have another upper case (Python's upper also
    maps a few characters outside ASCII, such as the dotless i, to A-Z).
    torch itself is taken to be importable. *)
From Coq Require Import String Ascii List Arith Bool.
From Verif Require Import Base.
Import ListNotations.
Open Scope string_scope.
Open Scope res_scope.

(** str.upper on one character and on a string. *)
Definition upper_char (c : ascii) : ascii :=
  let n := nat_of_ascii c in
  if ((97 <=? n) && (n <=? 122))%nat then ascii_of_nat (n - 32) else c.
Fixpoint upper (s : string) : string :=
  match s with
  | EmptyString => EmptyString
  | String c s => String (upper_char c) (upper s)
  end.

(** logger.py 11-17: the table log_levels, with the values of the constants of
    the module logging. *)
Definition log_levels : list (string * nat) :=
  [("DEBUG", 10); ("INFO", 20); ("WARNING", 30); ("ERROR", 40); ("CRITICAL", 50)].
(** dict.get *)
Fixpoint get (d : list (string * nat)) (key : string) : option nat :=
  match d with
  | [] => None
  | (k, v) :: d => if string_dec k key then Some v else get d key
  end.

(** A logger of the module logging: its level (0: not set) and the number of its
    handlers.  getLogger(name) returns the same object for the same name, so
    this state outlives a failed import. *)
Record log := Log { g_level : nat; g_handlers : nat }.

(** Values compared with == in logger.py 21. *)
Inductive pyval := PyStr (s : string) | PyInt (n : nat).
Definition py_eq (a b : pyval) : bool :=
  match a, b with
  | PyStr s, PyStr t => if string_dec s t then true else false
  | PyInt m, PyInt n => (m =? n)%nat
  | _, _ => false
  end.

(** logger.py 8-22, _configure_handlers 24-31: [arg_level] is the argument
    log_level (overwritten in line 18), [file] the argument log_file.
    setLevel(None) raises TypeError before anything is changed.  The result is
    the logger and self.log_file. *)
Definition logger_init (env : option string) (arg_level : nat) (file : string) (g : log)
  : res (log * option string) :=
  let log_level := upper (match env with Some s => s | None => "INFO" end) in
  match get log_levels log_level with
  | None => Err TypeError
  | Some n =>
      let log_file := if py_eq (PyStr log_level) (PyInt 10) then Some file else None in
      Ok (Log n (S (g_handlers g)), log_file)
  end.

(** What "from ... import _C_cutensor" does. *)
Inductive outcome := Loaded | NotBuilt (* ImportError *) | Broken (* any other Exception *).

(** What one attempt to import the package finds: the environment variable
    ACETN_LOG_LEVEL and the extension. *)
Record surroundings := Surr { u_env : option string; u_ext : outcome }.

(** The process: the module _extensions if it has been imported (its flag
    CUTENSOR_AVAILABLE; once imported it stays in sys.modules and is not run
    again), warnings issued, the logger "acetn.utils.logger", whether the import
    of the package has succeeded, and the attribute log_file of its Logger. *)
Record process := Proc {
  p_ext : option bool; p_warnings : nat; p_log : log;
  p_imported : bool; p_file : option string }.
Definition fresh : process := Proc None 0 (Log 0 0) false None.

(** _extensions/__init__.py 9-39: flag and number of warnings. *)
Definition load_cutensor_extension (o : outcome) : bool * nat :=
  match o with
  | Loaded => (true, 0)
  | NotBuilt => (false, 0)
  | Broken => (false, 1)
  end.

(** One "import acetn.ipeps".  It is void when the package is imported.  When the
    logger raises, evolution/__init__.py and ipeps_config.py are removed from
    sys.modules and run again at the next attempt, _extensions is not. *)
Definition import_package (u : surroundings) (p : process) : process * option exn :=
  if p_imported p then (p, None) else
  let '(ext, warn) :=
    match p_ext p with
    | Some b => (b, 0)
    | None => load_cutensor_extension (u_ext u)
    end in
  match logger_init (u_env u) 20 "debug.log" (p_log p) with
  | Ok (g, f) => (Proc (Some ext) (p_warnings p + warn) g true f, None)
  | Err e => (Proc (Some ext) (p_warnings p + warn) (p_log p) false (p_file p), Some e)
  end.

(** Any number of attempts (the program may catch the exception, change
    os.environ and try again). *)
Fixpoint attempts (us : list surroundings) (p : process) : process * list (option exn) :=
  match us with
  | [] => (p, [])
  | u :: us =>
      let '(p, r) := import_package u p in
      let '(p, rs) := attempts us p in
      (p, r :: rs)
  end.

(** Logger.isEnabledFor for a logger whose own level is set; evolve.py 33. *)
Definition enabled (g : log) (level : nat) : bool := (g_level g <=? level)%nat.
Definition is_debug_mode (p : process) : bool := enabled (p_log p) 10.

(** Lines written by one call such as logger.debug(...): one per handler. *)
Definition lines (g : log) (level : nat) : nat := if enabled g level then g_handlers g else 0.

(** als_solver.py 105: the import in solve_cutensor; a loaded module is found in
    sys.modules, otherwise the import is tried again. *)
Definition solver_import (p : process) (now : outcome) : res unit :=
  match p_ext p with
  | Some true => Ok tt
  | _ => match now with Loaded => Ok tt | _ => Err RuntimeError end
  end.

(** CUTENSOR_AVAILABLE as ipeps_config.py 7 sees it. *)
Definition cutensor_available (p : process) : bool :=
  match p_ext p with Some b => b | None => false end.
