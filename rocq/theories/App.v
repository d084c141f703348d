(** The commands check, format and lint: internal/app/check/check.go,
    internal/app/format/format.go, internal/app/lint/lint.go, and the error
    format internal/format/multierr.go.

    Not modelled: argument parsing and the exit code (cobra, internal/app/*.go),
    changes made to the files by other processes between two system calls. *)
From Coq Require Import List NArith ZArith Bool String Arith.
From Verif Require Import Bytes Utf8 F64 Ast Actions Engine Parser AstPrint AstUtil Apply.
Import ListNotations.

(** internal/format/multierr.go:24-35 [prefix] *)
Definition err_prefix (s : bytes) : bytes :=
  match split NL (trim_right [NL] s) with
  | [] => []
  | l :: ls => ([TAB] ++ b "* " ++ l ++ [NL]) ++ flat_map (fun l => [TAB] ++ b "  " ++ l ++ [NL]) ls
  end.
(** internal/format/multierr.go:9-22 [MultiErr] *)
Definition multi_err (es : list bytes) : bytes :=
  match es with
  | [e] => b "1 error occurred:" ++ [NL] ++ err_prefix e ++ [NL]
  | _ => itoa (List.length es) ++ b " errors occurred:" ++ [NL] ++ join [NL] (map err_prefix es) ++ [NL]
  end.

(** A path of the file system: Stat fails (absent, or no access), a directory,
    or a regular file with its content and whether Open and Create succeed. *)
Inductive node := NAbsent | NDir | NFile (content : bytes) (readable writable : bool).
Notation path := bytes.
Notation fs := (path -> node).
Definition fs_set (f : fs) (p : path) (n : node) : fs := fun q => if beqb q p then n else f q.

(** What the operating system decides: the texts of its errors and whether a
    write stops early (after the given number of bytes). *)
Record os := Os
  { os_stat : path -> bytes;             (* error text of os.Stat *)
    os_open : path -> bytes;             (* ... of os.Open or reading *)
    os_create : path -> bytes;           (* ... of os.Create *)
    os_write : path -> bytes;            (* ... of WriteString *)
    os_short : path -> option nat;       (* WriteString fails after n bytes *)
    os_fmt : formatter }.

(** The world a command runs in: files, the package variable farthestFailure,
    and the text written to the output. *)
Record world := World { w_fs : fs; w_ff : list failure; w_out : bytes }.

(** A call of ParseFile: the value, or the text of the error; and the new
    farthestFailure.  logstash_config.go:11993-12015.  A panic can not escape
    (Recover is on); the case is kept. *)
Inductive pfile := PFOk (v : val) | PFErr (text : bytes) | PFPanic.
Definition parse_file (S : os) (opts : list popt) (w : world) (p : path) : pfile * list failure :=
  match w_fs w p with
  | NFile content true _ =>
      let '(r, ff) := parse opts (w_ff w) content in
      (match r with
       | Returned v [] => PFOk v
       | Returned _ errs => PFErr (errors_text (os_fmt S) p errs)
       | _ => PFPanic
       end, ff)
  | _ => (PFErr (os_open S p), w_ff w)
  end.

Definition colon (p m : bytes) : bytes := p ++ b ": " ++ m.
(** The error text of a failed ParseFile, check.go:34-38, lint.go:41-45 *)
Definition with_farthest (p text : bytes) (ff : list failure) : bytes :=
  match farthest_failure ff with
  | Some m => if contains m text then text else colon p text ++ [NL] ++ m
  | None => text
  end.

(** Result of a command: the errors in order (none: nil), or a run time panic *)
Inductive cres := CErrs (es : list bytes) | CPanic.
Definition cres_cons (e : bytes) (r : cres) : cres :=
  match r with CErrs es => CErrs (e :: es) | CPanic => CPanic end.
Definition cres_app (es : list bytes) (r : cres) : cres :=
  match r with CErrs es' => CErrs (es ++ es') | CPanic => CPanic end.

(** internal/app/check/check.go:20-50 [Check.Run].  When Stat fails, stat is nil
    and stat.IsDir() (line 28) dereferences it. *)
Fixpoint check (S : os) (w : world) (args : list path) : cres * world :=
  match args with
  | [] => (CErrs [], w)
  | p :: args' =>
      match w_fs w p with
      | NAbsent => (CPanic, w)
      | NDir => check S w args'
      | NFile _ _ _ =>
          let '(r, ff) := parse_file S [OptIgnoreComments true] w p in
          let w := World (w_fs w) ff (w_out w) in
          match r with
          | PFOk _ => check S w args'
          | PFErr t =>
              let '(r', w') := check S w args' in
              (cres_cons (colon p (with_farthest p t ff)) r', w')
          | PFPanic => (CPanic, w)
          end
      end
  end.

(** os.Create and WriteString (format.go:48-62, lint.go:87-100): the file is
    truncated, then the text is written; [Some]: the error text. *)
Definition save (S : os) (w : world) (p : path) (text : bytes) : option bytes * world :=
  match w_fs w p with
  | NFile _ r true =>
      match os_short S p with
      | None => (None, World (fs_set (w_fs w) p (NFile text r true)) (w_ff w) (w_out w))
      | Some n =>
          (Some (b "failed to write file with automatically fixed ID: " ++ os_write S p),
           World (fs_set (w_fs w) p (NFile (firstn n text) r true)) (w_ff w) (w_out w))
      end
  | _ => (Some (b "failed to open file for writting with automatically fixed ID: " ++ os_create S p), w)
  end.
(** The contents the file goes through during [save], the old one first: a crash
    leaves one of them. *)
Definition save_states (old text : bytes) : list bytes :=
  old :: map (fun n => firstn n text) (seq 0 (S (List.length text))).

(** The type assertion c.(ast.Config) *)
Definition as_config (v : val) : option config := match v with VConfig c => Some c | _ => None end.

(** internal/app/format/format.go:27-73 [Format.Run]: stops at the first error *)
Fixpoint format (S : os) (write : bool) (w : world) (args : list path) : cres * world :=
  match args with
  | [] => (CErrs [], w)
  | p :: args' =>
      match w_fs w p with
      | NAbsent => (CErrs [colon p (os_stat S p)], w)
      | NDir => format S write w args'
      | NFile _ _ _ =>
          let '(r, ff) := parse_file S [] w p in
          let w := World (w_fs w) ff (w_out w) in
          match r with
          | PFErr t =>
              (CErrs [match farthest_failure ff with
                      | Some m => if contains m t then colon p t else colon p t ++ [NL] ++ m
                      | None => colon p t
                      end], w)
          | PFOk v =>
              match as_config v with
              | None => (CPanic, w)
              | Some c =>
                  if write then
                    match save S w p (config_string c) with
                    | (None, w') => format S write w' args'
                    | (Some e, w') => (CErrs [e], w')
                    end
                  else format S write (World (w_fs w) (w_ff w) (w_out w ++ config_string c)) args'
              end
          | PFPanic => (CPanic, w)
          end
      end
  end.

(** internal/app/lint/lint.go:112-119 [validator] *)
Record validator := Validator
  { v_count : nat; v_noids : list bytes; v_autofix : bool; v_changed : bool;
    v_dups : list bytes; v_all : list bytes }.

Definition describe (p : plugin) : bytes :=
  position_string (plugin_pos p) ++ b ": " ++ plugin_name p.
(** lint.go:129-130: the plugin with the generated id appended *)
Definition auto_id (p : plugin) (count : nat) : bytes := plugin_name p ++ b "-" ++ itoa count.
Definition add_id (p : plugin) (count : nat) : plugin :=
  match p with
  | Plugin q name l com foot =>
      Plugin q name (l ++ [AtStr (StrAttr zero_pos (b "id") (auto_id p count) DoubleQuoted [])]) com foot
  end.

(** lint.go:121-145 [walk].  On a nil element c.Plugin() is nil and ID() panics. *)
Definition lint_walk (v : validator) (c : cursor) : prog validator :=
  match cursor_plugin c with
  | Some (Some p) =>
      let n := S (v_count v) in
      match plugin_id p with
      | IdOk id =>
          if existsb (beqb id) (v_all v)
          then PDone (Validator n (v_noids v) (v_autofix v) (v_changed v) (v_dups v ++ [describe p]) (v_all v))
          else PDone (Validator n (v_noids v) (v_autofix v) (v_changed v) (v_dups v) (v_all v ++ [id]))
      | _ =>
          if v_autofix v
          then PDo (CReplace (BPluginPtr (add_id p n)))
                 (fun _ => PDone (Validator n (v_noids v) true true (v_dups v) (v_all v)))
          else PDone (Validator n (v_noids v ++ [describe p]) false (v_changed v) (v_dups v) (v_all v))
      end
  | _ => PPanic
  end.

(** lint.go:59-67: the sections of one kind; ApplyPlugins modifies their slices
    in place *)
Fixpoint lint_sections (v : validator) (l : list section) : option (validator * list section) :=
  match l with
  | [] => Some (v, [])
  | s :: l' =>
      match apply_plugins (S (bops_depth (ps_bops s))) lint_walk v (ps_bops s) with
      | AOk v' bs =>
          match lint_sections v' l' with
          | Some (v'', ss) =>
              Some (v'', Section_ (ps_pos s) (ps_type s) bs (ps_com s) (ps_foot s) :: ss)
          | None => None
          end
      | _ => None
      end
  end.
(** lint.go:54-67 *)
Definition lint_config (autofix : bool) (c : config) : option (validator * config) :=
  match lint_sections (Validator 0 [] autofix false [] []) (cf_input c) with
  | None => None
  | Some (v1, i) =>
      match lint_sections v1 (cf_filter c) with
      | None => None
      | Some (v2, f) =>
          match lint_sections v2 (cf_output c) with
          | None => None
          | Some (v3, o) => Some (v3, Config i f o (cf_foot c) (cf_warnings c))
          end
      end
  end.

(** lint.go:69-84: the reports of one file *)
Definition report (p : path) (title : bytes) (l : list bytes) : list bytes :=
  match l with
  | [] => []
  | _ => [colon p title ++ [NL] ++ flat_map (fun x => x ++ [NL]) l]
  end.
Definition no_ids_title : bytes := b "no IDs found for:".
Definition dup_ids_title : bytes := b "duplicate IDs found in:".

(** internal/app/lint/lint.go:27-110 [Lint.Run] *)
Fixpoint lint (S : os) (autofix : bool) (w : world) (args : list path) : cres * world :=
  match args with
  | [] => (CErrs [], w)
  | p :: args' =>
      match w_fs w p with
      | NAbsent => (CPanic, w)
      | NDir => lint S autofix w args'
      | NFile _ _ _ =>
          let '(r, ff) := parse_file S [OptExceptionalCommentsWarning true] w p in
          let w := World (w_fs w) ff (w_out w) in
          match r with
          | PFErr t =>
              let '(r', w') := lint S autofix w args' in
              (cres_cons (colon p (with_farthest p t ff)) r', w')
          | PFOk v =>
              match as_config v with
              | None => (CPanic, w)
              | Some c =>
                  match lint_config autofix c with
                  | None => (CPanic, w)
                  | Some (va, c') =>
                      let es := cf_warnings c
                                ++ report p no_ids_title (v_noids va)
                                ++ report p dup_ids_title (v_dups va) in
                      let '(e, w1) :=
                        if autofix && v_changed va then save S w p (config_string c') else (None, w) in
                      let '(r', w') := lint S autofix w1 args' in
                      (cres_app (es ++ match e with Some m => [m] | None => [] end) r', w')
                  end
              end
          | PFPanic => (CPanic, w)
          end
      end
  end.
