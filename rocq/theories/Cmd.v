(** The program mustache (cmd/mustache/main.go, internal/app/app.go, internal/app/check.go,
    format.go, lint.go) and the not-found errors (ast/errors.go).

    Simplified: the command line is given already split by cobra into the subcommand, its
    flag and the file arguments; help and version output are not modelled. *)
From Coq Require Import List NArith ZArith Bool String Arith.
From Verif Require Import Bytes Utf8 Ast Actions Engine Parser AstUtil App.
Import ListNotations.

(** internal/app/check.go:9-18, format.go:9-20, lint.go:9-20: the subcommands and their flag *)
Inductive command := CmdCheck | CmdFormat (write_to_source : bool) | CmdLint (auto_fix_id : bool).

(** check.go:20-23, format.go:22-27, lint.go:22-27; [Format.Run] returns the first error
    itself, the two others a multierror shown by format.MultiErr (check/check.go:44-47,
    lint/lint.go:104-107). *)
Definition run_command (S : os) (c : command) (w : world) (args : list path) : cres * world :=
  match c with
  | CmdCheck => check S w args
  | CmdFormat write => format S write w args
  | CmdLint fix_ids => lint S fix_ids w args
  end.
Definition command_error (c : command) (es : list bytes) : bytes :=
  match c with
  | CmdFormat _ => match es with e :: _ => e | [] => [] end
  | _ => multi_err es
  end.

(** How the process ends: its exit status and what it wrote to standard error; a Go run time
    panic ends the process with status 2 and a trace. *)
Record ended := Ended { x_status : nat; x_stderr : bytes }.

(** internal/app/app.go:18-52 [Execute] and main.go:11-14.  [conf] is the error of reading
    the program's own configuration file, if that file exists and is broken. *)
Definition execute (S : os) (trace : bytes) (conf : option bytes) (c : command) (w : world) (args : list path) : ended * world :=
  match conf with
  | Some m => (Ended 1 (b "error processing config file: " ++ m), w)
  | None =>
      let '(r, w') := run_command S c w args in
      (match r with
       | CErrs [] => Ended 0 []
       | CErrs es => Ended 1 (b "error: " ++ command_error c es)
       | CPanic => Ended 2 trace
       end, w')
  end.

(** ** Errors (ast/errors.go) *)
(** A Go error: one made from a text; a notFoundError (errors.go:15-17), which has no method
    Unwrap; an error with a method Unwrap, as made by fmt.Errorf with %w or errors.Wrap; and an
    error that wraps several others, as made by errors.Join. *)
Inductive goerr :=
| ErrText (t : bytes)
| ErrNotFound (e : goerr)
| ErrWrap (t : bytes) (e : goerr)
| ErrJoin (l : list goerr).

(** The text Error() returns; errors.go:40-42 for the second *)
Fixpoint err_string (e : goerr) : bytes :=
  match e with
  | ErrText t => t
  | ErrNotFound e => b "not found: " ++ err_string e
  | ErrWrap t e => t ++ b ": " ++ err_string e
  | ErrJoin l => join [NL] (map err_string l)
  end.
(** errors.go:20-28 [NewNotFoundError]; [None] is nil *)
Definition new_not_found (e : option goerr) : option goerr :=
  match e with None => None | Some e => Some (ErrNotFound e) end.
(** errors.go:32-34 [NotFoundErrorf], the text already formatted *)
Definition not_found_f (t : bytes) : option goerr := new_not_found (Some (ErrText t)).
(** errors.As for the interface NotFounder: the error itself or one it unwraps to *)
Fixpoint as_not_founder (e : goerr) : bool :=
  match e with
  | ErrText _ => false
  | ErrNotFound _ => true
  | ErrWrap _ e => as_not_founder e
  | ErrJoin l => existsb as_not_founder l
  end.
(** errors.go:63-66 [IsNotFoundError] *)
Definition is_not_found (e : option goerr) : bool := match e with Some e => as_not_founder e | None => false end.

(** errors.go:46-59 [Format]: the verb and whether the flag + is set; [quote] is Go's %q, [plus]
    the text of the wrapped error with %+v.  Other verbs print nothing. *)
Definition not_found_format (quote : bytes -> bytes) (plus : goerr -> bytes) (verb : N) (flag : bool) (e : goerr) : bytes :=
  if (verb =? 118)%N then
    if flag then b "not found: " ++ plus e else err_string (ErrNotFound e)
  else if (verb =? 115)%N then err_string (ErrNotFound e)
  else if (verb =? 113)%N then quote (err_string (ErrNotFound e))
  else [].

(** The error of Plugin.ID, ast/ast.go:303-316, as a Go error: NotFoundErrorf adds the text
    "not found: " to the message *)
Definition id_not_found_text (name : bytes) : bytes := b "plugin " ++ name ++ b " does not contain an id attribute".
Definition id_error (p : plugin) : option goerr :=
  match plugin_id p with
  | IdOk _ => None
  | IdNotFound _ => not_found_f (id_not_found_text (plugin_name p))
  | IdOther m => Some (ErrText m)
  end.
