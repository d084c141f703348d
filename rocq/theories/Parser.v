(** The package's API: Parse, its options, and GetFarthestFailure. *)
From Coq Require Import List NArith Bool String Arith.
From Verif Require Import Bytes Utf8 F64 Ast Peg Actions Engine GrammarGen.
Import ListNotations.

(** Options: logstash_config.go:11866-12001 and logstash_config_options.go.
    Statistics, Debug, GlobalStore and InitState are in Stats.v, Memoize is in Memo.v. *)
Inductive popt :=
| OptMaxExpressions (n : N)
| OptEntrypoint (name : string)
| OptAllowInvalidUTF8 (x : bool)
| OptRecover (x : bool)
| OptIgnoreComments (x : bool)
| OptExceptionalCommentsWarning (x : bool).

(** The settings of a parser under construction (logstash_config.go:12232-12261
    [newParser]). *)
Record pcfg := PCfg
  { k_max : N; k_entry : string; k_invalid : bool; k_recover : bool;
    k_ignore : bool; k_warn : bool }.
Definition default_cfg : pcfg := PCfg 0 "init" false true false false.

(** Apply an option; the second component is the option it returns, which
    restores the previous setting. *)
Definition apply_opt (x : popt) (k : pcfg) : pcfg * popt :=
  match x with
  | OptMaxExpressions n =>
      (PCfg n (k_entry k) (k_invalid k) (k_recover k) (k_ignore k) (k_warn k),
       OptMaxExpressions (k_max k))
  | OptEntrypoint name =>
      (PCfg (k_max k) (if String.eqb name "" then "init"%string else name)
         (k_invalid k) (k_recover k) (k_ignore k) (k_warn k),
       OptEntrypoint (k_entry k))
  | OptAllowInvalidUTF8 x =>
      (PCfg (k_max k) (k_entry k) x (k_recover k) (k_ignore k) (k_warn k),
       OptAllowInvalidUTF8 (k_invalid k))
  | OptRecover x =>
      (PCfg (k_max k) (k_entry k) (k_invalid k) x (k_ignore k) (k_warn k),
       OptRecover (k_recover k))
  | OptIgnoreComments x =>
      (PCfg (k_max k) (k_entry k) (k_invalid k) (k_recover k) x (k_warn k),
       OptIgnoreComments (k_ignore k))
  | OptExceptionalCommentsWarning x =>
      (PCfg (k_max k) (k_entry k) (k_invalid k) (k_recover k) (k_ignore k) x,
       OptExceptionalCommentsWarning (k_warn k))
  end.

(** logstash_config.go:12264-12269 [setOptions] *)
Definition config_of (opts : list popt) : pcfg :=
  fold_left (fun k x => fst (apply_opt x k)) opts default_cfg.

(** logstash_config.go:12256-12258: 0 means no limit (math.MaxUint64) *)
Definition settings_of (k : pcfg) : settings :=
  Settings (k_ignore k) (k_warn k) (k_invalid k) (if (k_max k =? 0)%N then None else Some (k_max k)).

(** What a call of Parse does: return a value and the list of errors (empty
    means the nil error), or panic (only with Recover(false)). *)
Inductive result :=
| Returned (v : val) (errs : list perror)
| Panicked (m : emsg)
| Diverged.                      (* the model ran out of fuel; excluded by Termination.v *)

(** The position after the first read() (logstash_config.go:12625, 12471-12481):
    the initial savepoint is line 1, column 0, width 0. *)
Definition start_pt (data : bytes) : point :=
  if (fst (decode_rune data) =? NL)%N then Pt (Pos 2 0 0) data else Pt (Pos 1 1 0) data.

(** State before parseRule: newParser and the first read.  [ff] is the package
    variable farthestFailure, which newParser does not touch. *)
Definition init_st (o : settings) (ff : list failure) (data : bytes) : st :=
  check_rune o None
    (St (start_pt data) zero_pos [] None ff [] (Pos 1 1 0) [] false 0).

(** sort.Strings: byte-wise lexicographic order *)
Fixpoint bleb (x y : bytes) : bool :=
  match x, y with
  | [], _ => true
  | _ :: _, [] => false
  | c :: x', d :: y' => (c <? d)%N || ((c =? d)%N && bleb x' y')
  end.
Fixpoint insert_sorted (x : bytes) (l : list bytes) : list bytes :=
  match l with
  | [] => [x]
  | y :: l' => if bleb x y then x :: l else y :: insert_sorted x l'
  end.
Definition sort_bytes (l : list bytes) : list bytes := fold_right insert_sorted [] l.

(** Remove duplicates, keeping the first occurrence. *)
Fixpoint dedupe (seen : list bytes) (l : list bytes) : list bytes :=
  match l with
  | [] => []
  | x :: l' => if existsb (beqb x) seen then dedupe seen l' else x :: dedupe (x :: seen) l'
  end.

(** logstash_config.go:12653-12662 [listJoin] *)
Definition list_join (l : list bytes) : bytes :=
  match rev l with
  | [] => []
  | [x] => x
  | x :: r => join (b ", ") (rev r) ++ b " or " ++ x
  end.

(** logstash_config.go:12628-12647: the message when nothing matched *)
Definition no_match_msg (mfexp : list bytes) : bytes :=
  let ws := dedupe [] mfexp in
  let eof := existsb (beqb (b "!.")) ws in
  let ws' := sort_bytes (filter (fun w => negb (beqb (b "!.") w)) ws) in
  b "no match found, expected: " ++ list_join (ws' ++ (if eof then [b "EOF"] else [])).

(** Fuel for an input of a given length: see Termination.v. *)
Definition fuel_factor : nat := 600.
Definition parse_fuel (len : nat) : nat := S len * fuel_factor.

(** logstash_config.go:12587-12651 [parse], with the deferred panic handler
    (12599-12617); the result and the new value of farthestFailure. *)
Definition parse_with (n : nat) (g : grammar) (k : pcfg) (ff : list failure) (data : bytes)
    : result * list failure :=
  let o := settings_of k in
  match find_rule (k_entry k) g with
  | None => (Returned VNil [PError (Pos 1 0 0) None (MText (b "invalid entrypoint"))], ff)
  | Some e =>
      match eval o g n (k_entry k) e [] (init_st o ff data) with
      | OOk v _ s => (Returned v (s_errs s), s_ff s)
      | OFail _ s =>
          (Returned VNil
             (match s_errs s with
              | [] => [PError (s_mfpos s) None (MText (no_match_msg (s_mfexp s)))]
              | l => l
              end), s_ff s)
      | OPanic m rule s =>
          (if k_recover k
           then Returned VNil (s_errs s ++ [PError (pt_pos (s_pt s)) (Some rule) m])
           else Panicked m, s_ff s)
      | OFuel => (Diverged, ff)
      end
  end.

(** logstash_config.go:12026-12031 [Parse] on the grammar [g] of the package *)
Definition parse (opts : list popt) (ff : list failure) (data : bytes) : result * list failure :=
  parse_with (parse_fuel (List.length data)) gen_grammar (config_of opts) ff data.

(** parse_error_helper.go:19-30 [GetFarthestFailure] *)
Definition farthest_failure (ff : list failure) : option bytes :=
  match ff with
  | [] => None
  | f :: _ => Some (failure_head (f_cpos f) (f_off f) (f_text f)
                    ++ flat_map (fun x => failure_line (f_msg x)) ff)
  end.

(** Error texts.  [gofmt template value] stands for fmt.Sprintf with %#v of a Go
    value and for the texts of Go run time errors; every theorem holds for every
    such function. *)
Notation formatter := (bytes -> val -> bytes).
Definition msg_text (gofmt : formatter) (m : emsg) : bytes :=
  match m with MText t => t | MGo t v => gofmt t v end.
(** logstash_config.go:12428-12450 and 12229-12231 *)
Definition error_text (gofmt : formatter) (filename : bytes) (e : perror) : bytes :=
  (match filename with [] => [] | _ => filename ++ b ":" end)
  ++ itoa (p_line (e_pos e)) ++ b ":" ++ itoa (p_col (e_pos e))
  ++ b " (" ++ itoa (p_off (e_pos e)) ++ b ")"
  ++ (match e_rule e with Some r => b ": rule " ++ b r | None => [] end)
  ++ b ": " ++ msg_text gofmt (e_msg e).
(** logstash_config.go:12174-12217: dedupe and join *)
Definition errors_text (gofmt : formatter) (filename : bytes) (l : list perror) : bytes :=
  join [NL] (dedupe [] (map (error_text gofmt filename) l)).
