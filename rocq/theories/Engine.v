(** The parser runtime: logstash_config.go:12024-13137 (code generated by
    pigeon), the failure record of parse_error_helper.go, and the predicate and
    state code blocks.

    Not modelled here: the Memoize (see Memo.v) and Statistics options and the counters
    of ChoiceAltCnt (see Stats.v), and what Debug prints (see Debug.v).  The data-dependent recursion of the Go code is recursion on fuel;
    running out of fuel is the outcome [OFuel], and Termination.v proves that a
    fuel linear in the input length always suffices. *)
From Coq Require Import List NArith Bool String Arith.
From Verif Require Import Bytes Utf8 F64 Ast Peg Actions.
Import ListNotations.

(** Settings in force during a parse (fields of [parser], logstash_config.go:12303-12345,
    and the globalStore entries of logstash_config_options.go). *)
Record settings := Settings
  { o_ignore : bool;            (* globalStore["__ignoreComments"] *)
    o_warn : bool;              (* globalStore["__exceptionalCommentWarning"] *)
    o_invalid : bool;           (* allowInvalidUTF8 *)
    o_max : option N }.         (* maxExprCnt; None: math.MaxUint64 *)

(** logstash_config.go:12034-12038 [savepoint]: the position and the unread
    input; the current rune and its width are the decoding of its head. *)
Record point := Pt { pt_pos : position; pt_rest : bytes }.

(** parse_error_helper.go:9-13 [errPos]: message, c.pos, c.text and offset *)
Record failure := Failure { f_msg : bytes; f_cpos : position; f_text : bytes; f_off : nat }.

(** logstash_config.go:12219-12226 [parserError] with the innermost rule name *)
Record perror := PError { e_pos : position; e_rule : option string; e_msg : emsg }.

(** The mutable part of [parser] (12303-12345), [current] (12040-12055) and the
    package variable farthestFailure (parse_error_helper.go:15).  [s_warns] is
    the only entry of cur.state; [None] before initState. *)
Record st := St
  { s_pt : point;
    s_cpos : position; s_ctext : bytes;
    s_warns : option (list position);
    s_ff : list failure;
    s_errs : list perror;
    s_mfpos : position; s_mfexp : list bytes; s_mfinv : bool;
    s_cnt : N }.

Definition set_pt p s := St p (s_cpos s) (s_ctext s) (s_warns s) (s_ff s) (s_errs s) (s_mfpos s) (s_mfexp s) (s_mfinv s) (s_cnt s).
Definition set_cur c t s := St (s_pt s) c t (s_warns s) (s_ff s) (s_errs s) (s_mfpos s) (s_mfexp s) (s_mfinv s) (s_cnt s).
Definition set_warns w s := St (s_pt s) (s_cpos s) (s_ctext s) w (s_ff s) (s_errs s) (s_mfpos s) (s_mfexp s) (s_mfinv s) (s_cnt s).
Definition set_ff f s := St (s_pt s) (s_cpos s) (s_ctext s) (s_warns s) f (s_errs s) (s_mfpos s) (s_mfexp s) (s_mfinv s) (s_cnt s).
Definition set_errs l s := St (s_pt s) (s_cpos s) (s_ctext s) (s_warns s) (s_ff s) l (s_mfpos s) (s_mfexp s) (s_mfinv s) (s_cnt s).
Definition set_mf p l s := St (s_pt s) (s_cpos s) (s_ctext s) (s_warns s) (s_ff s) (s_errs s) p l (s_mfinv s) (s_cnt s).
Definition set_mfinv i s := St (s_pt s) (s_cpos s) (s_ctext s) (s_warns s) (s_ff s) (s_errs s) (s_mfpos s) (s_mfexp s) i (s_cnt s).
Definition set_cnt n s := St (s_pt s) (s_cpos s) (s_ctext s) (s_warns s) (s_ff s) (s_errs s) (s_mfpos s) (s_mfexp s) (s_mfinv s) n.

(** Outcome of evaluating an expression. *)
Inductive out :=
| OOk (v : val) (e : env) (s : st)
| OFail (e : env) (s : st)
| OPanic (m : emsg) (rule : string) (s : st)
| OFuel.

(** logstash_config.go:12424-12450 [addErr], [addErrAt] *)
Definition add_err_at (rule : option string) (m : emsg) (p : position) (s : st) : st :=
  set_errs (s_errs s ++ [PError p rule m]) s.

(** logstash_config.go:12452-12469 [failAt] *)
Definition fail_at (fail : bool) (p : position) (want : string) (s : st) : st :=
  if Bool.eqb fail (s_mfinv s) then
    if p_off p <? p_off (s_mfpos s) then s
    else
      let '(mp, me) := if p_off (s_mfpos s) <? p_off p then (p, []) else (s_mfpos s, s_mfexp s) in
      let w := if s_mfinv s then b "!" ++ b want else b want in
      set_mf mp (me ++ [w]) s
  else s.

(** logstash_config.go:12471-12489 [read], the position part: move over the
    current rune; the new line and column depend on the rune moved to. *)
Definition advance_pt (p : point) : point :=
  let w := snd (decode_rune (pt_rest p)) in
  let r := skipn w (pt_rest p) in
  let q := pt_pos p in
  if (fst (decode_rune r) =? NL)%N
  then Pt (Pos (S (p_line q)) 0 (p_off q + w)) r
  else Pt (Pos (p_line q) (S (p_col q)) (p_off q + w)) r.

(** ... and the check of the encoding, errInvalidEncoding (11843-11845) *)
Definition check_rune (o : settings) (rule : option string) (s : st) : st :=
  if bad_rune (pt_rest (s_pt s)) && negb (o_invalid o)
  then add_err_at rule (MText (b "invalid encoding")) (pt_pos (s_pt s)) s
  else s.
Definition read (o : settings) (rule : option string) (s : st) : st :=
  check_rune o rule (set_pt (advance_pt (s_pt s)) s).

(** logstash_config.go:12490-12499 [restore] *)
Definition restore (p : point) (s : st) : st :=
  if p_off (pt_pos p) =? p_off (pt_pos (s_pt s)) then s else set_pt p s.

(** logstash_config.go:12550-12553 [sliceFrom] *)
Definition slice_from (p : point) (s : st) : bytes :=
  firstn (p_off (pt_pos (s_pt s)) - p_off (pt_pos p)) (pt_rest p).

Definition at_eof (s : st) : bool :=
  let '(r, w) := decode_rune (pt_rest (s_pt s)) in (r =? RuneError)%N && Nat.eqb w 0.

(** logstash_config.go:12832-12897 [parseCharClassMatcher]: does the class match? *)
Definition class_match (chars : list N) (ranges : list (N * N)) (inv : bool) (c : N) : bool :=
  let hit := existsb (N.eqb c) chars
             || existsb (fun r => (fst r <=? c)%N && (c <=? snd r)%N) ranges in
  xorb hit inv.

(** parse_error_helper.go:37-39 [pos] *)
Definition cur_off (s : st) : nat := p_off (s_cpos s) + List.length (s_ctext s).

(** parse_error_helper.go:46-61 [pushError] *)
Definition push_error (msg : bytes) (s : st) : st :=
  let off := cur_off s in
  let new := Failure msg (s_cpos s) (s_ctext s) off in
  match s_ff s with
  | [] => set_ff [new] s
  | f :: _ =>
      if f_off f <? off then set_ff [new] s
      else if off =? f_off f then
        if existsb (fun x => beqb (f_msg x) msg) (s_ff s) then s
        else set_ff (s_ff s ++ [new]) s
      else s
  end.

(** parse_error_helper.go:32-35 [showNewline] *)
Definition show_newline (t : bytes) : bytes := replace_byte NL [BSL; 110%N] t.

(** parse_error_helper.go:22, 74: the first line of a failure text *)
Definition failure_head (p : position) (off : nat) (text : bytes) : bytes :=
  b "Parsing error at pos " ++ position_string p ++ b " and [" ++ itoa off ++ b "] (after: '"
    ++ show_newline text ++ b "'):" ++ [NL].
Definition failure_line (msg : bytes) : bytes := b "-> " ++ msg ++ [NL].

(** parse_error_helper.go:66-77 [fatalError]: records the failure and panics *)
Definition fatal_error (msg : bytes) (s : st) : emsg * st :=
  (MText (failure_head (s_cpos s) (cur_off s) (s_ctext s) ++ failure_line msg),
   set_ff [Failure msg (s_cpos s) (s_ctext s) (cur_off s)] s).

(** errMaxExprCnt, logstash_config.go:11847-11849 *)
Definition max_expr_msg : emsg := MText (b "max number of expresssions parsed").

Section Engine.
  Variable o : settings.

  (** logstash_config.go:12706-12709: count the expression *)
  Definition tick (s : st) : st := set_cnt (s_cnt s + 1)%N s.
  Definition over_limit (s : st) : bool :=
    match o_max o with Some m => (m <? s_cnt s)%N | None => false end.

  (** logstash_config.go:12953-12973 [parseLitMatcher] *)
  Fixpoint lit_loop (rule : string) (want : string) (start : point) (rs : list N)
      (en : env) (s : st) : out :=
    match rs with
    | [] =>
        let s := fail_at true (pt_pos start) want s in
        OOk (VBytes (slice_from start s)) en s
    | r :: rs' =>
        if (fst (decode_rune (pt_rest (s_pt s))) =? r)%N
        then lit_loop rule want start rs' en (read o (Some rule) s)
        else OFail en (restore start (fail_at false (pt_pos start) want s))
    end.

  (** logstash_config.go:13060-13079 [parseSeqExpr] *)
  Fixpoint seq_loop (f : expr -> env -> st -> out) (pt : point) (w : option (list position))
      (es : list expr) (acc : list val) (en : env) (s : st) : out :=
    match es with
    | [] => OOk (VList (rev acc)) en s
    | e :: es' =>
        match f e en s with
        | OOk v en' s' => seq_loop f pt w es' (v :: acc) en' s'
        | OFail en' s' => OFail en' (restore pt (set_warns w s'))
        | x => x
        end
    end.

  (** logstash_config.go:12914-12936 [parseChoiceExpr]; each alternative gets a
      fresh label map *)
  Fixpoint choice_loop (f : expr -> env -> st -> out) (es : list expr) (en : env) (s : st) : out :=
    match es with
    | [] => OFail en s
    | e :: es' =>
        match f e [] s with
        | OOk v _ s' => OOk v en s'
        | OFail _ s' => choice_loop f es' en (set_warns (s_warns s) s')
        | x => x
        end
    end.

  (** logstash_config.go:13109-13125 [parseZeroOrMoreExpr] and 13009-13029
      [parseOneOrMoreExpr] (the latter fails if no iteration matched) *)
  Fixpoint star_loop (f : st -> out) (k : nat) (acc : list val) (en : env) (s : st) : out :=
    match k with
    | 0 => OFuel
    | S k' =>
        match f s with
        | OOk v _ s' => star_loop f k' (v :: acc) en s'
        | OFail _ s' => OOk (VList (rev acc)) en s'
        | x => x
        end
    end.

  (** &{...} blocks: logstash_config.go:12784-12798 [parseAndCodeExpr] *)
  Definition run_predicate (rule : string) (p : predicate) (en : env) (s : st) : out :=
    match p with
    | PInitParser => OOk VNil en (set_ff [] s)      (* logstash_config_helper.go:30-33 *)
    | PPushError m => OFail en (push_error (b m) s)
    | PFatalError m => let '(msg, s') := fatal_error (b m) s in OPanic msg rule s'
    end.

  (** #{...} blocks: logstash_config.go:13081-13091; helper.go:22-28, 127-135 *)
  Definition run_state (c : statecode) (s : st) : st :=
    match c with
    | SInitState => match s_warns s with Some _ => s | None => set_warns (Some []) s end
    | SWarnComment =>
        if o_warn o && existsb (N.eqb HASH) (s_ctext s)
        then set_warns (Some (match s_warns s with Some l => l | None => [] end ++ [s_cpos s])) s
        else s
    end.

  Variable g : grammar.
  Fixpoint find_rule (name : string) (rs : grammar) : option expr :=
    match rs with
    | [] => None
    | (n, e) :: rs' => if String.eqb n name then Some e else find_rule name rs'
    end.

  (** One expression, given the evaluator [f] for its parts and the bound [k] on
      iterations: logstash_config.go:12693-12757 [parseExpr] and the parse*Expr
      functions. *)
  Definition step (f : string -> expr -> env -> st -> out) (k : nat)
      (rule : string) (e : expr) (en : env) (s0 : st) : out :=
    let s := tick s0 in
    if over_limit s then OPanic max_expr_msg rule s
    else
      match e with
      | EAct a e' =>                                   (* 12759-12782 *)
          match f rule e' en s with
          | OOk _ en' s1 =>
              let text := slice_from (s_pt s) s1 in
              let pos := pt_pos (s_pt s) in
              let s2 := set_cur pos text s1 in
              match run_action (o_ignore o) (s_warns s2) a en' pos text with
              | RVal v => OOk v en' s2
              | RErr v m => OOk v en' (add_err_at (Some rule) m pos s2)
              | RPanic m => OPanic m rule s2
              end
          | x => x
          end
      | EAndCode p => run_predicate rule p en s
      | EStateCode c => OOk VNil en (run_state c s)
      | EAny =>                                        (* 12816-12830 *)
          if at_eof s then OFail en (fail_at false (pt_pos (s_pt s)) "." s)
          else
            let s1 := fail_at true (pt_pos (s_pt s)) "." (read o (Some rule) s) in
            OOk (VBytes (slice_from (s_pt s) s1)) en s1
      | EClass want chars ranges inv =>                (* 12832-12897 *)
          if negb (at_eof s) && class_match chars ranges inv (fst (decode_rune (pt_rest (s_pt s))))
          then
            let s1 := fail_at true (pt_pos (s_pt s)) want (read o (Some rule) s) in
            OOk (VBytes (slice_from (s_pt s) s1)) en s1
          else OFail en (fail_at false (pt_pos (s_pt s)) want s)
      | ELit want rs => lit_loop rule want (s_pt s) rs en s
      | EChoice es => choice_loop (f rule) es en s
      | ESeq es => seq_loop (f rule) (s_pt s) (s_warns s) es [] en s
      | ELab l e' =>                                   (* 12938-12951 *)
          match f rule e' [] s with
          | OOk v _ s' => OOk v (bind l v en) s'
          | OFail _ s' => OFail en s'
          | x => x
          end
      | ENot e' =>                                     (* 12991-13007 *)
          let fin s' := restore (s_pt s) (set_warns (s_warns s) (set_mfinv (negb (s_mfinv s')) s')) in
          match f rule e' [] (set_mfinv (negb (s_mfinv s)) s) with
          | OOk _ _ s' => OFail en (fin s')
          | OFail _ s' => OOk VNil en (fin s')
          | x => x
          end
      | EStar e' => star_loop (f rule e' []) k [] en s
      | EPlus e' =>                                    (* 13009-13029 *)
          match star_loop (f rule e' []) k [] en s with
          | OOk (VList []) _ s' => OFail en s'
          | x => x
          end
      | EOpt e' =>                                     (* 13127-13137 *)
          match f rule e' [] s with
          | OOk v _ s' => OOk v en s'
          | OFail _ s' => OOk VNil en s'
          | x => x
          end
      | ERef name =>                                   (* 13043-13058, 12664-12691 *)
          match find_rule name g with
          | Some e' =>
              match f name e' [] s with
              | OOk v _ s' => OOk v en s'
              | OFail _ s' => OFail en s'
              | x => x
              end
          | None =>
              OFail en (add_err_at (Some rule) (MText (b "undefined rule: " ++ b name))
                          (pt_pos (s_pt s)) s)
          end
      end.

  Fixpoint eval (n : nat) : string -> expr -> env -> st -> out :=
    match n with
    | 0 => fun _ _ _ _ => OFuel
    | S n' => step (eval n') n'
    end.
End Engine.
