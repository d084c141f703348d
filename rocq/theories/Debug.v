(** What the option Debug prints (logstash_config.go:11919-11928): the runtime of Engine.v
    with the calls of [print], [in] and [out] (12404-12422).

    Simplified: a printed line is the record of what is put into the format string of
    [print]; how %#U writes the current rune is not modelled.  The functions record the
    lines whether or not debug is set; [dparse] drops them if it is not.  Without Memoize,
    and the counters of Statistics are those of Stats.v. *)
From Coq Require Import List NArith ZArith Bool String Arith.
From Verif Require Import Bytes Utf8 F64 Ast Peg Actions Engine Parser GrammarGen Stats.
Import ListNotations.

(** The prefix of a line: ">" of [in], "<" of [out], "MATCH" (12682, 12779) *)
Inductive mark := Enter | Leave | Match.
(** logstash_config.go:12409-12410: prefix (mark and number of blanks before it), line,
    column and offset of p.pt, the text, p.pt.rn *)
Record line := Line { l_mark : mark; l_indent : Z; l_pos : position; l_text : bytes; l_rune : N }.

(** p.depth (12345) and the lines printed so far, the last one first.  strings.Repeat
    (12415, 12420) panics if the depth is negative: PropsDebug.v proves that no line has a
    negative indent. *)
Record dbg := Dbg { d_depth : Z; d_out : list line }.

(** 12404-12412 [print] *)
Definition d_print (m : mark) (text : bytes) (p : point) (d : dbg) : dbg :=
  Dbg (d_depth d) (Line m (d_depth d) (pt_pos p) text (fst (decode_rune (pt_rest p))) :: d_out d).
(** 12414-12417 [in], 12419-12422 [out] *)
Definition d_in (name : bytes) (p : point) (d : dbg) : dbg := d_print Enter name p (Dbg (d_depth d + 1) (d_out d)).
Definition d_leave (name : bytes) (p : point) (d : dbg) : dbg :=
  let d' := Dbg (d_depth d - 1) (d_out d) in d_print Leave name p d'.

(** [cloneState], [restoreState] (12520-12548): they do not change p.pt *)
Definition d_note (name : string) (p : point) (d : dbg) : dbg := d_leave (b name) p (d_in (b name) p d).
(** [restore] (12490-12499): the second line is printed after the change of p.pt *)
Definition d_restore (p : point) (s : st) (d : dbg) : st * dbg :=
  let s' := restore p s in (s', d_leave (b "restore") (s_pt s') (d_in (b "restore") (s_pt s) d)).

(** defer p.out(p.in(name)): the line of [out] is printed when the function returns, or when
    a panic passes it *)
Definition d_call (name : bytes) (s : st) (d : dbg) (body : dbg -> out * dbg) : out * dbg :=
  let '(r, d') := body (d_in name (s_pt s) d) in
  match r with
  | OOk _ _ s' | OFail _ s' | OPanic _ _ s' => (r, d_leave name (s_pt s') d')
  | OFuel => (r, d')
  end.
(** the line MATCH: the bytes from [start] on *)
Definition d_match (start : point) (r : out) (d : dbg) : dbg :=
  match r with OOk _ _ s' => d_print Match (slice_from start s') (s_pt s') d | _ => d end.

Section Debug.
  Variable o : settings.
  Variable g : grammar.

  (** 12953-12973 [parseLitMatcher] *)
  Fixpoint dlit_loop (rule : string) (want : string) (start : point) (rs : list N)
      (en : env) (s : st) (d : dbg) : out * dbg :=
    match rs with
    | [] =>
        let s := fail_at true (pt_pos start) want s in
        (OOk (VBytes (slice_from start s)) en s, d)
    | r :: rs' =>
        if (fst (decode_rune (pt_rest (s_pt s))) =? r)%N
        then dlit_loop rule want start rs' en (read o (Some rule) s) d
        else let '(s', d') := d_restore start (fail_at false (pt_pos start) want s) d in (OFail en s', d')
    end.

  (** 13060-13079 [parseSeqExpr] *)
  Fixpoint dseq_loop (f : expr -> env -> st -> dbg -> out * dbg) (pt : point) (w : option (list position))
      (es : list expr) (acc : list val) (en : env) (s : st) (d : dbg) : out * dbg :=
    match es with
    | [] => (OOk (VList (rev acc)) en s, d)
    | e :: es' =>
        let '(r, d1) := f e en s d in
        match r with
        | OOk v en' s' => dseq_loop f pt w es' (v :: acc) en' s' d1
        | OFail en' s' =>
            let d2 := d_note "restoreState" (s_pt s') d1 in
            let '(s2, d3) := d_restore pt (set_warns w s') d2 in (OFail en' s2, d3)
        | x => (x, d1)
        end
    end.

  (** 12914-12936 [parseChoiceExpr] *)
  Fixpoint dchoice_loop (f : expr -> env -> st -> dbg -> out * dbg) (es : list expr) (en : env) (s : st) (d : dbg) : out * dbg :=
    match es with
    | [] => (OFail en s, d)
    | e :: es' =>
        let '(r, d1) := f e [] s (d_note "cloneState" (s_pt s) d) in
        match r with
        | OOk v _ s' => (OOk v en s', d1)
        | OFail _ s' => dchoice_loop f es' en (set_warns (s_warns s) s') (d_note "restoreState" (s_pt s') d1)
        | x => (x, d1)
        end
    end.

  (** 13109-13125 [parseZeroOrMoreExpr], 13009-13029 [parseOneOrMoreExpr] *)
  Fixpoint dstar_loop (f : st -> dbg -> out * dbg) (k : nat) (acc : list val) (en : env) (s : st) (d : dbg) : out * dbg :=
    match k with
    | 0 => (OFuel, d)
    | S k' =>
        let '(r, d1) := f s d in
        match r with
        | OOk v _ s' => dstar_loop f k' (v :: acc) en s' d1
        | OFail _ s' => (OOk (VList (rev acc)) en s', d1)
        | x => (x, d1)
        end
    end.

  (** 12664-12691 [parseRule] on the rule [name] with the expression [e] *)
  Definition drule (f : string -> expr -> env -> st -> dbg -> out * dbg) (name : string) (e : expr) (s : st) (d : dbg) : out * dbg :=
    d_call (b "parseRule " ++ b name) s d (fun d =>
      let '(r, d1) := f name e [] s d in (r, d_match (s_pt s) r d1)).

  (** 12693-12757 [parseExpr] and the parse*Expr functions: Engine.step with the lines *)
  Definition dstep (f : string -> expr -> env -> st -> dbg -> out * dbg) (k : nat)
      (rule : string) (e : expr) (en : env) (s0 : st) (d : dbg) : out * dbg :=
    let s := tick s0 in
    if over_limit o s then (OPanic max_expr_msg rule s, d)
    else
      match e with
      | EAct a e' =>                                   (* 12759-12782 *)
          d_call (b "parseActionExpr") s d (fun d =>
            let '(r, d1) := f rule e' en s d in
            match r with
            | OOk _ en' s1 =>
                let text := slice_from (s_pt s) s1 in
                let pos := pt_pos (s_pt s) in
                let s2 := set_cur pos text s1 in
                let d2 := d_note "cloneState" (s_pt s2) d1 in
                let res := match run_action (o_ignore o) (s_warns s2) a en' pos text with
                           | RVal v => OOk v en' s2
                           | RErr v m => OOk v en' (add_err_at (Some rule) m pos s2)
                           | RPanic m => OPanic m rule s2
                           end in
                (res, match res with
                      | OOk _ _ s3 => d_match (s_pt s) res (d_note "restoreState" (s_pt s3) d2)
                      | _ => d2
                      end)
            | x => (x, d1)
            end)
      | EAndCode p =>                                  (* 12784-12798 *)
          d_call (b "parseAndCodeExpr") s d (fun d =>
            let d1 := d_note "cloneState" (s_pt s) d in
            let r := run_predicate rule p en s in
            (r, match r with OOk _ _ s' | OFail _ s' => d_note "restoreState" (s_pt s') d1 | _ => d1 end))
      | EStateCode c =>                                (* 13081-13091 *)
          d_call (b "parseStateCodeExpr") s d (fun d => (OOk VNil en (run_state o c s), d))
      | EAny =>                                        (* 12816-12830 *)
          d_call (b "parseAnyMatcher") s d (fun d =>
            if at_eof s then (OFail en (fail_at false (pt_pos (s_pt s)) "." s), d)
            else
              let s1 := fail_at true (pt_pos (s_pt s)) "." (read o (Some rule) s) in
              (OOk (VBytes (slice_from (s_pt s) s1)) en s1, d))
      | EClass want chars ranges inv =>                (* 12832-12897 *)
          d_call (b "parseCharClassMatcher") s d (fun d =>
            if negb (at_eof s) && class_match chars ranges inv (fst (decode_rune (pt_rest (s_pt s))))
            then
              let s1 := fail_at true (pt_pos (s_pt s)) want (read o (Some rule) s) in
              (OOk (VBytes (slice_from (s_pt s) s1)) en s1, d)
            else (OFail en (fail_at false (pt_pos (s_pt s)) want s), d))
      | ELit want rs =>
          d_call (b "parseLitMatcher") s d (dlit_loop rule want (s_pt s) rs en s)
      | EChoice es =>
          d_call (b "parseChoiceExpr") s d (dchoice_loop (f rule) es en s)
      | ESeq es =>
          d_call (b "parseSeqExpr") s d (fun d =>
            dseq_loop (f rule) (s_pt s) (s_warns s) es [] en s (d_note "cloneState" (s_pt s) d))
      | ELab l e' =>                                   (* 12938-12951 *)
          d_call (b "parseLabeledExpr") s d (fun d =>
            let '(r, d1) := f rule e' [] s d in
            match r with
            | OOk v _ s' => (OOk v (bind l v en) s', d1)
            | OFail _ s' => (OFail en s', d1)
            | x => (x, d1)
            end)
      | ENot e' =>                                     (* 12991-13007 *)
          d_call (b "parseNotExpr") s d (fun d =>
            let d1 := d_note "cloneState" (s_pt s) d in
            let fin s' d' := d_restore (s_pt s) (set_warns (s_warns s) (set_mfinv (negb (s_mfinv s')) s')) (d_note "restoreState" (s_pt s') d') in
            let '(r, d2) := f rule e' [] (set_mfinv (negb (s_mfinv s)) s) d1 in
            match r with
            | OOk _ _ s' => let '(s2, d3) := fin s' d2 in (OFail en s2, d3)
            | OFail _ s' => let '(s2, d3) := fin s' d2 in (OOk VNil en s2, d3)
            | x => (x, d2)
            end)
      | EStar e' => d_call (b "parseZeroOrMoreExpr") s d (dstar_loop (f rule e' []) k [] en s)
      | EPlus e' =>                                    (* 13009-13029 *)
          d_call (b "parseOneOrMoreExpr") s d (fun d =>
            let '(r, d1) := dstar_loop (f rule e' []) k [] en s d in
            match r with
            | OOk (VList []) _ s' => (OFail en s', d1)
            | x => (x, d1)
            end)
      | EOpt e' =>                                     (* 13127-13137 *)
          d_call (b "parseZeroOrOneExpr") s d (fun d =>
            let '(r, d1) := f rule e' [] s d in
            match r with
            | OOk v _ s' => (OOk v en s', d1)
            | OFail _ s' => (OOk VNil en s', d1)
            | x => (x, d1)
            end)
      | ERef name =>                                   (* 13043-13058 *)
          d_call (b "parseRuleRefExpr " ++ b name) s d (fun d =>
            match find_rule name g with
            | Some e' =>
                let '(r, d1) := drule f name e' s d in
                match r with
                | OOk v _ s' => (OOk v en s', d1)
                | OFail _ s' => (OFail en s', d1)
                | x => (x, d1)
                end
            | None =>
                (OFail en (add_err_at (Some rule) (MText (b "undefined rule: " ++ b name)) (pt_pos (s_pt s)) s), d)
            end)
      end.

  Fixpoint deval (n : nat) : string -> expr -> env -> st -> dbg -> out * dbg :=
    match n with
    | 0 => fun _ _ _ _ d => (OFuel, d)
    | S n' => dstep (deval n') n'
    end.
End Debug.

(** 12587-12651 [parse]: the panic handler (12603-12617) prints two lines too.  The third
    component: the printed lines, the first one first. *)
Definition dparse_with (n : nat) (k : xcfg) (ff : list failure) (data : bytes) : result * list failure * list line :=
  let o := xsettings k in
  let shown d := if x_debug k then rev (d_out d) else [] in
  match find_rule (x_entry k) gen_grammar with
  | None => (Returned VNil [PError (Pos 1 0 0) None (MText (b "invalid entrypoint"))], ff, [])
  | Some e =>
      let '(r, d) := drule (deval o gen_grammar n) (x_entry k) e (xinit_st k ff data) (Dbg 0 []) in
      match r with
      | OOk v _ s => (Returned v (s_errs s), s_ff s, shown d)
      | OFail _ s =>
          (Returned VNil
             (match s_errs s with
              | [] => [PError (s_mfpos s) None (MText (no_match_msg (s_mfexp s)))]
              | l => l
              end), s_ff s, shown d)
      | OPanic m rule s =>
          if x_recover k
          then (Returned VNil (s_errs s ++ [PError (pt_pos (s_pt s)) (Some rule) m]), s_ff s,
                shown (d_note "panic handler" (s_pt s) d))
          else (Panicked m, s_ff s, shown d)
      | OFuel => (Diverged, ff, shown d)
      end
  end.
(** [Parse] with all options except Memoize: the result, farthestFailure and the lines printed
    to the standard output ([None]: newParser panicked) *)
Definition dparse (opts : list xopt) (ff : list failure) (data : bytes) : option (result * list failure * list line) :=
  match set_options opts xdefault with
  | Some k => Some (dparse_with (parse_fuel (List.length data)) k ff data)
  | None => None
  end.
