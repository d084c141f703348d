(** The remaining options of Parse: Statistics, Debug, GlobalStore and InitState
    (logstash_config.go:11887-11990), and the runtime with the counters of
    Statistics: logstash_config.go:12281-12301 [Stats], 12693-12757 [parseExpr],
    12899-12936 [incChoiceAltCnt], [parseChoiceExpr].

    Simplified: the counters are unbounded numbers (Go: uint64 and int); the lines
    that Debug prints are in Debug.v. *)
From Coq Require Import List NArith Bool String Arith.
From Verif Require Import Bytes Utf8 F64 Ast Peg Actions Engine Parser GrammarGen ChoiceGen.
Import ListNotations.

(** ChoiceAltCnt: the entry of the inner map for a choice and an alternative; 0: there is none *)
Definition counters := bytes -> bytes -> N.
(** logstash_config.go:12281-12301 *)
Record stats := Stats { st_cnt : N; st_alt : counters }.
Definition no_counts : counters := fun _ _ => 0%N.
(** logstash_config.go:12235-12237 *)
Definition new_stats : stats := Stats 0 no_counts.

(** m[alt]++ *)
Definition incr (k a : bytes) (c : counters) : counters :=
  fun k' a' => if beqb k k' && beqb a a' then (c k' a' + 1)%N else c k' a'.

(** the position of a choice in the grammar file; (0, 0) does not occur (StatsFacts.v) *)
Fixpoint find_choice (rule : string) (path : list nat) (l : list ((string * list nat) * (nat * nat))) : nat * nat :=
  match l with
  | [] => (0, 0)
  | ((r, p), x) :: l' =>
      if (if list_eq_dec Nat.eq_dec p path then true else false) && String.eqb r rule then x else find_choice rule path l'
  end.
(** logstash_config.go:12900: the rule that is being parsed, line and column of the choice *)
Definition choice_ident (rule : string) (path : list nat) : bytes :=
  let x := find_choice rule path choice_table in b rule ++ b " " ++ itoa (fst x) ++ b ":" ++ itoa (snd x).

Section Stats.
  Variable o : settings.
  Variable g : grammar.
  Variable no_match : bytes.      (* p.choiceNoMatch *)

  Fixpoint cseq_loop (f : nat -> expr -> env -> st -> counters -> out * counters) (pt : point) (w : option (list position))
      (i : nat) (es : list expr) (acc : list val) (en : env) (s : st) (c : counters) : out * counters :=
    match es with
    | [] => (OOk (VList (rev acc)) en s, c)
    | e :: es' =>
        let '(r, c') := f i e en s c in
        match r with
        | OOk v en' s' => cseq_loop f pt w (S i) es' (v :: acc) en' s' c'
        | OFail en' s' => (OFail en' (restore pt (set_warns w s')), c')
        | x => (x, c')
        end
    end.
  (** 12914-12936: [i] is altI, the counter of alternative altI + 1 is incremented when
      it matches, the counter no_match when no alternative does *)
  Fixpoint cchoice_loop (ident : bytes) (f : nat -> expr -> env -> st -> counters -> out * counters)
      (i : nat) (es : list expr) (en : env) (s : st) (c : counters) : out * counters :=
    match es with
    | [] => (OFail en s, incr ident no_match c)
    | e :: es' =>
        let '(r, c') := f i e [] s c in
        match r with
        | OOk v _ s' => (OOk v en s', incr ident (itoa (i + 1)) c')
        | OFail _ s' => cchoice_loop ident f (S i) es' en (set_warns (s_warns s) s') c'
        | x => (x, c')
        end
    end.
  Fixpoint cstar_loop (f : st -> counters -> out * counters) (k : nat) (acc : list val) (en : env) (s : st) (c : counters) : out * counters :=
    match k with
    | 0 => (OFuel, c)
    | S k' =>
        let '(r, c') := f s c in
        match r with
        | OOk v _ s' => cstar_loop f k' (v :: acc) en s' c'
        | OFail _ s' => (OOk (VList (rev acc)) en s', c')
        | x => (x, c')
        end
    end.

  (** 12693-12757 [parseExpr]: Engine.step with the counters passed on; [path] is the path of
      the node [e] of the rule [rule] *)
  Definition cstep (f : string -> list nat -> expr -> env -> st -> counters -> out * counters) (k : nat)
      (rule : string) (path : list nat) (e : expr) (en : env) (s0 : st) (c : counters) : out * counters :=
    let s := tick s0 in
    let sub (i : nat) := f rule (i :: path) in
    if over_limit o s then (OPanic max_expr_msg rule s, c)
    else
      match e with
      | EAct a e' =>
          let '(r, c') := sub 0 e' en s c in
          match r with
          | OOk _ en' s1 =>
              let text := slice_from (s_pt s) s1 in
              let pos := pt_pos (s_pt s) in
              let s2 := set_cur pos text s1 in
              match run_action (o_ignore o) (s_warns s2) a en' pos text with
              | RVal v => (OOk v en' s2, c')
              | RErr v x => (OOk v en' (add_err_at (Some rule) x pos s2), c')
              | RPanic x => (OPanic x rule s2, c')
              end
          | x => (x, c')
          end
      | EChoice es => cchoice_loop (choice_ident rule path) sub 0 es en s c
      | ESeq es => cseq_loop sub (s_pt s) (s_warns s) 0 es [] en s c
      | ELab l e' =>
          let '(r, c') := sub 0 e' [] s c in
          match r with
          | OOk v _ s' => (OOk v (bind l v en) s', c')
          | OFail _ s' => (OFail en s', c')
          | x => (x, c')
          end
      | ENot e' =>
          let fin s' := restore (s_pt s) (set_warns (s_warns s) (set_mfinv (negb (s_mfinv s')) s')) in
          let '(r, c') := sub 0 e' [] (set_mfinv (negb (s_mfinv s)) s) c in
          match r with
          | OOk _ _ s' => (OFail en (fin s'), c')
          | OFail _ s' => (OOk VNil en (fin s'), c')
          | x => (x, c')
          end
      | EStar e' => cstar_loop (sub 0 e' []) k [] en s c
      | EPlus e' =>
          let '(r, c') := cstar_loop (sub 0 e' []) k [] en s c in
          match r with
          | OOk (VList []) _ s' => (OFail en s', c')
          | x => (x, c')
          end
      | EOpt e' =>
          let '(r, c') := sub 0 e' [] s c in
          match r with
          | OOk v _ s' => (OOk v en s', c')
          | OFail _ s' => (OOk VNil en s', c')
          | x => (x, c')
          end
      | ERef name =>
          match find_rule name g with
          | Some e' =>
              let '(r, c') := f name [] e' [] s c in
              match r with
              | OOk v _ s' => (OOk v en s', c')
              | OFail _ s' => (OFail en s', c')
              | x => (x, c')
              end
          | None =>
              (OFail en (add_err_at (Some rule) (MText (b "undefined rule: " ++ b name)) (pt_pos (s_pt s)) s), c)
          end
      | _ => (step o g (fun _ _ _ _ => OFuel) k rule e en s0, c)
      end.
  Fixpoint ceval (n : nat) : string -> list nat -> expr -> env -> st -> counters -> out * counters :=
    match n with
    | 0 => fun _ _ _ _ _ c => (OFuel, c)
    | S n' => cstep (ceval n') n'
    end.
End Stats.

(** ** Options *)
(** A value of the maps globalStore and state (Go: interface): a bool or something else.  A
    program outside the package cannot make a value of the type of the warnings
    (logstash_config_helper.go:14), so none of the values it stores has that type. *)
Inductive gval := GBool (x : bool) | GOther.
Definition store := string -> option gval.
Definition put (key : string) (v : option gval) (m : store) : store := fun k => if String.eqb k key then v else m k.

(** [XOption]: the options of Parser.v.  A nil value in a store is the same as no value
    (every reader asserts a type).  [XStatistics None]: a nil pointer. *)
Inductive xopt :=
| XOption (x : popt)
| XStatistics (s : option stats) (no_match : bytes)
| XDebug (x : bool)
| XGlobalStore (key : string) (v : option gval)
| XInitState (key : string) (v : option gval).

(** the parser under construction: logstash_config.go:12232-12261; IgnoreComments and
    ExceptionalCommentsWarning are entries of the global store *)
Record xcfg := XCfg
  { x_max : N; x_entry : string; x_invalid : bool; x_recover : bool;
    x_global : store; x_state : store; x_stats : stats; x_no_match : bytes; x_debug : bool }.
Definition xdefault : xcfg := XCfg 0 "init" false true (fun _ => None) (fun _ => None) new_stats [] false.
Definition ignore_key : string := "__ignoreComments".
Definition warning_key : string := "__exceptionalCommentWarning".
(** the comma-ok type assertion .(bool), logstash_config_options.go:10, 24, helper.go:128, 142 *)
Definition is_true (v : option gval) : bool := match v with Some (GBool x) => x | _ => false end.

(** Apply an option; the second component is the option it returns.  [None]: Statistics with
    a nil pointer panics (11911) in newParser, before the handler of Recover is in place. *)
Definition apply_xopt (x : xopt) (k : xcfg) : option (xcfg * xopt) :=
  match x with
  | XOption (OptMaxExpressions n) =>
      Some (XCfg n (x_entry k) (x_invalid k) (x_recover k) (x_global k) (x_state k) (x_stats k) (x_no_match k) (x_debug k),
            XOption (OptMaxExpressions (x_max k)))
  | XOption (OptEntrypoint name) =>
      Some (XCfg (x_max k) (if String.eqb name "" then "init"%string else name) (x_invalid k) (x_recover k) (x_global k) (x_state k) (x_stats k) (x_no_match k) (x_debug k),
            XOption (OptEntrypoint (x_entry k)))
  | XOption (OptAllowInvalidUTF8 v) =>
      Some (XCfg (x_max k) (x_entry k) v (x_recover k) (x_global k) (x_state k) (x_stats k) (x_no_match k) (x_debug k),
            XOption (OptAllowInvalidUTF8 (x_invalid k)))
  | XOption (OptRecover v) =>
      Some (XCfg (x_max k) (x_entry k) (x_invalid k) v (x_global k) (x_state k) (x_stats k) (x_no_match k) (x_debug k),
            XOption (OptRecover (x_recover k)))
  | XOption (OptIgnoreComments v) =>                  (* logstash_config_options.go:8-14 *)
      Some (XCfg (x_max k) (x_entry k) (x_invalid k) (x_recover k) (put ignore_key (Some (GBool v)) (x_global k)) (x_state k) (x_stats k) (x_no_match k) (x_debug k),
            XOption (OptIgnoreComments (is_true (x_global k ignore_key))))
  | XOption (OptExceptionalCommentsWarning v) =>      (* logstash_config_options.go:22-28 *)
      Some (XCfg (x_max k) (x_entry k) (x_invalid k) (x_recover k) (put warning_key (Some (GBool v)) (x_global k)) (x_state k) (x_stats k) (x_no_match k) (x_debug k),
            XOption (OptExceptionalCommentsWarning (is_true (x_global k warning_key))))
  | XStatistics None _ => None
  | XStatistics (Some s) nm =>                        (* 11905-11916 *)
      Some (XCfg (x_max k) (x_entry k) (x_invalid k) (x_recover k) (x_global k) (x_state k) s nm (x_debug k),
            XStatistics (Some (x_stats k)) (x_no_match k))
  | XDebug v =>                                       (* 11922-11928 *)
      Some (XCfg (x_max k) (x_entry k) (x_invalid k) (x_recover k) (x_global k) (x_state k) (x_stats k) (x_no_match k) v,
            XDebug (x_debug k))
  | XGlobalStore key v =>                             (* 11974-11980 *)
      Some (XCfg (x_max k) (x_entry k) (x_invalid k) (x_recover k) (put key v (x_global k)) (x_state k) (x_stats k) (x_no_match k) (x_debug k),
            XGlobalStore key (x_global k key))
  | XInitState key v =>                               (* 11984-11990 *)
      Some (XCfg (x_max k) (x_entry k) (x_invalid k) (x_recover k) (x_global k) (put key v (x_state k)) (x_stats k) (x_no_match k) (x_debug k),
            XInitState key (x_state k key))
  end.
(** 12264-12269 [setOptions] *)
Fixpoint set_options (opts : list xopt) (k : xcfg) : option xcfg :=
  match opts with
  | [] => Some k
  | x :: opts' => match apply_xopt x k with Some (k', _) => set_options opts' k' | None => None end
  end.
Definition xsettings (k : xcfg) : settings :=
  Settings (is_true (x_global k ignore_key)) (is_true (x_global k warning_key)) (x_invalid k) (if (x_max k =? 0)%N then None else Some (x_max k)).
(** State before parseRule.  The entry of the warnings in cur.state: if the program stored a
    value there it is not of the type of the warnings; initState leaves it
    (logstash_config_helper.go:22-28), and the readers (:42, :130) take it for no
    warnings.  So it is [Some []]. *)
Definition xinit_st (k : xcfg) (ff : list failure) (data : bytes) : st :=
  set_cnt (st_cnt (x_stats k))
    (set_warns (match x_state k warning_key with Some _ => Some [] | None => None end) (init_st (xsettings k) ff data)).
Definition out_count (d : N) (r : out) : N := match r with OOk _ _ s | OFail _ s | OPanic _ _ s => s_cnt s | OFuel => d end.

(** [Parse] with all options except Memoize: the result, farthestFailure, and the
    contents of the Stats in force afterwards ([None]: newParser panicked). *)
Definition xparse_with (n : nat) (k : xcfg) (ff : list failure) (data : bytes) : result * list failure * stats :=
  let o := xsettings k in
  match find_rule (x_entry k) gen_grammar with
  | None => (Returned VNil [PError (Pos 1 0 0) None (MText (b "invalid entrypoint"))], ff, x_stats k)
  | Some e =>
      let '(r, c) := ceval o gen_grammar (x_no_match k) n (x_entry k) [] e [] (xinit_st k ff data) (st_alt (x_stats k)) in
      let st' := Stats (out_count (st_cnt (x_stats k)) r) c in
      match r with
      | OOk v _ s => (Returned v (s_errs s), s_ff s, st')
      | OFail _ s =>
          (Returned VNil
             (match s_errs s with
              | [] => [PError (s_mfpos s) None (MText (no_match_msg (s_mfexp s)))]
              | l => l
              end), s_ff s, st')
      | OPanic m rule s =>
          (if x_recover k
           then Returned VNil (s_errs s ++ [PError (pt_pos (s_pt s)) (Some rule) m])
           else Panicked m, s_ff s, st')
      | OFuel => (Diverged, ff, st')
      end
  end.
Definition xparse (opts : list xopt) (ff : list failure) (data : bytes) : option (result * list failure * stats) :=
  match set_options opts xdefault with
  | Some k => Some (xparse_with (parse_fuel (List.length data)) k ff data)
  | None => None
  end.
