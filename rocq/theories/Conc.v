(** Parse calls that run at the same time.

    The package variable farthestFailure (parse_error_helper.go:15) is the only
    variable shared by calls of Parse: the parser, its tables and its state are
    created by newParser (logstash_config.go:12243-12275), the grammar is only
    read, and statePool (12513) is a sync.Pool (Store.v).  A call is modelled as a program
    whose atomic steps are the single reads and writes of that variable, in the
    order in which the Go code makes them; everything between two of them is
    local to the call.

    Simplifications: reading or writing the variable is atomic (in Go a slice
    header is three words, and unsynchronised access is a data race) and the
    slices are values (an append does not write into an array another call is
    reading). *)
From Coq Require Import List NArith Bool String Arith.
From Verif Require Import Bytes Utf8 F64 Ast Peg Actions Engine Parser GrammarGen Run.
Import ListNotations.

(** Programs over the shared variable *)
Inductive prog (A : Type) :=
| Done (a : A)
| Get (k : list failure -> prog A)          (* read the variable *)
| Put (l : list failure) (k : prog A).      (* write it *)
Arguments Done {A}. Arguments Get {A}. Arguments Put {A}.
Fixpoint bindp {A B} (p : prog A) (f : A -> prog B) : prog B :=
  match p with
  | Done a => f a
  | Get k => Get (fun l => bindp (k l) f)
  | Put l k => Put l (bindp k f)
  end.
Definition mapp {A B} (f : A -> B) (p : prog A) : prog B := bindp p (fun a => Done (f a)).

(** Go's panic for farthestFailure[0] when the slice is empty *)
Definition index_msg : emsg := MText (b "runtime error: index out of range [0] with length 0").
(** The expression farthestFailure[0] *)
Definition first_failure {A} (fail : prog A) (k : failure -> prog A) : prog A :=
  Get (fun l => match l with f :: _ => k f | [] => fail end).

Section Conc.
  Variable o : settings.
  Variable g : grammar.

  (** parse_error_helper.go:46-61 [pushError], read by read *)
  Definition ppush (msg : bytes) (rule : string) (en : env) (s : st) : prog out :=
    let off := cur_off s in
    let new := Failure msg (s_cpos s) (s_ctext s) off in
    let fail := Done (OPanic index_msg rule s) in
    let ok := Done (OFail en s) in
    let rest :=                                                       (* 51-59, the else branch *)
      first_failure fail (fun f =>
        if off =? f_off f                                             (* 51 *)
        then Get (fun l =>                                            (* 52 range *)
               if existsb (fun x => beqb (f_msg x) msg) l then ok
               else Get (fun l => Put (l ++ [new]) ok))               (* 57 *)
        else ok) in
    Get (fun l =>                                                     (* 48 len *)
      match l with
      | [] => Put [new] ok                                            (* 49 *)
      | _ => first_failure fail (fun f => if f_off f <? off then Put [new] ok else rest)
      end).
  (** logstash_config_helper.go:30-33, pushError, parse_error_helper.go:66-77 *)
  Definition ppredicate (rule : string) (p : predicate) (en : env) (s : st) : prog out :=
    match p with
    | PInitParser => Put [] (Done (OOk VNil en s))
    | PPushError m => ppush (b m) rule en s
    | PFatalError m =>
        let '(msg, s') := fatal_error (b m) s in Put (s_ff s') (Done (OPanic msg rule s))
    end.

  (** the loops of Engine.v *)
  Fixpoint pseq_loop (f : expr -> env -> st -> prog out) (pt : point) (w : option (list position))
      (es : list expr) (acc : list val) (en : env) (s : st) : prog out :=
    match es with
    | [] => Done (OOk (VList (rev acc)) en s)
    | e :: es' =>
        bindp (f e en s) (fun r =>
          match r with
          | OOk v en' s' => pseq_loop f pt w es' (v :: acc) en' s'
          | OFail en' s' => Done (OFail en' (restore pt (set_warns w s')))
          | x => Done x
          end)
    end.
  Fixpoint pchoice_loop (f : expr -> env -> st -> prog out) (es : list expr) (en : env) (s : st) : prog out :=
    match es with
    | [] => Done (OFail en s)
    | e :: es' =>
        bindp (f e [] s) (fun r =>
          match r with
          | OOk v _ s' => Done (OOk v en s')
          | OFail _ s' => pchoice_loop f es' en (set_warns (s_warns s) s')
          | x => Done x
          end)
    end.
  Fixpoint pstar_loop (f : st -> prog out) (k : nat) (acc : list val) (en : env) (s : st) : prog out :=
    match k with
    | 0 => Done OFuel
    | S k' =>
        bindp (f s) (fun r =>
          match r with
          | OOk v _ s' => pstar_loop f k' (v :: acc) en s'
          | OFail _ s' => Done (OOk (VList (rev acc)) en s')
          | x => Done x
          end)
    end.

  (** parseExpr and the parse*Expr functions (logstash_config.go:12693-13137), as
      [step] of Engine.v; what does not touch the shared variable is [step] *)
  Definition pstep (f : string -> expr -> env -> st -> prog out) (k : nat)
      (rule : string) (e : expr) (en : env) (s0 : st) : prog out :=
    let s := tick s0 in
    if over_limit o s then Done (OPanic max_expr_msg rule s)
    else
      match e with
      | EAct a e' => mapp (act_out o rule a s) (f rule e' en s)
      | EAndCode p => ppredicate rule p en s
      | EChoice es => pchoice_loop (f rule) es en s
      | ESeq es => pseq_loop (f rule) (s_pt s) (s_warns s) es [] en s
      | ELab l e' => mapp (lab_out l en) (f rule e' [] s)
      | ENot e' => mapp (not_out en s) (f rule e' [] (set_mfinv (negb (s_mfinv s)) s))
      | EStar e' => pstar_loop (f rule e' []) k [] en s
      | EPlus e' => mapp (plus_out en) (pstar_loop (f rule e' []) k [] en s)
      | EOpt e' => mapp (opt_out en) (f rule e' [] s)
      | ERef name =>
          match find_rule name g with
          | Some e' => mapp (ref_out en) (f name e' [] s)
          | None => Done (step o g (fun _ _ _ _ => OFuel) k rule e en s0)
          end
      | _ => Done (step o g (fun _ _ _ _ => OFuel) k rule e en s0)
      end.
  Fixpoint peval (n : nat) : string -> expr -> env -> st -> prog out :=
    match n with
    | 0 => fun _ _ _ _ => Done OFuel
    | S n' => pstep (peval n') n'
    end.
End Conc.

(** logstash_config.go:12587-12651 [parse], as [parse_with] of Parser.v *)
Definition out_result (k : pcfg) (r : out) : result :=
  match r with
  | OOk v _ s => Returned v (s_errs s)
  | OFail _ s =>
      Returned VNil
        (match s_errs s with
         | [] => [PError (s_mfpos s) None (MText (no_match_msg (s_mfexp s)))]
         | l => l
         end)
  | OPanic m rule s =>
      if k_recover k
      then Returned VNil (s_errs s ++ [PError (pt_pos (s_pt s)) (Some rule) m])
      else Panicked m
  | OFuel => Diverged
  end.
Definition pparse (opts : list popt) (data : bytes) : prog result :=
  let k := config_of opts in
  let o := settings_of k in
  match find_rule (k_entry k) gen_grammar with
  | None => Done (Returned VNil [PError (Pos 1 0 0) None (MText (b "invalid entrypoint"))])
  | Some e =>
      mapp (out_result k) (peval o gen_grammar (parse_fuel (List.length data)) (k_entry k) e [] (init_st o [] data))
  end.

(** parse_error_helper.go:19-30 [GetFarthestFailure], read by read; [None]: the
    index expression panics *)
Definition pfarthest : prog (option (option bytes)) :=
  Get (fun l =>                                                        (* 20 len *)
    match l with
    | [] => Done (Some None)
    | _ =>
        first_failure (Done None) (fun f1 =>                           (* 22, three times *)
        first_failure (Done None) (fun f2 =>
        first_failure (Done None) (fun f3 =>
        Get (fun l =>                                                  (* 23 range *)
          Done (Some (Some (failure_head (f_cpos f1) (f_off f2) (f_text f3)
                              ++ flat_map (fun e => failure_line (f_msg e)) l)))))))
    end).

(** Calls that run at the same time, and their answers *)
Inductive call := CallParse (opts : list popt) (data : bytes) | CallFarthest.
Inductive answer := Parsed (r : result) | Farthest (t : option (option bytes)).
Definition start (c : call) : prog answer :=
  match c with
  | CallParse opts data => mapp Parsed (pparse opts data)
  | CallFarthest => mapp Farthest pfarthest
  end.

(** The machine: the shared variable and the running calls; the scheduler picks
    the call that makes the next access. *)
Definition machine := (list failure * list (prog answer))%type.
Definition access {A} (ff : list failure) (p : prog A) : list failure * prog A :=
  match p with
  | Done a => (ff, Done a)
  | Get k => (ff, k ff)
  | Put l k => (l, k)
  end.
Fixpoint update {A} (i : nat) (x : A) (l : list A) : list A :=
  match l, i with
  | [], _ => []
  | _ :: l', 0 => x :: l'
  | y :: l', S i' => y :: update i' x l'
  end.
Definition pick (i : nat) (m : machine) : machine :=
  match nth_error (snd m) i with
  | None => m
  | Some p => let '(ff, p') := access (fst m) p in (ff, update i p' (snd m))
  end.
Definition schedule (is : list nat) (m : machine) : machine := fold_left (fun m i => pick i m) is m.
Definition begin_calls (ff : list failure) (cs : list call) : machine := (ff, map start cs).
(** the answer of call [i], if it has finished *)
Definition answer_of (i : nat) (m : machine) : option answer :=
  match nth_error (snd m) i with Some (Done a) => Some a | _ => None end.
