(** The parser runtime with the Memoize option on: logstash_config.go:12501-12583,
    12664-12757.  The other parse*Expr functions are those of Engine.v, written
    again here because they pass the table on.

    The table is keyed by the offset and the address of the grammar node.  In the
    generated grammar every node is a literal of its own, so a node is identified
    by the rule it is in and its path; a rule has an entry of its own. *)
From Coq Require Import List NArith Bool String Arith.
From Verif Require Import Bytes Utf8 F64 Ast Peg Actions Engine Parser GrammarGen.
Import ListNotations.

(** the address of a node: the rule, and the path from its expression (a list of
    child numbers, innermost first); [None]: the rule itself *)
Definition node := (string * option (list nat))%type.
Definition node_eqb (x y : node) : bool :=
  match snd x, snd y with
  | Some p, Some q => (if list_eq_dec Nat.eq_dec p q then true else false) && String.eqb (fst x) (fst y)
  | None, None => String.eqb (fst x) (fst y)
  | _, _ => false
  end.
(** logstash_config.go:12360-12365 [resultTuple]: value, match, end *)
Record tuple := Tuple { t_val : val; t_ok : bool; t_end : point }.
(** p.memo: for each offset the results of the nodes *)
Definition memo := nat -> list (node * tuple).
Fixpoint assoc (x : node) (l : list (node * tuple)) : option tuple :=
  match l with [] => None | (y, t) :: l' => if node_eqb x y then Some t else assoc x l' end.
(** 12555-12565 [getMemoized] *)
Definition get_memo (m : memo) (s : st) (x : node) : option tuple := assoc x (m (p_off (pt_pos (s_pt s)))).
(** 12567-12577 [setMemoized] *)
Definition set_memo (p : point) (x : node) (t : tuple) (m : memo) : memo :=
  let off := p_off (pt_pos p) in fun o => if Nat.eqb o off then (x, t) :: m o else m o.

(** Outcomes, with the table *)
Inductive mout :=
| MOk (v : val) (e : env) (s : st) (m : memo)
| MFail (e : env) (s : st) (m : memo)
| MPanic (x : emsg) (rule : string) (s : st) (m : memo)
| MFuel.
Definition lift (m : memo) (r : out) : mout :=
  match r with OOk v e s => MOk v e s m | OFail e s => MFail e s m | OPanic x rule s => MPanic x rule s m | OFuel => MFuel end.

Section Memo.
  Variable o : settings.
  Variable g : grammar.

  Fixpoint mseq_loop (f : nat -> expr -> env -> st -> memo -> mout) (pt : point) (w : option (list position))
      (i : nat) (es : list expr) (acc : list val) (en : env) (s : st) (m : memo) : mout :=
    match es with
    | [] => MOk (VList (rev acc)) en s m
    | e :: es' =>
        match f i e en s m with
        | MOk v en' s' m' => mseq_loop f pt w (S i) es' (v :: acc) en' s' m'
        | MFail en' s' m' => MFail en' (restore pt (set_warns w s')) m'
        | x => x
        end
    end.
  Fixpoint mchoice_loop (f : nat -> expr -> env -> st -> memo -> mout) (i : nat) (es : list expr) (en : env) (s : st) (m : memo) : mout :=
    match es with
    | [] => MFail en s m
    | e :: es' =>
        match f i e [] s m with
        | MOk v _ s' m' => MOk v en s' m'
        | MFail _ s' m' => mchoice_loop f (S i) es' en (set_warns (s_warns s) s') m'
        | x => x
        end
    end.
  Fixpoint mstar_loop (f : st -> memo -> mout) (k : nat) (acc : list val) (en : env) (s : st) (m : memo) : mout :=
    match k with
    | 0 => MFuel
    | S k' =>
        match f s m with
        | MOk v _ s' m' => mstar_loop f k' (v :: acc) en s' m'
        | MFail _ s' m' => MOk (VList (rev acc)) en s' m'
        | x => x
        end
    end.

  (** 12664-12691 [parseRule]: [f] evaluates the expression of the rule *)
  Definition mrule (f : string -> expr -> st -> memo -> mout) (name : string) (e : expr) (en : env) (s : st) (m : memo) : mout :=
    match get_memo m s (name, None) with
    | Some t => if t_ok t then MOk (t_val t) en (restore (t_end t) s) m else MFail en (restore (t_end t) s) m
    | None =>
        match f name e s m with
        | MOk v _ s' m' => MOk v en s' (set_memo (s_pt s) (name, None) (Tuple v true (s_pt s')) m')
        | MFail _ s' m' => MFail en s' (set_memo (s_pt s) (name, None) (Tuple VNil false (s_pt s')) m')
        | x => x
        end
    end.

  (** 12693-12757 [parseExpr], [path] is the path of the node [e] of the rule [rule] *)
  Definition mstep (f : string -> list nat -> expr -> env -> st -> memo -> mout) (k : nat)
      (rule : string) (path : list nat) (e : expr) (en : env) (s0 : st) (m : memo) : mout :=
    match get_memo m s0 (rule, Some path) with
    | Some t => if t_ok t then MOk (t_val t) en (restore (t_end t) s0) m else MFail en (restore (t_end t) s0) m
    | None =>
        let s := tick s0 in
        let sub (i : nat) := f rule (i :: path) in
        let r :=
          if over_limit o s then MPanic max_expr_msg rule s m
          else
            match e with
            | EAct a e' =>
                match sub 0 e' en s m with
                | MOk _ en' s1 m1 =>
                    let text := slice_from (s_pt s) s1 in
                    let pos := pt_pos (s_pt s) in
                    let s2 := set_cur pos text s1 in
                    match run_action (o_ignore o) (s_warns s2) a en' pos text with
                    | RVal v => MOk v en' s2 m1
                    | RErr v x => MOk v en' (add_err_at (Some rule) x pos s2) m1
                    | RPanic x => MPanic x rule s2 m1
                    end
                | x => x
                end
            | EChoice es => mchoice_loop sub 0 es en s m
            | ESeq es => mseq_loop sub (s_pt s) (s_warns s) 0 es [] en s m
            | ELab l e' =>
                match sub 0 e' [] s m with
                | MOk v _ s' m' => MOk v (bind l v en) s' m'
                | MFail _ s' m' => MFail en s' m'
                | x => x
                end
            | ENot e' =>
                let fin s' := restore (s_pt s) (set_warns (s_warns s) (set_mfinv (negb (s_mfinv s')) s')) in
                match sub 0 e' [] (set_mfinv (negb (s_mfinv s)) s) m with
                | MOk _ _ s' m' => MFail en (fin s') m'
                | MFail _ s' m' => MOk VNil en (fin s') m'
                | x => x
                end
            | EStar e' => mstar_loop (sub 0 e' []) k [] en s m
            | EPlus e' =>
                match mstar_loop (sub 0 e' []) k [] en s m with
                | MOk (VList []) _ s' m' => MFail en s' m'
                | x => x
                end
            | EOpt e' =>
                match sub 0 e' [] s m with
                | MOk v _ s' m' => MOk v en s' m'
                | MFail _ s' m' => MOk VNil en s' m'
                | x => x
                end
            | ERef name =>
                match find_rule name g with
                | Some e' => mrule (fun name e' s m => f name [] e' [] s m) name e' en s m
                | None => lift m (OFail en (add_err_at (Some rule) (MText (b "undefined rule: " ++ b name)) (pt_pos (s_pt s)) s))
                end
            | _ => lift m (step o g (fun _ _ _ _ => OFuel) k rule e en s0)
            end in
        match r with
        | MOk v en' s' m' => MOk v en' s' (set_memo (s_pt s0) (rule, Some path) (Tuple v true (s_pt s')) m')
        | MFail en' s' m' => MFail en' s' (set_memo (s_pt s0) (rule, Some path) (Tuple VNil false (s_pt s')) m')
        | x => x
        end
    end.
  Fixpoint meval (n : nat) : string -> list nat -> expr -> env -> st -> memo -> mout :=
    match n with
    | 0 => fun _ _ _ _ _ _ => MFuel
    | S n' => mstep (meval n') n'
    end.
End Memo.

(** [Parse] with the option Memoize(true) and the other options [opts] *)
Definition parse_memo (opts : list popt) (ff : list failure) (data : bytes) : result * list failure :=
  let k := config_of opts in
  let o := settings_of k in
  match find_rule (k_entry k) gen_grammar with
  | None => (Returned VNil [PError (Pos 1 0 0) None (MText (b "invalid entrypoint"))], ff)
  | Some e =>
      match mrule (fun name e s m => meval o gen_grammar (parse_fuel (List.length data)) name [] e [] s m)
              (k_entry k) e [] (init_st o ff data) (fun _ => []) with
      | MOk v _ s _ => (Returned v (s_errs s), s_ff s)
      | MFail _ s _ =>
          (Returned VNil
             (match s_errs s with
              | [] => [PError (s_mfpos s) None (MText (no_match_msg (s_mfexp s)))]
              | l => l
              end), s_ff s)
      | MPanic m rule s _ =>
          (if k_recover k
           then Returned VNil (s_errs s ++ [PError (pt_pos (s_pt s)) (Some rule) m])
           else Panicked m, s_ff s)
      | MFuel => (Diverged, ff)
      end
  end.
