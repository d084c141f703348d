(** Parsing expressions as a mathematician would define them (Ford, "Parsing
    Expression Grammars", 2004), with the values of the code blocks: no counters,
    no error lists, no farthest-failure record, no saved states.  PegFacts.v
    proves that the runtime of Engine.v computes exactly this relation. *)
From Coq Require Import List NArith Bool String Arith Lia.
From Verif Require Import Bytes Utf8 F64 Ast Peg Actions Engine PosFacts Matches.
Import ListNotations.

(** Outcome of an expression at a point of the input: success with a value, the
    labels bound so far and the point reached; failure (the caller may try
    something else); or a rejection of the whole input (fatal error, or a code
    block that reports an error). *)
Inductive pout := POk (v : val) (en : env) (q : point) | PFail | PAbort.

(** A literal: one rune after the other *)
Fixpoint lit_end (rs : list N) (p : point) : option point :=
  match rs with
  | [] => Some p
  | r :: rs' => if (fst (decode_rune (pt_rest p)) =? r)%N then lit_end rs' (advance_pt p) else None
  end.

Section Peg.
  Variable ign : bool.
  Variable g : grammar.

  Definition one (en : env) (p : point) : pout := POk (VBytes (seg p (advance_pt p))) en (advance_pt p).

  Inductive peg : expr -> env -> point -> pout -> Prop :=
  (* code blocks *)
  | peg_act a e en p v0 en' q v :
      peg e en p (POk v0 en' q) ->
      run_action ign (Some []) a en' (pt_pos p) (seg p q) = RVal v ->
      peg (EAct a e) en p (POk v en' q)
  | peg_act_abort a e en p v0 en' q r :
      peg e en p (POk v0 en' q) ->
      run_action ign (Some []) a en' (pt_pos p) (seg p q) = r -> (forall v, r <> RVal v) ->
      peg (EAct a e) en p PAbort
  | peg_act_no a e en p r : peg e en p r -> (r = PFail \/ r = PAbort) -> peg (EAct a e) en p r
  | peg_state c en p : peg (EStateCode c) en p (POk VNil en p)
  | peg_init en p : peg (EAndCode PInitParser) en p (POk VNil en p)
  | peg_soft m en p : peg (EAndCode (PPushError m)) en p PFail
  | peg_fatal m en p : peg (EAndCode (PFatalError m)) en p PAbort
  (* matchers *)
  | peg_any en p : pt_rest p <> [] -> peg EAny en p (one en p)
  | peg_any_eof en p : pt_rest p = [] -> peg EAny en p PFail
  | peg_class w cs rs inv en p :
      pt_rest p <> [] -> class_match cs rs inv (fst (decode_rune (pt_rest p))) = true ->
      peg (EClass w cs rs inv) en p (one en p)
  | peg_class_no w cs rs inv en p :
      (pt_rest p = [] \/ class_match cs rs inv (fst (decode_rune (pt_rest p))) = false) ->
      peg (EClass w cs rs inv) en p PFail
  | peg_lit w rs en p q : lit_end rs p = Some q -> peg (ELit w rs) en p (POk (VBytes (seg p q)) en q)
  | peg_lit_no w rs en p : lit_end rs p = None -> peg (ELit w rs) en p PFail
  (* combinators *)
  | peg_lab l e en p v en' q : peg e [] p (POk v en' q) -> peg (ELab l e) en p (POk v (bind l v en) q)
  | peg_lab_no l e en p r : peg e [] p r -> (r = PFail \/ r = PAbort) -> peg (ELab l e) en p r
  | peg_not e en p : peg e [] p PFail -> peg (ENot e) en p (POk VNil en p)
  | peg_not_no e en p v en' q : peg e [] p (POk v en' q) -> peg (ENot e) en p PFail
  | peg_not_abort e en p : peg e [] p PAbort -> peg (ENot e) en p PAbort
  | peg_opt e en p v en' q : peg e [] p (POk v en' q) -> peg (EOpt e) en p (POk v en q)
  | peg_opt_none e en p : peg e [] p PFail -> peg (EOpt e) en p (POk VNil en p)
  | peg_opt_abort e en p : peg e [] p PAbort -> peg (EOpt e) en p PAbort
  | peg_ref n e en p v en' q : find_rule n g = Some e -> peg e [] p (POk v en' q) -> peg (ERef n) en p (POk v en q)
  | peg_ref_no n e en p r : find_rule n g = Some e -> peg e [] p r -> (r = PFail \/ r = PAbort) -> peg (ERef n) en p r
  | peg_ref_undef n en p : find_rule n g = None -> peg (ERef n) en p PAbort
  | peg_seq es en p l en' q : pegs es en p (POk l en' q) -> peg (ESeq es) en p (POk l en' q)
  | peg_seq_no es en p r : pegs es en p r -> (r = PFail \/ r = PAbort) -> peg (ESeq es) en p r
  | peg_choice e es en p v en' q : peg e [] p (POk v en' q) -> peg (EChoice (e :: es)) en p (POk v en q)
  | peg_choice_next e es en p r : peg e [] p PFail -> peg (EChoice es) en p r -> peg (EChoice (e :: es)) en p r
  | peg_choice_abort e es en p : peg e [] p PAbort -> peg (EChoice (e :: es)) en p PAbort
  | peg_choice_none en p : peg (EChoice []) en p PFail
  | peg_star e en p l q : pegt e p (Some (l, q)) -> peg (EStar e) en p (POk (VList l) en q)
  | peg_star_abort e en p : pegt e p None -> peg (EStar e) en p PAbort
  | peg_plus e en p v l q : pegt e p (Some (v :: l, q)) -> peg (EPlus e) en p (POk (VList (v :: l)) en q)
  | peg_plus_no e en p q : pegt e p (Some ([], q)) -> peg (EPlus e) en p PFail
  | peg_plus_abort e en p : pegt e p None -> peg (EPlus e) en p PAbort
  (* a sequence: one after the other *)
  with pegs : list expr -> env -> point -> pout -> Prop :=
  | pegs_nil en p : pegs [] en p (POk (VList []) en p)
  | pegs_cons e es en p v en1 q1 l en' q :
      peg e en p (POk v en1 q1) -> pegs es en1 q1 (POk (VList l) en' q) ->
      pegs (e :: es) en p (POk (VList (v :: l)) en' q)
  | pegs_no e es en p r : peg e en p r -> (r = PFail \/ r = PAbort) -> pegs (e :: es) en p r
  | pegs_later e es en p v en1 q1 r :
      peg e en p (POk v en1 q1) -> pegs es en1 q1 r -> (r = PFail \/ r = PAbort) -> pegs (e :: es) en p r
  (* iterations, as many as possible; None: abort *)
  with pegt : expr -> point -> option (list val * point) -> Prop :=
  | pegt_stop e p : peg e [] p PFail -> pegt e p (Some ([], p))
  | pegt_more e p v en' q l q' :
      peg e [] p (POk v en' q) -> pegt e q (Some (l, q')) -> pegt e p (Some (v :: l, q'))
  | pegt_abort e p : peg e [] p PAbort -> pegt e p None
  | pegt_later e p v en' q : peg e [] p (POk v en' q) -> pegt e q None -> pegt e p None.

  Scheme peg_mind := Minimality for peg Sort Prop
    with pegs_mind := Minimality for pegs Sort Prop
    with pegt_mind := Minimality for pegt Sort Prop.
  Combined Scheme peg_mutind from peg_mind, pegs_mind, pegt_mind.
End Peg.
