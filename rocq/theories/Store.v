(** The memory that calls of Parse reuse and share.

    Engine.v gives the parser the warnings of cur.state as a value and the labels of
    an expression as a list of its own.  The Go code keeps them in memory that is
    reused:
    - the maps of cur.state come from statePool, a sync.Pool shared by all calls
      (logstash_config.go:12512-12548): cloneState takes a map that an earlier or a
      concurrent call may have returned, restoreState clears the current map and
      returns it;
    - the warnings are slices whose arrays append may extend in place
      (logstash_config_helper.go:14-28, 127-135), and retConfig gives the slice of the
      state to the caller (39-46);
    - the label maps are the slots of a stack whose slots are used again
      (logstash_config.go:12348-12377).

    Here a call is a program whose steps are the accesses to that memory and to
    the variable farthestFailure; StoreFacts.v relates it to Conc.v.

    Simplified: one access is one step (also the copy of an array into another one
    that nobody else has yet); cur.state holds at most the entry of the warnings (the
    only one that the package makes; see Stats.v for InitState); the texts of the
    warnings are represented by their positions, as in Engine.v. *)
From Coq Require Import List NArith Bool String Arith.
From Verif Require Import Bytes Utf8 F64 Ast Peg Actions Engine Parser GrammarGen Run Conc.
Import ListNotations.

(** A slice of warnings: the array and the length; all slices here begin at the first
    element, so the capacity is the size of the array. *)
Definition slice := (nat * nat)%type.
(** A state map: the value of the key of the warnings, if it has the key. *)
Definition smap := option slice.

(** Programs over the shared memory *)
Inductive hprog (A : Type) :=
| HDone (x : A)
| HFGet (k : list failure -> hprog A)                     (* read farthestFailure *)
| HFPut (l : list failure) (k : hprog A)                  (* write it *)
| HNew (k : nat -> hprog A)                               (* make(storeDict) *)
| HGet (k : nat -> hprog A)                               (* statePool.Get() *)
| HPut (a : nat) (k : hprog A)                            (* statePool.Put(a) *)
| HLoad (a : nat) (k : smap -> hprog A)                   (* read a map *)
| HStore (a : nat) (v : smap) (k : hprog A)               (* set or delete the key of a map *)
| HMake (n : nat) (k : nat -> hprog A)                    (* a new array of at least n elements *)
| HRead (r : nat) (k : list position -> hprog A)          (* read an array *)
| HWrite (r i : nat) (l : list position) (k : hprog A).   (* write elements i, i+1, ... *)
Arguments HDone {A}. Arguments HFGet {A}. Arguments HFPut {A}. Arguments HNew {A}. Arguments HGet {A}. Arguments HPut {A}.
Arguments HLoad {A}. Arguments HStore {A}. Arguments HMake {A}. Arguments HRead {A}. Arguments HWrite {A}.
Fixpoint hbind {A B} (p : hprog A) (f : A -> hprog B) : hprog B :=
  match p with
  | HDone x => f x
  | HFGet k => HFGet (fun l => hbind (k l) f)
  | HFPut l k => HFPut l (hbind k f)
  | HNew k => HNew (fun a => hbind (k a) f)
  | HGet k => HGet (fun a => hbind (k a) f)
  | HPut a k => HPut a (hbind k f)
  | HLoad a k => HLoad a (fun v => hbind (k v) f)
  | HStore a v k => HStore a v (hbind k f)
  | HMake n k => HMake n (fun r => hbind (k r) f)
  | HRead r k => HRead r (fun l => hbind (k l) f)
  | HWrite r i l k => HWrite r i l (hbind k f)
  end.
(** the programs of Conc.v *)
Fixpoint hlift {A} (p : prog A) : hprog A :=
  match p with
  | Done x => HDone x
  | Get k => HFGet (fun l => hlift (k l))
  | Put l k => HFPut l (hlift k)
  end.
Declare Scope hprog_scope.
Notation "'let!' x := p 'in' q" := (hbind p (fun x => q)) (at level 200, x pattern, p at level 100, q at level 200) : hprog_scope.
Open Scope hprog_scope.

(** ** Slices *)
(** append(w, x): logstash_config_helper.go:131; [None] is the nil slice *)
Definition happend (w : smap) (x : position) : hprog slice :=
  match w with
  | None => HMake 1 (fun r => HWrite r 0 [x] (HDone (r, 1)))
  | Some (r, n) =>
      HRead r (fun l =>
        if n <? List.length l                                        (* there is room: written in place *)
        then HWrite r n [x] (HDone (r, S n))
        else HMake (S n) (fun r' => HWrite r' 0 (firstn n l ++ [x]) (HDone (r', S n))))
  end.
(** logstash_config_helper.go:16-20 [Clone] *)
Definition hclone_slice (w : slice) : hprog slice :=
  let '(r, n) := w in
  HMake n (fun r' => HRead r (fun l => HWrite r' 0 (firstn n l) (HDone (r', n)))).
(** the elements of a slice *)
Definition hcontents (w : smap) : hprog (option (list position)) :=
  match w with
  | None => HDone None
  | Some (r, n) => HRead r (fun l => HDone (Some (firstn n l)))
  end.

(** ** The local part of the parser: Engine.v's state (whose field of the warnings is
    not used), the address of cur.state, the stack of label maps - all slots, and the
    number of them that are in use - and the slices given to configurations. *)
Record hst := Hst { h_st : st; h_cur : nat; h_slots : list (option env); h_len : nat; h_given : list smap }.
Definition set_hst s h := Hst s (h_cur h) (h_slots h) (h_len h) (h_given h).
Definition set_hcur a h := Hst (h_st h) a (h_slots h) (h_len h) (h_given h).
Definition set_slots l n h := Hst (h_st h) (h_cur h) l n (h_given h).
Definition give w h := Hst (h_st h) (h_cur h) (h_slots h) (h_len h) (w :: h_given h).
Inductive hout := HOk (v : val) (h : hst) | HFail (h : hst) | HPanic (m : emsg) (rule : string) (h : hst) | HFuel.

(** the labels of the expression: p.vstack[len(p.vstack)-1] *)
Definition slot (i : nat) (h : hst) : option env := nth i (h_slots h) None.
Definition top_env (h : hst) : env := match slot (h_len h - 1) h with Some e => e | None => [] end.
Definition set_top (v : option env) (h : hst) : hst := set_slots (update (h_len h - 1) v (h_slots h)) (h_len h) h.
Section PushPop.
  (** how many slots more than needed append makes; Go's run time decides *)
  Variable spare : nat -> nat.
  (** logstash_config.go:12348-12367 [pushV] *)
  Definition push_v (h : hst) : hst :=
    let h1 := if List.length (h_slots h) =? h_len h
              then set_slots (h_slots h ++ repeat None (S (spare (h_len h)))) (S (h_len h)) h
              else set_slots (h_slots h) (S (h_len h)) h in
    match slot (h_len h1 - 1) h1 with
    | Some [] => h1                                    (* an empty map: used again *)
    | _ => set_top (Some []) h1
    end.
End PushPop.
(** logstash_config.go:12369-12377 [popV] *)
Definition pop_v (h : hst) : hst :=
  let h1 := match slot (h_len h - 1) h with Some (_ :: _) => set_top None h | _ => h end in
  set_slots (h_slots h1) (h_len h1 - 1) h1.

(** ** The state *)
(** logstash_config.go:12522-12537 [cloneState] *)
Definition hclone (h : hst) : hprog nat :=
  HGet (fun a =>
    HLoad (h_cur h) (fun v =>
      match v with
      | None => HDone a
      | Some w => let! w' := hclone_slice w in HStore a (Some w') (HDone a)
      end)).
(** 12516-12521 [Discard] and 12539-12548 [restoreState] *)
Definition hrestore (a : nat) (h : hst) : hprog hst :=
  HStore (h_cur h) None (HPut (h_cur h) (HDone (set_hcur a h))).

Section Store.
  Variable spare : nat -> nat.
  Variable o : settings.
  Variable g : grammar.

  Definition pop_out (r : hout) : hout :=
    match r with
    | HOk v h => HOk v (pop_v h)
    | HFail h => HFail (pop_v h)
    | x => x
    end.
  Definition of_out (h : hst) (r : out) : hout :=
    match r with
    | OOk v _ s => HOk v (set_hst s h)
    | OFail _ s => HFail (set_hst s h)
    | OPanic m rule s => HPanic m rule (set_hst s h)
    | OFuel => HFuel
    end.

  (** 13060-13079 [parseSeqExpr]; [a] is the clone of the state *)
  Fixpoint hseq_loop (f : expr -> hst -> hprog hout) (pt : point) (a : nat)
      (es : list expr) (acc : list val) (h : hst) : hprog hout :=
    match es with
    | [] => HDone (HOk (VList (rev acc)) h)
    | e :: es' =>
        let! r := f e h in
        match r with
        | HOk v h' => hseq_loop f pt a es' (v :: acc) h'
        | HFail h' => let! h2 := hrestore a h' in HDone (HFail (set_hst (restore pt (h_st h2)) h2))
        | x => HDone x
        end
    end.
  (** 12914-12936 [parseChoiceExpr] *)
  Fixpoint hchoice_loop (f : expr -> hst -> hprog hout) (es : list expr) (h : hst) : hprog hout :=
    match es with
    | [] => HDone (HFail h)
    | e :: es' =>
        let! a := hclone h in
        let! r := f e (push_v spare h) in
        match pop_out r with
        | HOk v h' => HDone (HOk v h')
        | HFail h' => let! h2 := hrestore a h' in hchoice_loop f es' h2
        | x => HDone x
        end
    end.
  (** 13109-13125 [parseZeroOrMoreExpr], 13009-13029 [parseOneOrMoreExpr] *)
  Fixpoint hstar_loop (f : hst -> hprog hout) (k : nat) (acc : list val) (h : hst) : hprog hout :=
    match k with
    | 0 => HDone HFuel
    | S k' =>
        let! r := f (push_v spare h) in
        match pop_out r with
        | HOk v h' => hstar_loop f k' (v :: acc) h'
        | HFail h' => HDone (HOk (VList (rev acc)) h')
        | x => HDone x
        end
    end.

  (** #{...}: logstash_config.go:13081-13091; logstash_config_helper.go:22-28, 127-135 *)
  Definition hstate (c : statecode) (h : hst) : hprog hst :=
    match c with
    | SInitState =>
        HLoad (h_cur h) (fun v =>
          match v with
          | Some _ => HDone h
          | None => HMake 0 (fun r => HStore (h_cur h) (Some (r, 0)) (HDone h))
          end)
    | SWarnComment =>
        if o_warn o && existsb (N.eqb HASH) (s_ctext (h_st h))
        then HLoad (h_cur h) (fun v => let! w := happend v (s_cpos (h_st h)) in HStore (h_cur h) (Some w) (HDone h))
        else HDone h
    end.

  (** the code of an action; retConfig (logstash_config_helper.go:39-46) gives the slice of
      the state to the configuration.  The elements are read here for the value; Go reads them
      when the caller of Parse does, see [warnings_now]. *)
  Definition haction (a : action) (pos : position) (text : bytes) (h : hst) : hprog (ares * hst) :=
    match a with
    | ARetConfig _ =>
        HLoad (h_cur h) (fun v =>
          let! w := hcontents v in HDone (run_action (o_ignore o) w a (top_env h) pos text, give v h))
    | _ => HDone (run_action (o_ignore o) None a (top_env h) pos text, h)
    end.

  (** 12693-12757 [parseExpr] and the parse*Expr functions, as [step] of Engine.v *)
  Definition hstep (f : string -> expr -> hst -> hprog hout) (k : nat)
      (rule : string) (e : expr) (h0 : hst) : hprog hout :=
    let h := set_hst (tick (h_st h0)) h0 in
    let s := h_st h in
    if over_limit o s then HDone (HPanic max_expr_msg rule h)
    else
      match e with
      | EAct a e' =>                                   (* 12759-12782 *)
          let! r := f rule e' h in
          match r with
          | HOk _ h1 =>
              let text := slice_from (s_pt s) (h_st h1) in
              let pos := pt_pos (s_pt s) in
              let h2 := set_hst (set_cur pos text (h_st h1)) h1 in
              let! c := hclone h2 in
              let! x := haction a pos text h2 in
              match fst x with
              | RVal v => let! h3 := hrestore c (snd x) in HDone (HOk v h3)
              | RErr v m =>
                  let! h3 := hrestore c (set_hst (add_err_at (Some rule) m pos (h_st (snd x))) (snd x)) in HDone (HOk v h3)
              | RPanic m => HDone (HPanic m rule (snd x))
              end
          | x => HDone x
          end
      | EAndCode p =>                                  (* 12784-12798 *)
          let! c := hclone h in
          let! r := hlift (ppredicate rule p [] s) in
          match of_out h r with
          | HOk v h1 => let! h2 := hrestore c h1 in HDone (HOk v h2)
          | HFail h1 => let! h2 := hrestore c h1 in HDone (HFail h2)
          | x => HDone x
          end
      | EStateCode c => let! h1 := hstate c h in HDone (HOk VNil h1)
      | EChoice es => hchoice_loop (f rule) es h
      | ESeq es =>
          let! c := hclone h in
          hseq_loop (f rule) (s_pt s) c es [] h
      | ELab l e' =>                                   (* 12938-12951 *)
          let! r := f rule e' (push_v spare h) in
          match pop_out r with
          | HOk v h1 => HDone (HOk v (set_top (Some (bind l v (top_env h1))) h1))
          | x => HDone x
          end
      | ENot e' =>                                     (* 12991-13007 *)
          let! c := hclone h in
          let! r := f rule e' (set_hst (set_mfinv (negb (s_mfinv s)) s) (push_v spare h)) in
          let fin h' := let! h2 := hrestore c (set_hst (set_mfinv (negb (s_mfinv (h_st h'))) (h_st h')) h') in
                        HDone (set_hst (restore (s_pt s) (h_st h2)) h2) in
          match pop_out r with
          | HOk _ h1 => let! h2 := fin h1 in HDone (HFail h2)
          | HFail h1 => let! h2 := fin h1 in HDone (HOk VNil h2)
          | x => HDone x
          end
      | EStar e' => hstar_loop (f rule e') k [] h
      | EPlus e' =>
          let! r := hstar_loop (f rule e') k [] h in
          match r with
          | HOk (VList []) h1 => HDone (HFail h1)
          | x => HDone x
          end
      | EOpt e' =>                                     (* 13127-13137 *)
          let! r := f rule e' (push_v spare h) in
          match pop_out r with
          | HFail h1 => HDone (HOk VNil h1)
          | x => HDone x
          end
      | ERef name =>                                   (* 13043-13058, 12664-12691 *)
          match find_rule name g with
          | Some e' => let! r := f name e' (push_v spare h) in HDone (pop_out r)
          | None => HDone (of_out h (step o g (fun _ _ _ _ => OFuel) k rule e [] (h_st h0)))
          end
      | EAny | EClass _ _ _ _ | ELit _ _ =>
          HDone (of_out h (step o g (fun _ _ _ _ => OFuel) k rule e [] (h_st h0)))
      end.
  Fixpoint heval (n : nat) : string -> expr -> hst -> hprog hout :=
    match n with
    | 0 => fun _ _ _ => HDone HFuel
    | S n' => hstep (heval n') n'
    end.
End Store.

(** ** Calls *)
Definition drop_env (r : hout) : out :=
  match r with
  | HOk v h => OOk v [] (h_st h)
  | HFail h => OFail [] (h_st h)
  | HPanic m rule h => OPanic m rule (h_st h)
  | HFuel => OFuel
  end.
Definition given (r : hout) : list smap := match r with HOk _ h => h_given h | _ => [] end.
(** logstash_config.go:12026-12031, 12232-12262, 12587-12651; the slices are those that
    the returned configuration holds *)
Definition hparse (spare : nat -> nat) (opts : list popt) (data : bytes) : hprog (result * list smap) :=
  let k := config_of opts in
  let o := settings_of k in
  HNew (fun a =>
    match find_rule (k_entry k) gen_grammar with
    | None => HDone (Returned VNil [PError (Pos 1 0 0) None (MText (b "invalid entrypoint"))], [])
    | Some e =>
        let! r := heval spare o gen_grammar (parse_fuel (List.length data)) (k_entry k) e
                    (push_v spare (Hst (init_st o [] data) a [] 0 [])) in
        HDone (out_result k (drop_env r), given r)
    end).
Definition hstart (spare : nat -> nat) (c : call) : hprog (answer * list smap) :=
  match c with
  | CallParse opts data => let! x := hparse spare opts data in HDone (Parsed (fst x), snd x)
  | CallFarthest => let! x := hlift pfarthest in HDone (Farthest x, [])
  end.

(** ** The machine *)
(** farthestFailure, the maps and the arrays that exist, and the maps in statePool *)
Record mem := Mem { m_ff : list failure; m_maps : list smap; m_arrs : list (list position); m_pool : list nat }.
Definition write_at (i : nat) (l old : list position) : list position := firstn i old ++ l ++ skipn (i + List.length l) old.

(** One access.  The pool gives any of its maps or a new one, as sync.Pool does; a new array may
    be larger than needed.  An access to a map or an element that does not exist has no step. *)
Inductive haccess {A} : mem -> hprog A -> mem -> hprog A -> Prop :=
| acc_fget m k : haccess m (HFGet k) m (k (m_ff m))
| acc_fput m l k : haccess m (HFPut l k) (Mem l (m_maps m) (m_arrs m) (m_pool m)) k
| acc_new m k : haccess m (HNew k) (Mem (m_ff m) (m_maps m ++ [None]) (m_arrs m) (m_pool m)) (k (List.length (m_maps m)))
| acc_get_new m k : haccess m (HGet k) (Mem (m_ff m) (m_maps m ++ [None]) (m_arrs m) (m_pool m)) (k (List.length (m_maps m)))
| acc_get m k p1 a p2 : m_pool m = p1 ++ a :: p2 -> haccess m (HGet k) (Mem (m_ff m) (m_maps m) (m_arrs m) (p1 ++ p2)) (k a)
| acc_put m a k : haccess m (HPut a k) (Mem (m_ff m) (m_maps m) (m_arrs m) (a :: m_pool m)) k
| acc_load m a k v : nth_error (m_maps m) a = Some v -> haccess m (HLoad a k) m (k v)
| acc_store m a v k : a < List.length (m_maps m) ->
    haccess m (HStore a v k) (Mem (m_ff m) (update a v (m_maps m)) (m_arrs m) (m_pool m)) k
| acc_make m n k c : n <= c ->
    haccess m (HMake n k) (Mem (m_ff m) (m_maps m) (m_arrs m ++ [repeat zero_pos c]) (m_pool m)) (k (List.length (m_arrs m)))
| acc_read m r k l : nth_error (m_arrs m) r = Some l -> haccess m (HRead r k) m (k l)
| acc_write m r i l k old : nth_error (m_arrs m) r = Some old -> i + List.length l <= List.length old ->
    haccess m (HWrite r i l k) (Mem (m_ff m) (m_maps m) (update r (write_at i l old) (m_arrs m)) (m_pool m)) k.

(** The running calls; a step is an access of one of them, or the garbage collector takes a map
    out of the pool. *)
Definition hmachine := (mem * list (hprog (answer * list smap)))%type.
Inductive hmove : hmachine -> hmachine -> Prop :=
| move_call m ps i p m' p' : nth_error ps i = Some p -> haccess m p m' p' -> hmove (m, ps) (m', update i p' ps)
| move_gc m ps p1 a p2 : m_pool m = p1 ++ a :: p2 -> hmove (m, ps) (Mem (m_ff m) (m_maps m) (m_arrs m) (p1 ++ p2), ps).
Inductive hmoves : hmachine -> hmachine -> Prop :=
| moves_refl x : hmoves x x
| moves_step x y z : hmoves x y -> hmove y z -> hmoves x z.
(** the memory when the calls begin: the pool holds maps that are empty, and none of them twice *)
Definition good_mem (m : mem) : Prop :=
  NoDup (m_pool m) /\ forall a, In a (m_pool m) -> nth_error (m_maps m) a = Some None.
Definition hbegin (spare : nat -> nat) (m : mem) (cs : list call) : hmachine := (m, map (hstart spare) cs).
Definition hanswer_of (i : nat) (x : hmachine) : option (answer * list smap) :=
  match nth_error (snd x) i with Some (HDone r) => Some r | _ => None end.
(** what the holder of a slice reads in it now *)
Definition warnings_now (m : mem) (w : smap) : option (list bytes) :=
  match w with
  | None => Some []
  | Some (r, n) => match nth_error (m_arrs m) r with
                   | Some l => if n <=? List.length l then Some (map warning_text (firstn n l)) else None
                   | None => None
                   end
  end.
