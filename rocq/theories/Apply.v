(** ast/astutil/apply.go: ApplyPlugins and Cursor. *)
From Coq Require Import List ZArith Bool Arith.
From Verif Require Import Bytes Ast.
Import ListNotations.

(** ast/astutil/apply.go:59-75 [iterator], [Cursor]: index and step are Go ints.
    Slices are values here: in-place writes to the backing array of the parent
    are visible through the returned slice, which is what the model returns
    (ApplyMem.v has the arrays). *)
Record cursor := Cursor { k_parent : list bop; k_index : Z; k_step : Z }.

(** The element at the cursor; [None]: index out of range, a run time panic *)
Definition at_index (c : cursor) : option bop :=
  if (k_index c <? 0)%Z then None else nth_error (k_parent c) (Z.to_nat (k_index c)).

(** apply.go:77-84 [Cursor.Plugin]: [None] panics, [Some None] is the nil pointer *)
Definition cursor_plugin (c : cursor) : option (option plugin) :=
  match at_index c with
  | None => None
  | Some (BPlugin p) => Some (Some p)
  | Some _ => Some None
  end.

(** The mutating methods of a cursor *)
Inductive cop := CDelete | CReplace (x : bop) | CInsertBefore (x : bop) | CInsertAfter (x : bop).

(** apply.go:98-106 [Delete], 111-117 [Replace], 122-129 [InsertBefore], 134-139
    [InsertAfter]; [None] is a panic (explicit, or slice bounds). *)
Definition run_cop (op : cop) (c : cursor) : option cursor :=
  let l := k_parent c in
  let n := Z.to_nat (k_index c) in
  if (k_index c <? 0)%Z then None
  else
    match op with
    | CDelete =>
        if n <? List.length l
        then Some (Cursor (firstn n l ++ skipn (S n) l) (k_index c) (k_step c - 1)%Z) else None
    | CReplace x =>
        if n <? List.length l
        then Some (Cursor (firstn n l ++ x :: skipn (S n) l) (k_index c) (k_step c)) else None
    | CInsertBefore x =>
        if n <=? List.length l
        then Some (Cursor (firstn n l ++ x :: skipn n l) (k_index c) (k_step c + 1)%Z) else None
    | CInsertAfter x =>
        if n <? List.length l
        then Some (Cursor (firstn (S n) l ++ x :: skipn (S n) l) (k_index c) (k_step c + 1)%Z)
        else None
    end.

(** A callback (apply.go:12, ApplyPluginsFunc) with state of type [S]: it may
    look at the cursor, call a mutating method, look again, and so on; or panic. *)
Inductive prog (S : Type) :=
| PDone (s : S)
| PPanic
| PDo (op : cop) (k : cursor -> prog S).
Arguments PDone {S}.
Arguments PPanic {S}.
Arguments PDo {S}.

Fixpoint run_prog {S} (p : prog S) (c : cursor) : option (S * cursor) :=
  match p with
  | PDone s => Some (s, c)
  | PPanic => None
  | PDo op k => match run_cop op c with Some c' => run_prog (k c') c' | None => None end
  end.

(** Outcome of ApplyPlugins *)
Inductive aout (S : Type) := AOk (s : S) (l : list bop) | APanic | AFuel.
Arguments AOk {S}.
Arguments APanic {S}.
Arguments AFuel {S}.

(** apply.go:35-37: the else-if blocks of a branch, one after the other *)
Section Walk.
  Context {S : Type}.
  Variable walk : S -> list bop -> aout S.
  Fixpoint walk_blocks (s : S) (es : list ifblock) : option (option (S * list ifblock)) :=
    match es with
    | [] => Some (Some (s, []))
    | IfB p c l com foot :: es' =>
        match walk s l with
        | AOk s1 l' =>
            match walk_blocks s1 es' with
            | Some (Some (s2, es2)) => Some (Some (s2, IfB p c l' com foot :: es2))
            | r => r
            end
        | APanic => Some None
        | AFuel => None
        end
    end.
  (** apply.go:32-41: a branch: if block, else-if blocks, else block *)
  Definition walk_branch (s : S) (i : ifblock) (es : list ifblock) (e : elseblock)
      : option (option (S * bop)) :=
    match i, e with
    | IfB p c l com foot, ElB ep el ecom efoot =>
        match walk s l with
        | AOk s1 l' =>
            match walk_blocks s1 es with
            | Some (Some (s2, es')) =>
                match walk s2 el with
                | AOk s3 el' => Some (Some (s3, BBranch (IfB p c l' com foot) es' (ElB ep el' ecom efoot)))
                | APanic => Some None
                | AFuel => None
                end
            | Some None => Some None
            | None => None
            end
        | APanic => Some None
        | AFuel => None
        end
    end.
End Walk.

(** apply.go:23-56: the loop of one call, from cursor [c] with [c.iter.step] not
    yet reset; [k] bounds the number of iterations, [walk] is the recursive call. *)
Definition set_index (c : cursor) (l : list bop) : cursor := Cursor l (k_index c) (k_step c).
Fixpoint apply_loop {S} (walk : S -> list bop -> aout S) (cb : S -> cursor -> prog S)
    (k : nat) (s : S) (c : cursor) : aout S :=
  if (Z.of_nat (List.length (k_parent c)) <=? k_index c)%Z then AOk s (k_parent c)
  else
    match k with
    | O => AFuel
    | Datatypes.S k' =>
        let c := Cursor (k_parent c) (k_index c) 1 in
        let next s c := apply_loop walk cb k' s (Cursor (k_parent c) (k_index c + k_step c)%Z (k_step c)) in
        match at_index c with
        | None => APanic
        | Some (BBranch i es e) =>
            match walk_branch walk s i es e with
            | Some (Some (s', x)) =>
                let n := Z.to_nat (k_index c) in
                next s' (set_index c (firstn n (k_parent c) ++ x :: skipn (Datatypes.S n) (k_parent c)))
            | Some None => APanic
            | None => AFuel
            end
        | Some (BPlugin _) | Some BNil =>
            match run_prog (cb s c) c with
            | Some (s', c') => next s' c'
            | None => APanic
            end
        | Some (BPluginPtr _) => APanic          (* apply.go:49-50 *)
        end
    end.

(** apply.go:16-57 [ApplyPlugins]; [d] bounds the recursion depth.  The number
    of iterations of one call is the length of the slice it was given, see
    ApplyFacts.v. *)
Fixpoint apply_plugins {S} (d : nat) (cb : S -> cursor -> prog S) (s : S) (root : list bop) : aout S :=
  match d with
  | O => AFuel
  | Datatypes.S d' => apply_loop (apply_plugins d' cb) cb (List.length root) s (Cursor root 0 1)
  end.

(** Nesting depth of a tree: a sufficient recursion depth for callbacks that do
    not insert branches. *)
Fixpoint bop_depth (x : bop) : nat :=
  match x with
  | BBranch i es e =>
      let ib y := match y with IfB _ _ l _ _ => fold_right (fun z n => Nat.max (bop_depth z) n) 0 l end in
      S (Nat.max (ib i)
           (Nat.max (fold_right (fun y n => Nat.max (ib y) n) 0 es)
              match e with ElB _ l _ _ => fold_right (fun z n => Nat.max (bop_depth z) n) 0 l end))
  | _ => 0
  end.
Definition bops_depth (l : list bop) : nat := fold_right (fun z n => Nat.max (bop_depth z) n) 0 l.
