(** ast/astutil/apply.go with the memory it works on.

    Apply.v treats the slices of a tree as values.  In Go a slice is a part of an
    array: Replace and the walk over branches write into the arrays of the given
    tree, Delete moves the elements of the array, InsertBefore and InsertAfter
    write into the array if it has room and make a new one otherwise.  The command
    lint ignores the slice that ApplyPlugins returns (lint.go:59-67) and prints
    the tree it has given.

    Here arrays are kept in a memory and slices are (array, offset, length,
    capacity).  ApplyMemFacts.v relates this to Apply.v.

    Simplified: a callback sees Plugin() and Index(), not Parent() and no other part
    of the tree; attributes and comments of a plugin are values; a node that a
    callback inserts has slices of its own; there is one kind of element for a
    plugin and its pointer, as in Ast.v. *)
From Coq Require Import List ZArith Bool Arith.
From Verif Require Import Bytes Ast Actions Engine Parser AstUtil Apply App.
Import ListNotations.

(** A slice: array, index of its first element there, length, capacity *)
Record aslice := Sl { sl_arr : nat; sl_off : nat; sl_len : nat; sl_cap : nat }.

(** ast/ast.go:669-673 [Branch], 700-706 [IfBlock], 746-752 [ElseIfBlock], 797-802 [ElseBlock]: the nodes with
    their slices of nodes *)
Record hif := HIf { hi_pos : position; hi_cond : condition; hi_block : aslice; hi_com : cblock; hi_foot : cblock }.
Record helse := HEl { he_pos : position; he_block : aslice; he_com : cblock; he_foot : cblock }.
Inductive hnode :=
| HPlugin (p : plugin)
| HNil
| HPtr (p : plugin)
| HBranch (i : hif) (es : aslice) (e : helse).

(** The memory: arrays of nodes and arrays of else-if blocks *)
Record amem := AMem { m_nodes : list (list hnode); m_ifs : list (list hif) }.

(** The elements of a slice *)
Definition part {A} (arrays : list (list A)) (sl : aslice) : list A :=
  firstn (sl_len sl) (skipn (sl_off sl) (nth (sl_arr sl) arrays [])).
Definition elems (m : amem) (sl : aslice) : list hnode := part (m_nodes m) sl.

(** An array with the elements [xs] written from index [k] on *)
Definition overlay {A} (k : nat) (xs l : list A) : list A := firstn k l ++ xs ++ skipn (k + List.length xs) l.
Fixpoint set_nth {A} (n : nat) (f : A -> A) (l : list A) : list A :=
  match l, n with
  | [], _ => []
  | x :: l', O => f x :: l'
  | x :: l', S n' => x :: set_nth n' f l'
  end.
Definition write_nodes (m : amem) (a k : nat) (xs : list hnode) : amem :=
  AMem (set_nth a (overlay k xs) (m_nodes m)) (m_ifs m).
Definition write_ifs (m : amem) (a k : nat) (xs : list hif) : amem :=
  AMem (m_nodes m) (set_nth a (overlay k xs) (m_ifs m)).
(** A new array *)
Definition new_nodes (m : amem) (xs : list hnode) : nat * amem :=
  (List.length (m_nodes m), AMem (m_nodes m ++ [xs]) (m_ifs m)).
Definition new_ifs (m : amem) (xs : list hif) : nat * amem :=
  (List.length (m_ifs m), AMem (m_nodes m) (m_ifs m ++ [xs])).

(** s[:n] and s[n:] *)
Definition upto (sl : aslice) (n : nat) : aslice := Sl (sl_arr sl) (sl_off sl) n (sl_cap sl).
Definition from (sl : aslice) (n : nat) : aslice := Sl (sl_arr sl) (sl_off sl + n) (sl_len sl - n) (sl_cap sl - n).

Section Grow.
  (** How much larger than needed append makes a new array of n elements *)
  Variable spare : nat -> nat.

  (** append(sl, xs...) *)
  Definition happend (m : amem) (sl : aslice) (xs : list hnode) : aslice * amem :=
    let n := sl_len sl + List.length xs in
    if n <=? sl_cap sl
    then (Sl (sl_arr sl) (sl_off sl) n (sl_cap sl), write_nodes m (sl_arr sl) (sl_off sl + sl_len sl) xs)
    else let '(a, m') := new_nodes m (elems m sl ++ xs ++ repeat HNil (spare n)) in (Sl a 0 n (n + spare n), m').

  (** A node that a callback has made: every slice has an array of its own. *)
  Section Fresh.
    Context {A B : Type}.
    Variable f : A -> amem -> B * amem.
    Fixpoint fresh_list (l : list A) (m : amem) : list B * amem :=
      match l with
      | [] => ([], m)
      | x :: l' => let '(h, m1) := f x m in let '(hs, m2) := fresh_list l' m1 in (h :: hs, m2)
      end.
  End Fresh.
  Definition whole (a n : nat) : aslice := Sl a 0 n n.
  Fixpoint fresh_node (x : bop) (m : amem) : hnode * amem :=
    match x with
    | BPlugin p => (HPlugin p, m)
    | BNil => (HNil, m)
    | BPluginPtr p => (HPtr p, m)
    | BBranch (IfB p c l com foot) es (ElB ep el ecom efoot) =>
        let '(hl, m1) := fresh_list fresh_node l m in
        let '(al, m2) := new_nodes m1 hl in
        let '(hes, m3) := fresh_list (fun e m => match e with IfB p c l com foot =>
            let '(hl, m1) := fresh_list fresh_node l m in
            let '(al, m2) := new_nodes m1 hl in
            (HIf p c (whole al (List.length hl)) com foot, m2) end) es m2 in
        let '(aes, m4) := new_ifs m3 hes in
        let '(hel, m5) := fresh_list fresh_node el m4 in
        let '(ael, m6) := new_nodes m5 hel in
        (HBranch (HIf p c (whole al (List.length hl)) com foot) (whole aes (List.length hes))
           (HEl ep (whole ael (List.length hel)) ecom efoot), m6)
    end.

  (** apply.go:72-75 [Cursor] *)
  Record hcursor := HCur { hc_parent : aslice; hc_index : Z; hc_step : Z }.
  Definition h_at (m : amem) (c : hcursor) : option hnode :=
    if (hc_index c <? 0)%Z then None else nth_error (elems m (hc_parent c)) (Z.to_nat (hc_index c)).
  (** apply.go:77-84 [Cursor.Plugin] *)
  Definition h_plugin (m : amem) (c : hcursor) : option (option plugin) :=
    match h_at m c with
    | None => None
    | Some (HPlugin p) => Some (Some p)
    | Some _ => Some None
    end.

  (** apply.go:98-106 [Delete], 111-117 [Replace], 122-129 [InsertBefore], 134-139 [InsertAfter] *)
  Definition run_hcop (op : cop) (m : amem) (c : hcursor) : option (amem * hcursor) :=
    let sl := hc_parent c in
    let n := Z.to_nat (hc_index c) in
    if (hc_index c <? 0)%Z then None
    else
      match op with
      | CDelete =>
          if n <? sl_len sl then
            let '(sl', m') := happend m (upto sl n) (elems m (from sl (S n))) in
            Some (m', HCur sl' (hc_index c) (hc_step c - 1)%Z)
          else None
      | CReplace x =>
          let '(h, m) := fresh_node x m in
          if n <? sl_len sl then Some (write_nodes m (sl_arr sl) (sl_off sl + n) [h], c) else None
      | CInsertBefore x =>
          let '(h, m) := fresh_node x m in
          if n <=? sl_len sl then
            let '(sl', m') := happend m (upto sl n) (h :: elems m (from sl n)) in
            Some (m', HCur sl' (hc_index c) (hc_step c + 1)%Z)
          else None
      | CInsertAfter x =>
          let '(h, m) := fresh_node x m in
          if n <? sl_len sl then
            let '(sl', m') := happend m (upto sl (S n)) (h :: elems m (from sl (S n))) in
            Some (m', HCur sl' (hc_index c) (hc_step c + 1)%Z)
          else None
      end.

  (** A callback: it is given what Plugin() returns ([None]: Plugin() panics) and Index(),
      also after each of its edits. *)
  Inductive aprog (S : Type) :=
  | ADone (s : S)
  | APanicked
  | ADo (op : cop) (k : option (option plugin) -> Z -> aprog S).
  Arguments ADone {S}. Arguments APanicked {S}. Arguments ADo {S}.
  Fixpoint run_aprog {S} (p : aprog S) (m : amem) (c : hcursor) : option (S * amem * hcursor) :=
    match p with
    | ADone s => Some (s, m, c)
    | APanicked => None
    | ADo op k => match run_hcop op m c with
                  | Some (m', c') => run_aprog (k (h_plugin m' c') (hc_index c')) m' c'
                  | None => None
                  end
    end.

  Inductive hout (S : Type) := HOk (s : S) (sl : aslice) (m : amem) | HPanic | HFuel.
  Arguments HOk {S}. Arguments HPanic {S}. Arguments HFuel {S}.

  Section Walk.
    Context {S : Type}.
    Variable walk : S -> aslice -> amem -> hout S.
    (** apply.go:35-37: for i := range block.ElseIfBlock, from index [j] on, [n] more *)
    Fixpoint h_elseifs (n j : nat) (s : S) (es : aslice) (m : amem) : option (option (S * amem)) :=
      match n with
      | O => Some (Some (s, m))
      | Datatypes.S n' =>
          match nth_error (part (m_ifs m) es) j with
          | None => Some None
          | Some h =>
              match walk s (hi_block h) m with
              | HOk s1 sl' m1 =>
                  h_elseifs n' (Datatypes.S j) s1 es
                    (write_ifs m1 (sl_arr es) (sl_off es + j) [HIf (hi_pos h) (hi_cond h) sl' (hi_com h) (hi_foot h)])
              | HPanic => Some None
              | HFuel => None
              end
          end
      end.
    (** apply.go:32-39 *)
    Definition h_branch (s : S) (i : hif) (es : aslice) (e : helse) (m : amem) : option (option (S * hnode * amem)) :=
      match walk s (hi_block i) m with
      | HOk s1 sl1 m1 =>
          match h_elseifs (sl_len es) 0 s1 es m1 with
          | Some (Some (s2, m2)) =>
              match walk s2 (he_block e) m2 with
              | HOk s3 sl3 m3 =>
                  Some (Some (s3, HBranch (HIf (hi_pos i) (hi_cond i) sl1 (hi_com i) (hi_foot i)) es
                                    (HEl (he_pos e) sl3 (he_com e) (he_foot e)), m3))
              | HPanic => Some None
              | HFuel => None
              end
          | Some None => Some None
          | None => None
          end
      | HPanic => Some None
      | HFuel => None
      end.
  End Walk.

  (** apply.go:18-57, the loop *)
  Fixpoint h_loop {S} (walk : S -> aslice -> amem -> hout S) (cb : S -> option (option plugin) -> Z -> aprog S)
      (k : nat) (s : S) (c : hcursor) (m : amem) : hout S :=
    if (Z.of_nat (sl_len (hc_parent c)) <=? hc_index c)%Z then HOk s (hc_parent c) m
    else
      match k with
      | O => HFuel
      | Datatypes.S k' =>
          let c := HCur (hc_parent c) (hc_index c) 1 in
          let next s c m := h_loop walk cb k' s (HCur (hc_parent c) (hc_index c + hc_step c)%Z (hc_step c)) m in
          match h_at m c with
          | None => HPanic
          | Some (HBranch i es e) =>
              match h_branch walk s i es e m with
              | Some (Some (s', x, m')) =>                                    (* apply.go:41 *)
                  next s' c (write_nodes m' (sl_arr (hc_parent c)) (sl_off (hc_parent c) + Z.to_nat (hc_index c)) [x])
              | Some None => HPanic
              | None => HFuel
              end
          | Some (HPlugin _) | Some HNil =>
              match run_aprog (cb s (h_plugin m c) (hc_index c)) m c with
              | Some (s', m', c') => next s' c' m'
              | None => HPanic
              end
          | Some (HPtr _) => HPanic
          end
      end.

  (** apply.go:16-57 [ApplyPlugins] *)
  Fixpoint h_apply {S} (d : nat) (cb : S -> option (option plugin) -> Z -> aprog S) (s : S) (root : aslice) (m : amem) : hout S :=
    match d with
    | O => HFuel
    | Datatypes.S d' => h_loop (h_apply d' cb) cb (sl_len root) s (HCur root 0 1) m
    end.

  (** internal/app/lint/lint.go:121-145 [walk] *)
  Definition h_lint_walk (v : validator) (x : option (option plugin)) (index : Z) : aprog validator :=
    match x with
    | Some (Some p) =>
        let n := Datatypes.S (v_count v) in
        match plugin_id p with
        | IdOk id =>
            if existsb (beqb id) (v_all v)
            then ADone (Validator n (v_noids v) (v_autofix v) (v_changed v) (v_dups v ++ [describe p]) (v_all v))
            else ADone (Validator n (v_noids v) (v_autofix v) (v_changed v) (v_dups v) (v_all v ++ [id]))
        | _ =>
            if v_autofix v
            then ADo (CReplace (BPluginPtr (add_id p n)))
                   (fun _ _ => ADone (Validator n (v_noids v) true true (v_dups v) (v_all v)))
            else ADone (Validator n (v_noids v ++ [describe p]) false (v_changed v) (v_dups v) (v_all v))
        end
    | _ => APanicked
    end.

  (** lint.go:59-67: the sections of one kind, given by the slices of their blocks; the slice that
      ApplyPlugins returns is dropped *)
  Fixpoint h_lint_sections (d : nat) (v : validator) (l : list aslice) (m : amem) : option (validator * amem) :=
    match l with
    | [] => Some (v, m)
    | sl :: l' =>
        match h_apply d h_lint_walk v sl m with
        | HOk v' _ m' => h_lint_sections d v' l' m'
        | _ => None
        end
    end.
  (** lint.go:54-67: the sections of a configuration *)
  Definition h_lint_config (d : nat) (autofix : bool) (inputs filters outputs : list aslice) (m : amem) : option (validator * amem) :=
    match h_lint_sections d (Validator 0 [] autofix false [] []) inputs m with
    | None => None
    | Some (v1, m1) =>
        match h_lint_sections d v1 filters m1 with
        | None => None
        | Some (v2, m2) => h_lint_sections d v2 outputs m2
        end
    end.
End Grow.
Arguments ADone {S}. Arguments APanicked {S}. Arguments ADo {S}.
Arguments HOk {S}. Arguments HPanic {S}. Arguments HFuel {S}.
