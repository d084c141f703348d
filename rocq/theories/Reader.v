(** Parse for readers and files: logstash_config.go:11993-12015 [ParseFile], [ParseReader],
    and ioutil.ReadAll, which ParseReader calls (ioutil.ReadAll is io.ReadAll of the Go
    library, release 1.23 in go.mod; the loop below is its text).

    Simplified: errors of Read, Open and Close are texts.  Bytes are numbers.  The
    growth of [append] is a parameter.  What the garbage collector and the descriptor
    table do is not modelled; the system calls made are, in order. *)
From Coq Require Import List NArith ZArith Bool String Arith Lia.
From Verif Require Import Bytes Actions Engine Parser.
Import ListNotations.

(** The error of a Read: io.EOF or another one *)
Inductive rerr := EOF | Broken (text : bytes).

(** An io.Reader with states [St].  [Read p]: the reader may change all of [p] (the io.Reader
    documentation: "it may use all of p as scratch space"); it answers a count, which the
    type does not force to be in range, and an error or nil. *)
Record answer (St : Type) := Answer { an_st : St; an_bytes : bytes; an_n : Z; an_err : option rerr }.
Arguments Answer {St}. Arguments an_st {St}. Arguments an_bytes {St}. Arguments an_n {St}. Arguments an_err {St}.
Notation reader St := (St -> bytes -> answer St).

(** [p] after the reader has written [q] over it: its length does not change *)
Definition fit (p q : bytes) : bytes := firstn (List.length p) q ++ skipn (List.length q) p.

(** System calls, in the order in which they are made; [CRead k]: Read of a slice of [k] bytes *)
Inductive call := COpen (path : bytes) | CRead (k : nat) | CClose.

Inductive read_res (St : Type) :=
| RDone (data : bytes) (err : option bytes) (s : St)  (* ReadAll has returned *)
| RPanic (s : St)                                     (* slice bounds out of range *)
| RMore.                                              (* still reading: out of fuel *)
Arguments RDone {St}. Arguments RPanic {St}. Arguments RMore {St}.

(** io.ReadAll:
      b := make([]byte, 0, 512)
      for {
        n, err := r.Read(b[len(b):cap(b)])
        b = b[:len(b)+n]
        if err != nil { if err == EOF { err = nil }; return b, err }
        if len(b) == cap(b) { b = append(b, 0)[:len(b)] }
      }
    [arr]: the array of b, up to its capacity; [len]: len(b). *)
Fixpoint read_loop {St} (grow : nat -> nat) (read : reader St) (n : nat) (s : St) (arr : bytes) (len : nat)
    : read_res St * list call :=
  match n with
  | 0 => (RMore, [])
  | S n' =>
      let p := skipn len arr in
      let a := read s p in
      let arr1 := firstn len arr ++ fit p (an_bytes a) in
      let m := (Z.of_nat len + an_n a)%Z in
      let '(r, cs) :=
        if ((m <? 0) || (Z.of_nat (List.length arr1) <? m))%Z then (RPanic (an_st a), [])
        else
          let len' := Z.to_nat m in
          match an_err a with
          | Some EOF => (RDone (firstn len' arr1) None (an_st a), [])
          | Some (Broken t) => (RDone (firstn len' arr1) (Some t) (an_st a), [])
          | None =>
              if len' =? List.length arr1
              then read_loop grow read n' (an_st a) (arr1 ++ repeat 0%N (S (grow len'))) len'
              else read_loop grow read n' (an_st a) arr1 len'
          end in
      (r, CRead (List.length p) :: cs)
  end.
Definition read_all {St} grow (read : reader St) n s := read_loop grow read n s (repeat 0%N 512) 0.

(** What the functions return: a value and an error, or a panic *)
Inductive ferr := EParse (errs : list perror) | ERead (text : bytes) | EOpen (text : bytes) | EClosing (text : bytes).
Inductive fres := FReturn (v : val) (err : option ferr) | FPanic (m : emsg) | FBounds | FEndless.

(** The two results of Parse: the list of errors is nil if it is empty (errs.err,
    logstash_config.go:12194-12200) *)
Definition of_parse (r : result) : fres :=
  match r with
  | Returned v [] => FReturn v None
  | Returned v errs => FReturn v (Some (EParse errs))
  | Panicked m => FPanic m
  | Diverged => FEndless
  end.

(** logstash_config.go:12008-12015 [ParseReader]; the farthest failure after it; the calls it makes *)
Definition parse_reader {St} grow (read : reader St) n s (opts : list popt) (ff : list failure)
    : fres * list failure * list call * option St :=
  match read_all grow read n s with
  | (RDone data None s', cs) => let '(r, ff') := parse opts ff data in (of_parse r, ff', cs, Some s')
  | (RDone _ (Some t) s', cs) => (FReturn VNil (Some (ERead t)), ff, cs, Some s')
  | (RPanic s', cs) => (FBounds, ff, cs, Some s')
  | (RMore, cs) => (FEndless, ff, cs, None)
  end.

(** os.File: opening gives a state or an error; Close gives an error or nil *)
Record file_system (St : Type) := FileSystem
  { fsy_open : bytes -> St + bytes;
    fsy_read : reader St;
    fsy_close : St -> option bytes }.
Arguments FileSystem {St}. Arguments fsy_open {St}. Arguments fsy_read {St}. Arguments fsy_close {St}.

(** logstash_config.go:11993-12006 [ParseFile]: the deferred function runs on every way out,
    also when a panic passes; it replaces the error of the call, not the value *)
Definition parse_file_sys {St} grow (sys : file_system St) n (path : bytes) (opts : list popt) (ff : list failure)
    : fres * list failure * list call :=
  match fsy_open sys path with
  | inr t => (FReturn VNil (Some (EOpen t)), ff, [COpen path])
  | inl s =>
      match parse_reader grow (fsy_read sys) n s opts ff with
      | (r, ff', cs, Some s') =>
          (match r, fsy_close sys s' with
           | FReturn v _, Some t => FReturn v (Some (EClosing t))
           | _, _ => r
           end, ff', COpen path :: cs ++ [CClose])
      | (r, ff', cs, None) => (r, ff', COpen path :: cs)
      end
  end.
