(** Regular expressions as used by the code (Go's regexp package, leftmost-first
    semantics), by backtracking with continuations.

    Go matches runes, the model bytes.  The expressions modelled here only
    contain ASCII characters, complements of sets of ASCII characters under a
    star, and end in an ASCII character, for which both give the same matches. *)
From Coq Require Import List NArith Bool Arith.
From Verif Require Import Bytes.
Import ListNotations.

Inductive re :=
| RSet (p : N -> bool)
| RSeq (x y : re)
| RAlt (x y : re)
| RStar (x : re).

(** [rmatch r s k]: match a prefix of [s], then continue with [k] on the rest;
    alternatives in order, star greedy; an empty iteration ends a star. *)
Fixpoint rmatch (r : re) (s : bytes) (k : bytes -> option bytes) {struct r} : option bytes :=
  match r with
  | RSet p => match s with c :: s' => if p c then k s' else None | [] => None end
  | RSeq x y => rmatch x s (fun s' => rmatch y s' k)
  | RAlt x y => match rmatch x s k with Some t => Some t | None => rmatch y s k end
  | RStar x =>
      (fix loop (n : nat) (s : bytes) {struct n} : option bytes :=
         match n with
         | 0 => k s
         | S n' =>
             match rmatch x s (fun s' => if List.length s' <? List.length s then loop n' s' else None) with
             | Some t => Some t
             | None => k s
             end
         end) (List.length s) s
  end.

(** The text after the match at the start of [s], if any. *)
Definition match_at (r : re) (s : bytes) : option bytes := rmatch r s Some.

(** [FindAllString(s, -1)] for an expression without empty matches: successive
    leftmost matches; text between matches is skipped. *)
Fixpoint find_all (n : nat) (r : re) (s : bytes) : list bytes :=
  match n with
  | 0 => []
  | S n' =>
      match match_at r s with
      | Some rest => firstn (List.length s - List.length rest) s :: find_all n' r rest
      | None => match s with [] => [] | _ :: s' => find_all n' r s' end
      end
  end.

Definition chr (c : N) : re := RSet (N.eqb c).
Definition none_of (cs : bytes) : re := RSet (fun c => negb (mem c cs)).
(** \s: [\t\n\f\r ] *)
Definition re_space : re := RSet (fun c => mem c [9%N; 10%N; 12%N; 13%N; 32%N]).
