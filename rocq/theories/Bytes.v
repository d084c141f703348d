(** Byte strings and the functions of Go's standard library that the code uses.

    A Go [string] / [[]byte] is a list of bytes; a byte is an [N].  Nothing
    below requires the elements to be smaller than 256, so every theorem over
    [bytes] covers all real byte strings. *)
From Coq Require Import List NArith ZArith Bool Ascii String.
Import ListNotations.
Local Open Scope N_scope.

Notation bytes := (list N).

(** Literal texts are written as Coq strings and converted. *)
Definition b (s : string) : bytes := map N_of_ascii (list_ascii_of_string s).

Definition NL : N := 10.   (* '\n' *)
Definition CR : N := 13.   (* '\r' *)
Definition TAB : N := 9.
Definition SP : N := 32.
Definition HASH : N := 35. (* '#' *)
Definition DQ : N := 34.   (* double quote *)
Definition SQ : N := 39.   (* single quote *)
Definition BSL : N := 92.  (* backslash *)

Fixpoint beqb (x y : bytes) : bool :=
  match x, y with
  | [], [] => true
  | c :: x', d :: y' => N.eqb c d && beqb x' y'
  | _, _ => false
  end.

(** [strings.HasPrefix(s, p)] *)
Fixpoint has_prefix (p s : bytes) : bool :=
  match p, s with
  | [], _ => true
  | c :: p', d :: s' => N.eqb c d && has_prefix p' s'
  | _ :: _, [] => false
  end.

(** [strings.Contains(s, sub)] *)
Fixpoint contains (sub s : bytes) : bool :=
  has_prefix sub s || match s with [] => false | _ :: s' => contains sub s' end.

Definition mem (c : N) (cs : bytes) : bool := existsb (N.eqb c) cs.

(** [strings.TrimLeft(s, cutset)] for an ASCII cutset *)
Fixpoint trim_left (cut : bytes) (s : bytes) : bytes :=
  match s with
  | c :: s' => if mem c cut then trim_left cut s' else s
  | [] => []
  end.

(** [strings.TrimRight(s, cutset)] for an ASCII cutset *)
Definition trim_right (cut : bytes) (s : bytes) : bytes := rev (trim_left cut (rev s)).

(** [strings.Trim(s, cutset)] *)
Definition trim (cut : bytes) (s : bytes) : bytes := trim_right cut (trim_left cut s).

(** [strings.ReplaceAll(s, old, new)] for a one-byte [old] *)
Definition replace_byte (old : N) (new : bytes) (s : bytes) : bytes :=
  flat_map (fun c => if N.eqb c old then new else [c]) s.

(** [strings.Split(s, sep)] for a one-byte separator: always non-empty *)
Fixpoint split (sep : N) (s : bytes) : list bytes :=
  match s with
  | [] => [[]]
  | c :: s' =>
      if N.eqb c sep then [] :: split sep s'
      else match split sep s' with
           | l :: ls => (c :: l) :: ls
           | [] => [[c]]
           end
  end.

(** [strings.Index(s, c)] for a one-byte [c]: the text after the first
    occurrence of [c], or [None] if there is none. *)
Fixpoint after_byte (c : N) (s : bytes) : option bytes :=
  match s with
  | [] => None
  | d :: s' => if N.eqb d c then Some s' else after_byte c s'
  end.

(** [strings.Join(l, sep)] *)
Fixpoint join (sep : bytes) (l : list bytes) : bytes :=
  match l with
  | [] => []
  | [x] => x
  | x :: l' => x ++ sep ++ join sep l'
  end.

(** Decimal digits of a natural number ([strconv.Itoa], [%d]). *)
Fixpoint digits_fuel (k : nat) (n : N) (acc : bytes) : bytes :=
  match k with
  | O => acc
  | S k' =>
      let acc' := (48 + n mod 10) :: acc in
      if n <? 10 then acc' else digits_fuel k' (n / 10) acc'
  end.
Definition itoa_N (n : N) : bytes := digits_fuel (S (N.to_nat (N.log2 n))) n [].
Definition itoa (n : nat) : bytes := itoa_N (N.of_nat n).
Definition itoa_Z (z : Z) : bytes :=
  match z with
  | Z0 => [48]
  | Zpos p => itoa_N (Npos p)
  | Zneg p => 45 :: itoa_N (Npos p)
  end.

Definition is_digit (c : N) : bool := (48 <=? c) && (c <=? 57).
Definition is_upper (c : N) : bool := (65 <=? c) && (c <=? 90).
Definition is_lower (c : N) : bool := (97 <=? c) && (c <=? 122).
