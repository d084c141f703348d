(** UTF-8 decoding as done by Go's [unicode/utf8]. *)
From Coq Require Import List NArith Bool.
From Verif Require Import Bytes.
Import ListNotations.
Local Open Scope N_scope.

(** [utf8.RuneError] = U+FFFD *)
Definition RuneError : N := 65533.

Definition in_range (lo hi c : N) : bool := (lo <=? c) && (c <=? hi).
Definition cont (c : N) : bool := in_range 128 191 c.

(** [utf8.DecodeRune(p)]: the rune and its width; [(RuneError, 0)] on the empty
    slice, [(RuneError, 1)] on an invalid encoding (used by
    logstash_config.go:12471-12489, method read of parser). *)
Definition decode_rune (s : bytes) : N * nat :=
  match s with
  | [] => (RuneError, 0%nat)
  | c0 :: s1 =>
      if c0 <? 128 then (c0, 1%nat)
      else if in_range 194 223 c0 then
        match s1 with
        | c1 :: _ => if cont c1 then ((c0 - 192) * 64 + (c1 - 128), 2%nat) else (RuneError, 1%nat)
        | [] => (RuneError, 1%nat)
        end
      else if in_range 224 239 c0 then
        match s1 with
        | c1 :: c2 :: _ =>
            let lo := if c0 =? 224 then 160 else 128 in
            let hi := if c0 =? 237 then 159 else 191 in
            if in_range lo hi c1 && cont c2
            then ((c0 - 224) * 4096 + (c1 - 128) * 64 + (c2 - 128), 3%nat)
            else (RuneError, 1%nat)
        | _ => (RuneError, 1%nat)
        end
      else if in_range 240 244 c0 then
        match s1 with
        | c1 :: c2 :: c3 :: _ =>
            let lo := if c0 =? 240 then 144 else 128 in
            let hi := if c0 =? 244 then 143 else 191 in
            if in_range lo hi c1 && cont c2 && cont c3
            then ((c0 - 240) * 262144 + (c1 - 128) * 4096 + (c2 - 128) * 64 + (c3 - 128), 4%nat)
            else (RuneError, 1%nat)
        | _ => (RuneError, 1%nat)
        end
      else (RuneError, 1%nat)
  end.

(** Is the first rune of a non-empty slice an encoding error? *)
Definition bad_rune (s : bytes) : bool :=
  let '(r, w) := decode_rune s in (r =? RuneError) && Nat.eqb w 1.
