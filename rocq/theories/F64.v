(** float64 numbers: [strconv.ParseFloat], [%g], [%.10f] and [%d].

    A finite float64 is kept exactly as (-1)^neg * m * 2^e with m < 2^53.
    ParseFloat and the formatting verbs are Go standard library code, not code
    of /repo; they are modelled by their IEEE-754 / strconv documentation
    (correctly rounded decimal-to-binary, shortest digits that round back). *)
From Coq Require Import List NArith ZArith Bool String.
From Verif Require Import Bytes.
Import ListNotations.
Local Open Scope list_scope.
Local Open Scope Z_scope.

Inductive f64 :=
| Fin (neg : bool) (m : Z) (e : Z)     (* (-1)^neg * m * 2^e *)
| Inf (neg : bool)
| NaN.

(** Round half to even of the non-negative quotient n/d. *)
Definition rhe (n d : Z) : Z :=
  let q := n / d in
  let r := n mod d in
  if 2 * r <? d then q
  else if d <? 2 * r then q + 1
  else if Z.even q then q else q + 1.

(** n/d * 2^(-e) as a fraction *)
Definition scale2 (n d e : Z) : Z * Z :=
  if e <? 0 then (n * 2 ^ (- e), d) else (n, d * 2 ^ e).

(** Correct rounding (nearest, ties to even) of n/d, n >= 0, d > 0, to binary64;
    [None] on overflow. *)
Definition round64 (n d : Z) : option (Z * Z) :=
  if n =? 0 then Some (0, 0)
  else
    let e0 := Z.log2 n - Z.log2 d - 52 in
    let '(n0, d0) := scale2 n d e0 in
    let e1 := if n0 <? d0 * 2 ^ 52 then e0 - 1 else e0 in
    let e := Z.max e1 (-1074) in
    let '(n1, d1) := scale2 n d e in
    let m := rhe n1 d1 in
    let '(m, e) := if m =? 2 ^ 53 then (2 ^ 52, e + 1) else (m, e) in
    if m =? 0 then Some (0, 0)
    else if 971 <? e then None else Some (m, e).

(** Value of a list of decimal digits. *)
Definition digits_val (ds : bytes) : Z :=
  fold_left (fun acc c => acc * 10 + (Z.of_N c - 48)) ds 0.

Fixpoint span_digits (s : bytes) : bytes * bytes :=
  match s with
  | c :: s' => if is_digit c then let '(d, r) := span_digits s' in (c :: d, r) else ([], s)
  | [] => ([], [])
  end.

(** [strconv.ParseFloat(text, 64)] on the texts the grammar's number rule can
    produce, "-"? [0-9]+ ("." [0-9]* )?.  [None] is the range error (the value is
    then an infinity); any other text is a syntax error, which the grammar rules
    out, also reported as [None]. *)
Definition parse_float (text : bytes) : option f64 :=
  let '(neg, t) := match text with 45%N :: t => (true, t) | _ => (false, text) end in
  let '(ip, r) := span_digits t in
  match ip with
  | [] => None
  | _ =>
      let num (ds : bytes) (k : nat) :=
        match round64 (digits_val ds) (10 ^ Z.of_nat k) with
        | Some (m, e) => Some (Fin neg m e)
        | None => None
        end in
      match r with
      | [] => num ip O
      | 46%N :: r' =>
          let '(fp, r'') := span_digits r' in
          match r'' with
          | [] => num (ip ++ fp) (List.length fp)
          | _ => None
          end
      | _ => None
      end
  end.

(** Numerator and denominator of m * 2^e. *)
Definition frac (m e : Z) : Z * Z := if e <? 0 then (m, 2 ^ (- e)) else (m * 2 ^ e, 1).

(** Smallest dp with n/d < 10^dp (n > 0). *)
Fixpoint find_dp (fuel : nat) (n d dp : Z) : Z :=
  match fuel with
  | O => dp
  | S k =>
      let lt := if dp <? 0 then n * 10 ^ (- dp) <? d else n <? d * 10 ^ dp in
      if lt then dp else find_dp k n d (dp + 1)
  end.
Definition dec_point (n d : Z) : Z :=
  (* start safely below: n/d >= 2^(log2 n - log2 d - 1), and 2^k >= 10^(k/4) - ... *)
  let l := Z.log2 n - Z.log2 d - 1 in
  let start := (l * 30103) / 100000 - 1 in
  find_dp 6 n d start.

(** n/d * 10^k as a fraction *)
Definition scale10 (n d k : Z) : Z * Z :=
  if k <? 0 then (n, d * 10 ^ (- k)) else (n * 10 ^ k, d).

(** Shortest digits that round back to m*2^e (strconv's roundShortest, with the
    digit-by-digit walk replaced by the rational comparisons it implements):
    result (D, k, dp): k digits D with value 0.D * 10^dp. *)
Fixpoint shortest_loop (fuel : nat) (k : Z) (n d ln ld un ud dp : Z) (incl : bool) : Z * Z :=
  match fuel with
  | O => (0, k)
  | S fuel' =>
      let '(sn, sd) := scale10 n d (k - dp) in
      let D := sn / sd in
      let le (an ad bn bd : Z) := an * bd <=? bn * ad in   (* a <= b *)
      let lt (an ad bn bd : Z) := an * bd <? bn * ad in    (* a < b *)
      let '(dn, dd) := scale10 D 1 (dp - k) in
      let '(pn, pd) := scale10 (D + 1) 1 (dp - k) in
      let okdown := lt ln ld dn dd || (incl && le ln ld dn dd) in
      let okup := lt pn pd un ud || (incl && le pn pd un ud) in
      if okdown && okup then (rhe sn sd, k)
      else if okdown then (D, k)
      else if okup then (D + 1, k)
      else shortest_loop fuel' (k + 1) n d ln ld un ud dp incl
  end.

Definition shortest (m e : Z) : Z * Z * Z :=
  let '(n, d) := frac m e in
  let dp := dec_point n d in
  let '(un, ud) := frac (2 * m + 1) (e - 1) in
  let '(ln, ld) :=
    if (m =? 2 ^ 52) && negb (e =? -1074) then frac (4 * m - 1) (e - 2)
    else frac (2 * m - 1) (e - 1) in
  let '(D, k) := shortest_loop 20 1 n d ln ld un ud dp (Z.even m) in
  if D =? 10 ^ k then (1, 1, dp + 1) else (D, k, dp).

Fixpoint strip_zeros (fuel : nat) (D k : Z) : Z * Z :=
  match fuel with
  | O => (D, k)
  | S f => if (1 <? k) && (D mod 10 =? 0) then strip_zeros f (D / 10) (k - 1) else (D, k)
  end.

Fixpoint zeros (n : nat) : bytes := match n with O => [] | S n' => 48%N :: zeros n' end.

(** [fmt.Sprintf("%g", v)] for finite v: [None] when the verb chooses the
    exponent form (strconv %e is used if the exponent is less than -4 or, with
    shortest precision, at least 6 ... 21); the caller only tests for the "e". *)
Definition fmt_g (neg : bool) (m e : Z) : option bytes :=
  let sign := if neg then [45%N] else [] in
  if m =? 0 then Some (sign ++ [48%N])
  else
    let '(D0, k0, dp) := shortest m e in
    let '(D, k) := strip_zeros 20 D0 k0 in
    let ex := dp - 1 in
    (* strconv/ftoa.go: eprec := 6 for shortest, but if eprec > nd && nd >= dp
       then eprec := nd; "if shortest { eprec = 6 }" *)
    if (ex <? -4) || (6 <=? ex) then None
    else
      let ds := itoa_Z D in
      if dp <=? 0 then Some (sign ++ b "0."%string ++ zeros (Z.to_nat (- dp)) ++ ds)
      else if k <=? dp then Some (sign ++ ds ++ zeros (Z.to_nat (dp - k)))
      else Some (sign ++ firstn (Z.to_nat dp) ds ++ [46%N] ++ skipn (Z.to_nat dp) ds).

(** [fmt.Sprintf("%.10f", v)] for finite v *)
Definition fmt_f10 (neg : bool) (m e : Z) : bytes :=
  let '(n, d) := frac m e in
  let r := rhe (n * 10 ^ 10) d in
  let fpart := itoa_Z (r mod 10 ^ 10) in
  (if neg then [45%N] else []) ++ itoa_Z (r / 10 ^ 10) ++ [46%N]
    ++ zeros (10 - List.length fpart)%nat ++ fpart.

(** [float64(int64(v)) == v]: the integer value when v is an integer in the int64
    range.  Out of range conversions are implementation defined in Go; on amd64
    they give -2^63, which compares unequal. *)
Definition as_int64 (neg : bool) (m e : Z) : option Z :=
  let '(n, d) := frac m e in
  if n mod d =? 0 then
    let z := if neg then - (n / d) else n / d in
    if (- 2 ^ 63 <=? z) && (z <? 2 ^ 63) then Some z else None
  else None.

(** ast/ast.go:480-489, [NumberAttribute.ValueString] *)
Definition number_string (v : f64) : bytes :=
  match v with
  | NaN => b "NaN"%string
  | Inf neg => if neg then b "-Inf"%string else b "+Inf"%string
  | Fin neg m e =>
      match fmt_g neg m e with
      | Some s => s
      | None =>
          match as_int64 neg m e with
          | Some z => itoa_Z z
          | None => trim_right (b "0"%string) (fmt_f10 neg m e)
          end
      end
  end.
