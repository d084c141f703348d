(** ast/astutil/escape.go, ast/astutil/quote.go, Plugin.ID of ast/ast.go. *)
From Coq Require Import List NArith ZArith Bool String Arith.
From Verif Require Import Bytes Utf8 F64 Ast Actions AstPrint.
Import ListNotations.
Local Open Scope N_scope.

(** ast/astutil/escape.go:26-37: the replacement of one match [s], a backslash
    followed by [c] (for a longer rune, [c] is its first byte: the default case,
    which changes nothing). *)
Definition unescape_seq (c : N) : bytes :=
  if (c =? DQ) || (c =? SQ) || (c =? BSL) then [c]
  else if c =? 110 then [NL]
  else if c =? 114 then [CR]
  else if c =? 116 then [TAB]
  else [BSL; c].

(** ast/astutil/escape.go:7, 24-39 [Unescape].  The expression is a backslash and
    any rune but a newline; matches do not overlap.  Go consumes a whole rune
    after the backslash, the model its first byte; the remaining bytes of a rune
    are never backslashes, so the result is the same. *)
Fixpoint unescape (s : bytes) : bytes :=
  match s with
  | [] => []
  | c :: r =>
      if c =? BSL then
        match r with
        | [] => [c]
        | d :: r' => if d =? NL then c :: d :: unescape r' else unescape_seq d ++ unescape r'
        end
      else c :: unescape r
  end.

(** ast/astutil/escape.go:56-67: the replacement of one rune *)
Definition escape_byte (c : N) : bytes :=
  if (c =? DQ) || (c =? SQ) || (c =? BSL) then [BSL; c]
  else if c =? NL then [BSL; 110]
  else if c =? CR then [BSL; 114]
  else if c =? TAB then [BSL; 116]
  else [c].
(** ast/astutil/escape.go:41, 54-69 [Escape]; runes longer than a byte are not
    changed, so working byte by byte is the same. *)
Definition escape (s : bytes) : bytes := flat_map escape_byte s.

(** Results of [Quote]: a text, an error, or a panic *)
Inductive qres := QOk (t : bytes) | QErr (m : bytes) | QPanic (m : bytes).

(** ast/astutil/quote.go:20-25: is there an index i > 1 holding the quote with
    no backslash before it?  [i] is the index of the head of [s], [prev] the byte
    before it. *)
Fixpoint has_quote (quote : N) (i : nat) (prev : N) (s : bytes) : bool :=
  match s with
  | [] => false
  | c :: s' =>
      ((c =? quote) && (1 <? i)%nat && negb (prev =? BSL)) || has_quote quote (S i) c s'
  end.

(** ast/astutil/quote.go:11, [barewordRe] *)
Definition word_start (c : N) : bool := is_upper c || is_lower c || (c =? 95).
Definition word_char (c : N) : bool := word_start c || is_digit c.
Definition is_bareword (s : bytes) : bool :=
  match s with
  | c :: (_ :: _) as s' => word_start c && forallb word_char s'
  | _ => false
  end.

(** ast/astutil/quote.go:16-42 [Quote] *)
Definition quote_enclosed (v : bytes) (q : N) : qres :=
  if has_quote q 0 0 v
  then QErr (b "value %q contains unescaped quotes and can not be quoted without escaping")
  else QOk ([q] ++ v ++ [q]).
Definition quote (v : bytes) (t : sat) : qres :=
  match t with
  | DoubleQuoted => quote_enclosed v DQ
  | SingleQuoted => quote_enclosed v SQ
  | Bareword =>
      if is_bareword v then QOk v
      else QErr (b "value %q contains non bareword characters and can not be quoted as bareword without escaping")
  | SatUndef => QPanic (b "quote type not supported")
  end.

(** ast/astutil/quote.go:66-76 [escapeQuotes]: the loop over an index into a
    buffer that grows.  [done] is the buffer before the index, reversed; [todo]
    from the index on.  An insertion moves the byte under the index to the next
    index, where it is looked at again. *)
Definition must_escape (quote : N) (done : bytes) (c : N) : bool :=
  (c =? quote) &&
  match done with
  | [] => true
  | [_] => false
  | p :: _ => negb (p =? BSL)
  end.
Fixpoint escape_quotes_loop (k : nat) (quote : N) (done todo : bytes) : bytes :=
  match k with
  | O => rev done ++ todo
  | S k' =>
      match todo with
      | [] => rev done
      | c :: t =>
          if must_escape quote done c
          then escape_quotes_loop k' quote (BSL :: done) todo
          else escape_quotes_loop k' quote (c :: done) t
      end
  end.
Definition escape_quotes (v : bytes) (quote : N) : bytes :=
  escape_quotes_loop (S (2 * List.length v)) quote [] v.

(** ast/astutil/quote.go:78-101 [escapeBareword]; bytes.Map decodes runes, the
    result of the mapping is always ASCII *)
Definition bareword_map (r : N) : N :=
  if is_digit r then r else if is_upper r then r else if is_lower r then r else 95.
Fixpoint map_runes (k : nat) (f : N -> N) (s : bytes) : bytes :=
  match k, s with
  | S k', _ :: _ =>
      let '(r, w) := decode_rune s in f r :: map_runes k' f (skipn w s)
  | _, _ => []
  end.
Definition escape_bareword (v : bytes) : bytes :=
  match v with
  | [] => []
  | c :: v' => map_runes (List.length v) bareword_map ((if is_digit c then 95 else c) :: v')
  end.

(** ast/astutil/quote.go:52-65 [QuoteWithEscape] *)
Definition quote_with_escape (v : bytes) (t : sat) : qres :=
  match t with
  | DoubleQuoted => QOk ([DQ] ++ escape_quotes v DQ ++ [DQ])
  | SingleQuoted => QOk ([SQ] ++ escape_quotes v SQ ++ [SQ])
  | Bareword => QOk (escape_bareword v)
  | SatUndef => QPanic (b "quote type not supported")
  end.

(** ast/ast.go:303-316 [Plugin.ID] with ast/errors.go:22-45: the id, an error
    that is a NotFounder, or another error *)
Inductive idres := IdOk (v : bytes) | IdNotFound (msg : bytes) | IdOther (msg : bytes).

Definition is_nil (a : attr) : bool := match a with AtNil => true | _ => false end.
Fixpoint id_loop (name : bytes) (l : list attr) : idres :=
  match l with
  | [] => IdNotFound (b "not found: plugin " ++ name ++ b " does not contain an id attribute")
  | x :: l' =>
      if negb (is_nil x) && beqb (attr_name x) (b "id")
      then match x with
           | AtStr s => IdOk (sa_val s)
           | _ => IdOther (b "attribut id is not of type string attribute")
           end
      else id_loop name l'
  end.
Definition plugin_id (p : plugin) : idres :=
  match p with Plugin _ name l _ _ => id_loop name l end.
Definition plugin_name (p : plugin) : bytes := match p with Plugin _ n _ _ _ => n end.
Definition plugin_pos (p : plugin) : position := match p with Plugin q _ _ _ _ => q end.
