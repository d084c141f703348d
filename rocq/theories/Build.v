(** The constructors of package ast (ast/ast.go).  Positions and comments of the
    nodes they create are the Go zero values.  A node of type StringAttribute or
    NumberAttribute is used as an attribute ([AtStr], [AtNum]), as the key of a hash
    entry ([HKStr], [HKNum]), as a value of a condition ([RVStr], [RVNum]) or as the
    right side of a match ([SRStr]): these wrappers are the conversions of Go to the
    interfaces Attribute, HashEntryKey, Rvalue and StringOrRegexp.  Variadic
    arguments are lists. *)
From Coq Require Import List NArith ZArith Bool.
From Verif Require Import Bytes F64 Ast.
Import ListNotations.

(** ast/ast.go:79-85 *)
Definition new_config (input filter output : list section) : config := Config input filter output [] [].
(** ast/ast.go:105-107 *)
Definition new_comment_block (l : list comment) : cblock := l.
(** ast/ast.go:123-128 *)
Definition new_comment (text : bytes) (space : bool) : comment := Comment text space false.
(** ast/ast.go:205-210 *)
Definition new_plugin_section (t : ptype) (l : list bop) : section := Section_ zero_pos t l [] [].
(** ast/ast.go:213-217 *)
Definition new_plugin_sections (t : ptype) (l : list bop) : list section := [new_plugin_section t l].
(** ast/ast.go:258-263 *)
Definition new_plugin (name : bytes) (l : list attr) : plugin := Plugin zero_pos name l [] [].
(** ast/ast.go:344-349 *)
Definition new_plugin_attribute (name : bytes) (v : plugin) : attr := AtPlug zero_pos name v [].
(** ast/ast.go:415-421 *)
Definition new_string_attribute (name v : bytes) (t : sat) : strattr := StrAttr zero_pos name v t [].
(** ast/ast.go:462-467 *)
Definition new_number_attribute (name : bytes) (v : f64) : numattr := NumAttr zero_pos name v [].
(** ast/ast.go:511-516; [new_array_rvalue] is the same node converted to Rvalue *)
Definition new_array_attribute (name : bytes) (l : list attr) : attr := AtArr zero_pos name l [] [].
Definition new_array_rvalue (name : bytes) (l : list attr) : rvalue := RVArr zero_pos name l [] [].
(** ast/ast.go:577-582 *)
Definition new_hash_attribute (name : bytes) (l : list hentry) : attr := AtHash zero_pos name l [] [].
(** ast/ast.go:643-648 *)
Definition new_hash_entry (k : hkey) (v : attr) : hentry := HEntry zero_pos k v [].
(** ast/ast.go:678-684: the else block comes before the else-if blocks *)
Definition new_branch (i : ifblock) (e : elseblock) (es : list ifblock) : bop := BBranch i es e.
(** ast/ast.go:709-714 *)
Definition new_if_block (c : condition) (l : list bop) : ifblock := IfB zero_pos c l [] [].
(** ast/ast.go:755-760 *)
Definition new_else_if_block (c : condition) (l : list bop) : ifblock := IfB zero_pos c l [] [].
(** ast/ast.go:805-809 *)
Definition new_else_block (l : list bop) : elseblock := ElB zero_pos l [] [].
(** ast/ast.go:853-857 *)
Definition new_condition (l : list cexpr) : condition := Cond l.
(** ast/ast.go:922-929 *)
Definition new_condition_expression (bo : boolopn) (c : condition) : cexpr := ExCond zero_pos bo c.
(** ast/ast.go:944-951 *)
Definition new_negative_condition_expression (bo : boolopn) (c : condition) : cexpr := ExNeg zero_pos bo c.
(** ast/ast.go:966-973 *)
Definition new_negative_selector_expression (bo : boolopn) (s : selector) : cexpr := ExNegSel zero_pos bo s.
(** ast/ast.go:989-997 *)
Definition new_in_expression (bo : boolopn) (l r : rvalue) : cexpr := ExIn zero_pos bo l r.
(** ast/ast.go:1013-1021 *)
Definition new_not_in_expression (bo : boolopn) (l r : rvalue) : cexpr := ExNotIn zero_pos bo l r.
(** ast/ast.go:1060-1067 *)
Definition new_rvalue_expression (bo : boolopn) (r : rvalue) : cexpr := ExRv zero_pos bo r.
(** ast/ast.go:1089-1098 *)
Definition new_compare_expression (bo : boolopn) (l : rvalue) (o : cmpopn) (r : rvalue) : cexpr := ExCmp zero_pos bo l o r.
(** ast/ast.go:1171-1180 *)
Definition new_regexp_expression (bo : boolopn) (l : rvalue) (o : reopn) (r : strorre) : cexpr := ExRe zero_pos bo l o r.
(** ast/ast.go:1244-1248 *)
Definition new_regexp (t : bytes) : regexp := Regexp zero_pos t.
(** ast/ast.go:1310-1314 *)
Definition new_selector (l : list selel) : selector := Sel zero_pos l.
(** ast/ast.go:1346-1350 *)
Definition new_selector_element (name : bytes) : selel := SelEl zero_pos name.
(** ast/ast.go:1317-1323 *)
Definition new_selector_from_names (names : list bytes) : selector := new_selector (map new_selector_element names).
