(** The abstract syntax tree: package ast of /repo (ast/ast.go).

    Go values are immutable here; a nil interface value is an explicit
    constructor ([AtNil], [RVNil], [ExNil], [BNil]).  Nil and empty slices are
    not distinguished (no function of package ast does, and no modelled
    function outside it).  *)
From Coq Require Import List NArith ZArith String.
From Verif Require Import Bytes F64.
Import ListNotations.

(** ast/ast.go:22-26 [Pos] and logstash_config.go:12024-12027 [position]; the
    conversion logstash_config_helper.go:641-648 [astPos] is the identity.
    [InvalidPos] (ast/ast.go:32) is never stored in a node; where a function can
    return it the model returns an [option]. *)
Record position := Pos { p_line : nat; p_col : nat; p_off : nat }.
Definition zero_pos : position := Pos 0 0 0.

(** ast/ast.go:117-121 [Comment]; :103 [CommentBlock] *)
Record comment := Comment { c_text : bytes; c_before : bool; c_after : bool }.
Notation cblock := (list comment).

(** ast/ast.go:375-403, [StringAttributeType]; any other integer is [SatUndef]. *)
Inductive sat := DoubleQuoted | SingleQuoted | Bareword | SatUndef.

(** ast/ast.go:406-412 [StringAttribute] *)
Record strattr := StrAttr
  { sa_pos : position; sa_name : bytes; sa_val : bytes; sa_type : sat; sa_com : cblock }.

(** ast/ast.go:454-459 [NumberAttribute] *)
Record numattr := NumAttr
  { na_pos : position; na_name : bytes; na_val : f64; na_com : cblock }.

(** ast/ast.go:624-632 [HashEntryKey]: a string or a number attribute. *)
Inductive hkey := HKStr (s : strattr) | HKNum (n : numattr).

(** ast/ast.go:318-333 [Attribute] with its five implementations
    (:336-341 PluginAttribute, :502-508 ArrayAttribute, :568-574 HashAttribute),
    :635-640 [HashEntry], :249-255 [Plugin]. *)
Inductive attr :=
| AtNil
| AtStr (s : strattr)
| AtNum (n : numattr)
| AtArr (p : position) (name : bytes) (l : list attr) (com foot : cblock)
| AtHash (p : position) (name : bytes) (l : list hentry) (com foot : cblock)
| AtPlug (p : position) (name : bytes) (v : plugin) (com : cblock)
with hentry := HEntry (p : position) (k : hkey) (v : attr) (com : cblock)
with plugin := Plugin (p : position) (name : bytes) (l : list attr) (com foot : cblock).

(** ast/ast.go, types [SelectorElement], [Selector], [Regexp] (1340-1343, 1304-1307, 1238-1241) *)
Record selel := SelEl { se_pos : position; se_name : bytes }.
Record selector := Sel { sel_pos : position; sel_els : list selel }.
Record regexp := Regexp { re_pos : position; re_text : bytes }.

(** ast/ast.go:1037-1050 [Rvalue]: string, number, selector, array, regexp. *)
Inductive rvalue :=
| RVNil
| RVStr (s : strattr)
| RVNum (n : numattr)
| RVSel (s : selector)
| RVArr (p : position) (name : bytes) (l : list attr) (com foot : cblock)
| RVRe (r : regexp).

(** ast/ast.go:1196-1207 [StringOrRegexp] *)
Inductive strorre := SRNil | SRStr (s : strattr) | SRRe (r : regexp).

(** ast/ast.go:1261-1284 [BooleanOperator], :1114-1139 [CompareOperator],
    :1210-1224 [RegexpOperator]; other integers are the [..Undef] case. *)
Inductive boolop := BoUndef | BoNone | BoAnd | BoOr | BoXor | BoNand.
Inductive cmpop := CoUndef | CoEq | CoNe | CoLe | CoGe | CoLt | CoGt.
Inductive reop := RoUndef | RoMatch | RoNotMatch.
Record boolopn := BoolOp { bo_op : boolop; bo_pos : position }.
Record cmpopn := CmpOp { co_op : cmpop; co_pos : position }.
Record reopn := ReOp { ro_op : reop; ro_pos : position }.

(** ast/ast.go:874-890 [Expression] and its eight implementations
    (:915 Condition-, :937 NegativeCondition-, :959 NegativeSelector-, :981 In-,
    :1005 NotIn-, :1053 Rvalue-, :1080 Compare-, :1162 RegexpExpression); the
    embedded pointer to BoolExpression (:893-896) is represented by its operator.
    :848-850 [Condition]. *)
Inductive cexpr :=
| ExNil
| ExCond (p : position) (bo : boolopn) (c : condition)
| ExNeg (p : position) (bo : boolopn) (c : condition)
| ExNegSel (p : position) (bo : boolopn) (s : selector)
| ExIn (p : position) (bo : boolopn) (l r : rvalue)
| ExNotIn (p : position) (bo : boolopn) (l r : rvalue)
| ExRv (p : position) (bo : boolopn) (r : rvalue)
| ExCmp (p : position) (bo : boolopn) (l : rvalue) (o : cmpopn) (r : rvalue)
| ExRe (p : position) (bo : boolopn) (l : rvalue) (o : reopn) (r : strorre)
with condition := Cond (l : list cexpr).

(** ast/ast.go:238-246 [BranchOrPlugin]: nil, Plugin, pointer to Plugin or Branch
    (:669-673); :700-706 [IfBlock] and :746-752 [ElseIfBlock] have the same
    fields; :797-802 [ElseBlock].  A pointer to Plugin is possible because its
    method set includes that of Plugin; internal/app/lint/lint.go:127-130 stores
    one. *)
Inductive bop :=
| BNil
| BPlugin (p : plugin)
| BPluginPtr (p : plugin)
| BBranch (i : ifblock) (es : list ifblock) (e : elseblock)
with ifblock := IfB (p : position) (c : condition) (l : list bop) (com foot : cblock)
with elseblock := ElB (p : position) (l : list bop) (com foot : cblock).

(** ast/ast.go:164-193 [PluginType] *)
Inductive ptype := PTInput | PTFilter | PTOutput | PTUndef.

(** ast/ast.go:196-202 [PluginSection] *)
Record section := Section_
  { ps_pos : position; ps_type : ptype; ps_bops : list bop; ps_com : cblock; ps_foot : cblock }.

(** ast/ast.go:70-76 [Config] *)
Record config := Config
  { cf_input : list section; cf_filter : list section; cf_output : list section;
    cf_foot : cblock; cf_warnings : list bytes }.

(** The Go zero values used on error paths. *)
Definition zero_section : section := Section_ zero_pos PTUndef [] [] [].
Definition zero_config : config := Config [] [] [] [] [].
Definition zero_num : numattr := NumAttr zero_pos [] (Fin false 0%Z 0%Z) [].
Definition zero_branch : bop :=
  BBranch (IfB zero_pos (Cond []) [] [] []) [] (ElB zero_pos [] [] []).
Definition zero_else : elseblock := ElB zero_pos [] [] [].
