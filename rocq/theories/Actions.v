(** The code blocks of the grammar: logstash_config_helper.go, function by
    function.

    Go's [interface{}] values flowing through the parser are the sum type [val].
    A failed type assertion is a run time panic ([RPanic]).  Error texts that
    print a Go value with [%#v], and the texts of run time panics, are kept
    symbolic ([MGo]): their exact spelling is Go's, not the repository's. *)
From Coq Require Import List NArith Bool String Arith.
From Verif Require Import Bytes F64 Ast Peg.
Import ListNotations.

Inductive val :=
| VNil
| VBytes (t : bytes)                 (* []byte of a matcher *)
| VList (l : list val)               (* []interface{} *)
| VText (t : bytes)                  (* string *)
| VWs                                (* ast.Whitespace *)
| VComments (l : cblock)             (* []ast.Comment *)
| VPType (t : ptype)                 (* the int constants ast.Input, ... *)
| VAttr (a : attr)                   (* String-, Number-, Array-, Hash-, PluginAttribute *)
| VAttrs (l : list attr)             (* []ast.Attribute *)
| VHEntry (e : hentry)
| VHEntries (l : list hentry)
| VPlugin (p : plugin)
| VBranch (i : ifblock) (es : list ifblock) (e : elseblock)
| VIf (b : ifblock)
| VElseIf (b : ifblock)
| VElse (e : elseblock)
| VCond (c : condition)
| VExpr (e : cexpr)
| VBoolOp (o : boolopn)
| VCmpOp (o : cmpopn)
| VReOp (o : reopn)
| VSel (s : selector)
| VSelEl (s : selel)
| VRe (r : regexp)
| VSection (s : section)
| VConfig (c : config).

(** Error messages. *)
Inductive emsg := MText (t : bytes) | MGo (t : bytes) (v : val).

(** Result of a code block: a value, a value with an error, or a panic. *)
Inductive ares := RVal (v : val) | RErr (v : val) (m : emsg) | RPanic (m : emsg).

(** The label map on top of the parser's vstack. *)
Notation env := (list (string * val)).
Fixpoint lookup (l : string) (e : env) : val :=
  match e with
  | [] => VNil
  | (k, v) :: e' => if String.eqb k l then v else lookup l e'
  end.
(** m[label] = val (logstash_config.go:12946-12949) *)
Definition bind (l : string) (v : val) (e : env) : env := (l, v) :: e.

(** logstash_config_helper.go:651-663 *)
Definition iface_slice (v : val) : list val :=
  match v with VNil => [] | VList l => l | _ => [v] end.

(** ast/ast.go:392-403 *)
Definition sat_string (t : sat) : bytes :=
  match t with
  | DoubleQuoted => [DQ]
  | SingleQuoted => [SQ]
  | Bareword => []
  | SatUndef => b "undefined string attribute type"
  end.
(** ast/ast.go:434-436 *)
Definition sa_value_string (s : strattr) : bytes :=
  sat_string (sa_type s) ++ sa_val s ++ sat_string (sa_type s).

Definition set_before (c : comment) : comment := Comment (c_text c) true (c_after c).
Definition clear_before (c : comment) : comment := Comment (c_text c) false (c_after c).
Definition set_after (c : comment) : comment := Comment (c_text c) (c_before c) true.
Definition map_first {A} (f : A -> A) (l : list A) : list A :=
  match l with [] => [] | x :: l' => f x :: l' end.
Fixpoint map_last {A} (f : A -> A) (l : list A) : list A :=
  match l with [] => [] | [x] => [f x] | x :: l' => x :: map_last f l' end.

(** logstash_config_helper.go:48-69 *)
Fixpoint comment_block_loop (before after : bool) (vs : list val) (acc : cblock) : cblock :=
  match vs with
  | [] => acc
  | VComments t :: vs' =>
      let t' := if before && (match acc with [] => true | _ => false end)
                then map_first set_before t else t in
      comment_block_loop before after vs' (acc ++ t')
  | VWs :: vs' =>
      comment_block_loop before after vs' (if after then map_last set_after acc else acc)
  | _ :: vs' => comment_block_loop before after vs' acc
  end.
Definition comment_block (v : val) (before after : bool) : cblock :=
  comment_block_loop before after (iface_slice v) [].

(** logstash_config_helper.go:71-82 *)
Definition set_ps_com (s : section) (c : cblock) : section :=
  Section_ (ps_pos s) (ps_type s) (ps_bops s) c (ps_foot s).
Definition act_config_section (ps com : val) : ares :=
  match ps with
  | VSection s => RVal (VSection (set_ps_com s (comment_block com false false)))
  | _ => RErr (VSection zero_section) (MGo (b "Value is not a PluginSection: %#v") ps)
  end.

(** logstash_config_helper.go:84-125; [first] is true for the first section *)
Fixpoint config_loop (com : cblock) (first : bool) (vs : list val)
    (i f o : list section) : list section * list section * list section + emsg :=
  match vs with
  | [] => inl (i, f, o)
  | VSection s :: vs' =>
      let s := if first then set_ps_com s com else s in
      match ps_type s with
      | PTInput => config_loop com false vs' (i ++ [s]) f o
      | PTFilter => config_loop com false vs' i (f ++ [s]) o
      | PTOutput => config_loop com false vs' i f (o ++ [s])
      | PTUndef => inr (MGo (b "PluginType is not supported: %#v") (VSection s))
      end
  | v :: _ => inr (MGo (b "Value is not a PluginSection: %#v") v)
  end.
Definition act_config (ps pss com foot : val) : ares :=
  match config_loop (comment_block com false true) true (iface_slice ps ++ iface_slice pss) [] [] [] with
  | inl (i, f, o) => RVal (VConfig (Config i f o (comment_block foot true false) []))
  | inr m => RErr (VConfig zero_config) m
  end.

(** fmt %s of a [position], logstash_config.go:12028-12030 *)
Definition position_string (p : position) : bytes :=
  itoa (p_line p) ++ b ":" ++ itoa (p_col p) ++ b " [" ++ itoa (p_off p) ++ b "]".

(** logstash_config_helper.go:127-135, the warning text *)
Definition warning_text (p : position) : bytes :=
  b "exceptional comment at " ++ position_string p.

(** logstash_config_helper.go:39-46.  The state holds the positions of the
    warnings; Go stores the formatted texts. *)
Definition act_ret_config (el : val) (warns : option (list position)) : ares :=
  let c := match el with VConfig c => c | _ => zero_config end in
  let w := match warns with Some l => map warning_text l | None => [] end in
  RVal (VConfig (Config (cf_input c) (cf_filter c) (cf_output c) (cf_foot c) w)).

(** logstash_config_helper.go:148-165: the loop over the lines of a comment *)
Fixpoint comment_lines (first space : bool) (ls : list bytes) : cblock :=
  match ls with
  | [] => []
  | l :: ls' =>
      match after_byte HASH l with
      | None => comment_lines false (if first then space else true) ls'
      | Some c => Comment (trim [SP] c) space false :: comment_lines false false ls'
      end
  end.
(** logstash_config_helper.go:141-168 *)
Definition act_comment (ignore : bool) (text : bytes) : ares :=
  if ignore then RVal (VComments [])
  else RVal (VComments (comment_lines true false
               (split NL (trim [NL] (replace_byte CR [] text))))).

(** Type assertion to ast.BranchOrPlugin *)
Definition as_bop (v : val) : option bop :=
  match v with
  | VPlugin p => Some (BPlugin p)
  | VBranch i es e => Some (BBranch i es e)
  | _ => None
  end.
Fixpoint all_some {A B} (f : A -> option B) (l : list A) : option (list B) :=
  match l with
  | [] => Some []
  | x :: l' => match f x, all_some f l' with Some y, Some ys => Some (y :: ys) | _, _ => None end
  end.

Definition conv_panic (v : val) : ares := RPanic (MGo (b "interface conversion") v).

(** logstash_config_helper.go:170-186 *)
Definition act_plugin_section (pos : position) (pt bops foot : val) : ares :=
  match pt with
  | VPType t =>
      match all_some as_bop (iface_slice bops) with
      | Some l => RVal (VSection (Section_ pos t l [] (comment_block foot false false)))
      | None => conv_panic bops
      end
  | _ => conv_panic pt
  end.

(** logstash_config_helper.go:188-201 *)
Definition act_plugin (name attrs com foot : val) : ares :=
  match (match attrs with VNil => Some [] | VAttrs l => Some l | _ => None end), name with
  | Some l, VAttr (AtStr s) =>
      RVal (VPlugin (Plugin (sa_pos s) (sa_value_string s) l
                       (comment_block com false false) (comment_block foot false false)))
  | None, _ => conv_panic attrs
  | _, _ => conv_panic name
  end.

(** logstash_config_helper.go:221-243 *)
Definition set_attr_com (a : attr) (c : cblock) : attr :=
  match a with
  | AtNil => AtNil
  | AtStr s => AtStr (StrAttr (sa_pos s) (sa_name s) (sa_val s) (sa_type s) c)
  | AtNum n => AtNum (NumAttr (na_pos n) (na_name n) (na_val n) c)
  | AtArr p n l _ f => AtArr p n l c f
  | AtHash p n l _ f => AtHash p n l c f
  | AtPlug p n v _ => AtPlug p n v c
  end.
Definition act_attribute_comment (a com : val) (before : bool) : ares :=
  match a with
  | VAttr x => RVal (VAttr (set_attr_com x (comment_block com before false)))
  | _ => RErr VNil (MGo (b "Unsupported attribute type %#v") a)
  end.

(** logstash_config_helper.go:203-219; the error of attributeComment is ignored *)
Fixpoint attributes_loop (vs : list val) : list attr + val :=
  match vs with
  | [] => inl []
  | VAttr a :: vs' => match attributes_loop vs' with inl l => inl (a :: l) | inr v => inr v end
  | v :: _ => inr v
  end.
Definition act_attributes (a attrs com : val) : ares :=
  let first := match act_attribute_comment a com false with
               | RVal v => v | RErr v _ => v | RPanic _ => VNil end in
  match attributes_loop (iface_slice first ++ iface_slice attrs) with
  | inl l => RVal (VAttrs l)
  | inr v => RErr (VAttrs []) (MGo (b "Argument is not an attribute: %#v") v)
  end.

(** logstash_config_helper.go:245-283 *)
Definition act_attribute (pos : position) (name value : val) : ares :=
  match (match name with
         | VAttr (AtStr s) => Some (sa_value_string s)
         | VText t => Some t
         | _ => None end) with
  | None => RErr VNil (MGo (b "Type for attribute name is not supported: %#v") name)
  | Some key =>
      match value with
      | VAttr (AtStr s) => RVal (VAttr (AtStr (StrAttr pos key (sa_val s) (sa_type s) [])))
      | VAttr (AtNum n) => RVal (VAttr (AtNum (NumAttr pos key (na_val n) [])))
      | VAttr (AtArr _ _ l _ f) => RVal (VAttr (AtArr pos key l [] f))
      | VAttr (AtHash _ _ l _ f) => RVal (VAttr (AtHash pos key l [] f))
      | VPlugin p => RVal (VAttr (AtPlug pos key p []))
      | _ => RErr VNil (MGo (b "Type of value %#v with name %s is not supported") value)
      end
  end.

(** logstash_config_helper.go:634-636: c.text[1 : len(c.text)-1]; the slice
    expression panics on a text shorter than two bytes *)
Definition inner (text : bytes) : option bytes :=
  match text with
  | _ :: (_ :: _) as t' => Some (removelast t')
  | _ => None
  end.
Definition slice_panic : ares := RPanic (MText (b "runtime error: slice bounds out of range")).

(** logstash_config_helper.go:285-295 *)
Definition act_string (pos : position) (text : bytes) (t : sat) : ares :=
  match t with
  | Bareword => RVal (VAttr (AtStr (StrAttr pos [] text t [])))
  | _ => match inner text with
         | Some v => RVal (VAttr (AtStr (StrAttr pos [] v t [])))
         | None => slice_panic
         end
  end.

(** logstash_config_helper.go:297-302 *)
Definition act_regexp (pos : position) (text : bytes) : ares :=
  match inner text with
  | Some v => RVal (VRe (Regexp pos v))
  | None => slice_panic
  end.

(** logstash_config_helper.go:304-311 *)
Definition act_number (text : bytes) : ares :=
  match parse_float text with
  | Some f => RVal (VAttr (AtNum (NumAttr zero_pos [] f [])))
  | None => RErr (VAttr (AtNum zero_num))
              (MText (b "strconv.ParseFloat: parsing """ ++ text ++ b """: value out of range"))
  end.

(** logstash_config_helper.go:313-324 *)
Definition act_array (attrs foot : val) : ares :=
  match attrs with
  | VNil => RVal (VAttr (AtArr zero_pos [] [] [] (comment_block foot false false)))
  | VAttrs l => RVal (VAttr (AtArr zero_pos [] l [] (comment_block foot false false)))
  | _ => conv_panic attrs
  end.

(** logstash_config_helper.go:326-337 *)
Definition act_hash (es foot : val) : ares :=
  match es with
  | VNil => RVal (VAttr (AtHash zero_pos [] [] [] (comment_block foot false false)))
  | VHEntries l => RVal (VAttr (AtHash zero_pos [] l [] (comment_block foot false false)))
  | _ => conv_panic es
  end.

(** logstash_config_helper.go:339-359 *)
Fixpoint hentries_loop (vs : list val) : option (list hentry) :=
  match vs with
  | [] => Some []
  | VHEntry e :: vs' => match hentries_loop vs' with Some l => Some (e :: l) | None => None end
  | _ => None
  end.
Definition act_hashentries (e es : val) : ares :=
  match e with
  | VHEntry (HEntry p k v com) =>
      match hentries_loop (iface_slice es) with
      | Some l => RVal (VHEntries (HEntry p k v (map_first clear_before com) :: l))
      | None => RErr (VHEntries []) (MText (b "Argument is not an attribute"))
      end
  | _ => conv_panic e
  end.

(** logstash_config_helper.go:361-369 *)
Definition act_hashentry (pos : position) (name value com : val) : ares :=
  match (match name with
         | VAttr (AtStr s) => Some (HKStr s) | VAttr (AtNum n) => Some (HKNum n) | _ => None end) with
  | None => conv_panic name
  | Some k =>
      match value with
      | VAttr a => RVal (VHEntry (HEntry pos k a (comment_block com true false)))
      | _ => conv_panic value
      end
  end.

(** logstash_config_helper.go:371-375 *)
Definition act_else_if_comment (eib com : val) : ares :=
  match eib with
  | VElseIf (IfB p c l _ f) => RVal (VElseIf (IfB p c l (comment_block com false false) f))
  | _ => conv_panic eib
  end.
(** logstash_config_helper.go:377-381 *)
Definition act_else_comment (eb com : val) : ares :=
  match eb with
  | VElse (ElB p l _ f) => RVal (VElse (ElB p l (comment_block com false false) f))
  | _ => conv_panic eb
  end.

(** logstash_config_helper.go:383-404; the [zero] branch is returned with the
    error *)
Fixpoint else_ifs_loop (vs : list val) : list ifblock + val :=
  match vs with
  | [] => inl []
  | VElseIf x :: vs' => match else_ifs_loop vs' with inl l => inl (x :: l) | inr v => inr v end
  | v :: _ => inr v
  end.
Definition act_branch (i es e com : val) : ares :=
  match else_ifs_loop (iface_slice es) with
  | inr v =>
      RErr (VBranch (IfB zero_pos (Cond []) [] [] []) [] zero_else)
           (MGo (b "Argument is not an elseIfBlock: %#v") v)
  | inl l =>
      match (match e with VNil => Some zero_else | VElse x => Some x | _ => None end), i with
      | Some eb, VIf (IfB p c bs _ f) =>
          RVal (VBranch (IfB p c bs (comment_block com false false) f) l eb)
      | None, _ => conv_panic e
      | _, _ => conv_panic i
      end
  end.

(** logstash_config_helper.go:406-420 *)
Definition act_bop_comment (bop com : val) : ares :=
  match bop with
  | VPlugin (Plugin p n l _ f) => RVal (VPlugin (Plugin p n l (comment_block com false false) f))
  | VBranch (IfB p c l _ f) es e =>
      RVal (VBranch (IfB p c l (comment_block com false false) f) es e)
  | _ => RErr VNil (MText (b "invalid value for if block"))
  end.

(** logstash_config_helper.go:443-456: an unexpected element empties the list *)
Definition branch_or_plugins (v : val) : list bop :=
  match all_some as_bop (iface_slice v) with Some l => l | None => [] end.

(** logstash_config_helper.go:422-427, 429-434, 436-441 *)
Definition act_if_block (mk : ifblock -> val) (pos : position) (cond bops com : val) : ares :=
  match cond with
  | VCond c => RVal (mk (IfB pos c (branch_or_plugins bops) [] (comment_block com false false)))
  | _ => conv_panic cond
  end.
Definition act_else_block (pos : position) (bops com : val) : ares :=
  RVal (VElse (ElB pos (branch_or_plugins bops) [] (comment_block com false false))).

(** logstash_config_helper.go:458-472 *)
Fixpoint exprs_loop (vs : list val) : list cexpr + val :=
  match vs with
  | [] => inl []
  | VExpr x :: vs' => match exprs_loop vs' with inl l => inl (x :: l) | inr v => inr v end
  | v :: _ => inr v
  end.
Definition act_condition (e es : val) : ares :=
  match exprs_loop (iface_slice e ++ iface_slice es) with
  | inl l => RVal (VCond (Cond l))
  | inr v => RErr (VCond (Cond [])) (MGo (b "Argument is not an expression: %#v") v)
  end.

(** ast/ast.go:904-907 [SetBoolOperator] *)
Definition set_bool_op (e : cexpr) (bo : boolopn) : cexpr :=
  match e with
  | ExNil => ExNil
  | ExCond p _ c => ExCond p bo c
  | ExNeg p _ c => ExNeg p bo c
  | ExNegSel p _ s => ExNegSel p bo s
  | ExIn p _ l r => ExIn p bo l r
  | ExNotIn p _ l r => ExNotIn p bo l r
  | ExRv p _ r => ExRv p bo r
  | ExCmp p _ l o r => ExCmp p bo l o r
  | ExRe p _ l o r => ExRe p bo l o r
  end.
(** logstash_config_helper.go:474-478 *)
Definition act_expression (bo e : val) : ares :=
  match e, bo with
  | VExpr x, VBoolOp o => RVal (VExpr (set_bool_op x o))
  | VExpr _, _ => conv_panic bo
  | _, _ => conv_panic e
  end.

Definition no_op : boolopn := BoolOp BoNone zero_pos.

(** Type assertions to ast.Rvalue and ast.StringOrRegexp *)
Definition as_rvalue (v : val) : option rvalue :=
  match v with
  | VAttr (AtStr s) => Some (RVStr s)
  | VAttr (AtNum n) => Some (RVNum n)
  | VAttr (AtArr p n l c f) => Some (RVArr p n l c f)
  | VSel s => Some (RVSel s)
  | VRe r => Some (RVRe r)
  | _ => None
  end.
Definition as_strorre (v : val) : option strorre :=
  match v with
  | VAttr (AtStr s) => Some (SRStr s)
  | VRe r => Some (SRRe r)
  | _ => None
  end.

(** logstash_config_helper.go:480-496 *)
Definition act_cond_expr (mk : condition -> cexpr) (cond : val) : ares :=
  match cond with VCond c => RVal (VExpr (mk c)) | _ => conv_panic cond end.
Definition act_neg_selector (pos : position) (sel : val) : ares :=
  match sel with VSel s => RVal (VExpr (ExNegSel pos no_op s)) | _ => conv_panic sel end.
(** logstash_config_helper.go:498-508 *)
Definition act_in (mk : rvalue -> rvalue -> cexpr) (lv rv : val) : ares :=
  match as_rvalue lv, as_rvalue rv with
  | Some l, Some r => RVal (VExpr (mk l r))
  | None, _ => conv_panic lv
  | _, None => conv_panic rv
  end.
(** logstash_config_helper.go:510-514 *)
Definition act_compare (pos : position) (lv co rv : val) : ares :=
  match as_rvalue lv, co, as_rvalue rv with
  | Some l, VCmpOp o, Some r => RVal (VExpr (ExCmp pos no_op l o r))
  | None, _, _ => conv_panic lv
  | _, VCmpOp _, None => conv_panic rv
  | _, _, _ => conv_panic co
  end.
(** logstash_config_helper.go:516-520 *)
Definition act_regexp_expr (pos : position) (lv ro rv : val) : ares :=
  match as_rvalue lv, ro, as_strorre rv with
  | Some l, VReOp o, Some r => RVal (VExpr (ExRe pos no_op l o r))
  | None, _, _ => conv_panic lv
  | _, VReOp _, None => conv_panic rv
  | _, _, _ => conv_panic ro
  end.
(** logstash_config_helper.go:522-526 *)
Definition act_rvalue (pos : position) (rv : val) : ares :=
  match as_rvalue rv with
  | Some r => RVal (VExpr (ExRv pos no_op r))
  | None => conv_panic rv
  end.

(** logstash_config_helper.go:528-565 *)
Definition act_compare_op (pos : position) (t : bytes) : ares :=
  RVal (VCmpOp (CmpOp
    (if beqb t (b "==") then CoEq else if beqb t (b "!=") then CoNe
     else if beqb t (b "<=") then CoLe else if beqb t (b ">=") then CoGe
     else if beqb t (b "<") then CoLt else if beqb t (b ">") then CoGt
     else CoUndef) pos)).
(** logstash_config_helper.go:567-584 *)
Definition act_regexp_op (pos : position) (t : bytes) : ares :=
  RVal (VReOp (ReOp
    (if beqb t (b "=~") then RoMatch else if beqb t (b "!~") then RoNotMatch else RoUndef) pos)).
(** logstash_config_helper.go:586-613 *)
Definition act_boolean_op (pos : position) (t : bytes) : ares :=
  RVal (VBoolOp (BoolOp
    (if beqb t (b "and") then BoAnd else if beqb t (b "or") then BoOr
     else if beqb t (b "xor") then BoXor else if beqb t (b "nand") then BoNand
     else BoUndef) pos)).

(** logstash_config_helper.go:615-625 *)
Definition act_selector (pos : position) (ses : val) : ares :=
  match all_some (fun v => match v with VSelEl s => Some s | _ => None end) (iface_slice ses) with
  | Some l => RVal (VSel (Sel pos l))
  | None => conv_panic ses
  end.
(** logstash_config_helper.go:627-632 *)
Definition act_selector_element (pos : position) (text : bytes) : ares :=
  match inner text with
  | Some v => RVal (VSelEl (SelEl pos v))
  | None => slice_panic
  end.

(** All action blocks.  [ign]: the IgnoreComments setting in the globalStore;
    [warns]: the warnings in the parser state; [pos], [text]: c.pos and c.text. *)
Definition run_action (ign : bool) (warns : option (list position)) (a : action)
    (e : env) (pos : position) (text : bytes) : ares :=
  let g l := lookup l e in
  match a with
  | ARet l => RVal (g l)                                  (* helper.go:35-37 *)
  | ARetConfig l => act_ret_config (g l) warns
  | AEmptyConfig => RVal (VConfig zero_config)            (* logstash_config.peg:18 *)
  | AConfigSection ps c => act_config_section (g ps) (g c)
  | AConfig ps pss c f => act_config (g ps) (g pss) (g c) (g f)
  | AComment => act_comment ign text
  | AWhitespace => RVal VWs                               (* helper.go:137-139 *)
  | AStr => RVal (VText text)                             (* helper.go:638-640 *)
  | AString t => act_string pos text t
  | AEnclosedValue => match inner text with Some v => RVal (VText v) | None => slice_panic end
  | ANumber => act_number text
  | ARegexp => act_regexp pos text
  | AArray l f => act_array (g l) (g f)
  | AAttribute n v => act_attribute pos (g n) (g v)
  | AAttributeComment x c sb => act_attribute_comment (g x) (g c) sb
  | AAttributes x xs c => act_attributes (g x) (g xs) (g c)
  | ABooleanOperator => act_boolean_op pos text
  | ABranch i es eb c => act_branch (g i) (g es) (g eb) (g c)
  | ABranchOrPluginComment x c => act_bop_comment (g x) (g c)
  | ACompareExpression l o r => act_compare pos (g l) (g o) (g r)
  | ACompareOperator => act_compare_op pos text
  | ACondition x xs => act_condition (g x) (g xs)
  | AConditionExpression c => act_cond_expr (ExCond pos no_op) (g c)
  | AElseBlock l c => act_else_block pos (g l) (g c)
  | AElseComment x c => act_else_comment (g x) (g c)
  | AElseIfBlock c l f => act_if_block VElseIf pos (g c) (g l) (g f)
  | AElseIfComment x c => act_else_if_comment (g x) (g c)
  | AExpression o x => act_expression (g o) (g x)
  | AHash l f => act_hash (g l) (g f)
  | AHashentries x xs => act_hashentries (g x) (g xs)
  | AHashentry n v c => act_hashentry pos (g n) (g v) (g c)
  | AIfBlock c l f => act_if_block VIf pos (g c) (g l) (g f)
  | AInExpression l r => act_in (ExIn pos no_op) (g l) (g r)
  | ANegativeExpression c => act_cond_expr (ExNeg pos no_op) (g c)
  | ANegativeSelector s => act_neg_selector pos (g s)
  | ANotInExpression l r => act_in (ExNotIn pos no_op) (g l) (g r)
  | APlugin n l c f => act_plugin (g n) (g l) (g c) (g f)
  | APluginSection t l f => act_plugin_section pos (g t) (g l) (g f)
  | APluginType t => RVal (VPType t)                      (* logstash_config.peg:112-118 *)
  | ARegexpExpression l o r => act_regexp_expr pos (g l) (g o) (g r)
  | ARegexpOperator => act_regexp_op pos text
  | ARvalue r => act_rvalue pos (g r)
  | ASelector l => act_selector pos (g l)
  | ASelectorElement => act_selector_element pos text
  end.
