(** Printing: the String and ValueString methods of ast/ast.go and [prefix] of
    ast/ast_helper.go. *)
From Coq Require Import List NArith Bool String Arith.
From Verif Require Import Bytes F64 Ast Actions Regex.
Import ListNotations.

(** ast/ast_helper.go:15, [linesRe]: a newline; or a comment line (white space,
    a hash sign, anything but newline, newline); or a line without quotes; or a
    sequence of quoted strings with quote-free text around them, then a newline.
    Double quoted strings: (backslash quote | not a quote)*, same for single. *)
Definition plain : re := RStar (none_of [DQ; SQ; NL]).
Definition quoted (q : N) : re :=
  RSeq (chr q) (RSeq (RStar (RAlt (RSeq (chr BSL) (chr q)) (none_of [q]))) (chr q)).
Definition lines_re : re :=
  RAlt (chr NL)
  (RAlt (RSeq (RStar re_space) (RSeq (chr HASH) (RSeq (RStar (none_of [NL])) (chr NL))))
  (RAlt (RSeq plain (chr NL))
        (RSeq (RStar (RSeq plain (RSeq (RAlt (quoted DQ) (quoted SQ)) plain))) (chr NL)))).

Definition find_lines (s : bytes) : list bytes := find_all (S (List.length s)) lines_re s.

(** ast/ast_helper.go:17-36 [prefix] *)
Definition prefix (s : bytes) (empty_newline : bool) : bytes :=
  match s with
  | [] => if empty_newline then [NL] else []
  | _ =>
      [NL] ++ flat_map (fun l => match trim_left [SP; NL] l with [] => [NL] | _ => [SP; SP] ++ l end)
                (find_lines (trim_right [NL] s ++ [NL]))
  end.

Definition nl_if (s : bytes) : bytes := match s with [] => [] | _ => [NL] end.

(** ast/ast.go:130-140 [Comment.String], :109-115 [CommentBlock.String] *)
Definition comment_string (c : comment) : bytes :=
  (if c_before c then [NL] else []) ++ b "# " ++ c_text c ++ [NL] ++ (if c_after c then [NL] else []).
Definition cblock_string (l : cblock) : bytes := flat_map comment_string l.

(** CommentBlock() of the attribute types: ast/ast.go:367, 439, 492, 558, 615 *)
Definition attr_com (a : attr) : cblock :=
  match a with
  | AtNil => []
  | AtStr s => sa_com s
  | AtNum n => na_com n
  | AtArr _ _ _ c _ => c
  | AtHash _ _ _ c _ => c
  | AtPlug _ _ _ c => c
  end.
(** Name(): ast/ast.go:352, 424, 470, 519, 585 *)
Definition attr_name (a : attr) : bytes :=
  match a with
  | AtNil => []
  | AtStr s => sa_name s
  | AtNum n => na_name n
  | AtArr _ n _ _ _ => n
  | AtHash _ n _ _ _ => n
  | AtPlug _ n _ _ => n
  end.
(** ast/ast.go:651-653 [HashEntry.Name] *)
Definition hkey_string (k : hkey) : bytes :=
  match k with HKStr s => sa_value_string s | HKNum n => number_string (na_val n) end.

Definition arrow : bytes := b " => ".

(** ast/ast.go: ValueString of attributes (362-364, 434-436, 480-489, 529-555,
    595-612), [HashEntry.String] (656-658) with ValueString (661-666; the empty
    text for a nil value), [Plugin.String] (271-295).  String() of an attribute is
    its name, an arrow and its ValueString (357, 429, 475, 524, 590). *)
Fixpoint attr_value (a : attr) : bytes :=
  match a with
  | AtNil => []
  | AtStr s => sa_value_string s
  | AtNum n => number_string (na_val n)
  | AtArr _ _ l _ foot =>
      let ss := join [44%N; NL]
                  (flat_map (fun x => match x with
                                      | AtNil => []
                                      | _ => [cblock_string (attr_com x) ++ attr_value x]
                                      end) l) in
      b "[" ++ prefix ((match ss with [] => [] | _ => ss ++ [NL; NL] end) ++ cblock_string foot) false
        ++ b "]"
  | AtHash _ _ l _ foot =>
      let ss := flat_map (fun e => hentry_string e ++ [NL]) l in
      b "{" ++ prefix (ss ++ nl_if ss ++ cblock_string foot) false ++ b "}"
  | AtPlug _ _ p _ => plugin_string p
  end
with hentry_string (e : hentry) : bytes :=
  match e with
  | HEntry _ k v com =>
      cblock_string com ++ hkey_string k ++ arrow ++ attr_value v
  end
with plugin_string (p : plugin) : bytes :=
  match p with
  | Plugin _ name l com foot =>
      let ss := flat_map (fun x => match x with
                                   | AtNil => []
                                   | _ => cblock_string (attr_com x)
                                          ++ (attr_name x ++ arrow ++ attr_value x) ++ [NL]
                                   end) l in
      cblock_string com ++ name ++ b " {"
        ++ prefix (ss ++ nl_if ss ++ cblock_string foot) false ++ b "}"
  end.
Definition attr_string (a : attr) : bytes := attr_name a ++ arrow ++ attr_value a.

(** ast/ast.go:1327-1333, 1352-1354, 1250-1252 *)
Definition selel_string (s : selel) : bytes := b "[" ++ se_name s ++ b "]".
Definition selector_string (s : selector) : bytes := flat_map selel_string (sel_els s).
Definition regexp_string (r : regexp) : bytes := b "/" ++ re_text r ++ b "/".

(** ValueString of an Rvalue; [None] if the interface is nil *)
Definition rvalue_string (r : rvalue) : option bytes :=
  match r with
  | RVNil => None
  | RVStr s => Some (sa_value_string s)
  | RVNum n => Some (number_string (na_val n))
  | RVSel s => Some (selector_string s)
  | RVArr p n l c f => Some (attr_value (AtArr p n l c f))
  | RVRe r => Some (regexp_string r)
  end.
Definition strorre_string (r : strorre) : bytes :=
  match r with SRNil => [] | SRStr s => sa_value_string s | SRRe r => regexp_string r end.
Definition or_empty (o : option bytes) : bytes := match o with Some t => t | None => [] end.

(** ast/ast.go:1287-1302, 1142-1159, 1227-1236 *)
Definition boolop_string (o : boolop) : bytes :=
  match o with
  | BoNone => [] | BoAnd => b " and " | BoOr => b " or " | BoNand => b " nand "
  | BoXor => b " xor " | BoUndef => b "undefined boolean operator"
  end.
Definition cmpop_string (o : cmpop) : bytes :=
  match o with
  | CoEq => b "==" | CoNe => b "!=" | CoLe => b "<=" | CoGe => b ">=" | CoLt => b "<" | CoGt => b ">"
  | CoUndef => b "undefined compare operator"
  end.
Definition reop_string (o : reop) : bytes :=
  match o with RoMatch => b "=~" | RoNotMatch => b "!~" | RoUndef => b "undefined regexp operator" end.

(** What package fmt prints when a String method panics with a nil dereference
    (InExpression.String does not test for nil, ast/ast.go:1000-1002). *)
Definition fmt_nil_panic : bytes :=
  b "%!v(PANIC=String method: runtime error: invalid memory address or nil pointer dereference)".

(** ast/ast.go: String methods of the expressions (932, 954, 976, 1000, 1024,
    1069, 1099, 1181) and of Condition (860-869). *)
Fixpoint cexpr_string (e : cexpr) : bytes :=
  match e with
  | ExNil => []
  | ExCond _ bo c => boolop_string (bo_op bo) ++ b "(" ++ cond_string c ++ b ")"
  | ExNeg _ bo c => boolop_string (bo_op bo) ++ b "!(" ++ cond_string c ++ b ")"
  | ExNegSel _ bo s => boolop_string (bo_op bo) ++ b "!" ++ selector_string s
  | ExIn _ bo l r =>
      match rvalue_string l, rvalue_string r with
      | Some x, Some y => boolop_string (bo_op bo) ++ x ++ b " in " ++ y
      | _, _ => fmt_nil_panic
      end
  | ExNotIn _ bo l r =>
      boolop_string (bo_op bo) ++ or_empty (rvalue_string l) ++ b " not in " ++ or_empty (rvalue_string r)
  | ExRv _ bo r => boolop_string (bo_op bo) ++ or_empty (rvalue_string r)
  | ExCmp _ bo l o r =>
      boolop_string (bo_op bo) ++ or_empty (rvalue_string l) ++ b " " ++ cmpop_string (co_op o)
        ++ b " " ++ or_empty (rvalue_string r)
  | ExRe _ bo l o r =>
      boolop_string (bo_op bo) ++ or_empty (rvalue_string l) ++ b " " ++ reop_string (ro_op o)
        ++ b " " ++ strorre_string r
  end
with cond_string (c : condition) : bytes :=
  match c with Cond l => flat_map cexpr_string l end.

(** The loop shared by ast/ast.go:220-235, 722-733, 772-783 and 826-837: texts
    separated and followed by newlines. *)
Definition bops_step (acc t : bytes) : bytes :=
  let acc := acc ++ nl_if acc ++ t in acc ++ nl_if acc.
Definition bops_text (ts : list bytes) : bytes := fold_left bops_step ts [].

(** Block of an if, else-if or else: ast/ast.go:721-739 *)
Definition block_text (ts : list bytes) (foot : cblock) : bytes :=
  let ss := bops_text ts in
  b "{" ++ prefix (ss ++ nl_if ss ++ cblock_string foot) true ++ b "}".
(** ast/ast.go:764-770, 817-823 *)
Definition else_intro (com : cblock) : bytes :=
  match com with [] => [SP] | _ => [NL] ++ cblock_string com end.

(** ast/ast.go:689-697 [Branch.String], 717-742 [IfBlock.String], 763-794
    [ElseIfBlock.String], 812-845 [ElseBlock.String]; %v of a plugin or a pointer
    to a plugin is [Plugin.String]. *)
Fixpoint bop_string (x : bop) : bytes :=
  match x with
  | BNil => []
  | BPlugin p => plugin_string p
  | BPluginPtr p => plugin_string p
  | BBranch (IfB _ c l com foot) es (ElB _ el ecom efoot) =>
      cblock_string com ++ b "if " ++ cond_string c ++ b " "
        ++ block_text (flat_map (fun y => match y with BNil => [] | _ => [bop_string y] end) l) foot
      ++ flat_map elseif_string es
      ++ match el, ecom, efoot with
         | [], [], [] => []
         | _, _, _ =>
             else_intro ecom ++ b "else "
               ++ block_text (flat_map (fun y => match y with BNil => [] | _ => [bop_string y] end) el) efoot
         end
  end
with elseif_string (e : ifblock) : bytes :=
  match e with
  | IfB _ c l com foot =>
      else_intro com ++ b "else if " ++ cond_string c ++ b " "
        ++ block_text (flat_map (fun y => match y with BNil => [] | _ => [bop_string y] end) l) foot
  end.

(** ast/ast.go:220-235 [PluginSection.String] *)
Definition bop_texts (l : list bop) : list bytes :=
  flat_map (fun y => match y with BNil => [] | _ => [bop_string y] end) l.
Definition section_string (s : section) : bytes := bops_text (bop_texts (ps_bops s)).

(** ast/ast.go:142-161 [pluginSectionString]: every section of a kind gets the
    comment of the first one *)
Definition sections_string (kind : bytes) (l : list section) : bytes :=
  join [NL]
    (map (fun p =>
            cblock_string (match l with p0 :: _ => ps_com p0 | [] => [] end)
            ++ kind ++ b " {" ++ prefix (section_string p) false
            ++ prefix (cblock_string (ps_foot p)) false ++ b "}" ++ [NL]) l).

(** ast/ast.go:88-99 [Config.String] *)
Definition config_string (c : config) : bytes :=
  sections_string (b "input") (cf_input c) ++ sections_string (b "filter") (cf_filter c)
    ++ sections_string (b "output") (cf_output c) ++ cblock_string (cf_foot c).
