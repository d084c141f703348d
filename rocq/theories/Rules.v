(** The grammar as published, logstash_config.peg, rule by rule.  [rules_are_generated]
    at the end: after inlining (done by the parser generator) this is the grammar
    value of the generated Go file, which GrammarGen.v transcribes mechanically. *)
From Coq Require Import List NArith String.
From Verif Require Import Bytes Ast Peg GrammarGen.
Import ListNotations.

(** A literal with its quoted form for error messages *)
Definition lit (s : string) : expr := ELit ("""" ++ s ++ """")%string (b s).
Definition soft (m : string) : expr := EAndCode (PPushError m).
Definition fatal (m : string) : expr := EAndCode (PFatalError m).
(** peg:649 EOF *)
Definition eof_e : expr := ENot EAny.
(** peg:68-71 whitespace *)
Definition ws_class : expr := EClass "[ \t\r\n]" [32; 9; 13; 10]%N [] false.
Definition ws_e : expr := EAct AWhitespace (EPlus ws_class).
(** peg:42-45 comment *)
Definition comment_line_e : expr :=
  ESeq [EOpt ws_e; lit "#"; EStar (EClass "[^\r\n]" [13; 10]%N [] true); EOpt (ELit """\r""" [13%N]);
        EChoice [ELit """\n""" [10%N]; eof_e]].
Definition comment_e : expr := EAct AComment (EPlus comment_line_e).
(** peg:51-52 _ *)
Definition gap_e : expr := EStar (EChoice [comment_e; ws_e]).
(** peg:57-62 __: two consecutive items of a sequence *)
Definition gaps_e : expr := EAct AStr gap_e.
Definition warn_e : expr := EStateCode SWarnComment.

(** peg:207-214 doubleQuotedString, 220-227 singleQuotedString, 233-240 stringValue *)
Definition quoted_body (esc : expr) (q : expr) : expr := EStar (EChoice [esc; ESeq [ENot q; EAny]]).
Definition dq : expr := ELit """\""""" [34%N].
Definition sq : expr := lit "'".
Definition double_e : expr :=
  EAct AEnclosedValue (ESeq [dq; quoted_body (ELit """\\\""""" [92; 34]%N) dq;
                             EChoice [dq; fatal "expect closing double quotes ("")"]]).
Definition single_e : expr :=
  EAct AEnclosedValue (ESeq [sq; quoted_body (ELit """\\'""" [92; 39]%N) sq;
                             EChoice [sq; fatal "expect closing single quote (')"]]).
Definition string_e : expr :=
  EAct (ARet "str") (ELab "str" (EChoice
    [EAct (AString DoubleQuoted) (ELab "str" double_e); EAct (AString SingleQuoted) (ELab "str" single_e)])).
(** peg:246-253 regexp *)
Definition slash : expr := lit "/".
Definition regexp_e : expr :=
  EAct ARegexp (ESeq [slash; quoted_body (ELit """\\/""" [92; 47]%N) slash;
                      EChoice [slash; fatal "expect closing slash (/) for regexp"]]).
(** peg:198-201 bareword, 158-163 name, 260-263 number *)
Definition bareword_e : expr :=
  EAct (AString Bareword) (ESeq [EClass "[_A-Za-z]" [95%N] [(65, 90); (97, 122)]%N false;
                                 EPlus (EClass "[_A-Za-z0-9]" [95%N] [(65, 90); (97, 122); (48, 57)]%N false)]).
Definition word_class : expr := EClass "[_-A-Za-z0-9]" [95; 45]%N [(65, 90); (97, 122); (48, 57)]%N false.
Definition name_e : expr :=
  EChoice [EAct (AString Bareword) (EPlus word_class); EAct (ARet "value") (ELab "value" string_e)].
Definition digit_e : expr := EClass "[0-9]" [] [(48, 57)]%N false.
Definition number_text_e : expr := ESeq [EOpt (lit "-"); EPlus digit_e; EOpt (ESeq [lit "."; EStar digit_e])].
Definition number_e : expr := EAct ANumber number_text_e.
(** peg:640-647 selectorElement, 630-633 selector *)
Definition selel_e : expr :=
  EAct ASelectorElement (ESeq [lit "["; EPlus (EClass "[^][,]" [93; 91; 44]%N [] true);
                               EChoice [lit "]"; soft "expect closing square bracket"]]).
Definition selector_e : expr := EAct (ASelector "ses") (ELab "ses" (EPlus selel_e)).
Definition close (c : string) (e : expr) : expr := EChoice [lit c; e].

(** peg:7-21 init *)
Definition init_e : expr :=
  EAct (ARetConfig "conf") (ESeq
    [EStateCode SInitState; EAndCode PInitParser;
     ELab "conf" (EChoice
       [EAct (ARet "conf") (ESeq [ELab "conf" (ERef "config"); eof_e]);
        EAct AEmptyConfig (ESeq [gap_e; eof_e])])]).
(** peg:29-36 config *)
Definition next_section_e : expr :=
  EAct (AConfigSection "ps" "psComment") (ESeq [ELab "psComment" gap_e; ELab "ps" (ERef "pluginSection")]).
Definition config_e : expr :=
  EAct (AConfig "ps" "pss" "psComment" "footerComment") (ESeq
    [ELab "psComment" gap_e; ELab "ps" (ERef "pluginSection"); ELab "pss" (EStar next_section_e);
     ELab "footerComment" gap_e; eof_e]).
(** peg:107-116 pluginType *)
Definition ptype_e : expr :=
  EChoice [EAct (APluginType PTInput) (lit "input"); EAct (APluginType PTFilter) (lit "filter");
           EAct (APluginType PTOutput) (lit "output"); soft "expect plugin type (input, filter, output)"].
(** peg:83-94 pluginSection *)
Definition pluginSection_e : expr :=
  EAct (APluginSection "pt" "bops" "footerComment") (ESeq
    [ELab "pt" ptype_e; gaps_e; warn_e; lit "{";
     ELab "bops" (EStar (EAct (ARet "bop") (ELab "bop" (ERef "branchOrPlugin"))));
     ELab "footerComment" gap_e; close "}" (soft "expect closing curly bracket")]).
(** peg:100-101 branchOrPlugin *)
Definition branchOrPlugin_e : expr := EChoice [ERef "branch"; ERef "plugin"].
(** peg:134-149 plugin *)
Definition more_attr_e : expr :=
  EAct (AAttributeComment "attribute" "comment" true) (ESeq
    [ws_e; ELab "comment" gap_e; ELab "attribute" (ERef "attribute")]).
Definition attrs_e : expr :=
  EAct (AAttributes "attribute" "attrs" "comment") (ESeq
    [ELab "comment" gap_e; ELab "attribute" (ERef "attribute"); ELab "attrs" (EStar more_attr_e)]).
Definition plugin_e : expr :=
  EAct (APlugin "name" "attributes" "comment" "footerComment") (ESeq
    [ELab "comment" gap_e; ELab "name" name_e; gaps_e; warn_e; lit "{";
     ELab "attributes" (EOpt attrs_e); ELab "footerComment" gap_e; close "}" (fatal "expect closing curly bracket")]).
(** peg:170-173 attribute *)
Definition attribute_e : expr :=
  EAct (AAttribute "name" "value") (ESeq
    [ELab "name" name_e; gaps_e; warn_e; lit "=>"; gaps_e; warn_e; ELab "value" (ERef "value")]).
(** peg:179-182 value *)
Definition value_e : expr :=
  EChoice [ERef "plugin"; bareword_e; string_e; number_e; ERef "array"; ERef "hash"; soft "invalid value"].
(** peg:280-295 array *)
Definition more_value_e : expr :=
  EAct (AAttributeComment "value" "comment" true) (ESeq
    [gaps_e; warn_e; lit ","; ELab "comment" gap_e; ELab "value" (ERef "value")]).
Definition values_e : expr :=
  EAct (AAttributes "value" "values" "comment") (ESeq
    [ELab "comment" gap_e; ELab "value" (ERef "value"); ELab "values" (EStar more_value_e)]).
Definition array_e : expr :=
  EAct (AArray "values" "footerComment") (ESeq
    [lit "["; ELab "values" (EOpt values_e); ELab "footerComment" gap_e;
     close "]" (fatal "expect closing square bracket")]).
(** peg:308-315 hash *)
Definition hash_e : expr :=
  EAct (AHash "entries" "footerComment") (ESeq
    [lit "{"; ELab "entries" (EOpt (ERef "hashentries")); ELab "footerComment" gap_e;
     close "}" (fatal "expect closing curly bracket")]).
(** peg:322-329 hashentries *)
Definition more_hashentry_e : expr :=
  EAct (ARet "hashentry") (ESeq [ws_e; ELab "hashentry" (ERef "hashentry")]).
Definition hashentries_e : expr :=
  EAct (AHashentries "hashentry" "hashentries1") (ESeq
    [ELab "hashentry" (ERef "hashentry"); ELab "hashentries1" (EStar more_hashentry_e)]).
(** peg:336-339 hashentry *)
Definition hashentry_e : expr :=
  EAct (AHashentry "name" "value" "comment") (ESeq
    [ELab "comment" gap_e; ELab "name" (EChoice [number_e; bareword_e; string_e]); gaps_e; warn_e; lit "=>";
     gaps_e; warn_e; ELab "value" (ERef "value")]).
(** peg:350-361 branch *)
Definition more_elseif_e : expr :=
  EAct (AElseIfComment "eib" "eibComment") (ESeq [ELab "eibComment" gap_e; ELab "eib" (ERef "elseIf")]).
Definition else_e : expr :=
  EAct (AElseComment "eb" "ebComment") (ESeq [ELab "ebComment" gap_e; ELab "eb" (ERef "elseCond")]).
Definition branch_e : expr :=
  EAct (ABranch "ifBlock" "elseIfBlocks" "elseBlock" "ifComment") (ESeq
    [ELab "ifComment" gap_e; ELab "ifBlock" (ERef "ifCond"); ELab "elseIfBlocks" (EStar more_elseif_e);
     ELab "elseBlock" (EOpt else_e)]).
(** peg:371-382 ifCond, 392-403 elseIf, 413-424 elseCond *)
Definition block_bop_e : expr :=
  EAct (ABranchOrPluginComment "bop" "comment") (ESeq [ELab "comment" gap_e; ELab "bop" (ERef "branchOrPlugin")]).
Definition ifCond_e : expr :=
  EAct (AIfBlock "cond" "bops" "footerComment") (ESeq
    [lit "if"; gaps_e; warn_e; ELab "cond" (ERef "condition"); gaps_e; warn_e; lit "{";
     ELab "bops" (EStar block_bop_e); ELab "footerComment" gap_e; close "}" (fatal "expect closing curly bracket")]).
Definition elseIf_e : expr :=
  EAct (AElseIfBlock "cond" "bops" "footerComment") (ESeq
    [lit "else"; gaps_e; warn_e; lit "if"; gaps_e; warn_e; ELab "cond" (ERef "condition"); gaps_e; warn_e; lit "{";
     ELab "bops" (EStar block_bop_e); ELab "footerComment" gap_e; close "}" (fatal "expect closing curly bracket")]).
Definition elseCond_e : expr :=
  EAct (AElseBlock "bops" "footerComment") (ESeq
    [lit "else"; gaps_e; warn_e; lit "{";
     ELab "bops" (EStar block_bop_e); ELab "footerComment" gap_e; close "}" (fatal "expect closing curly bracket")]).
(** peg:618-623 booleanOperator, 431-438 condition *)
Definition boolop_e : expr :=
  EAct ABooleanOperator (EChoice [lit "and"; lit "or"; lit "xor"; lit "nand"; soft "expect boolean operator (and, or, xor, nand)"]).
Definition more_expr_e : expr :=
  EAct (AExpression "bo" "cond") (ESeq
    [gaps_e; warn_e; ELab "bo" boolop_e; gaps_e; warn_e; ELab "cond" (ERef "expression")]).
Definition condition_e : expr :=
  EAct (ACondition "cond" "conds") (ESeq [ELab "cond" (ERef "expression"); ELab "conds" (EStar more_expr_e)]).
(** peg:452-468 expression *)
Definition paren_e : expr :=
  EAct (AConditionExpression "cond") (ESeq
    [lit "("; gaps_e; warn_e; ELab "cond" (ERef "condition"); gaps_e; warn_e; lit ")"]).
Definition expression_e : expr :=
  EChoice [paren_e; ERef "negativeExpression"; ERef "inExpression"; ERef "notInExpression";
           ERef "compareExpression"; ERef "regexpExpression"; EAct (ARvalue "rv") (ELab "rv" (ERef "rvalue"))].
(** peg:477-493 negativeExpression *)
Definition neg_paren_e : expr :=
  EAct (ANegativeExpression "cond") (ESeq
    [lit "!"; gaps_e; warn_e; lit "("; gaps_e; warn_e; ELab "cond" (ERef "condition"); gaps_e; warn_e;
     close ")" (fatal "expect closing parenthesis")]).
Definition neg_sel_e : expr :=
  EAct (ANegativeSelector "sel") (ESeq [lit "!"; gaps_e; warn_e; ELab "sel" selector_e]).
Definition negativeExpression_e : expr := EChoice [neg_paren_e; neg_sel_e].
(** peg:500-503 inExpression, 519-522 inOperator *)
Definition in_op_e : expr := EChoice [lit "in"; soft "expect in operator (in)"].
Definition inExpression_e : expr :=
  EAct (AInExpression "lv" "rv") (ESeq
    [ELab "lv" (ERef "rvalue"); gaps_e; warn_e; in_op_e; gaps_e; warn_e; ELab "rv" (ERef "rvalue")]).
(** peg:510-513 notInExpression, 528-531 notInOperator *)
Definition not_in_op_e : expr :=
  EChoice [ESeq [lit "not "; gaps_e; warn_e; lit "in"]; soft "expect not in operator (not in)"].
Definition notInExpression_e : expr :=
  EAct (ANotInExpression "lv" "rv") (ESeq
    [ELab "lv" (ERef "rvalue"); gaps_e; warn_e; not_in_op_e; gaps_e; warn_e; ELab "rv" (ERef "rvalue")]).
(** peg:540-543 rvalue *)
Definition rvalue_e : expr :=
  EChoice [string_e; number_e; selector_e; ERef "array"; regexp_e; soft "invalid value for expression"].
(** peg:585-590 compareOperator (the generator merges the two single characters),
    575-578 compareExpression *)
Definition cmpop_e : expr :=
  EAct ACompareOperator (EChoice
    [lit "=="; lit "!="; lit "<="; lit ">="; EClass "[<>]" [60; 62]%N [] false;
     soft "expect compare operator (==, !=, <=, >=, <, >)"]).
Definition compareExpression_e : expr :=
  EAct (ACompareExpression "lv" "co" "rv") (ESeq
    [ELab "lv" (ERef "rvalue"); gaps_e; warn_e; ELab "co" cmpop_e; gaps_e; warn_e; ELab "rv" (ERef "rvalue")]).
(** peg:606-611 regexpOperator, 597-600 regexpExpression *)
Definition reop_e : expr :=
  EAct ARegexpOperator (EChoice [lit "=~"; lit "!~"; soft "expect regexp comparison operator (=~, !~)"]).
Definition regexpExpression_e : expr :=
  EAct (ARegexpExpression "lv" "ro" "rv") (ESeq
    [ELab "lv" (ERef "rvalue"); gaps_e; warn_e; ELab "ro" reop_e; gaps_e; warn_e;
     ELab "rv" (EChoice [string_e; regexp_e])]).

Definition rules : grammar :=
  [("init", init_e); ("config", config_e); ("pluginSection", pluginSection_e); ("branchOrPlugin", branchOrPlugin_e);
   ("plugin", plugin_e); ("attribute", attribute_e); ("value", value_e); ("array", array_e); ("hash", hash_e);
   ("hashentries", hashentries_e); ("hashentry", hashentry_e); ("branch", branch_e); ("ifCond", ifCond_e);
   ("elseIf", elseIf_e); ("elseCond", elseCond_e); ("condition", condition_e); ("expression", expression_e);
   ("negativeExpression", negativeExpression_e); ("inExpression", inExpression_e); ("notInExpression", notInExpression_e);
   ("rvalue", rvalue_e); ("compareExpression", compareExpression_e); ("regexpExpression", regexpExpression_e)]%string.

(** The generated Go grammar is the published one. *)
Lemma rules_are_generated : gen_grammar = rules.
Proof. vm_compute. reflexivity. Qed.
