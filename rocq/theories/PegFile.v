(* GENERATED by tools/gen_peg.py from /repo/logstash_config.peg: every rule of the grammar
   file, nothing inlined.  Do not edit: regenerate. *)
From Coq Require Import List NArith String.
From Verif Require Import Ast Peg.
Import ListNotations.
Local Open Scope string_scope.
Local Open Scope N_scope.

(** logstash_config.peg:7-21 *)
Definition peg_init : expr :=
  EAct (ARetConfig "conf")
    (ESeq
      [EStateCode (SInitState);
      EAndCode (PInitParser);
      ELab "conf" (EChoice
          [EAct (ARet "conf")
            (ESeq
              [ELab "conf" (ERef "config");
              ERef "EOF"]);
          EAct (AEmptyConfig)
            (ESeq
              [ERef "_";
              ERef "EOF"])])]).

(** logstash_config.peg:29-36 *)
Definition peg_config : expr :=
  EAct (AConfig "ps" "pss" "psComment" "footerComment")
    (ESeq
      [ELab "psComment" (ERef "_");
      ELab "ps" (ERef "pluginSection");
      ELab "pss" (EStar (EAct (AConfigSection "ps" "psComment")
            (ESeq
              [ELab "psComment" (ERef "_");
              ELab "ps" (ERef "pluginSection")])));
      ELab "footerComment" (ERef "_");
      ERef "EOF"]).

(** logstash_config.peg:42-45 *)
Definition peg_comment : expr :=
  EAct (AComment)
    (EPlus (ESeq
        [EOpt (ERef "whitespace");
        ELit """#""" [35];
        EStar (EClass "[^\r\n]" [13; 10] [] true);
        EOpt (ELit """\r""" [13]);
        EChoice
          [ELit """\n""" [10];
          ERef "EOF"]])).

(** logstash_config.peg:51-52 *)
Definition peg__ : expr :=
  EStar (EChoice
      [ERef "comment";
      ERef "whitespace"]).

(** logstash_config.peg:57-62 *)
Definition peg___ : expr :=
  ESeq
    [EAct (AStr)
      (EStar (EChoice
          [ERef "comment";
          ERef "whitespace"]));
    EStateCode (SWarnComment)].

(** logstash_config.peg:68-71 *)
Definition peg_whitespace : expr :=
  EAct (AWhitespace)
    (EPlus (EClass "[ \t\r\n]" [32; 9; 13; 10] [] false)).

(** logstash_config.peg:83-94 *)
Definition peg_pluginSection : expr :=
  EAct (APluginSection "pt" "bops" "footerComment")
    (ESeq
      [ELab "pt" (ERef "pluginType");
      ERef "__";
      ELit """{""" [123];
      ELab "bops" (EStar (EAct (ARet "bop")
            (ELab "bop" (ERef "branchOrPlugin"))));
      ELab "footerComment" (ERef "_");
      EChoice
        [ELit """}""" [125];
        EAndCode (PPushError "expect closing curly bracket")]]).

(** logstash_config.peg:100-101 *)
Definition peg_branchOrPlugin : expr :=
  EChoice
    [ERef "branch";
    ERef "plugin"].

(** logstash_config.peg:107-116 *)
Definition peg_pluginType : expr :=
  EChoice
    [EAct (APluginType PTInput)
      (ELit """input""" [105; 110; 112; 117; 116]);
    EAct (APluginType PTFilter)
      (ELit """filter""" [102; 105; 108; 116; 101; 114]);
    EAct (APluginType PTOutput)
      (ELit """output""" [111; 117; 116; 112; 117; 116]);
    EAndCode (PPushError "expect plugin type (input, filter, output)")].

(** logstash_config.peg:134-149 *)
Definition peg_plugin : expr :=
  EAct (APlugin "name" "attributes" "comment" "footerComment")
    (ESeq
      [ELab "comment" (ERef "_");
      ELab "name" (ERef "name");
      ERef "__";
      ELit """{""" [123];
      ELab "attributes" (EOpt (EAct (AAttributes "attribute" "attrs" "comment")
            (ESeq
              [ELab "comment" (ERef "_");
              ELab "attribute" (ERef "attribute");
              ELab "attrs" (EStar (EAct (AAttributeComment "attribute" "comment" true)
                    (ESeq
                      [ERef "whitespace";
                      ELab "comment" (ERef "_");
                      ELab "attribute" (ERef "attribute")])))])));
      ELab "footerComment" (ERef "_");
      EChoice
        [ELit """}""" [125];
        EAndCode (PFatalError "expect closing curly bracket")]]).

(** logstash_config.peg:158-163 *)
Definition peg_name : expr :=
  EChoice
    [EAct (AString Bareword)
      (EPlus (EClass "[A-Za-z0-9_-]" [95; 45] [(65, 90); (97, 122); (48, 57)] false));
    EAct (ARet "value")
      (ELab "value" (ERef "stringValue"))].

(** logstash_config.peg:170-173 *)
Definition peg_attribute : expr :=
  EAct (AAttribute "name" "value")
    (ESeq
      [ELab "name" (ERef "name");
      ERef "__";
      ELit """=>""" [61; 62];
      ERef "__";
      ELab "value" (ERef "value")]).

(** logstash_config.peg:179-182 *)
Definition peg_value : expr :=
  EChoice
    [ERef "plugin";
    ERef "bareword";
    ERef "stringValue";
    ERef "number";
    ERef "array";
    ERef "hash";
    EAndCode (PPushError "invalid value")].

(** logstash_config.peg:188-191 *)
Definition peg_arrayValue : expr :=
  EChoice
    [ERef "bareword";
    ERef "stringValue";
    ERef "number";
    ERef "array";
    ERef "hash";
    EAndCode (PFatalError "invalid array value")].

(** logstash_config.peg:198-201 *)
Definition peg_bareword : expr :=
  EAct (AString Bareword)
    (ESeq
      [EClass "[A-Za-z_]" [95] [(65, 90); (97, 122)] false;
      EPlus (EClass "[A-Za-z0-9_]" [95] [(65, 90); (97, 122); (48, 57)] false)]).

(** logstash_config.peg:207-214 *)
Definition peg_doubleQuotedString : expr :=
  EAct (AEnclosedValue)
    (ESeq
      [ELit """\""""" [34];
      EStar (EChoice
          [ELit """\\\""""" [92; 34];
          ESeq
            [ENot (ELit """\""""" [34]);
            EAny]]);
      EChoice
        [ELit """\""""" [34];
        EAndCode (PFatalError "expect closing double quotes ("")")]]).

(** logstash_config.peg:220-227 *)
Definition peg_singleQuotedString : expr :=
  EAct (AEnclosedValue)
    (ESeq
      [ELit """'""" [39];
      EStar (EChoice
          [ELit """\\'""" [92; 39];
          ESeq
            [ENot (ELit """'""" [39]);
            EAny]]);
      EChoice
        [ELit """'""" [39];
        EAndCode (PFatalError "expect closing single quote (')")]]).

(** logstash_config.peg:233-240 *)
Definition peg_stringValue : expr :=
  EAct (ARet "str")
    (ELab "str" (EChoice
        [EAct (AString DoubleQuoted)
          (ELab "str" (ERef "doubleQuotedString"));
        EAct (AString SingleQuoted)
          (ELab "str" (ERef "singleQuotedString"))])).

(** logstash_config.peg:246-253 *)
Definition peg_regexp : expr :=
  EAct (ARegexp)
    (ESeq
      [ELit """/""" [47];
      EStar (EChoice
          [ELit """\\/""" [92; 47];
          ESeq
            [ENot (ELit """/""" [47]);
            EAny]]);
      EChoice
        [ELit """/""" [47];
        EAndCode (PFatalError "expect closing slash (/) for regexp")]]).

(** logstash_config.peg:260-263 *)
Definition peg_number : expr :=
  EAct (ANumber)
    (ESeq
      [EOpt (ELit """-""" [45]);
      EPlus (EClass "[0-9]" [] [(48, 57)] false);
      EOpt (ESeq
          [ELit """.""" [46];
          EStar (EClass "[0-9]" [] [(48, 57)] false)])]).

(** logstash_config.peg:280-295 *)
Definition peg_array : expr :=
  EAct (AArray "values" "footerComment")
    (ESeq
      [ELit """[""" [91];
      ELab "values" (EOpt (EAct (AAttributes "value" "values" "comment")
            (ESeq
              [ELab "comment" (ERef "_");
              ELab "value" (ERef "value");
              ELab "values" (EStar (EAct (AAttributeComment "value" "comment" true)
                    (ESeq
                      [ERef "__";
                      ELit """,""" [44];
                      ELab "comment" (ERef "_");
                      ELab "value" (ERef "value")])))])));
      ELab "footerComment" (ERef "_");
      EChoice
        [ELit """]""" [93];
        EAndCode (PFatalError "expect closing square bracket")]]).

(** logstash_config.peg:308-315 *)
Definition peg_hash : expr :=
  EAct (AHash "entries" "footerComment")
    (ESeq
      [ELit """{""" [123];
      ELab "entries" (EOpt (ERef "hashentries"));
      ELab "footerComment" (ERef "_");
      EChoice
        [ELit """}""" [125];
        EAndCode (PFatalError "expect closing curly bracket")]]).

(** logstash_config.peg:322-329 *)
Definition peg_hashentries : expr :=
  EAct (AHashentries "hashentry" "hashentries1")
    (ESeq
      [ELab "hashentry" (ERef "hashentry");
      ELab "hashentries1" (EStar (EAct (ARet "hashentry")
            (ESeq
              [ERef "whitespace";
              ELab "hashentry" (ERef "hashentry")])))]).

(** logstash_config.peg:336-339 *)
Definition peg_hashentry : expr :=
  EAct (AHashentry "name" "value" "comment")
    (ESeq
      [ELab "comment" (ERef "_");
      ELab "name" (EChoice
          [ERef "number";
          ERef "bareword";
          ERef "stringValue"]);
      ERef "__";
      ELit """=>""" [61; 62];
      ERef "__";
      ELab "value" (ERef "value")]).

(** logstash_config.peg:350-361 *)
Definition peg_branch : expr :=
  EAct (ABranch "ifBlock" "elseIfBlocks" "elseBlock" "ifComment")
    (ESeq
      [ELab "ifComment" (ERef "_");
      ELab "ifBlock" (ERef "ifCond");
      ELab "elseIfBlocks" (EStar (EAct (AElseIfComment "eib" "eibComment")
            (ESeq
              [ELab "eibComment" (ERef "_");
              ELab "eib" (ERef "elseIf")])));
      ELab "elseBlock" (EOpt (EAct (AElseComment "eb" "ebComment")
            (ESeq
              [ELab "ebComment" (ERef "_");
              ELab "eb" (ERef "elseCond")])))]).

(** logstash_config.peg:371-382 *)
Definition peg_ifCond : expr :=
  EAct (AIfBlock "cond" "bops" "footerComment")
    (ESeq
      [ELit """if""" [105; 102];
      ERef "__";
      ELab "cond" (ERef "condition");
      ERef "__";
      ELit """{""" [123];
      ELab "bops" (EStar (EAct (ABranchOrPluginComment "bop" "comment")
            (ESeq
              [ELab "comment" (ERef "_");
              ELab "bop" (ERef "branchOrPlugin")])));
      ELab "footerComment" (ERef "_");
      EChoice
        [ELit """}""" [125];
        EAndCode (PFatalError "expect closing curly bracket")]]).

(** logstash_config.peg:392-403 *)
Definition peg_elseIf : expr :=
  EAct (AElseIfBlock "cond" "bops" "footerComment")
    (ESeq
      [ELit """else""" [101; 108; 115; 101];
      ERef "__";
      ELit """if""" [105; 102];
      ERef "__";
      ELab "cond" (ERef "condition");
      ERef "__";
      ELit """{""" [123];
      ELab "bops" (EStar (EAct (ABranchOrPluginComment "bop" "comment")
            (ESeq
              [ELab "comment" (ERef "_");
              ELab "bop" (ERef "branchOrPlugin")])));
      ELab "footerComment" (ERef "_");
      EChoice
        [ELit """}""" [125];
        EAndCode (PFatalError "expect closing curly bracket")]]).

(** logstash_config.peg:413-424 *)
Definition peg_elseCond : expr :=
  EAct (AElseBlock "bops" "footerComment")
    (ESeq
      [ELit """else""" [101; 108; 115; 101];
      ERef "__";
      ELit """{""" [123];
      ELab "bops" (EStar (EAct (ABranchOrPluginComment "bop" "comment")
            (ESeq
              [ELab "comment" (ERef "_");
              ELab "bop" (ERef "branchOrPlugin")])));
      ELab "footerComment" (ERef "_");
      EChoice
        [ELit """}""" [125];
        EAndCode (PFatalError "expect closing curly bracket")]]).

(** logstash_config.peg:431-438 *)
Definition peg_condition : expr :=
  EAct (ACondition "cond" "conds")
    (ESeq
      [ELab "cond" (ERef "expression");
      ELab "conds" (EStar (EAct (AExpression "bo" "cond")
            (ESeq
              [ERef "__";
              ELab "bo" (ERef "booleanOperator");
              ERef "__";
              ELab "cond" (ERef "expression")])))]).

(** logstash_config.peg:452-468 *)
Definition peg_expression : expr :=
  EChoice
    [EAct (AConditionExpression "cond")
      (ESeq
        [ELit """(""" [40];
        ERef "__";
        ELab "cond" (ERef "condition");
        ERef "__";
        ELit """)""" [41]]);
    ERef "negativeExpression";
    ERef "inExpression";
    ERef "notInExpression";
    ERef "compareExpression";
    ERef "regexpExpression";
    EAct (ARvalue "rv")
      (ELab "rv" (ERef "rvalue"))].

(** logstash_config.peg:477-493 *)
Definition peg_negativeExpression : expr :=
  EChoice
    [EAct (ANegativeExpression "cond")
      (ESeq
        [ELit """!""" [33];
        ERef "__";
        ELit """(""" [40];
        ERef "__";
        ELab "cond" (ERef "condition");
        ERef "__";
        EChoice
          [ELit """)""" [41];
          EAndCode (PFatalError "expect closing parenthesis")]]);
    EAct (ANegativeSelector "sel")
      (ESeq
        [ELit """!""" [33];
        ERef "__";
        ELab "sel" (ERef "selector")])].

(** logstash_config.peg:500-503 *)
Definition peg_inExpression : expr :=
  EAct (AInExpression "lv" "rv")
    (ESeq
      [ELab "lv" (ERef "rvalue");
      ERef "__";
      ERef "inOperator";
      ERef "__";
      ELab "rv" (ERef "rvalue")]).

(** logstash_config.peg:510-513 *)
Definition peg_notInExpression : expr :=
  EAct (ANotInExpression "lv" "rv")
    (ESeq
      [ELab "lv" (ERef "rvalue");
      ERef "__";
      ERef "notInOperator";
      ERef "__";
      ELab "rv" (ERef "rvalue")]).

(** logstash_config.peg:519-522 *)
Definition peg_inOperator : expr :=
  EChoice
    [ELit """in""" [105; 110];
    EAndCode (PPushError "expect in operator (in)")].

(** logstash_config.peg:528-531 *)
Definition peg_notInOperator : expr :=
  EChoice
    [ESeq
      [ELit """not """ [110; 111; 116; 32];
      ERef "__";
      ELit """in""" [105; 110]];
    EAndCode (PPushError "expect not in operator (not in)")].

(** logstash_config.peg:540-543 *)
Definition peg_rvalue : expr :=
  EChoice
    [ERef "stringValue";
    ERef "number";
    ERef "selector";
    ERef "array";
    ERef "regexp";
    EAndCode (PPushError "invalid value for expression")].

(** logstash_config.peg:575-578 *)
Definition peg_compareExpression : expr :=
  EAct (ACompareExpression "lv" "co" "rv")
    (ESeq
      [ELab "lv" (ERef "rvalue");
      ERef "__";
      ELab "co" (ERef "compareOperator");
      ERef "__";
      ELab "rv" (ERef "rvalue")]).

(** logstash_config.peg:585-590 *)
Definition peg_compareOperator : expr :=
  EAct (ACompareOperator)
    (EChoice
      [ELit """==""" [61; 61];
      ELit """!=""" [33; 61];
      ELit """<=""" [60; 61];
      ELit """>=""" [62; 61];
      ELit """<""" [60];
      ELit """>""" [62];
      EAndCode (PPushError "expect compare operator (==, !=, <=, >=, <, >)")]).

(** logstash_config.peg:597-600 *)
Definition peg_regexpExpression : expr :=
  EAct (ARegexpExpression "lv" "ro" "rv")
    (ESeq
      [ELab "lv" (ERef "rvalue");
      ERef "__";
      ELab "ro" (ERef "regexpOperator");
      ERef "__";
      ELab "rv" (EChoice
          [ERef "stringValue";
          ERef "regexp"])]).

(** logstash_config.peg:606-611 *)
Definition peg_regexpOperator : expr :=
  EAct (ARegexpOperator)
    (EChoice
      [ELit """=~""" [61; 126];
      ELit """!~""" [33; 126];
      EAndCode (PPushError "expect regexp comparison operator (=~, !~)")]).

(** logstash_config.peg:618-623 *)
Definition peg_booleanOperator : expr :=
  EAct (ABooleanOperator)
    (EChoice
      [ELit """and""" [97; 110; 100];
      ELit """or""" [111; 114];
      ELit """xor""" [120; 111; 114];
      ELit """nand""" [110; 97; 110; 100];
      EAndCode (PPushError "expect boolean operator (and, or, xor, nand)")]).

(** logstash_config.peg:630-633 *)
Definition peg_selector : expr :=
  EAct (ASelector "ses")
    (ELab "ses" (EPlus (ERef "selectorElement"))).

(** logstash_config.peg:640-647 *)
Definition peg_selectorElement : expr :=
  EAct (ASelectorElement)
    (ESeq
      [ELit """[""" [91];
      EPlus (EClass "[^\][,]" [93; 91; 44] [] true);
      EChoice
        [ELit """]""" [93];
        EAndCode (PPushError "expect closing square bracket")]]).

(** logstash_config.peg:649-649 *)
Definition peg_EOF : expr :=
  ENot (EAny).

Definition peg_grammar : grammar :=
  [("init", peg_init);
   ("config", peg_config);
   ("comment", peg_comment);
   ("_", peg__);
   ("__", peg___);
   ("whitespace", peg_whitespace);
   ("pluginSection", peg_pluginSection);
   ("branchOrPlugin", peg_branchOrPlugin);
   ("pluginType", peg_pluginType);
   ("plugin", peg_plugin);
   ("name", peg_name);
   ("attribute", peg_attribute);
   ("value", peg_value);
   ("arrayValue", peg_arrayValue);
   ("bareword", peg_bareword);
   ("doubleQuotedString", peg_doubleQuotedString);
   ("singleQuotedString", peg_singleQuotedString);
   ("stringValue", peg_stringValue);
   ("regexp", peg_regexp);
   ("number", peg_number);
   ("array", peg_array);
   ("hash", peg_hash);
   ("hashentries", peg_hashentries);
   ("hashentry", peg_hashentry);
   ("branch", peg_branch);
   ("ifCond", peg_ifCond);
   ("elseIf", peg_elseIf);
   ("elseCond", peg_elseCond);
   ("condition", peg_condition);
   ("expression", peg_expression);
   ("negativeExpression", peg_negativeExpression);
   ("inExpression", peg_inExpression);
   ("notInExpression", peg_notInExpression);
   ("inOperator", peg_inOperator);
   ("notInOperator", peg_notInOperator);
   ("rvalue", peg_rvalue);
   ("compareExpression", peg_compareExpression);
   ("compareOperator", peg_compareOperator);
   ("regexpExpression", peg_regexpExpression);
   ("regexpOperator", peg_regexpOperator);
   ("booleanOperator", peg_booleanOperator);
   ("selector", peg_selector);
   ("selectorElement", peg_selectorElement);
   ("EOF", peg_EOF)].
