(* GENERATED by tools/gen_grammar.py --choices from /repo/logstash_config.go lines 23-8060
   (`var g = &grammar{...}`): the field pos of every choiceExpr, by rule and path of the
   node (child numbers, innermost first).  Do not edit: regenerate. *)
From Coq Require Import List String.
Import ListNotations.
Local Open Scope string_scope.

Definition choice_table : list ((string * list nat) * (nat * nat)) :=
  [(("init", [0; 2; 0]), (14, 9));
   (("init", [0; 0; 0; 1; 0; 2; 0]), (52, 6));
   (("init", [4; 0; 0; 0; 0; 0; 0; 1; 0; 2; 0]), (43, 38));
   (("config", [0; 0; 0; 0]), (52, 6));
   (("config", [4; 0; 0; 0; 0; 0; 0; 0]), (43, 38));
   (("config", [0; 0; 0; 0; 0; 0; 2; 0]), (52, 6));
   (("config", [4; 0; 0; 0; 0; 0; 0; 0; 0; 0; 2; 0]), (43, 38));
   (("config", [0; 0; 3; 0]), (52, 6));
   (("config", [4; 0; 0; 0; 0; 0; 3; 0]), (43, 38));
   (("pluginSection", [0; 0; 0]), (108, 5));
   (("pluginSection", [0; 0; 1; 0]), (58, 8));
   (("pluginSection", [4; 0; 0; 0; 0; 0; 1; 0]), (43, 38));
   (("pluginSection", [0; 0; 5; 0]), (52, 6));
   (("pluginSection", [4; 0; 0; 0; 0; 0; 5; 0]), (43, 38));
   (("pluginSection", [6; 0]), (89, 9));
   (("branchOrPlugin", []), (101, 5));
   (("plugin", [0; 0; 0; 0]), (52, 6));
   (("plugin", [4; 0; 0; 0; 0; 0; 0; 0]), (43, 38));
   (("plugin", [0; 1; 0]), (159, 7));
   (("plugin", [0; 0; 0; 0; 1; 0; 1; 0]), (234, 11));
   (("plugin", [0; 1; 0; 0; 0; 0; 0; 0; 0; 0; 1; 0; 1; 0]), (208, 13));
   (("plugin", [2; 0; 0; 0; 0; 0; 0; 0; 0; 1; 0; 1; 0]), (209, 9));
   (("plugin", [0; 1; 0; 0; 0; 1; 0; 0; 0; 0; 1; 0; 1; 0]), (221, 13));
   (("plugin", [2; 0; 0; 0; 1; 0; 0; 0; 0; 1; 0; 1; 0]), (222, 9));
   (("plugin", [0; 0; 2; 0]), (58, 8));
   (("plugin", [4; 0; 0; 0; 0; 0; 2; 0]), (43, 38));
   (("plugin", [0; 0; 0; 0; 0; 0; 5; 0]), (52, 6));
   (("plugin", [4; 0; 0; 0; 0; 0; 0; 0; 0; 0; 5; 0]), (43, 38));
   (("plugin", [0; 0; 1; 0; 0; 0; 2; 0; 0; 0; 5; 0]), (52, 6));
   (("plugin", [4; 0; 0; 0; 0; 0; 1; 0; 0; 0; 2; 0; 0; 0; 5; 0]), (43, 38));
   (("plugin", [0; 0; 6; 0]), (52, 6));
   (("plugin", [4; 0; 0; 0; 0; 0; 6; 0]), (43, 38));
   (("plugin", [7; 0]), (144, 9));
   (("attribute", [0; 0; 0]), (159, 7));
   (("attribute", [0; 0; 0; 0; 1; 0; 0; 0]), (234, 11));
   (("attribute", [0; 1; 0; 0; 0; 0; 0; 0; 0; 0; 1; 0; 0; 0]), (208, 13));
   (("attribute", [2; 0; 0; 0; 0; 0; 0; 0; 0; 1; 0; 0; 0]), (209, 9));
   (("attribute", [0; 1; 0; 0; 0; 1; 0; 0; 0; 0; 1; 0; 0; 0]), (221, 13));
   (("attribute", [2; 0; 0; 0; 1; 0; 0; 0; 0; 1; 0; 0; 0]), (222, 9));
   (("attribute", [0; 0; 1; 0]), (58, 8));
   (("attribute", [4; 0; 0; 0; 0; 0; 1; 0]), (43, 38));
   (("attribute", [0; 0; 4; 0]), (58, 8));
   (("attribute", [4; 0; 0; 0; 0; 0; 4; 0]), (43, 38));
   (("value", []), (180, 5));
   (("value", [0; 0; 2]), (234, 11));
   (("value", [0; 1; 0; 0; 0; 0; 0; 0; 2]), (208, 13));
   (("value", [2; 0; 0; 0; 0; 0; 0; 2]), (209, 9));
   (("value", [0; 1; 0; 0; 0; 1; 0; 0; 2]), (221, 13));
   (("value", [2; 0; 0; 0; 1; 0; 0; 2]), (222, 9));
   (("array", [0; 0; 0; 0; 0; 0; 1; 0]), (52, 6));
   (("array", [4; 0; 0; 0; 0; 0; 0; 0; 0; 0; 1; 0]), (43, 38));
   (("array", [0; 0; 0; 0; 0; 0; 2; 0; 0; 0; 1; 0]), (58, 8));
   (("array", [4; 0; 0; 0; 0; 0; 0; 0; 0; 0; 2; 0; 0; 0; 1; 0]), (43, 38));
   (("array", [0; 0; 3; 0; 0; 0; 2; 0; 0; 0; 1; 0]), (52, 6));
   (("array", [4; 0; 0; 0; 0; 0; 3; 0; 0; 0; 2; 0; 0; 0; 1; 0]), (43, 38));
   (("array", [0; 0; 2; 0]), (52, 6));
   (("array", [4; 0; 0; 0; 0; 0; 2; 0]), (43, 38));
   (("array", [3; 0]), (290, 9));
   (("hash", [0; 0; 2; 0]), (52, 6));
   (("hash", [4; 0; 0; 0; 0; 0; 2; 0]), (43, 38));
   (("hash", [3; 0]), (310, 9));
   (("hashentry", [0; 0; 0; 0]), (52, 6));
   (("hashentry", [4; 0; 0; 0; 0; 0; 0; 0]), (43, 38));
   (("hashentry", [0; 1; 0]), (337, 21));
   (("hashentry", [0; 0; 2; 0; 1; 0]), (234, 11));
   (("hashentry", [0; 1; 0; 0; 0; 0; 0; 0; 2; 0; 1; 0]), (208, 13));
   (("hashentry", [2; 0; 0; 0; 0; 0; 0; 2; 0; 1; 0]), (209, 9));
   (("hashentry", [0; 1; 0; 0; 0; 1; 0; 0; 2; 0; 1; 0]), (221, 13));
   (("hashentry", [2; 0; 0; 0; 1; 0; 0; 2; 0; 1; 0]), (222, 9));
   (("hashentry", [0; 0; 2; 0]), (58, 8));
   (("hashentry", [4; 0; 0; 0; 0; 0; 2; 0]), (43, 38));
   (("hashentry", [0; 0; 5; 0]), (58, 8));
   (("hashentry", [4; 0; 0; 0; 0; 0; 5; 0]), (43, 38));
   (("branch", [0; 0; 0; 0]), (52, 6));
   (("branch", [4; 0; 0; 0; 0; 0; 0; 0]), (43, 38));
   (("branch", [0; 0; 0; 0; 0; 0; 2; 0]), (52, 6));
   (("branch", [4; 0; 0; 0; 0; 0; 0; 0; 0; 0; 2; 0]), (43, 38));
   (("branch", [0; 0; 0; 0; 0; 0; 3; 0]), (52, 6));
   (("branch", [4; 0; 0; 0; 0; 0; 0; 0; 0; 0; 3; 0]), (43, 38));
   (("ifCond", [0; 0; 1; 0]), (58, 8));
   (("ifCond", [4; 0; 0; 0; 0; 0; 1; 0]), (43, 38));
   (("ifCond", [0; 0; 4; 0]), (58, 8));
   (("ifCond", [4; 0; 0; 0; 0; 0; 4; 0]), (43, 38));
   (("ifCond", [0; 0; 0; 0; 0; 0; 7; 0]), (52, 6));
   (("ifCond", [4; 0; 0; 0; 0; 0; 0; 0; 0; 0; 7; 0]), (43, 38));
   (("ifCond", [0; 0; 8; 0]), (52, 6));
   (("ifCond", [4; 0; 0; 0; 0; 0; 8; 0]), (43, 38));
   (("ifCond", [9; 0]), (377, 13));
   (("elseIf", [0; 0; 1; 0]), (58, 8));
   (("elseIf", [4; 0; 0; 0; 0; 0; 1; 0]), (43, 38));
   (("elseIf", [0; 0; 4; 0]), (58, 8));
   (("elseIf", [4; 0; 0; 0; 0; 0; 4; 0]), (43, 38));
   (("elseIf", [0; 0; 7; 0]), (58, 8));
   (("elseIf", [4; 0; 0; 0; 0; 0; 7; 0]), (43, 38));
   (("elseIf", [0; 0; 0; 0; 0; 0; 10; 0]), (52, 6));
   (("elseIf", [4; 0; 0; 0; 0; 0; 0; 0; 0; 0; 10; 0]), (43, 38));
   (("elseIf", [0; 0; 11; 0]), (52, 6));
   (("elseIf", [4; 0; 0; 0; 0; 0; 11; 0]), (43, 38));
   (("elseIf", [12; 0]), (398, 9));
   (("elseCond", [0; 0; 1; 0]), (58, 8));
   (("elseCond", [4; 0; 0; 0; 0; 0; 1; 0]), (43, 38));
   (("elseCond", [0; 0; 0; 0; 0; 0; 4; 0]), (52, 6));
   (("elseCond", [4; 0; 0; 0; 0; 0; 0; 0; 0; 0; 4; 0]), (43, 38));
   (("elseCond", [0; 0; 5; 0]), (52, 6));
   (("elseCond", [4; 0; 0; 0; 0; 0; 5; 0]), (43, 38));
   (("elseCond", [6; 0]), (419, 9));
   (("condition", [0; 0; 0; 0; 0; 0; 1; 0]), (58, 8));
   (("condition", [4; 0; 0; 0; 0; 0; 0; 0; 0; 0; 1; 0]), (43, 38));
   (("condition", [0; 0; 2; 0; 0; 0; 1; 0]), (619, 6));
   (("condition", [0; 0; 3; 0; 0; 0; 1; 0]), (58, 8));
   (("condition", [4; 0; 0; 0; 0; 0; 3; 0; 0; 0; 1; 0]), (43, 38));
   (("expression", []), (454, 9));
   (("expression", [0; 0; 1; 0; 0]), (58, 8));
   (("expression", [4; 0; 0; 0; 0; 0; 1; 0; 0]), (43, 38));
   (("expression", [0; 0; 4; 0; 0]), (58, 8));
   (("expression", [4; 0; 0; 0; 0; 0; 4; 0; 0]), (43, 38));
   (("negativeExpression", []), (479, 9));
   (("negativeExpression", [0; 0; 1; 0; 0]), (58, 8));
   (("negativeExpression", [4; 0; 0; 0; 0; 0; 1; 0; 0]), (43, 38));
   (("negativeExpression", [0; 0; 4; 0; 0]), (58, 8));
   (("negativeExpression", [4; 0; 0; 0; 0; 0; 4; 0; 0]), (43, 38));
   (("negativeExpression", [0; 0; 7; 0; 0]), (58, 8));
   (("negativeExpression", [4; 0; 0; 0; 0; 0; 7; 0; 0]), (43, 38));
   (("negativeExpression", [9; 0; 0]), (481, 17));
   (("negativeExpression", [0; 0; 1; 0; 1]), (58, 8));
   (("negativeExpression", [4; 0; 0; 0; 0; 0; 1; 0; 1]), (43, 38));
   (("negativeExpression", [2; 0; 0; 0; 0; 0; 3; 0; 1]), (642, 9));
   (("inExpression", [0; 0; 1; 0]), (58, 8));
   (("inExpression", [4; 0; 0; 0; 0; 0; 1; 0]), (43, 38));
   (("inExpression", [3; 0]), (520, 5));
   (("inExpression", [0; 0; 4; 0]), (58, 8));
   (("inExpression", [4; 0; 0; 0; 0; 0; 4; 0]), (43, 38));
   (("notInExpression", [0; 0; 1; 0]), (58, 8));
   (("notInExpression", [4; 0; 0; 0; 0; 0; 1; 0]), (43, 38));
   (("notInExpression", [3; 0]), (529, 5));
   (("notInExpression", [0; 0; 1; 0; 3; 0]), (58, 8));
   (("notInExpression", [4; 0; 0; 0; 0; 0; 1; 0; 3; 0]), (43, 38));
   (("notInExpression", [0; 0; 4; 0]), (58, 8));
   (("notInExpression", [4; 0; 0; 0; 0; 0; 4; 0]), (43, 38));
   (("rvalue", []), (541, 5));
   (("rvalue", [0; 0; 0]), (234, 11));
   (("rvalue", [0; 1; 0; 0; 0; 0; 0; 0; 0]), (208, 13));
   (("rvalue", [2; 0; 0; 0; 0; 0; 0; 0]), (209, 9));
   (("rvalue", [0; 1; 0; 0; 0; 1; 0; 0; 0]), (221, 13));
   (("rvalue", [2; 0; 0; 0; 1; 0; 0; 0]), (222, 9));
   (("rvalue", [2; 0; 0; 0; 0; 2]), (642, 9));
   (("rvalue", [0; 1; 0; 4]), (247, 13));
   (("rvalue", [2; 0; 4]), (248, 9));
   (("compareExpression", [0; 0; 1; 0]), (58, 8));
   (("compareExpression", [4; 0; 0; 0; 0; 0; 1; 0]), (43, 38));
   (("compareExpression", [0; 0; 3; 0]), (586, 6));
   (("compareExpression", [0; 0; 4; 0]), (58, 8));
   (("compareExpression", [4; 0; 0; 0; 0; 0; 4; 0]), (43, 38));
   (("regexpExpression", [0; 0; 1; 0]), (58, 8));
   (("regexpExpression", [4; 0; 0; 0; 0; 0; 1; 0]), (43, 38));
   (("regexpExpression", [0; 0; 3; 0]), (607, 6));
   (("regexpExpression", [0; 0; 4; 0]), (58, 8));
   (("regexpExpression", [4; 0; 0; 0; 0; 0; 4; 0]), (43, 38));
   (("regexpExpression", [0; 6; 0]), (598, 44));
   (("regexpExpression", [0; 0; 0; 0; 6; 0]), (234, 11));
   (("regexpExpression", [0; 1; 0; 0; 0; 0; 0; 0; 0; 0; 6; 0]), (208, 13));
   (("regexpExpression", [2; 0; 0; 0; 0; 0; 0; 0; 0; 6; 0]), (209, 9));
   (("regexpExpression", [0; 1; 0; 0; 0; 1; 0; 0; 0; 0; 6; 0]), (221, 13));
   (("regexpExpression", [2; 0; 0; 0; 1; 0; 0; 0; 0; 6; 0]), (222, 9));
   (("regexpExpression", [0; 1; 0; 1; 0; 6; 0]), (247, 13));
   (("regexpExpression", [2; 0; 1; 0; 6; 0]), (248, 9))].
