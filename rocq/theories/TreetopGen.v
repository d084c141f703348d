(** Generated by tools/gen_treetop.py from /repo/grammar.treetop; do not edit. *)
From Coq Require Import List NArith String.
From Verif Require Import Bytes Treetop.
Import ListNotations.
Open Scope string_scope.

Definition treetop_grammar : list (string * tx) := [
  (* grammar.treetop:5 *)
  ("config", TSeq [TRef "_"; TRef "plugin_section"; TRef "_"; TStar (TSeq [TRef "_"; TRef "plugin_section"]); TRef "_"]);
  (* grammar.treetop:9 *)
  ("comment", TPlus (TSeq [TOpt (TRef "whitespace"); TLit [35]%N; TStar (TClass true [13; 10]%N []%N); TOpt (TLit [13]%N); TLit [10]%N]));
  (* grammar.treetop:13 *)
  ("_", TStar (TAlt [TRef "comment"; TRef "whitespace"]));
  (* grammar.treetop:17 *)
  ("whitespace", TPlus (TClass false [32; 9; 13; 10]%N []%N));
  (* grammar.treetop:21 *)
  ("plugin_section", TSeq [TRef "plugin_type"; TRef "_"; TLit [123]%N; TRef "_"; TStar (TSeq [TRef "branch_or_plugin"; TRef "_"]); TLit [125]%N]);
  (* grammar.treetop:28 *)
  ("branch_or_plugin", TAlt [TRef "branch"; TRef "plugin"]);
  (* grammar.treetop:32 *)
  ("plugin_type", TAlt [TLit [105; 110; 112; 117; 116]%N; TLit [102; 105; 108; 116; 101; 114]%N; TLit [111; 117; 116; 112; 117; 116]%N]);
  (* grammar.treetop:36 *)
  ("plugins", TOpt (TSeq [TRef "plugin"; TStar (TSeq [TRef "_"; TRef "plugin"])]));
  (* grammar.treetop:41 *)
  ("plugin", TSeq [TRef "name"; TRef "_"; TLit [123]%N; TRef "_"; TOpt (TSeq [TRef "attribute"; TStar (TSeq [TRef "whitespace"; TRef "_"; TRef "attribute"])]); TRef "_"; TLit [125]%N]);
  (* grammar.treetop:50 *)
  ("name", TAlt [TPlus (TClass false [95; 45]%N [(65, 90); (97, 122); (48, 57)]%N); TRef "string"]);
  (* grammar.treetop:57 *)
  ("attribute", TSeq [TRef "name"; TRef "_"; TLit [61; 62]%N; TRef "_"; TRef "value"]);
  (* grammar.treetop:62 *)
  ("value", TAlt [TRef "plugin"; TRef "bareword"; TRef "string"; TRef "number"; TRef "array"; TRef "hash"]);
  (* grammar.treetop:66 *)
  ("array_value", TAlt [TRef "bareword"; TRef "string"; TRef "number"; TRef "array"; TRef "hash"]);
  (* grammar.treetop:70 *)
  ("bareword", TSeq [TClass false [95]%N [(65, 90); (97, 122)]%N; TPlus (TClass false [95]%N [(65, 90); (97, 122); (48, 57)]%N)]);
  (* grammar.treetop:75 *)
  ("double_quoted_string", TSeq [TLit [34]%N; TStar (TAlt [TLit [92; 34]%N; TSeq [TNot (TLit [34]%N); TAny]]); TLit [34]%N]);
  (* grammar.treetop:79 *)
  ("single_quoted_string", TSeq [TLit [39]%N; TStar (TAlt [TLit [92; 39]%N; TSeq [TNot (TLit [39]%N); TAny]]); TLit [39]%N]);
  (* grammar.treetop:83 *)
  ("string", TAlt [TRef "double_quoted_string"; TRef "single_quoted_string"]);
  (* grammar.treetop:87 *)
  ("regexp", TSeq [TLit [47]%N; TStar (TAlt [TLit [92; 47]%N; TSeq [TNot (TLit [47]%N); TAny]]); TLit [47]%N]);
  (* grammar.treetop:91 *)
  ("number", TSeq [TOpt (TLit [45]%N); TPlus (TClass false []%N [(48, 57)]%N); TOpt (TSeq [TLit [46]%N; TStar (TClass false []%N [(48, 57)]%N)])]);
  (* grammar.treetop:96 *)
  ("array", TSeq [TLit [91]%N; TRef "_"; TOpt (TSeq [TRef "value"; TStar (TSeq [TRef "_"; TLit [44]%N; TRef "_"; TRef "value"])]); TRef "_"; TLit [93]%N]);
  (* grammar.treetop:107 *)
  ("hash", TSeq [TLit [123]%N; TRef "_"; TOpt (TRef "hashentries"); TRef "_"; TLit [125]%N]);
  (* grammar.treetop:116 *)
  ("hashentries", TSeq [TRef "hashentry"; TStar (TSeq [TRef "whitespace"; TRef "hashentry"])]);
  (* grammar.treetop:121 *)
  ("hashentry", TSeq [TAlt [TRef "number"; TRef "bareword"; TRef "string"]; TRef "_"; TLit [61; 62]%N; TRef "_"; TRef "value"]);
  (* grammar.treetop:127 *)
  ("branch", TSeq [TRef "if"; TStar (TSeq [TRef "_"; TRef "else_if"]); TOpt (TSeq [TRef "_"; TRef "else"])]);
  (* grammar.treetop:132 *)
  ("if", TSeq [TLit [105; 102]%N; TRef "_"; TRef "condition"; TRef "_"; TLit [123]%N; TRef "_"; TStar (TSeq [TRef "branch_or_plugin"; TRef "_"]); TLit [125]%N]);
  (* grammar.treetop:137 *)
  ("else_if", TSeq [TLit [101; 108; 115; 101]%N; TRef "_"; TLit [105; 102]%N; TRef "_"; TRef "condition"; TRef "_"; TLit [123]%N; TRef "_"; TStar (TSeq [TRef "branch_or_plugin"; TRef "_"]); TLit [125]%N]);
  (* grammar.treetop:142 *)
  ("else", TSeq [TLit [101; 108; 115; 101]%N; TRef "_"; TLit [123]%N; TRef "_"; TStar (TSeq [TRef "branch_or_plugin"; TRef "_"]); TLit [125]%N]);
  (* grammar.treetop:147 *)
  ("condition", TSeq [TRef "expression"; TStar (TSeq [TRef "_"; TRef "boolean_operator"; TRef "_"; TRef "expression"])]);
  (* grammar.treetop:152 *)
  ("expression", TAlt [TSeq [TLit [40]%N; TRef "_"; TRef "condition"; TRef "_"; TLit [41]%N]; TRef "negative_expression"; TRef "in_expression"; TRef "not_in_expression"; TRef "compare_expression"; TRef "regexp_expression"; TRef "rvalue"]);
  (* grammar.treetop:164 *)
  ("negative_expression", TAlt [TSeq [TLit [33]%N; TRef "_"; TLit [40]%N; TRef "_"; TRef "condition"; TRef "_"; TLit [41]%N]; TSeq [TLit [33]%N; TRef "_"; TRef "selector"]]);
  (* grammar.treetop:171 *)
  ("in_expression", TSeq [TRef "rvalue"; TRef "_"; TRef "in_operator"; TRef "_"; TRef "rvalue"]);
  (* grammar.treetop:176 *)
  ("not_in_expression", TSeq [TRef "rvalue"; TRef "_"; TRef "not_in_operator"; TRef "_"; TRef "rvalue"]);
  (* grammar.treetop:181 *)
  ("in_operator", TLit [105; 110]%N);
  (* grammar.treetop:185 *)
  ("not_in_operator", TSeq [TLit [110; 111; 116; 32]%N; TRef "_"; TLit [105; 110]%N]);
  (* grammar.treetop:189 *)
  ("rvalue", TAlt [TRef "string"; TRef "number"; TRef "selector"; TRef "array"; TRef "method_call"; TRef "regexp"]);
  (* grammar.treetop:193 *)
  ("method_call", TSeq [TRef "method"; TRef "_"; TLit [40]%N; TRef "_"; TOpt (TSeq [TRef "rvalue"; TStar (TSeq [TRef "_"; TLit [44]%N; TRef "_"; TRef "rvalue"])]); TRef "_"; TLit [41]%N]);
  (* grammar.treetop:202 *)
  ("method", TRef "bareword");
  (* grammar.treetop:206 *)
  ("compare_expression", TSeq [TRef "rvalue"; TRef "_"; TRef "compare_operator"; TRef "_"; TRef "rvalue"]);
  (* grammar.treetop:211 *)
  ("compare_operator", TAlt [TLit [61; 61]%N; TLit [33; 61]%N; TLit [60; 61]%N; TLit [62; 61]%N; TLit [60]%N; TLit [62]%N]);
  (* grammar.treetop:216 *)
  ("regexp_expression", TSeq [TRef "rvalue"; TRef "_"; TRef "regexp_operator"; TRef "_"; TAlt [TRef "string"; TRef "regexp"]]);
  (* grammar.treetop:221 *)
  ("regexp_operator", TAlt [TLit [61; 126]%N; TLit [33; 126]%N]);
  (* grammar.treetop:226 *)
  ("boolean_operator", TAlt [TLit [97; 110; 100]%N; TLit [111; 114]%N; TLit [120; 111; 114]%N; TLit [110; 97; 110; 100]%N]);
  (* grammar.treetop:231 *)
  ("selector", TPlus (TRef "selector_element"));
  (* grammar.treetop:236 *)
  ("selector_element", TSeq [TLit [91]%N; TPlus (TClass true [93; 44]%N []%N); TLit [93]%N])
].
