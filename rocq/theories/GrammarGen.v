(* GENERATED by tools/gen_grammar.py from /repo/logstash_config.go lines 23-8060
   (`var g = &grammar{...}`) and the on*/callon* bindings below it.
   Do not edit: regenerate.  Source positions are dropped; everything else is
   one Coq constructor per Go composite literal. *)
From Coq Require Import List NArith String.
From Verif Require Import Bytes Ast Peg.
Import ListNotations.
Local Open Scope string_scope.
Local Open Scope N_scope.

Definition gen_init : expr :=
  EAct (ARetConfig "conf")
    (ESeq
      [EStateCode (SInitState);
      EAndCode (PInitParser);
      ELab "conf"
        (EChoice
          [EAct (ARet "conf")
            (ESeq
              [ELab "conf"
                (ERef "config");
              ENot (EAny)]);
          EAct (AEmptyConfig)
            (ESeq
              [EStar
                (EChoice
                  [EAct (AComment)
                    (EPlus
                      (ESeq
                        [EOpt
                          (EAct (AWhitespace)
                            (EPlus
                              (EClass "[ \t\r\n]" [32; 9; 13; 10] [] false)));
                        ELit """#""" [35];
                        EStar
                          (EClass "[^\r\n]" [13; 10] [] true);
                        EOpt
                          (ELit """\r""" [13]);
                        EChoice
                          [ELit """\n""" [10];
                          ENot (EAny)]]));
                  EAct (AWhitespace)
                    (EPlus
                      (EClass "[ \t\r\n]" [32; 9; 13; 10] [] false))]);
              ENot (EAny)])])]).

Definition gen_config : expr :=
  EAct (AConfig "ps" "pss" "psComment" "footerComment")
    (ESeq
      [ELab "psComment"
        (EStar
          (EChoice
            [EAct (AComment)
              (EPlus
                (ESeq
                  [EOpt
                    (EAct (AWhitespace)
                      (EPlus
                        (EClass "[ \t\r\n]" [32; 9; 13; 10] [] false)));
                  ELit """#""" [35];
                  EStar
                    (EClass "[^\r\n]" [13; 10] [] true);
                  EOpt
                    (ELit """\r""" [13]);
                  EChoice
                    [ELit """\n""" [10];
                    ENot (EAny)]]));
            EAct (AWhitespace)
              (EPlus
                (EClass "[ \t\r\n]" [32; 9; 13; 10] [] false))]));
      ELab "ps"
        (ERef "pluginSection");
      ELab "pss"
        (EStar
          (EAct (AConfigSection "ps" "psComment")
            (ESeq
              [ELab "psComment"
                (EStar
                  (EChoice
                    [EAct (AComment)
                      (EPlus
                        (ESeq
                          [EOpt
                            (EAct (AWhitespace)
                              (EPlus
                                (EClass "[ \t\r\n]" [32; 9; 13; 10] [] false)));
                          ELit """#""" [35];
                          EStar
                            (EClass "[^\r\n]" [13; 10] [] true);
                          EOpt
                            (ELit """\r""" [13]);
                          EChoice
                            [ELit """\n""" [10];
                            ENot (EAny)]]));
                    EAct (AWhitespace)
                      (EPlus
                        (EClass "[ \t\r\n]" [32; 9; 13; 10] [] false))]));
              ELab "ps"
                (ERef "pluginSection")])));
      ELab "footerComment"
        (EStar
          (EChoice
            [EAct (AComment)
              (EPlus
                (ESeq
                  [EOpt
                    (EAct (AWhitespace)
                      (EPlus
                        (EClass "[ \t\r\n]" [32; 9; 13; 10] [] false)));
                  ELit """#""" [35];
                  EStar
                    (EClass "[^\r\n]" [13; 10] [] true);
                  EOpt
                    (ELit """\r""" [13]);
                  EChoice
                    [ELit """\n""" [10];
                    ENot (EAny)]]));
            EAct (AWhitespace)
              (EPlus
                (EClass "[ \t\r\n]" [32; 9; 13; 10] [] false))]));
      ENot (EAny)]).

Definition gen_pluginSection : expr :=
  EAct (APluginSection "pt" "bops" "footerComment")
    (ESeq
      [ELab "pt"
        (EChoice
          [EAct (APluginType PTInput)
            (ELit """input""" [105; 110; 112; 117; 116]);
          EAct (APluginType PTFilter)
            (ELit """filter""" [102; 105; 108; 116; 101; 114]);
          EAct (APluginType PTOutput)
            (ELit """output""" [111; 117; 116; 112; 117; 116]);
          EAndCode (PPushError "expect plugin type (input, filter, output)")]);
      EAct (AStr)
        (EStar
          (EChoice
            [EAct (AComment)
              (EPlus
                (ESeq
                  [EOpt
                    (EAct (AWhitespace)
                      (EPlus
                        (EClass "[ \t\r\n]" [32; 9; 13; 10] [] false)));
                  ELit """#""" [35];
                  EStar
                    (EClass "[^\r\n]" [13; 10] [] true);
                  EOpt
                    (ELit """\r""" [13]);
                  EChoice
                    [ELit """\n""" [10];
                    ENot (EAny)]]));
            EAct (AWhitespace)
              (EPlus
                (EClass "[ \t\r\n]" [32; 9; 13; 10] [] false))]));
      EStateCode (SWarnComment);
      ELit """{""" [123];
      ELab "bops"
        (EStar
          (EAct (ARet "bop")
            (ELab "bop"
              (ERef "branchOrPlugin"))));
      ELab "footerComment"
        (EStar
          (EChoice
            [EAct (AComment)
              (EPlus
                (ESeq
                  [EOpt
                    (EAct (AWhitespace)
                      (EPlus
                        (EClass "[ \t\r\n]" [32; 9; 13; 10] [] false)));
                  ELit """#""" [35];
                  EStar
                    (EClass "[^\r\n]" [13; 10] [] true);
                  EOpt
                    (ELit """\r""" [13]);
                  EChoice
                    [ELit """\n""" [10];
                    ENot (EAny)]]));
            EAct (AWhitespace)
              (EPlus
                (EClass "[ \t\r\n]" [32; 9; 13; 10] [] false))]));
      EChoice
        [ELit """}""" [125];
        EAndCode (PPushError "expect closing curly bracket")]]).

Definition gen_branchOrPlugin : expr :=
  EChoice
    [ERef "branch";
    ERef "plugin"].

Definition gen_plugin : expr :=
  EAct (APlugin "name" "attributes" "comment" "footerComment")
    (ESeq
      [ELab "comment"
        (EStar
          (EChoice
            [EAct (AComment)
              (EPlus
                (ESeq
                  [EOpt
                    (EAct (AWhitespace)
                      (EPlus
                        (EClass "[ \t\r\n]" [32; 9; 13; 10] [] false)));
                  ELit """#""" [35];
                  EStar
                    (EClass "[^\r\n]" [13; 10] [] true);
                  EOpt
                    (ELit """\r""" [13]);
                  EChoice
                    [ELit """\n""" [10];
                    ENot (EAny)]]));
            EAct (AWhitespace)
              (EPlus
                (EClass "[ \t\r\n]" [32; 9; 13; 10] [] false))]));
      ELab "name"
        (EChoice
          [EAct (AString Bareword)
            (EPlus
              (EClass "[_-A-Za-z0-9]" [95; 45] [(65, 90); (97, 122); (48, 57)] false));
          EAct (ARet "value")
            (ELab "value"
              (EAct (ARet "str")
                (ELab "str"
                  (EChoice
                    [EAct (AString DoubleQuoted)
                      (ELab "str"
                        (EAct (AEnclosedValue)
                          (ESeq
                            [ELit """\""""" [34];
                            EStar
                              (EChoice
                                [ELit """\\\""""" [92; 34];
                                ESeq
                                  [ENot (ELit """\""""" [34]);
                                  EAny]]);
                            EChoice
                              [ELit """\""""" [34];
                              EAndCode (PFatalError "expect closing double quotes ("")")]])));
                    EAct (AString SingleQuoted)
                      (ELab "str"
                        (EAct (AEnclosedValue)
                          (ESeq
                            [ELit """'""" [39];
                            EStar
                              (EChoice
                                [ELit """\\'""" [92; 39];
                                ESeq
                                  [ENot (ELit """'""" [39]);
                                  EAny]]);
                            EChoice
                              [ELit """'""" [39];
                              EAndCode (PFatalError "expect closing single quote (')")]])))]))))]);
      EAct (AStr)
        (EStar
          (EChoice
            [EAct (AComment)
              (EPlus
                (ESeq
                  [EOpt
                    (EAct (AWhitespace)
                      (EPlus
                        (EClass "[ \t\r\n]" [32; 9; 13; 10] [] false)));
                  ELit """#""" [35];
                  EStar
                    (EClass "[^\r\n]" [13; 10] [] true);
                  EOpt
                    (ELit """\r""" [13]);
                  EChoice
                    [ELit """\n""" [10];
                    ENot (EAny)]]));
            EAct (AWhitespace)
              (EPlus
                (EClass "[ \t\r\n]" [32; 9; 13; 10] [] false))]));
      EStateCode (SWarnComment);
      ELit """{""" [123];
      ELab "attributes"
        (EOpt
          (EAct (AAttributes "attribute" "attrs" "comment")
            (ESeq
              [ELab "comment"
                (EStar
                  (EChoice
                    [EAct (AComment)
                      (EPlus
                        (ESeq
                          [EOpt
                            (EAct (AWhitespace)
                              (EPlus
                                (EClass "[ \t\r\n]" [32; 9; 13; 10] [] false)));
                          ELit """#""" [35];
                          EStar
                            (EClass "[^\r\n]" [13; 10] [] true);
                          EOpt
                            (ELit """\r""" [13]);
                          EChoice
                            [ELit """\n""" [10];
                            ENot (EAny)]]));
                    EAct (AWhitespace)
                      (EPlus
                        (EClass "[ \t\r\n]" [32; 9; 13; 10] [] false))]));
              ELab "attribute"
                (ERef "attribute");
              ELab "attrs"
                (EStar
                  (EAct (AAttributeComment "attribute" "comment" true)
                    (ESeq
                      [EAct (AWhitespace)
                        (EPlus
                          (EClass "[ \t\r\n]" [32; 9; 13; 10] [] false));
                      ELab "comment"
                        (EStar
                          (EChoice
                            [EAct (AComment)
                              (EPlus
                                (ESeq
                                  [EOpt
                                    (EAct (AWhitespace)
                                      (EPlus
                                        (EClass "[ \t\r\n]" [32; 9; 13; 10] [] false)));
                                  ELit """#""" [35];
                                  EStar
                                    (EClass "[^\r\n]" [13; 10] [] true);
                                  EOpt
                                    (ELit """\r""" [13]);
                                  EChoice
                                    [ELit """\n""" [10];
                                    ENot (EAny)]]));
                            EAct (AWhitespace)
                              (EPlus
                                (EClass "[ \t\r\n]" [32; 9; 13; 10] [] false))]));
                      ELab "attribute"
                        (ERef "attribute")])))])));
      ELab "footerComment"
        (EStar
          (EChoice
            [EAct (AComment)
              (EPlus
                (ESeq
                  [EOpt
                    (EAct (AWhitespace)
                      (EPlus
                        (EClass "[ \t\r\n]" [32; 9; 13; 10] [] false)));
                  ELit """#""" [35];
                  EStar
                    (EClass "[^\r\n]" [13; 10] [] true);
                  EOpt
                    (ELit """\r""" [13]);
                  EChoice
                    [ELit """\n""" [10];
                    ENot (EAny)]]));
            EAct (AWhitespace)
              (EPlus
                (EClass "[ \t\r\n]" [32; 9; 13; 10] [] false))]));
      EChoice
        [ELit """}""" [125];
        EAndCode (PFatalError "expect closing curly bracket")]]).

Definition gen_attribute : expr :=
  EAct (AAttribute "name" "value")
    (ESeq
      [ELab "name"
        (EChoice
          [EAct (AString Bareword)
            (EPlus
              (EClass "[_-A-Za-z0-9]" [95; 45] [(65, 90); (97, 122); (48, 57)] false));
          EAct (ARet "value")
            (ELab "value"
              (EAct (ARet "str")
                (ELab "str"
                  (EChoice
                    [EAct (AString DoubleQuoted)
                      (ELab "str"
                        (EAct (AEnclosedValue)
                          (ESeq
                            [ELit """\""""" [34];
                            EStar
                              (EChoice
                                [ELit """\\\""""" [92; 34];
                                ESeq
                                  [ENot (ELit """\""""" [34]);
                                  EAny]]);
                            EChoice
                              [ELit """\""""" [34];
                              EAndCode (PFatalError "expect closing double quotes ("")")]])));
                    EAct (AString SingleQuoted)
                      (ELab "str"
                        (EAct (AEnclosedValue)
                          (ESeq
                            [ELit """'""" [39];
                            EStar
                              (EChoice
                                [ELit """\\'""" [92; 39];
                                ESeq
                                  [ENot (ELit """'""" [39]);
                                  EAny]]);
                            EChoice
                              [ELit """'""" [39];
                              EAndCode (PFatalError "expect closing single quote (')")]])))]))))]);
      EAct (AStr)
        (EStar
          (EChoice
            [EAct (AComment)
              (EPlus
                (ESeq
                  [EOpt
                    (EAct (AWhitespace)
                      (EPlus
                        (EClass "[ \t\r\n]" [32; 9; 13; 10] [] false)));
                  ELit """#""" [35];
                  EStar
                    (EClass "[^\r\n]" [13; 10] [] true);
                  EOpt
                    (ELit """\r""" [13]);
                  EChoice
                    [ELit """\n""" [10];
                    ENot (EAny)]]));
            EAct (AWhitespace)
              (EPlus
                (EClass "[ \t\r\n]" [32; 9; 13; 10] [] false))]));
      EStateCode (SWarnComment);
      ELit """=>""" [61; 62];
      EAct (AStr)
        (EStar
          (EChoice
            [EAct (AComment)
              (EPlus
                (ESeq
                  [EOpt
                    (EAct (AWhitespace)
                      (EPlus
                        (EClass "[ \t\r\n]" [32; 9; 13; 10] [] false)));
                  ELit """#""" [35];
                  EStar
                    (EClass "[^\r\n]" [13; 10] [] true);
                  EOpt
                    (ELit """\r""" [13]);
                  EChoice
                    [ELit """\n""" [10];
                    ENot (EAny)]]));
            EAct (AWhitespace)
              (EPlus
                (EClass "[ \t\r\n]" [32; 9; 13; 10] [] false))]));
      EStateCode (SWarnComment);
      ELab "value"
        (ERef "value")]).

Definition gen_value : expr :=
  EChoice
    [ERef "plugin";
    EAct (AString Bareword)
      (ESeq
        [EClass "[_A-Za-z]" [95] [(65, 90); (97, 122)] false;
        EPlus
          (EClass "[_A-Za-z0-9]" [95] [(65, 90); (97, 122); (48, 57)] false)]);
    EAct (ARet "str")
      (ELab "str"
        (EChoice
          [EAct (AString DoubleQuoted)
            (ELab "str"
              (EAct (AEnclosedValue)
                (ESeq
                  [ELit """\""""" [34];
                  EStar
                    (EChoice
                      [ELit """\\\""""" [92; 34];
                      ESeq
                        [ENot (ELit """\""""" [34]);
                        EAny]]);
                  EChoice
                    [ELit """\""""" [34];
                    EAndCode (PFatalError "expect closing double quotes ("")")]])));
          EAct (AString SingleQuoted)
            (ELab "str"
              (EAct (AEnclosedValue)
                (ESeq
                  [ELit """'""" [39];
                  EStar
                    (EChoice
                      [ELit """\\'""" [92; 39];
                      ESeq
                        [ENot (ELit """'""" [39]);
                        EAny]]);
                  EChoice
                    [ELit """'""" [39];
                    EAndCode (PFatalError "expect closing single quote (')")]])))]));
    EAct (ANumber)
      (ESeq
        [EOpt
          (ELit """-""" [45]);
        EPlus
          (EClass "[0-9]" [] [(48, 57)] false);
        EOpt
          (ESeq
            [ELit """.""" [46];
            EStar
              (EClass "[0-9]" [] [(48, 57)] false)])]);
    ERef "array";
    ERef "hash";
    EAndCode (PPushError "invalid value")].

Definition gen_array : expr :=
  EAct (AArray "values" "footerComment")
    (ESeq
      [ELit """[""" [91];
      ELab "values"
        (EOpt
          (EAct (AAttributes "value" "values" "comment")
            (ESeq
              [ELab "comment"
                (EStar
                  (EChoice
                    [EAct (AComment)
                      (EPlus
                        (ESeq
                          [EOpt
                            (EAct (AWhitespace)
                              (EPlus
                                (EClass "[ \t\r\n]" [32; 9; 13; 10] [] false)));
                          ELit """#""" [35];
                          EStar
                            (EClass "[^\r\n]" [13; 10] [] true);
                          EOpt
                            (ELit """\r""" [13]);
                          EChoice
                            [ELit """\n""" [10];
                            ENot (EAny)]]));
                    EAct (AWhitespace)
                      (EPlus
                        (EClass "[ \t\r\n]" [32; 9; 13; 10] [] false))]));
              ELab "value"
                (ERef "value");
              ELab "values"
                (EStar
                  (EAct (AAttributeComment "value" "comment" true)
                    (ESeq
                      [EAct (AStr)
                        (EStar
                          (EChoice
                            [EAct (AComment)
                              (EPlus
                                (ESeq
                                  [EOpt
                                    (EAct (AWhitespace)
                                      (EPlus
                                        (EClass "[ \t\r\n]" [32; 9; 13; 10] [] false)));
                                  ELit """#""" [35];
                                  EStar
                                    (EClass "[^\r\n]" [13; 10] [] true);
                                  EOpt
                                    (ELit """\r""" [13]);
                                  EChoice
                                    [ELit """\n""" [10];
                                    ENot (EAny)]]));
                            EAct (AWhitespace)
                              (EPlus
                                (EClass "[ \t\r\n]" [32; 9; 13; 10] [] false))]));
                      EStateCode (SWarnComment);
                      ELit """,""" [44];
                      ELab "comment"
                        (EStar
                          (EChoice
                            [EAct (AComment)
                              (EPlus
                                (ESeq
                                  [EOpt
                                    (EAct (AWhitespace)
                                      (EPlus
                                        (EClass "[ \t\r\n]" [32; 9; 13; 10] [] false)));
                                  ELit """#""" [35];
                                  EStar
                                    (EClass "[^\r\n]" [13; 10] [] true);
                                  EOpt
                                    (ELit """\r""" [13]);
                                  EChoice
                                    [ELit """\n""" [10];
                                    ENot (EAny)]]));
                            EAct (AWhitespace)
                              (EPlus
                                (EClass "[ \t\r\n]" [32; 9; 13; 10] [] false))]));
                      ELab "value"
                        (ERef "value")])))])));
      ELab "footerComment"
        (EStar
          (EChoice
            [EAct (AComment)
              (EPlus
                (ESeq
                  [EOpt
                    (EAct (AWhitespace)
                      (EPlus
                        (EClass "[ \t\r\n]" [32; 9; 13; 10] [] false)));
                  ELit """#""" [35];
                  EStar
                    (EClass "[^\r\n]" [13; 10] [] true);
                  EOpt
                    (ELit """\r""" [13]);
                  EChoice
                    [ELit """\n""" [10];
                    ENot (EAny)]]));
            EAct (AWhitespace)
              (EPlus
                (EClass "[ \t\r\n]" [32; 9; 13; 10] [] false))]));
      EChoice
        [ELit """]""" [93];
        EAndCode (PFatalError "expect closing square bracket")]]).

Definition gen_hash : expr :=
  EAct (AHash "entries" "footerComment")
    (ESeq
      [ELit """{""" [123];
      ELab "entries"
        (EOpt
          (ERef "hashentries"));
      ELab "footerComment"
        (EStar
          (EChoice
            [EAct (AComment)
              (EPlus
                (ESeq
                  [EOpt
                    (EAct (AWhitespace)
                      (EPlus
                        (EClass "[ \t\r\n]" [32; 9; 13; 10] [] false)));
                  ELit """#""" [35];
                  EStar
                    (EClass "[^\r\n]" [13; 10] [] true);
                  EOpt
                    (ELit """\r""" [13]);
                  EChoice
                    [ELit """\n""" [10];
                    ENot (EAny)]]));
            EAct (AWhitespace)
              (EPlus
                (EClass "[ \t\r\n]" [32; 9; 13; 10] [] false))]));
      EChoice
        [ELit """}""" [125];
        EAndCode (PFatalError "expect closing curly bracket")]]).

Definition gen_hashentries : expr :=
  EAct (AHashentries "hashentry" "hashentries1")
    (ESeq
      [ELab "hashentry"
        (ERef "hashentry");
      ELab "hashentries1"
        (EStar
          (EAct (ARet "hashentry")
            (ESeq
              [EAct (AWhitespace)
                (EPlus
                  (EClass "[ \t\r\n]" [32; 9; 13; 10] [] false));
              ELab "hashentry"
                (ERef "hashentry")])))]).

Definition gen_hashentry : expr :=
  EAct (AHashentry "name" "value" "comment")
    (ESeq
      [ELab "comment"
        (EStar
          (EChoice
            [EAct (AComment)
              (EPlus
                (ESeq
                  [EOpt
                    (EAct (AWhitespace)
                      (EPlus
                        (EClass "[ \t\r\n]" [32; 9; 13; 10] [] false)));
                  ELit """#""" [35];
                  EStar
                    (EClass "[^\r\n]" [13; 10] [] true);
                  EOpt
                    (ELit """\r""" [13]);
                  EChoice
                    [ELit """\n""" [10];
                    ENot (EAny)]]));
            EAct (AWhitespace)
              (EPlus
                (EClass "[ \t\r\n]" [32; 9; 13; 10] [] false))]));
      ELab "name"
        (EChoice
          [EAct (ANumber)
            (ESeq
              [EOpt
                (ELit """-""" [45]);
              EPlus
                (EClass "[0-9]" [] [(48, 57)] false);
              EOpt
                (ESeq
                  [ELit """.""" [46];
                  EStar
                    (EClass "[0-9]" [] [(48, 57)] false)])]);
          EAct (AString Bareword)
            (ESeq
              [EClass "[_A-Za-z]" [95] [(65, 90); (97, 122)] false;
              EPlus
                (EClass "[_A-Za-z0-9]" [95] [(65, 90); (97, 122); (48, 57)] false)]);
          EAct (ARet "str")
            (ELab "str"
              (EChoice
                [EAct (AString DoubleQuoted)
                  (ELab "str"
                    (EAct (AEnclosedValue)
                      (ESeq
                        [ELit """\""""" [34];
                        EStar
                          (EChoice
                            [ELit """\\\""""" [92; 34];
                            ESeq
                              [ENot (ELit """\""""" [34]);
                              EAny]]);
                        EChoice
                          [ELit """\""""" [34];
                          EAndCode (PFatalError "expect closing double quotes ("")")]])));
                EAct (AString SingleQuoted)
                  (ELab "str"
                    (EAct (AEnclosedValue)
                      (ESeq
                        [ELit """'""" [39];
                        EStar
                          (EChoice
                            [ELit """\\'""" [92; 39];
                            ESeq
                              [ENot (ELit """'""" [39]);
                              EAny]]);
                        EChoice
                          [ELit """'""" [39];
                          EAndCode (PFatalError "expect closing single quote (')")]])))]))]);
      EAct (AStr)
        (EStar
          (EChoice
            [EAct (AComment)
              (EPlus
                (ESeq
                  [EOpt
                    (EAct (AWhitespace)
                      (EPlus
                        (EClass "[ \t\r\n]" [32; 9; 13; 10] [] false)));
                  ELit """#""" [35];
                  EStar
                    (EClass "[^\r\n]" [13; 10] [] true);
                  EOpt
                    (ELit """\r""" [13]);
                  EChoice
                    [ELit """\n""" [10];
                    ENot (EAny)]]));
            EAct (AWhitespace)
              (EPlus
                (EClass "[ \t\r\n]" [32; 9; 13; 10] [] false))]));
      EStateCode (SWarnComment);
      ELit """=>""" [61; 62];
      EAct (AStr)
        (EStar
          (EChoice
            [EAct (AComment)
              (EPlus
                (ESeq
                  [EOpt
                    (EAct (AWhitespace)
                      (EPlus
                        (EClass "[ \t\r\n]" [32; 9; 13; 10] [] false)));
                  ELit """#""" [35];
                  EStar
                    (EClass "[^\r\n]" [13; 10] [] true);
                  EOpt
                    (ELit """\r""" [13]);
                  EChoice
                    [ELit """\n""" [10];
                    ENot (EAny)]]));
            EAct (AWhitespace)
              (EPlus
                (EClass "[ \t\r\n]" [32; 9; 13; 10] [] false))]));
      EStateCode (SWarnComment);
      ELab "value"
        (ERef "value")]).

Definition gen_branch : expr :=
  EAct (ABranch "ifBlock" "elseIfBlocks" "elseBlock" "ifComment")
    (ESeq
      [ELab "ifComment"
        (EStar
          (EChoice
            [EAct (AComment)
              (EPlus
                (ESeq
                  [EOpt
                    (EAct (AWhitespace)
                      (EPlus
                        (EClass "[ \t\r\n]" [32; 9; 13; 10] [] false)));
                  ELit """#""" [35];
                  EStar
                    (EClass "[^\r\n]" [13; 10] [] true);
                  EOpt
                    (ELit """\r""" [13]);
                  EChoice
                    [ELit """\n""" [10];
                    ENot (EAny)]]));
            EAct (AWhitespace)
              (EPlus
                (EClass "[ \t\r\n]" [32; 9; 13; 10] [] false))]));
      ELab "ifBlock"
        (ERef "ifCond");
      ELab "elseIfBlocks"
        (EStar
          (EAct (AElseIfComment "eib" "eibComment")
            (ESeq
              [ELab "eibComment"
                (EStar
                  (EChoice
                    [EAct (AComment)
                      (EPlus
                        (ESeq
                          [EOpt
                            (EAct (AWhitespace)
                              (EPlus
                                (EClass "[ \t\r\n]" [32; 9; 13; 10] [] false)));
                          ELit """#""" [35];
                          EStar
                            (EClass "[^\r\n]" [13; 10] [] true);
                          EOpt
                            (ELit """\r""" [13]);
                          EChoice
                            [ELit """\n""" [10];
                            ENot (EAny)]]));
                    EAct (AWhitespace)
                      (EPlus
                        (EClass "[ \t\r\n]" [32; 9; 13; 10] [] false))]));
              ELab "eib"
                (ERef "elseIf")])));
      ELab "elseBlock"
        (EOpt
          (EAct (AElseComment "eb" "ebComment")
            (ESeq
              [ELab "ebComment"
                (EStar
                  (EChoice
                    [EAct (AComment)
                      (EPlus
                        (ESeq
                          [EOpt
                            (EAct (AWhitespace)
                              (EPlus
                                (EClass "[ \t\r\n]" [32; 9; 13; 10] [] false)));
                          ELit """#""" [35];
                          EStar
                            (EClass "[^\r\n]" [13; 10] [] true);
                          EOpt
                            (ELit """\r""" [13]);
                          EChoice
                            [ELit """\n""" [10];
                            ENot (EAny)]]));
                    EAct (AWhitespace)
                      (EPlus
                        (EClass "[ \t\r\n]" [32; 9; 13; 10] [] false))]));
              ELab "eb"
                (ERef "elseCond")])))]).

Definition gen_ifCond : expr :=
  EAct (AIfBlock "cond" "bops" "footerComment")
    (ESeq
      [ELit """if""" [105; 102];
      EAct (AStr)
        (EStar
          (EChoice
            [EAct (AComment)
              (EPlus
                (ESeq
                  [EOpt
                    (EAct (AWhitespace)
                      (EPlus
                        (EClass "[ \t\r\n]" [32; 9; 13; 10] [] false)));
                  ELit """#""" [35];
                  EStar
                    (EClass "[^\r\n]" [13; 10] [] true);
                  EOpt
                    (ELit """\r""" [13]);
                  EChoice
                    [ELit """\n""" [10];
                    ENot (EAny)]]));
            EAct (AWhitespace)
              (EPlus
                (EClass "[ \t\r\n]" [32; 9; 13; 10] [] false))]));
      EStateCode (SWarnComment);
      ELab "cond"
        (ERef "condition");
      EAct (AStr)
        (EStar
          (EChoice
            [EAct (AComment)
              (EPlus
                (ESeq
                  [EOpt
                    (EAct (AWhitespace)
                      (EPlus
                        (EClass "[ \t\r\n]" [32; 9; 13; 10] [] false)));
                  ELit """#""" [35];
                  EStar
                    (EClass "[^\r\n]" [13; 10] [] true);
                  EOpt
                    (ELit """\r""" [13]);
                  EChoice
                    [ELit """\n""" [10];
                    ENot (EAny)]]));
            EAct (AWhitespace)
              (EPlus
                (EClass "[ \t\r\n]" [32; 9; 13; 10] [] false))]));
      EStateCode (SWarnComment);
      ELit """{""" [123];
      ELab "bops"
        (EStar
          (EAct (ABranchOrPluginComment "bop" "comment")
            (ESeq
              [ELab "comment"
                (EStar
                  (EChoice
                    [EAct (AComment)
                      (EPlus
                        (ESeq
                          [EOpt
                            (EAct (AWhitespace)
                              (EPlus
                                (EClass "[ \t\r\n]" [32; 9; 13; 10] [] false)));
                          ELit """#""" [35];
                          EStar
                            (EClass "[^\r\n]" [13; 10] [] true);
                          EOpt
                            (ELit """\r""" [13]);
                          EChoice
                            [ELit """\n""" [10];
                            ENot (EAny)]]));
                    EAct (AWhitespace)
                      (EPlus
                        (EClass "[ \t\r\n]" [32; 9; 13; 10] [] false))]));
              ELab "bop"
                (ERef "branchOrPlugin")])));
      ELab "footerComment"
        (EStar
          (EChoice
            [EAct (AComment)
              (EPlus
                (ESeq
                  [EOpt
                    (EAct (AWhitespace)
                      (EPlus
                        (EClass "[ \t\r\n]" [32; 9; 13; 10] [] false)));
                  ELit """#""" [35];
                  EStar
                    (EClass "[^\r\n]" [13; 10] [] true);
                  EOpt
                    (ELit """\r""" [13]);
                  EChoice
                    [ELit """\n""" [10];
                    ENot (EAny)]]));
            EAct (AWhitespace)
              (EPlus
                (EClass "[ \t\r\n]" [32; 9; 13; 10] [] false))]));
      EChoice
        [ELit """}""" [125];
        EAndCode (PFatalError "expect closing curly bracket")]]).

Definition gen_elseIf : expr :=
  EAct (AElseIfBlock "cond" "bops" "footerComment")
    (ESeq
      [ELit """else""" [101; 108; 115; 101];
      EAct (AStr)
        (EStar
          (EChoice
            [EAct (AComment)
              (EPlus
                (ESeq
                  [EOpt
                    (EAct (AWhitespace)
                      (EPlus
                        (EClass "[ \t\r\n]" [32; 9; 13; 10] [] false)));
                  ELit """#""" [35];
                  EStar
                    (EClass "[^\r\n]" [13; 10] [] true);
                  EOpt
                    (ELit """\r""" [13]);
                  EChoice
                    [ELit """\n""" [10];
                    ENot (EAny)]]));
            EAct (AWhitespace)
              (EPlus
                (EClass "[ \t\r\n]" [32; 9; 13; 10] [] false))]));
      EStateCode (SWarnComment);
      ELit """if""" [105; 102];
      EAct (AStr)
        (EStar
          (EChoice
            [EAct (AComment)
              (EPlus
                (ESeq
                  [EOpt
                    (EAct (AWhitespace)
                      (EPlus
                        (EClass "[ \t\r\n]" [32; 9; 13; 10] [] false)));
                  ELit """#""" [35];
                  EStar
                    (EClass "[^\r\n]" [13; 10] [] true);
                  EOpt
                    (ELit """\r""" [13]);
                  EChoice
                    [ELit """\n""" [10];
                    ENot (EAny)]]));
            EAct (AWhitespace)
              (EPlus
                (EClass "[ \t\r\n]" [32; 9; 13; 10] [] false))]));
      EStateCode (SWarnComment);
      ELab "cond"
        (ERef "condition");
      EAct (AStr)
        (EStar
          (EChoice
            [EAct (AComment)
              (EPlus
                (ESeq
                  [EOpt
                    (EAct (AWhitespace)
                      (EPlus
                        (EClass "[ \t\r\n]" [32; 9; 13; 10] [] false)));
                  ELit """#""" [35];
                  EStar
                    (EClass "[^\r\n]" [13; 10] [] true);
                  EOpt
                    (ELit """\r""" [13]);
                  EChoice
                    [ELit """\n""" [10];
                    ENot (EAny)]]));
            EAct (AWhitespace)
              (EPlus
                (EClass "[ \t\r\n]" [32; 9; 13; 10] [] false))]));
      EStateCode (SWarnComment);
      ELit """{""" [123];
      ELab "bops"
        (EStar
          (EAct (ABranchOrPluginComment "bop" "comment")
            (ESeq
              [ELab "comment"
                (EStar
                  (EChoice
                    [EAct (AComment)
                      (EPlus
                        (ESeq
                          [EOpt
                            (EAct (AWhitespace)
                              (EPlus
                                (EClass "[ \t\r\n]" [32; 9; 13; 10] [] false)));
                          ELit """#""" [35];
                          EStar
                            (EClass "[^\r\n]" [13; 10] [] true);
                          EOpt
                            (ELit """\r""" [13]);
                          EChoice
                            [ELit """\n""" [10];
                            ENot (EAny)]]));
                    EAct (AWhitespace)
                      (EPlus
                        (EClass "[ \t\r\n]" [32; 9; 13; 10] [] false))]));
              ELab "bop"
                (ERef "branchOrPlugin")])));
      ELab "footerComment"
        (EStar
          (EChoice
            [EAct (AComment)
              (EPlus
                (ESeq
                  [EOpt
                    (EAct (AWhitespace)
                      (EPlus
                        (EClass "[ \t\r\n]" [32; 9; 13; 10] [] false)));
                  ELit """#""" [35];
                  EStar
                    (EClass "[^\r\n]" [13; 10] [] true);
                  EOpt
                    (ELit """\r""" [13]);
                  EChoice
                    [ELit """\n""" [10];
                    ENot (EAny)]]));
            EAct (AWhitespace)
              (EPlus
                (EClass "[ \t\r\n]" [32; 9; 13; 10] [] false))]));
      EChoice
        [ELit """}""" [125];
        EAndCode (PFatalError "expect closing curly bracket")]]).

Definition gen_elseCond : expr :=
  EAct (AElseBlock "bops" "footerComment")
    (ESeq
      [ELit """else""" [101; 108; 115; 101];
      EAct (AStr)
        (EStar
          (EChoice
            [EAct (AComment)
              (EPlus
                (ESeq
                  [EOpt
                    (EAct (AWhitespace)
                      (EPlus
                        (EClass "[ \t\r\n]" [32; 9; 13; 10] [] false)));
                  ELit """#""" [35];
                  EStar
                    (EClass "[^\r\n]" [13; 10] [] true);
                  EOpt
                    (ELit """\r""" [13]);
                  EChoice
                    [ELit """\n""" [10];
                    ENot (EAny)]]));
            EAct (AWhitespace)
              (EPlus
                (EClass "[ \t\r\n]" [32; 9; 13; 10] [] false))]));
      EStateCode (SWarnComment);
      ELit """{""" [123];
      ELab "bops"
        (EStar
          (EAct (ABranchOrPluginComment "bop" "comment")
            (ESeq
              [ELab "comment"
                (EStar
                  (EChoice
                    [EAct (AComment)
                      (EPlus
                        (ESeq
                          [EOpt
                            (EAct (AWhitespace)
                              (EPlus
                                (EClass "[ \t\r\n]" [32; 9; 13; 10] [] false)));
                          ELit """#""" [35];
                          EStar
                            (EClass "[^\r\n]" [13; 10] [] true);
                          EOpt
                            (ELit """\r""" [13]);
                          EChoice
                            [ELit """\n""" [10];
                            ENot (EAny)]]));
                    EAct (AWhitespace)
                      (EPlus
                        (EClass "[ \t\r\n]" [32; 9; 13; 10] [] false))]));
              ELab "bop"
                (ERef "branchOrPlugin")])));
      ELab "footerComment"
        (EStar
          (EChoice
            [EAct (AComment)
              (EPlus
                (ESeq
                  [EOpt
                    (EAct (AWhitespace)
                      (EPlus
                        (EClass "[ \t\r\n]" [32; 9; 13; 10] [] false)));
                  ELit """#""" [35];
                  EStar
                    (EClass "[^\r\n]" [13; 10] [] true);
                  EOpt
                    (ELit """\r""" [13]);
                  EChoice
                    [ELit """\n""" [10];
                    ENot (EAny)]]));
            EAct (AWhitespace)
              (EPlus
                (EClass "[ \t\r\n]" [32; 9; 13; 10] [] false))]));
      EChoice
        [ELit """}""" [125];
        EAndCode (PFatalError "expect closing curly bracket")]]).

Definition gen_condition : expr :=
  EAct (ACondition "cond" "conds")
    (ESeq
      [ELab "cond"
        (ERef "expression");
      ELab "conds"
        (EStar
          (EAct (AExpression "bo" "cond")
            (ESeq
              [EAct (AStr)
                (EStar
                  (EChoice
                    [EAct (AComment)
                      (EPlus
                        (ESeq
                          [EOpt
                            (EAct (AWhitespace)
                              (EPlus
                                (EClass "[ \t\r\n]" [32; 9; 13; 10] [] false)));
                          ELit """#""" [35];
                          EStar
                            (EClass "[^\r\n]" [13; 10] [] true);
                          EOpt
                            (ELit """\r""" [13]);
                          EChoice
                            [ELit """\n""" [10];
                            ENot (EAny)]]));
                    EAct (AWhitespace)
                      (EPlus
                        (EClass "[ \t\r\n]" [32; 9; 13; 10] [] false))]));
              EStateCode (SWarnComment);
              ELab "bo"
                (EAct (ABooleanOperator)
                  (EChoice
                    [ELit """and""" [97; 110; 100];
                    ELit """or""" [111; 114];
                    ELit """xor""" [120; 111; 114];
                    ELit """nand""" [110; 97; 110; 100];
                    EAndCode (PPushError "expect boolean operator (and, or, xor, nand)")]));
              EAct (AStr)
                (EStar
                  (EChoice
                    [EAct (AComment)
                      (EPlus
                        (ESeq
                          [EOpt
                            (EAct (AWhitespace)
                              (EPlus
                                (EClass "[ \t\r\n]" [32; 9; 13; 10] [] false)));
                          ELit """#""" [35];
                          EStar
                            (EClass "[^\r\n]" [13; 10] [] true);
                          EOpt
                            (ELit """\r""" [13]);
                          EChoice
                            [ELit """\n""" [10];
                            ENot (EAny)]]));
                    EAct (AWhitespace)
                      (EPlus
                        (EClass "[ \t\r\n]" [32; 9; 13; 10] [] false))]));
              EStateCode (SWarnComment);
              ELab "cond"
                (ERef "expression")])))]).

Definition gen_expression : expr :=
  EChoice
    [EAct (AConditionExpression "cond")
      (ESeq
        [ELit """(""" [40];
        EAct (AStr)
          (EStar
            (EChoice
              [EAct (AComment)
                (EPlus
                  (ESeq
                    [EOpt
                      (EAct (AWhitespace)
                        (EPlus
                          (EClass "[ \t\r\n]" [32; 9; 13; 10] [] false)));
                    ELit """#""" [35];
                    EStar
                      (EClass "[^\r\n]" [13; 10] [] true);
                    EOpt
                      (ELit """\r""" [13]);
                    EChoice
                      [ELit """\n""" [10];
                      ENot (EAny)]]));
              EAct (AWhitespace)
                (EPlus
                  (EClass "[ \t\r\n]" [32; 9; 13; 10] [] false))]));
        EStateCode (SWarnComment);
        ELab "cond"
          (ERef "condition");
        EAct (AStr)
          (EStar
            (EChoice
              [EAct (AComment)
                (EPlus
                  (ESeq
                    [EOpt
                      (EAct (AWhitespace)
                        (EPlus
                          (EClass "[ \t\r\n]" [32; 9; 13; 10] [] false)));
                    ELit """#""" [35];
                    EStar
                      (EClass "[^\r\n]" [13; 10] [] true);
                    EOpt
                      (ELit """\r""" [13]);
                    EChoice
                      [ELit """\n""" [10];
                      ENot (EAny)]]));
              EAct (AWhitespace)
                (EPlus
                  (EClass "[ \t\r\n]" [32; 9; 13; 10] [] false))]));
        EStateCode (SWarnComment);
        ELit """)""" [41]]);
    ERef "negativeExpression";
    ERef "inExpression";
    ERef "notInExpression";
    ERef "compareExpression";
    ERef "regexpExpression";
    EAct (ARvalue "rv")
      (ELab "rv"
        (ERef "rvalue"))].

Definition gen_negativeExpression : expr :=
  EChoice
    [EAct (ANegativeExpression "cond")
      (ESeq
        [ELit """!""" [33];
        EAct (AStr)
          (EStar
            (EChoice
              [EAct (AComment)
                (EPlus
                  (ESeq
                    [EOpt
                      (EAct (AWhitespace)
                        (EPlus
                          (EClass "[ \t\r\n]" [32; 9; 13; 10] [] false)));
                    ELit """#""" [35];
                    EStar
                      (EClass "[^\r\n]" [13; 10] [] true);
                    EOpt
                      (ELit """\r""" [13]);
                    EChoice
                      [ELit """\n""" [10];
                      ENot (EAny)]]));
              EAct (AWhitespace)
                (EPlus
                  (EClass "[ \t\r\n]" [32; 9; 13; 10] [] false))]));
        EStateCode (SWarnComment);
        ELit """(""" [40];
        EAct (AStr)
          (EStar
            (EChoice
              [EAct (AComment)
                (EPlus
                  (ESeq
                    [EOpt
                      (EAct (AWhitespace)
                        (EPlus
                          (EClass "[ \t\r\n]" [32; 9; 13; 10] [] false)));
                    ELit """#""" [35];
                    EStar
                      (EClass "[^\r\n]" [13; 10] [] true);
                    EOpt
                      (ELit """\r""" [13]);
                    EChoice
                      [ELit """\n""" [10];
                      ENot (EAny)]]));
              EAct (AWhitespace)
                (EPlus
                  (EClass "[ \t\r\n]" [32; 9; 13; 10] [] false))]));
        EStateCode (SWarnComment);
        ELab "cond"
          (ERef "condition");
        EAct (AStr)
          (EStar
            (EChoice
              [EAct (AComment)
                (EPlus
                  (ESeq
                    [EOpt
                      (EAct (AWhitespace)
                        (EPlus
                          (EClass "[ \t\r\n]" [32; 9; 13; 10] [] false)));
                    ELit """#""" [35];
                    EStar
                      (EClass "[^\r\n]" [13; 10] [] true);
                    EOpt
                      (ELit """\r""" [13]);
                    EChoice
                      [ELit """\n""" [10];
                      ENot (EAny)]]));
              EAct (AWhitespace)
                (EPlus
                  (EClass "[ \t\r\n]" [32; 9; 13; 10] [] false))]));
        EStateCode (SWarnComment);
        EChoice
          [ELit """)""" [41];
          EAndCode (PFatalError "expect closing parenthesis")]]);
    EAct (ANegativeSelector "sel")
      (ESeq
        [ELit """!""" [33];
        EAct (AStr)
          (EStar
            (EChoice
              [EAct (AComment)
                (EPlus
                  (ESeq
                    [EOpt
                      (EAct (AWhitespace)
                        (EPlus
                          (EClass "[ \t\r\n]" [32; 9; 13; 10] [] false)));
                    ELit """#""" [35];
                    EStar
                      (EClass "[^\r\n]" [13; 10] [] true);
                    EOpt
                      (ELit """\r""" [13]);
                    EChoice
                      [ELit """\n""" [10];
                      ENot (EAny)]]));
              EAct (AWhitespace)
                (EPlus
                  (EClass "[ \t\r\n]" [32; 9; 13; 10] [] false))]));
        EStateCode (SWarnComment);
        ELab "sel"
          (EAct (ASelector "ses")
            (ELab "ses"
              (EPlus
                (EAct (ASelectorElement)
                  (ESeq
                    [ELit """[""" [91];
                    EPlus
                      (EClass "[^][,]" [93; 91; 44] [] true);
                    EChoice
                      [ELit """]""" [93];
                      EAndCode (PPushError "expect closing square bracket")]])))))])].

Definition gen_inExpression : expr :=
  EAct (AInExpression "lv" "rv")
    (ESeq
      [ELab "lv"
        (ERef "rvalue");
      EAct (AStr)
        (EStar
          (EChoice
            [EAct (AComment)
              (EPlus
                (ESeq
                  [EOpt
                    (EAct (AWhitespace)
                      (EPlus
                        (EClass "[ \t\r\n]" [32; 9; 13; 10] [] false)));
                  ELit """#""" [35];
                  EStar
                    (EClass "[^\r\n]" [13; 10] [] true);
                  EOpt
                    (ELit """\r""" [13]);
                  EChoice
                    [ELit """\n""" [10];
                    ENot (EAny)]]));
            EAct (AWhitespace)
              (EPlus
                (EClass "[ \t\r\n]" [32; 9; 13; 10] [] false))]));
      EStateCode (SWarnComment);
      EChoice
        [ELit """in""" [105; 110];
        EAndCode (PPushError "expect in operator (in)")];
      EAct (AStr)
        (EStar
          (EChoice
            [EAct (AComment)
              (EPlus
                (ESeq
                  [EOpt
                    (EAct (AWhitespace)
                      (EPlus
                        (EClass "[ \t\r\n]" [32; 9; 13; 10] [] false)));
                  ELit """#""" [35];
                  EStar
                    (EClass "[^\r\n]" [13; 10] [] true);
                  EOpt
                    (ELit """\r""" [13]);
                  EChoice
                    [ELit """\n""" [10];
                    ENot (EAny)]]));
            EAct (AWhitespace)
              (EPlus
                (EClass "[ \t\r\n]" [32; 9; 13; 10] [] false))]));
      EStateCode (SWarnComment);
      ELab "rv"
        (ERef "rvalue")]).

Definition gen_notInExpression : expr :=
  EAct (ANotInExpression "lv" "rv")
    (ESeq
      [ELab "lv"
        (ERef "rvalue");
      EAct (AStr)
        (EStar
          (EChoice
            [EAct (AComment)
              (EPlus
                (ESeq
                  [EOpt
                    (EAct (AWhitespace)
                      (EPlus
                        (EClass "[ \t\r\n]" [32; 9; 13; 10] [] false)));
                  ELit """#""" [35];
                  EStar
                    (EClass "[^\r\n]" [13; 10] [] true);
                  EOpt
                    (ELit """\r""" [13]);
                  EChoice
                    [ELit """\n""" [10];
                    ENot (EAny)]]));
            EAct (AWhitespace)
              (EPlus
                (EClass "[ \t\r\n]" [32; 9; 13; 10] [] false))]));
      EStateCode (SWarnComment);
      EChoice
        [ESeq
          [ELit """not """ [110; 111; 116; 32];
          EAct (AStr)
            (EStar
              (EChoice
                [EAct (AComment)
                  (EPlus
                    (ESeq
                      [EOpt
                        (EAct (AWhitespace)
                          (EPlus
                            (EClass "[ \t\r\n]" [32; 9; 13; 10] [] false)));
                      ELit """#""" [35];
                      EStar
                        (EClass "[^\r\n]" [13; 10] [] true);
                      EOpt
                        (ELit """\r""" [13]);
                      EChoice
                        [ELit """\n""" [10];
                        ENot (EAny)]]));
                EAct (AWhitespace)
                  (EPlus
                    (EClass "[ \t\r\n]" [32; 9; 13; 10] [] false))]));
          EStateCode (SWarnComment);
          ELit """in""" [105; 110]];
        EAndCode (PPushError "expect not in operator (not in)")];
      EAct (AStr)
        (EStar
          (EChoice
            [EAct (AComment)
              (EPlus
                (ESeq
                  [EOpt
                    (EAct (AWhitespace)
                      (EPlus
                        (EClass "[ \t\r\n]" [32; 9; 13; 10] [] false)));
                  ELit """#""" [35];
                  EStar
                    (EClass "[^\r\n]" [13; 10] [] true);
                  EOpt
                    (ELit """\r""" [13]);
                  EChoice
                    [ELit """\n""" [10];
                    ENot (EAny)]]));
            EAct (AWhitespace)
              (EPlus
                (EClass "[ \t\r\n]" [32; 9; 13; 10] [] false))]));
      EStateCode (SWarnComment);
      ELab "rv"
        (ERef "rvalue")]).

Definition gen_rvalue : expr :=
  EChoice
    [EAct (ARet "str")
      (ELab "str"
        (EChoice
          [EAct (AString DoubleQuoted)
            (ELab "str"
              (EAct (AEnclosedValue)
                (ESeq
                  [ELit """\""""" [34];
                  EStar
                    (EChoice
                      [ELit """\\\""""" [92; 34];
                      ESeq
                        [ENot (ELit """\""""" [34]);
                        EAny]]);
                  EChoice
                    [ELit """\""""" [34];
                    EAndCode (PFatalError "expect closing double quotes ("")")]])));
          EAct (AString SingleQuoted)
            (ELab "str"
              (EAct (AEnclosedValue)
                (ESeq
                  [ELit """'""" [39];
                  EStar
                    (EChoice
                      [ELit """\\'""" [92; 39];
                      ESeq
                        [ENot (ELit """'""" [39]);
                        EAny]]);
                  EChoice
                    [ELit """'""" [39];
                    EAndCode (PFatalError "expect closing single quote (')")]])))]));
    EAct (ANumber)
      (ESeq
        [EOpt
          (ELit """-""" [45]);
        EPlus
          (EClass "[0-9]" [] [(48, 57)] false);
        EOpt
          (ESeq
            [ELit """.""" [46];
            EStar
              (EClass "[0-9]" [] [(48, 57)] false)])]);
    EAct (ASelector "ses")
      (ELab "ses"
        (EPlus
          (EAct (ASelectorElement)
            (ESeq
              [ELit """[""" [91];
              EPlus
                (EClass "[^][,]" [93; 91; 44] [] true);
              EChoice
                [ELit """]""" [93];
                EAndCode (PPushError "expect closing square bracket")]]))));
    ERef "array";
    EAct (ARegexp)
      (ESeq
        [ELit """/""" [47];
        EStar
          (EChoice
            [ELit """\\/""" [92; 47];
            ESeq
              [ENot (ELit """/""" [47]);
              EAny]]);
        EChoice
          [ELit """/""" [47];
          EAndCode (PFatalError "expect closing slash (/) for regexp")]]);
    EAndCode (PPushError "invalid value for expression")].

Definition gen_compareExpression : expr :=
  EAct (ACompareExpression "lv" "co" "rv")
    (ESeq
      [ELab "lv"
        (ERef "rvalue");
      EAct (AStr)
        (EStar
          (EChoice
            [EAct (AComment)
              (EPlus
                (ESeq
                  [EOpt
                    (EAct (AWhitespace)
                      (EPlus
                        (EClass "[ \t\r\n]" [32; 9; 13; 10] [] false)));
                  ELit """#""" [35];
                  EStar
                    (EClass "[^\r\n]" [13; 10] [] true);
                  EOpt
                    (ELit """\r""" [13]);
                  EChoice
                    [ELit """\n""" [10];
                    ENot (EAny)]]));
            EAct (AWhitespace)
              (EPlus
                (EClass "[ \t\r\n]" [32; 9; 13; 10] [] false))]));
      EStateCode (SWarnComment);
      ELab "co"
        (EAct (ACompareOperator)
          (EChoice
            [ELit """==""" [61; 61];
            ELit """!=""" [33; 61];
            ELit """<=""" [60; 61];
            ELit """>=""" [62; 61];
            EClass "[<>]" [60; 62] [] false;
            EAndCode (PPushError "expect compare operator (==, !=, <=, >=, <, >)")]));
      EAct (AStr)
        (EStar
          (EChoice
            [EAct (AComment)
              (EPlus
                (ESeq
                  [EOpt
                    (EAct (AWhitespace)
                      (EPlus
                        (EClass "[ \t\r\n]" [32; 9; 13; 10] [] false)));
                  ELit """#""" [35];
                  EStar
                    (EClass "[^\r\n]" [13; 10] [] true);
                  EOpt
                    (ELit """\r""" [13]);
                  EChoice
                    [ELit """\n""" [10];
                    ENot (EAny)]]));
            EAct (AWhitespace)
              (EPlus
                (EClass "[ \t\r\n]" [32; 9; 13; 10] [] false))]));
      EStateCode (SWarnComment);
      ELab "rv"
        (ERef "rvalue")]).

Definition gen_regexpExpression : expr :=
  EAct (ARegexpExpression "lv" "ro" "rv")
    (ESeq
      [ELab "lv"
        (ERef "rvalue");
      EAct (AStr)
        (EStar
          (EChoice
            [EAct (AComment)
              (EPlus
                (ESeq
                  [EOpt
                    (EAct (AWhitespace)
                      (EPlus
                        (EClass "[ \t\r\n]" [32; 9; 13; 10] [] false)));
                  ELit """#""" [35];
                  EStar
                    (EClass "[^\r\n]" [13; 10] [] true);
                  EOpt
                    (ELit """\r""" [13]);
                  EChoice
                    [ELit """\n""" [10];
                    ENot (EAny)]]));
            EAct (AWhitespace)
              (EPlus
                (EClass "[ \t\r\n]" [32; 9; 13; 10] [] false))]));
      EStateCode (SWarnComment);
      ELab "ro"
        (EAct (ARegexpOperator)
          (EChoice
            [ELit """=~""" [61; 126];
            ELit """!~""" [33; 126];
            EAndCode (PPushError "expect regexp comparison operator (=~, !~)")]));
      EAct (AStr)
        (EStar
          (EChoice
            [EAct (AComment)
              (EPlus
                (ESeq
                  [EOpt
                    (EAct (AWhitespace)
                      (EPlus
                        (EClass "[ \t\r\n]" [32; 9; 13; 10] [] false)));
                  ELit """#""" [35];
                  EStar
                    (EClass "[^\r\n]" [13; 10] [] true);
                  EOpt
                    (ELit """\r""" [13]);
                  EChoice
                    [ELit """\n""" [10];
                    ENot (EAny)]]));
            EAct (AWhitespace)
              (EPlus
                (EClass "[ \t\r\n]" [32; 9; 13; 10] [] false))]));
      EStateCode (SWarnComment);
      ELab "rv"
        (EChoice
          [EAct (ARet "str")
            (ELab "str"
              (EChoice
                [EAct (AString DoubleQuoted)
                  (ELab "str"
                    (EAct (AEnclosedValue)
                      (ESeq
                        [ELit """\""""" [34];
                        EStar
                          (EChoice
                            [ELit """\\\""""" [92; 34];
                            ESeq
                              [ENot (ELit """\""""" [34]);
                              EAny]]);
                        EChoice
                          [ELit """\""""" [34];
                          EAndCode (PFatalError "expect closing double quotes ("")")]])));
                EAct (AString SingleQuoted)
                  (ELab "str"
                    (EAct (AEnclosedValue)
                      (ESeq
                        [ELit """'""" [39];
                        EStar
                          (EChoice
                            [ELit """\\'""" [92; 39];
                            ESeq
                              [ENot (ELit """'""" [39]);
                              EAny]]);
                        EChoice
                          [ELit """'""" [39];
                          EAndCode (PFatalError "expect closing single quote (')")]])))]));
          EAct (ARegexp)
            (ESeq
              [ELit """/""" [47];
              EStar
                (EChoice
                  [ELit """\\/""" [92; 47];
                  ESeq
                    [ENot (ELit """/""" [47]);
                    EAny]]);
              EChoice
                [ELit """/""" [47];
                EAndCode (PFatalError "expect closing slash (/) for regexp")]])])]).

Definition gen_grammar : list (string * expr) :=
  [("init", gen_init);
   ("config", gen_config);
   ("pluginSection", gen_pluginSection);
   ("branchOrPlugin", gen_branchOrPlugin);
   ("plugin", gen_plugin);
   ("attribute", gen_attribute);
   ("value", gen_value);
   ("array", gen_array);
   ("hash", gen_hash);
   ("hashentries", gen_hashentries);
   ("hashentry", gen_hashentry);
   ("branch", gen_branch);
   ("ifCond", gen_ifCond);
   ("elseIf", gen_elseIf);
   ("elseCond", gen_elseCond);
   ("condition", gen_condition);
   ("expression", gen_expression);
   ("negativeExpression", gen_negativeExpression);
   ("inExpression", gen_inExpression);
   ("notInExpression", gen_notInExpression);
   ("rvalue", gen_rvalue);
   ("compareExpression", gen_compareExpression);
   ("regexpExpression", gen_regexpExpression)].
