(** The repository's own parser tests, run on the model (generated by
    tools/gen_tests.py from logstash_config_test.go and testdata). *)
From Coq Require Import List NArith Bool String.
From Verif Require Import Bytes Ast Actions Engine Parser AstPrint AstUtil.
Import ListNotations.
Local Open Scope N_scope.
Definition lits (l : bytes) : bytes := l.
Definition formatted (opts : list popt) (s : bytes) : option bytes :=
  match fst (parse opts [] s) with
  | Returned (VConfig c) [] => Some (config_string c)
  | _ => None
  end.
Definition prints (opts : list popt) (s t : bytes) : bool :=
  match formatted opts s with Some x => beqb x t | None => false end.
Definition fails_with (s m : bytes) : bool :=
  let '(r, ff) := parse [] [] s in
  match r with
  | Returned _ (e :: es) =>
      contains m (match farthest_failure ff with Some t => t
                  | None => errors_text (fun t _ => t) [] (e :: es) end)
  | _ => false
  end.
Definition warning_count (s : bytes) : nat :=
  match fst (parse [OptExceptionalCommentsWarning true] [] s) with
  | Returned (VConfig c) [] => List.length (cf_warnings c)
  | _ => 0%nat
  end.

(* TestParserIdentic: Empty file *)
Example repo_test_1 : prints [] (lits []) (lits []) = true.
Proof. vm_compute. reflexivity. Qed.

(* TestParserIdentic: Single PluginSection *)
Example repo_test_2 : prints [] (lits [105;110;112;117;116;32;123;125;10]) (lits [105;110;112;117;116;32;123;125;10]) = true.
Proof. vm_compute. reflexivity. Qed.

(* TestParserIdentic: All PluginSections empty *)
Example repo_test_3 : prints [] (lits [105;110;112;117;116;32;123;125;10;102;105;108;116;101;114;32;123;125;10;111;117;116;112;117;116;32;123;125;10]) (lits [105;110;112;117;116;32;123;125;10;102;105;108;116;101;114;32;123;125;10;111;117;116;112;117;116;32;123;125;10]) = true.
Proof. vm_compute. reflexivity. Qed.

(* TestParserIdentic: Plugin without attributes *)
Example repo_test_4 : prints [] (lits [105;110;112;117;116;32;123;10;32;32;115;116;100;105;110;32;123;125;10;125;10]) (lits [105;110;112;117;116;32;123;10;32;32;115;116;100;105;110;32;123;125;10;125;10]) = true.
Proof. vm_compute. reflexivity. Qed.

(* TestParserIdentic: Multiple plugins *)
Example repo_test_5 : prints [] (lits [105;110;112;117;116;32;123;10;32;32;115;116;100;105;110;32;123;125;10;10;32;32;102;105;108;101;32;123;125;10;125;10;102;105;108;116;101;114;32;123;10;32;32;109;117;116;97;116;101;32;123;125;10;10;32;32;109;117;116;97;116;101;32;123;125;10;10;32;32;109;117;116;97;116;101;32;123;125;10;125;10;111;117;116;112;117;116;32;123;10;32;32;115;116;100;111;117;116;32;123;125;10;125;10]) (lits [105;110;112;117;116;32;123;10;32;32;115;116;100;105;110;32;123;125;10;10;32;32;102;105;108;101;32;123;125;10;125;10;102;105;108;116;101;114;32;123;10;32;32;109;117;116;97;116;101;32;123;125;10;10;32;32;109;117;116;97;116;101;32;123;125;10;10;32;32;109;117;116;97;116;101;32;123;125;10;125;10;111;117;116;112;117;116;32;123;10;32;32;115;116;100;111;117;116;32;123;125;10;125;10]) = true.
Proof. vm_compute. reflexivity. Qed.

(* TestParserIdentic: Plugin with all attribute types *)
Example repo_test_6 : prints [] (lits []) (lits []) = true.
Proof. vm_compute. reflexivity. Qed.

(* TestParserIdentic: Simple if (without else) branch *)
Example repo_test_7 : prints [] (lits [102;105;108;116;101;114;32;123;10;32;32;105;102;32;49;32;61;61;32;49;32;123;10;32;32;32;32;100;97;116;101;32;123;125;10;32;32;125;10;125;10]) (lits [102;105;108;116;101;114;32;123;10;32;32;105;102;32;49;32;61;61;32;49;32;123;10;32;32;32;32;100;97;116;101;32;123;125;10;32;32;125;10;125;10]) = true.
Proof. vm_compute. reflexivity. Qed.

(* TestParserIdentic: if with else-if and a final else branch *)
Example repo_test_8 : prints [] (lits [102;105;108;116;101;114;32;123;10;32;32;105;102;32;49;32;61;61;32;49;32;123;10;32;32;32;32;100;97;116;101;32;123;125;10;32;32;125;32;101;108;115;101;32;105;102;32;49;32;61;61;32;49;32;123;10;32;32;32;32;100;97;116;101;32;123;125;10;32;32;125;32;101;108;115;101;32;123;10;32;32;32;32;100;97;116;101;32;123;125;10;32;32;125;10;125;10]) (lits [102;105;108;116;101;114;32;123;10;32;32;105;102;32;49;32;61;61;32;49;32;123;10;32;32;32;32;100;97;116;101;32;123;125;10;32;32;125;32;101;108;115;101;32;105;102;32;49;32;61;61;32;49;32;123;10;32;32;32;32;100;97;116;101;32;123;125;10;32;32;125;32;101;108;115;101;32;123;10;32;32;32;32;100;97;116;101;32;123;125;10;32;32;125;10;125;10]) = true.
Proof. vm_compute. reflexivity. Qed.

(* TestParserIdentic: if with multiple else-if and a final else branch, multiple plugins in each branch *)
Example repo_test_9 : prints [] (lits [102;105;108;116;101;114;32;123;10;32;32;105;102;32;49;32;61;61;32;49;32;123;10;32;32;32;32;100;97;116;101;32;123;125;10;10;32;32;32;32;100;97;116;101;32;123;125;10;32;32;125;32;101;108;115;101;32;105;102;32;49;32;61;61;32;49;32;123;10;32;32;32;32;100;97;116;101;32;123;125;10;10;32;32;32;32;100;97;116;101;32;123;125;10;10;32;32;32;32;100;97;116;101;32;123;125;10;32;32;125;32;101;108;115;101;32;105;102;32;49;32;61;61;32;49;32;123;10;32;32;32;32;100;97;116;101;32;123;125;10;10;32;32;32;32;100;97;116;101;32;123;125;10;10;32;32;32;32;100;97;116;101;32;123;125;10;32;32;125;32;101;108;115;101;32;123;10;32;32;32;32;100;97;116;101;32;123;125;10;10;32;32;32;32;100;97;116;101;32;123;125;10;10;32;32;32;32;100;97;116;101;32;123;125;10;32;32;125;10;125;10]) (lits [102;105;108;116;101;114;32;123;10;32;32;105;102;32;49;32;61;61;32;49;32;123;10;32;32;32;32;100;97;116;101;32;123;125;10;10;32;32;32;32;100;97;116;101;32;123;125;10;32;32;125;32;101;108;115;101;32;105;102;32;49;32;61;61;32;49;32;123;10;32;32;32;32;100;97;116;101;32;123;125;10;10;32;32;32;32;100;97;116;101;32;123;125;10;10;32;32;32;32;100;97;116;101;32;123;125;10;32;32;125;32;101;108;115;101;32;105;102;32;49;32;61;61;32;49;32;123;10;32;32;32;32;100;97;116;101;32;123;125;10;10;32;32;32;32;100;97;116;101;32;123;125;10;10;32;32;32;32;100;97;116;101;32;123;125;10;32;32;125;32;101;108;115;101;32;123;10;32;32;32;32;100;97;116;101;32;123;125;10;10;32;32;32;32;100;97;116;101;32;123;125;10;10;32;32;32;32;100;97;116;101;32;123;125;10;32;32;125;10;125;10]) = true.
Proof. vm_compute. reflexivity. Qed.

(* TestParserIdentic: if with multiple else-if and a final else branch, test for different condition types *)
Example repo_test_10 : prints [] (lits [102;105;108;116;101;114;32;123;10;32;32;105;102;32;49;32;33;61;32;49;32;123;10;32;32;32;32;100;97;116;101;32;123;125;10;32;32;125;32;101;108;115;101;32;105;102;32;49;32;60;61;32;49;32;123;10;32;32;32;32;100;97;116;101;32;123;125;10;32;32;125;32;101;108;115;101;32;105;102;32;49;32;62;61;32;49;32;123;10;32;32;32;32;100;97;116;101;32;123;125;10;32;32;125;32;101;108;115;101;32;105;102;32;49;32;60;32;49;32;123;10;32;32;32;32;100;97;116;101;32;123;125;10;32;32;125;32;101;108;115;101;32;105;102;32;49;32;62;32;49;32;123;10;32;32;32;32;100;97;116;101;32;123;125;10;32;32;125;10;125;10]) (lits [102;105;108;116;101;114;32;123;10;32;32;105;102;32;49;32;33;61;32;49;32;123;10;32;32;32;32;100;97;116;101;32;123;125;10;32;32;125;32;101;108;115;101;32;105;102;32;49;32;60;61;32;49;32;123;10;32;32;32;32;100;97;116;101;32;123;125;10;32;32;125;32;101;108;115;101;32;105;102;32;49;32;62;61;32;49;32;123;10;32;32;32;32;100;97;116;101;32;123;125;10;32;32;125;32;101;108;115;101;32;105;102;32;49;32;60;32;49;32;123;10;32;32;32;32;100;97;116;101;32;123;125;10;32;32;125;32;101;108;115;101;32;105;102;32;49;32;62;32;49;32;123;10;32;32;32;32;100;97;116;101;32;123;125;10;32;32;125;10;125;10]) = true.
Proof. vm_compute. reflexivity. Qed.

(* TestParserIdentic: if with multiple compare operators *)
Example repo_test_11 : prints [] (lits [102;105;108;116;101;114;32;123;10;32;32;105;102;32;34;116;114;117;101;34;32;61;61;32;34;116;114;117;101;34;32;97;110;100;32;34;116;114;117;101;49;34;32;61;61;32;34;116;114;117;101;49;34;32;111;114;32;34;116;114;117;101;50;34;32;61;61;32;34;116;114;117;101;50;34;32;110;97;110;100;32;34;116;114;117;101;51;34;32;61;61;32;34;116;114;117;101;51;34;32;120;111;114;32;34;116;114;117;101;52;34;32;61;61;32;34;116;114;117;101;52;34;32;123;10;32;32;32;32;112;108;117;103;105;110;32;123;125;10;32;32;125;10;125;10]) (lits [102;105;108;116;101;114;32;123;10;32;32;105;102;32;34;116;114;117;101;34;32;61;61;32;34;116;114;117;101;34;32;97;110;100;32;34;116;114;117;101;49;34;32;61;61;32;34;116;114;117;101;49;34;32;111;114;32;34;116;114;117;101;50;34;32;61;61;32;34;116;114;117;101;50;34;32;110;97;110;100;32;34;116;114;117;101;51;34;32;61;61;32;34;116;114;117;101;51;34;32;120;111;114;32;34;116;114;117;101;52;34;32;61;61;32;34;116;114;117;101;52;34;32;123;10;32;32;32;32;112;108;117;103;105;110;32;123;125;10;32;32;125;10;125;10]) = true.
Proof. vm_compute. reflexivity. Qed.

(* TestParserIdentic: Condition in parentheses *)
Example repo_test_12 : prints [] (lits [102;105;108;116;101;114;32;123;10;32;32;105;102;32;40;34;116;97;103;34;32;105;110;32;91;116;97;103;115;93;41;32;123;10;32;32;32;32;112;108;117;103;105;110;32;123;125;10;32;32;125;10;125;10]) (lits [102;105;108;116;101;114;32;123;10;32;32;105;102;32;40;34;116;97;103;34;32;105;110;32;91;116;97;103;115;93;41;32;123;10;32;32;32;32;112;108;117;103;105;110;32;123;125;10;32;32;125;10;125;10]) = true.
Proof. vm_compute. reflexivity. Qed.

(* TestParserIdentic: Multiple conditions in parentheses *)
Example repo_test_13 : prints [] (lits [102;105;108;116;101;114;32;123;10;32;32;105;102;32;40;34;116;97;103;34;32;105;110;32;91;116;97;103;115;93;32;111;114;32;40;34;116;114;117;101;34;32;61;61;32;34;116;114;117;101;34;32;97;110;100;32;49;32;61;61;32;49;41;41;32;123;10;32;32;32;32;112;108;117;103;105;110;32;123;125;10;32;32;125;10;125;10]) (lits [102;105;108;116;101;114;32;123;10;32;32;105;102;32;40;34;116;97;103;34;32;105;110;32;91;116;97;103;115;93;32;111;114;32;40;34;116;114;117;101;34;32;61;61;32;34;116;114;117;101;34;32;97;110;100;32;49;32;61;61;32;49;41;41;32;123;10;32;32;32;32;112;108;117;103;105;110;32;123;125;10;32;32;125;10;125;10]) = true.
Proof. vm_compute. reflexivity. Qed.

(* TestParserIdentic: Negative condition *)
Example repo_test_14 : prints [] (lits [102;105;108;116;101;114;32;123;10;32;32;105;102;32;33;40;34;116;114;117;101;34;32;61;61;32;34;116;114;117;101;34;41;32;123;10;32;32;32;32;112;108;117;103;105;110;32;123;125;10;32;32;125;10;125;10]) (lits [102;105;108;116;101;114;32;123;10;32;32;105;102;32;33;40;34;116;114;117;101;34;32;61;61;32;34;116;114;117;101;34;41;32;123;10;32;32;32;32;112;108;117;103;105;110;32;123;125;10;32;32;125;10;125;10]) = true.
Proof. vm_compute. reflexivity. Qed.

(* TestParserIdentic: Negative Selector for value in subfield *)
Example repo_test_15 : prints [] (lits [102;105;108;116;101;114;32;123;10;32;32;105;102;32;33;91;102;105;101;108;100;93;91;115;117;98;102;105;101;108;100;93;32;123;10;32;32;32;32;112;108;117;103;105;110;32;123;125;10;32;32;125;10;125;10]) (lits [102;105;108;116;101;114;32;123;10;32;32;105;102;32;33;91;102;105;101;108;100;93;91;115;117;98;102;105;101;108;100;93;32;123;10;32;32;32;32;112;108;117;103;105;110;32;123;125;10;32;32;125;10;125;10]) = true.
Proof. vm_compute. reflexivity. Qed.

(* TestParserIdentic: InExpression *)
Example repo_test_16 : prints [] (lits [102;105;108;116;101;114;32;123;10;32;32;105;102;32;34;116;97;103;34;32;105;110;32;91;116;97;103;115;93;32;123;10;32;32;32;32;112;108;117;103;105;110;32;123;125;10;32;32;125;10;125;10]) (lits [102;105;108;116;101;114;32;123;10;32;32;105;102;32;34;116;97;103;34;32;105;110;32;91;116;97;103;115;93;32;123;10;32;32;32;32;112;108;117;103;105;110;32;123;125;10;32;32;125;10;125;10]) = true.
Proof. vm_compute. reflexivity. Qed.

(* TestParserIdentic: NotInExpression *)
Example repo_test_17 : prints [] (lits [102;105;108;116;101;114;32;123;10;32;32;105;102;32;34;116;97;103;34;32;110;111;116;32;105;110;32;91;102;105;101;108;100;93;91;115;117;98;102;105;101;108;100;93;32;123;10;32;32;32;32;112;108;117;103;105;110;32;123;125;10;32;32;125;10;125;10]) (lits [102;105;108;116;101;114;32;123;10;32;32;105;102;32;34;116;97;103;34;32;110;111;116;32;105;110;32;91;102;105;101;108;100;93;91;115;117;98;102;105;101;108;100;93;32;123;10;32;32;32;32;112;108;117;103;105;110;32;123;125;10;32;32;125;10;125;10]) = true.
Proof. vm_compute. reflexivity. Qed.

(* TestParserIdentic: RegexpExpression (Match) *)
Example repo_test_18 : prints [] (lits [102;105;108;116;101;114;32;123;10;32;32;105;102;32;91;102;105;101;108;100;93;32;61;126;32;47;46;42;47;32;123;10;32;32;32;32;112;108;117;103;105;110;32;123;125;10;32;32;125;10;125;10]) (lits [102;105;108;116;101;114;32;123;10;32;32;105;102;32;91;102;105;101;108;100;93;32;61;126;32;47;46;42;47;32;123;10;32;32;32;32;112;108;117;103;105;110;32;123;125;10;32;32;125;10;125;10]) = true.
Proof. vm_compute. reflexivity. Qed.

(* TestParserIdentic: RegexpExpression (Not Match) *)
Example repo_test_19 : prints [] (lits [102;105;108;116;101;114;32;123;10;32;32;105;102;32;91;102;105;101;108;100;93;32;33;126;32;47;46;42;47;32;123;10;32;32;32;32;112;108;117;103;105;110;32;123;125;10;32;32;125;10;125;10]) (lits [102;105;108;116;101;114;32;123;10;32;32;105;102;32;91;102;105;101;108;100;93;32;33;126;32;47;46;42;47;32;123;10;32;32;32;32;112;108;117;103;105;110;32;123;125;10;32;32;125;10;125;10]) = true.
Proof. vm_compute. reflexivity. Qed.

(* TestParserIdentic: Rvalue *)
Example repo_test_20 : prints [] (lits [102;105;108;116;101;114;32;123;10;32;32;105;102;32;34;115;116;114;105;110;103;34;32;111;114;32;49;48;32;111;114;32;91;102;105;101;108;100;93;91;115;117;98;102;105;101;108;100;93;32;111;114;32;47;46;42;47;32;123;10;32;32;32;32;112;108;117;103;105;110;32;123;125;10;32;32;125;10;125;10]) (lits [102;105;108;116;101;114;32;123;10;32;32;105;102;32;34;115;116;114;105;110;103;34;32;111;114;32;49;48;32;111;114;32;91;102;105;101;108;100;93;91;115;117;98;102;105;101;108;100;93;32;111;114;32;47;46;42;47;32;123;10;32;32;32;32;112;108;117;103;105;110;32;123;125;10;32;32;125;10;125;10]) = true.
Proof. vm_compute. reflexivity. Qed.

(* TestParserIdentic: Empty array *)
Example repo_test_21 : prints [] (lits [102;105;108;116;101;114;32;123;10;32;32;112;108;117;103;105;110;32;123;10;32;32;32;32;118;97;108;117;101;32;61;62;32;91;93;10;32;32;125;10;125;10]) (lits [102;105;108;116;101;114;32;123;10;32;32;112;108;117;103;105;110;32;123;10;32;32;32;32;118;97;108;117;101;32;61;62;32;91;93;10;32;32;125;10;125;10]) = true.
Proof. vm_compute. reflexivity. Qed.

(* TestParserIdentic: Multiple filter sections *)
Example repo_test_22 : prints [] (lits [102;105;108;116;101;114;32;123;125;10;10;102;105;108;116;101;114;32;123;125;10;10;102;105;108;116;101;114;32;123;125;10]) (lits [102;105;108;116;101;114;32;123;125;10;10;102;105;108;116;101;114;32;123;125;10;10;102;105;108;116;101;114;32;123;125;10]) = true.
Proof. vm_compute. reflexivity. Qed.

(* TestParserIdentic: plugin section comment *)
Example repo_test_23 : prints [] (lits [35;32;67;111;109;109;101;110;116;10;102;105;108;116;101;114;32;123;125;10]) (lits [35;32;67;111;109;109;101;110;116;10;102;105;108;116;101;114;32;123;125;10]) = true.
Proof. vm_compute. reflexivity. Qed.

(* TestParserIdentic: file header and plugin section comment *)
Example repo_test_24 : prints [] (lits [35;32;67;111;109;109;101;110;116;10;10;35;32;67;111;109;109;101;110;116;32;50;10;10;35;32;67;111;109;109;101;110;116;32;51;10;102;105;108;116;101;114;32;123;125;10]) (lits [35;32;67;111;109;109;101;110;116;10;10;35;32;67;111;109;109;101;110;116;32;50;10;10;35;32;67;111;109;109;101;110;116;32;51;10;102;105;108;116;101;114;32;123;125;10]) = true.
Proof. vm_compute. reflexivity. Qed.

(* TestParserIdentic: plugin section comment with whitespace after *)
Example repo_test_25 : prints [] (lits [35;32;67;111;109;109;101;110;116;10;10;102;105;108;116;101;114;32;123;125;10]) (lits [35;32;67;111;109;109;101;110;116;10;10;102;105;108;116;101;114;32;123;125;10]) = true.
Proof. vm_compute. reflexivity. Qed.

(* TestParserIdentic: file footer comment *)
Example repo_test_26 : prints [] (lits [102;105;108;116;101;114;32;123;125;10;111;117;116;112;117;116;32;123;125;10;10;35;32;67;111;109;109;101;110;116;32;97;102;116;101;114;10]) (lits [102;105;108;116;101;114;32;123;125;10;111;117;116;112;117;116;32;123;125;10;10;35;32;67;111;109;109;101;110;116;32;97;102;116;101;114;10]) = true.
Proof. vm_compute. reflexivity. Qed.

(* TestParserIdentic: foobar *)
Example repo_test_27 : prints [] (lits [105;110;112;117;116;32;123;10;32;32;115;116;100;105;110;32;123;10;32;32;32;32;35;32;67;111;109;109;101;110;116;10;32;32;32;32;99;111;100;101;99;32;61;62;32;114;117;98;121;100;101;98;117;103;32;123;10;32;32;32;32;32;32;35;32;67;111;109;109;101;110;116;10;32;32;32;32;32;32;115;116;114;105;110;103;32;61;62;32;34;97;32;115;116;114;105;110;103;34;10;10;32;32;32;32;32;32;35;32;67;111;109;109;101;110;116;10;32;32;32;32;125;10;10;32;32;32;32;35;32;67;111;109;109;101;110;116;10;32;32;125;10;125;10]) (lits [105;110;112;117;116;32;123;10;32;32;115;116;100;105;110;32;123;10;32;32;32;32;35;32;67;111;109;109;101;110;116;10;32;32;32;32;99;111;100;101;99;32;61;62;32;114;117;98;121;100;101;98;117;103;32;123;10;32;32;32;32;32;32;35;32;67;111;109;109;101;110;116;10;32;32;32;32;32;32;115;116;114;105;110;103;32;61;62;32;34;97;32;115;116;114;105;110;103;34;10;10;32;32;32;32;32;32;35;32;67;111;109;109;101;110;116;10;32;32;32;32;125;10;10;32;32;32;32;35;32;67;111;109;109;101;110;116;10;32;32;125;10;125;10]) = true.
Proof. vm_compute. reflexivity. Qed.

(* TestParserIdentic: Empty array with comment *)
Example repo_test_28 : prints [] (lits [105;110;112;117;116;32;123;10;32;32;115;116;100;105;110;32;123;10;32;32;32;32;97;114;114;97;121;118;97;108;117;101;32;61;62;32;91;10;32;32;32;32;32;32;35;32;67;111;109;109;101;110;116;10;32;32;32;32;93;10;32;32;125;10;125;10]) (lits [105;110;112;117;116;32;123;10;32;32;115;116;100;105;110;32;123;10;32;32;32;32;97;114;114;97;121;118;97;108;117;101;32;61;62;32;91;10;32;32;32;32;32;32;35;32;67;111;109;109;101;110;116;10;32;32;32;32;93;10;32;32;125;10;125;10]) = true.
Proof. vm_compute. reflexivity. Qed.

(* TestParserIdentic: Empty hash with comment *)
Example repo_test_29 : prints [] (lits [105;110;112;117;116;32;123;10;32;32;115;116;100;105;110;32;123;10;32;32;32;32;104;97;115;104;118;97;108;117;101;32;61;62;32;123;10;32;32;32;32;32;32;35;32;67;111;109;109;101;110;116;10;32;32;32;32;125;10;32;32;125;10;125;10]) (lits [105;110;112;117;116;32;123;10;32;32;115;116;100;105;110;32;123;10;32;32;32;32;104;97;115;104;118;97;108;117;101;32;61;62;32;123;10;32;32;32;32;32;32;35;32;67;111;109;109;101;110;116;10;32;32;32;32;125;10;32;32;125;10;125;10]) = true.
Proof. vm_compute. reflexivity. Qed.

(* TestParserIdentic: comment only if, else-if and else *)
Example repo_test_30 : prints [] (lits [102;105;108;116;101;114;32;123;10;32;32;105;102;32;49;32;61;61;32;49;32;123;10;32;32;32;32;35;32;67;111;109;109;101;110;116;10;32;32;125;32;101;108;115;101;32;105;102;32;49;32;61;61;32;49;32;123;10;32;32;32;32;35;32;67;111;109;109;101;110;116;10;32;32;125;32;101;108;115;101;32;123;10;32;32;32;32;35;32;67;111;109;109;101;110;116;10;32;32;125;10;125;10]) (lits [102;105;108;116;101;114;32;123;10;32;32;105;102;32;49;32;61;61;32;49;32;123;10;32;32;32;32;35;32;67;111;109;109;101;110;116;10;32;32;125;32;101;108;115;101;32;105;102;32;49;32;61;61;32;49;32;123;10;32;32;32;32;35;32;67;111;109;109;101;110;116;10;32;32;125;32;101;108;115;101;32;123;10;32;32;32;32;35;32;67;111;109;109;101;110;116;10;32;32;125;10;125;10]) = true.
Proof. vm_compute. reflexivity. Qed.

(* TestParserIdentic: large numbers with and without precission *)
Example repo_test_31 : prints [] (lits [102;105;108;116;101;114;32;123;10;32;32;109;117;116;97;116;101;32;123;10;32;32;32;32;97;100;100;95;102;105;101;108;100;32;61;62;32;123;10;32;32;32;32;32;32;34;108;97;114;103;101;105;110;116;34;32;61;62;32;50;48;48;48;48;48;48;10;32;32;32;32;32;32;34;108;97;114;103;101;105;110;116;95;110;101;103;97;116;105;118;101;34;32;61;62;32;45;50;48;48;48;48;48;48;10;32;32;32;32;32;32;34;105;110;116;51;50;109;97;120;34;32;61;62;32;50;49;52;55;52;56;51;54;52;55;10;32;32;32;32;32;32;34;105;110;116;51;50;109;97;120;95;110;101;103;97;116;105;118;101;34;32;61;62;32;45;50;49;52;55;52;56;51;54;52;55;10;32;32;32;32;32;32;34;102;108;111;97;116;95;119;105;116;104;95;53;95;112;114;101;99;105;115;105;111;110;34;32;61;62;32;48;46;48;48;48;48;49;10;32;32;32;32;32;32;34;102;108;111;97;116;95;119;105;116;104;95;53;95;112;114;101;99;105;115;105;111;110;95;110;101;103;97;116;105;118;101;34;32;61;62;32;45;48;46;48;48;48;48;49;10;32;32;32;32;32;32;34;102;108;111;97;116;95;119;105;116;104;95;49;48;95;112;114;101;99;105;115;105;111;110;34;32;61;62;32;48;46;48;48;48;48;48;48;48;48;48;49;10;32;32;32;32;32;32;34;102;108;111;97;116;95;119;105;116;104;95;49;48;95;112;114;101;99;105;115;105;111;110;95;110;101;103;97;116;105;118;101;34;32;61;62;32;45;48;46;48;48;48;48;48;48;48;48;48;49;10;32;32;32;32;32;32;34;108;97;114;103;101;102;108;111;97;116;95;119;105;116;104;95;49;48;95;112;114;101;99;105;115;105;111;110;34;32;61;62;32;50;48;48;48;48;48;48;46;48;48;48;48;48;48;48;48;48;53;10;32;32;32;32;32;32;34;108;97;114;103;101;102;108;111;97;116;95;119;105;116;104;95;49;48;95;112;114;101;99;105;115;105;111;110;95;110;101;103;97;116;105;118;101;34;32;61;62;32;45;50;48;48;48;48;48;48;46;48;48;48;48;48;48;48;48;48;53;10;32;32;32;32;32;32;34;105;110;116;51;50;109;97;120;95;119;105;116;104;95;49;48;95;112;114;101;99;105;115;105;111;110;34;32;61;62;32;50;49;52;55;52;56;51;54;52;55;46;48;48;48;48;48;48;57;53;51;55;10;32;32;32;32;32;32;34;105;110;116;51;50;109;97;120;95;119;105;116;104;95;49;48;95;112;114;101;99;105;115;105;111;110;95;110;101;103;97;116;105;118;101;34;32;61;62;32;45;50;49;52;55;52;56;51;54;52;55;46;48;48;48;48;48;48;57;53;51;55;10;32;32;32;32;125;10;32;32;125;10;125;10]) (lits [102;105;108;116;101;114;32;123;10;32;32;109;117;116;97;116;101;32;123;10;32;32;32;32;97;100;100;95;102;105;101;108;100;32;61;62;32;123;10;32;32;32;32;32;32;34;108;97;114;103;101;105;110;116;34;32;61;62;32;50;48;48;48;48;48;48;10;32;32;32;32;32;32;34;108;97;114;103;101;105;110;116;95;110;101;103;97;116;105;118;101;34;32;61;62;32;45;50;48;48;48;48;48;48;10;32;32;32;32;32;32;34;105;110;116;51;50;109;97;120;34;32;61;62;32;50;49;52;55;52;56;51;54;52;55;10;32;32;32;32;32;32;34;105;110;116;51;50;109;97;120;95;110;101;103;97;116;105;118;101;34;32;61;62;32;45;50;49;52;55;52;56;51;54;52;55;10;32;32;32;32;32;32;34;102;108;111;97;116;95;119;105;116;104;95;53;95;112;114;101;99;105;115;105;111;110;34;32;61;62;32;48;46;48;48;48;48;49;10;32;32;32;32;32;32;34;102;108;111;97;116;95;119;105;116;104;95;53;95;112;114;101;99;105;115;105;111;110;95;110;101;103;97;116;105;118;101;34;32;61;62;32;45;48;46;48;48;48;48;49;10;32;32;32;32;32;32;34;102;108;111;97;116;95;119;105;116;104;95;49;48;95;112;114;101;99;105;115;105;111;110;34;32;61;62;32;48;46;48;48;48;48;48;48;48;48;48;49;10;32;32;32;32;32;32;34;102;108;111;97;116;95;119;105;116;104;95;49;48;95;112;114;101;99;105;115;105;111;110;95;110;101;103;97;116;105;118;101;34;32;61;62;32;45;48;46;48;48;48;48;48;48;48;48;48;49;10;32;32;32;32;32;32;34;108;97;114;103;101;102;108;111;97;116;95;119;105;116;104;95;49;48;95;112;114;101;99;105;115;105;111;110;34;32;61;62;32;50;48;48;48;48;48;48;46;48;48;48;48;48;48;48;48;48;53;10;32;32;32;32;32;32;34;108;97;114;103;101;102;108;111;97;116;95;119;105;116;104;95;49;48;95;112;114;101;99;105;115;105;111;110;95;110;101;103;97;116;105;118;101;34;32;61;62;32;45;50;48;48;48;48;48;48;46;48;48;48;48;48;48;48;48;48;53;10;32;32;32;32;32;32;34;105;110;116;51;50;109;97;120;95;119;105;116;104;95;49;48;95;112;114;101;99;105;115;105;111;110;34;32;61;62;32;50;49;52;55;52;56;51;54;52;55;46;48;48;48;48;48;48;57;53;51;55;10;32;32;32;32;32;32;34;105;110;116;51;50;109;97;120;95;119;105;116;104;95;49;48;95;112;114;101;99;105;115;105;111;110;95;110;101;103;97;116;105;118;101;34;32;61;62;32;45;50;49;52;55;52;56;51;54;52;55;46;48;48;48;48;48;48;57;53;51;55;10;32;32;32;32;125;10;32;32;125;10;125;10]) = true.
Proof. vm_compute. reflexivity. Qed.

(* TestParserIdentic: multiline string *)
Example repo_test_32 : prints [] (lits [102;105;108;116;101;114;32;123;10;32;32;109;117;116;97;116;101;32;123;10;32;32;32;32;97;100;100;95;102;105;101;108;100;32;61;62;32;123;10;32;32;32;32;32;32;34;108;97;114;103;101;105;110;116;34;32;61;62;32;34;97;32;115;116;114;105;110;103;10;119;105;116;104;32;109;117;108;116;105;112;108;101;10;108;105;110;101;115;34;10;32;32;32;32;125;10;32;32;125;10;125;10]) (lits [102;105;108;116;101;114;32;123;10;32;32;109;117;116;97;116;101;32;123;10;32;32;32;32;97;100;100;95;102;105;101;108;100;32;61;62;32;123;10;32;32;32;32;32;32;34;108;97;114;103;101;105;110;116;34;32;61;62;32;34;97;32;115;116;114;105;110;103;10;119;105;116;104;32;109;117;108;116;105;112;108;101;10;108;105;110;101;115;34;10;32;32;32;32;125;10;32;32;125;10;125;10]) = true.
Proof. vm_compute. reflexivity. Qed.

(* TestParserIdenticFile: plugin_with_all_attribute_types *)
Example repo_test_33 : prints [] (lits [105;110;112;117;116;32;123;10;32;32;115;116;100;105;110;32;123;10;32;32;32;32;100;111;117;98;108;101;113;117;111;116;101;100;115;116;114;105;110;103;32;61;62;32;34;100;111;117;98;108;101;113;117;111;116;101;100;115;116;114;105;110;103;32;119;105;116;104;32;101;115;99;97;112;101;100;32;92;34;32;34;10;32;32;32;32;115;105;110;103;108;101;113;117;111;116;101;100;115;116;114;105;110;103;32;61;62;32;39;115;105;110;103;108;101;113;117;111;116;101;100;115;116;114;105;110;103;32;119;105;116;104;32;101;115;99;97;112;101;100;32;92;39;32;39;10;32;32;32;32;34;100;111;117;98;108;101;113;117;111;116;101;100;107;101;121;34;32;61;62;32;118;97;108;117;101;10;32;32;32;32;39;115;105;110;103;108;101;113;117;111;116;101;100;107;101;121;39;32;61;62;32;118;97;108;117;101;10;32;32;32;32;98;97;114;101;119;111;114;100;32;61;62;32;98;97;114;101;119;111;114;100;10;32;32;32;32;105;110;116;110;117;109;98;101;114;32;61;62;32;51;10;32;32;32;32;102;108;111;97;116;110;117;109;98;101;114;32;61;62;32;51;46;49;52;49;53;10;32;32;32;32;97;114;114;97;121;118;97;108;117;101;32;61;62;32;91;10;32;32;32;32;32;32;98;97;114;101;119;111;114;100;44;10;32;32;32;32;32;32;34;100;111;117;98;108;101;113;117;111;116;101;100;115;116;114;105;110;103;34;44;10;32;32;32;32;32;32;39;115;105;110;103;108;101;113;117;111;116;101;100;115;116;114;105;110;103;39;44;10;32;32;32;32;32;32;51;44;10;32;32;32;32;32;32;51;46;49;52;49;53;10;32;32;32;32;93;10;32;32;32;32;104;97;115;104;118;97;108;117;101;32;61;62;32;123;10;32;32;32;32;32;32;100;111;117;98;108;101;113;117;111;116;101;100;115;116;114;105;110;103;32;61;62;32;34;100;111;117;98;108;101;113;117;111;116;101;100;115;116;114;105;110;103;34;10;32;32;32;32;32;32;115;105;110;103;108;101;113;117;111;116;101;100;115;116;114;105;110;103;32;61;62;32;39;115;105;110;103;108;101;113;117;111;116;101;100;115;116;114;105;110;103;39;10;32;32;32;32;32;32;98;97;114;101;119;111;114;100;32;61;62;32;98;97;114;101;119;111;114;100;10;32;32;32;32;32;32;105;110;116;110;117;109;98;101;114;32;61;62;32;51;10;32;32;32;32;32;32;97;114;114;97;121;118;97;108;117;101;32;61;62;32;91;10;32;32;32;32;32;32;32;32;98;97;114;101;119;111;114;100;44;10;32;32;32;32;32;32;32;32;34;100;111;117;98;108;101;113;117;111;116;101;100;115;116;114;105;110;103;34;44;10;32;32;32;32;32;32;32;32;39;115;105;110;103;108;101;113;117;111;116;101;100;115;116;114;105;110;103;39;44;10;32;32;32;32;32;32;32;32;51;44;10;32;32;32;32;32;32;32;32;51;46;49;52;49;53;10;32;32;32;32;32;32;93;10;32;32;32;32;32;32;115;117;98;104;97;115;104;118;97;108;117;101;32;61;62;32;123;10;32;32;32;32;32;32;32;32;115;117;98;104;97;115;104;118;97;108;117;101;115;116;114;105;110;103;32;61;62;32;118;97;108;117;101;10;32;32;32;32;32;32;125;10;32;32;32;32;125;10;32;32;32;32;99;111;100;101;99;32;61;62;32;114;117;98;121;100;101;98;117;103;32;123;10;32;32;32;32;32;32;115;116;114;105;110;103;32;61;62;32;34;97;32;115;116;114;105;110;103;34;10;32;32;32;32;125;10;32;32;125;10;125;10]) (lits [105;110;112;117;116;32;123;10;32;32;115;116;100;105;110;32;123;10;32;32;32;32;100;111;117;98;108;101;113;117;111;116;101;100;115;116;114;105;110;103;32;61;62;32;34;100;111;117;98;108;101;113;117;111;116;101;100;115;116;114;105;110;103;32;119;105;116;104;32;101;115;99;97;112;101;100;32;92;34;32;34;10;32;32;32;32;115;105;110;103;108;101;113;117;111;116;101;100;115;116;114;105;110;103;32;61;62;32;39;115;105;110;103;108;101;113;117;111;116;101;100;115;116;114;105;110;103;32;119;105;116;104;32;101;115;99;97;112;101;100;32;92;39;32;39;10;32;32;32;32;34;100;111;117;98;108;101;113;117;111;116;101;100;107;101;121;34;32;61;62;32;118;97;108;117;101;10;32;32;32;32;39;115;105;110;103;108;101;113;117;111;116;101;100;107;101;121;39;32;61;62;32;118;97;108;117;101;10;32;32;32;32;98;97;114;101;119;111;114;100;32;61;62;32;98;97;114;101;119;111;114;100;10;32;32;32;32;105;110;116;110;117;109;98;101;114;32;61;62;32;51;10;32;32;32;32;102;108;111;97;116;110;117;109;98;101;114;32;61;62;32;51;46;49;52;49;53;10;32;32;32;32;97;114;114;97;121;118;97;108;117;101;32;61;62;32;91;10;32;32;32;32;32;32;98;97;114;101;119;111;114;100;44;10;32;32;32;32;32;32;34;100;111;117;98;108;101;113;117;111;116;101;100;115;116;114;105;110;103;34;44;10;32;32;32;32;32;32;39;115;105;110;103;108;101;113;117;111;116;101;100;115;116;114;105;110;103;39;44;10;32;32;32;32;32;32;51;44;10;32;32;32;32;32;32;51;46;49;52;49;53;10;32;32;32;32;93;10;32;32;32;32;104;97;115;104;118;97;108;117;101;32;61;62;32;123;10;32;32;32;32;32;32;100;111;117;98;108;101;113;117;111;116;101;100;115;116;114;105;110;103;32;61;62;32;34;100;111;117;98;108;101;113;117;111;116;101;100;115;116;114;105;110;103;34;10;32;32;32;32;32;32;115;105;110;103;108;101;113;117;111;116;101;100;115;116;114;105;110;103;32;61;62;32;39;115;105;110;103;108;101;113;117;111;116;101;100;115;116;114;105;110;103;39;10;32;32;32;32;32;32;98;97;114;101;119;111;114;100;32;61;62;32;98;97;114;101;119;111;114;100;10;32;32;32;32;32;32;105;110;116;110;117;109;98;101;114;32;61;62;32;51;10;32;32;32;32;32;32;97;114;114;97;121;118;97;108;117;101;32;61;62;32;91;10;32;32;32;32;32;32;32;32;98;97;114;101;119;111;114;100;44;10;32;32;32;32;32;32;32;32;34;100;111;117;98;108;101;113;117;111;116;101;100;115;116;114;105;110;103;34;44;10;32;32;32;32;32;32;32;32;39;115;105;110;103;108;101;113;117;111;116;101;100;115;116;114;105;110;103;39;44;10;32;32;32;32;32;32;32;32;51;44;10;32;32;32;32;32;32;32;32;51;46;49;52;49;53;10;32;32;32;32;32;32;93;10;32;32;32;32;32;32;115;117;98;104;97;115;104;118;97;108;117;101;32;61;62;32;123;10;32;32;32;32;32;32;32;32;115;117;98;104;97;115;104;118;97;108;117;101;115;116;114;105;110;103;32;61;62;32;118;97;108;117;101;10;32;32;32;32;32;32;125;10;32;32;32;32;125;10;32;32;32;32;99;111;100;101;99;32;61;62;32;114;117;98;121;100;101;98;117;103;32;123;10;32;32;32;32;32;32;115;116;114;105;110;103;32;61;62;32;34;97;32;115;116;114;105;110;103;34;10;32;32;32;32;125;10;32;32;125;10;125;10]) = true.
Proof. vm_compute. reflexivity. Qed.

(* TestParserIdenticFile: plugin_with_all_attribute_types_with_comments *)
Example repo_test_34 : prints [] (lits [105;110;112;117;116;32;123;10;32;32;115;116;100;105;110;32;123;10;32;32;32;32;35;32;67;111;109;109;101;110;116;10;32;32;32;32;100;111;117;98;108;101;113;117;111;116;101;100;115;116;114;105;110;103;32;61;62;32;34;100;111;117;98;108;101;113;117;111;116;101;100;115;116;114;105;110;103;32;119;105;116;104;32;101;115;99;97;112;101;100;32;92;34;32;34;10;10;32;32;32;32;35;32;67;111;109;109;101;110;116;10;32;32;32;32;115;105;110;103;108;101;113;117;111;116;101;100;115;116;114;105;110;103;32;61;62;32;39;115;105;110;103;108;101;113;117;111;116;101;100;115;116;114;105;110;103;32;119;105;116;104;32;101;115;99;97;112;101;100;32;92;39;32;39;10;10;32;32;32;32;35;32;67;111;109;109;101;110;116;10;32;32;32;32;34;100;111;117;98;108;101;113;117;111;116;101;100;107;101;121;34;32;61;62;32;118;97;108;117;101;10;10;32;32;32;32;35;32;67;111;109;109;101;110;116;10;32;32;32;32;39;115;105;110;103;108;101;113;117;111;116;101;100;107;101;121;39;32;61;62;32;118;97;108;117;101;10;10;32;32;32;32;35;32;67;111;109;109;101;110;116;10;32;32;32;32;98;97;114;101;119;111;114;100;32;61;62;32;98;97;114;101;119;111;114;100;10;10;32;32;32;32;35;32;67;111;109;109;101;110;116;10;32;32;32;32;105;110;116;110;117;109;98;101;114;32;61;62;32;51;10;10;32;32;32;32;35;32;67;111;109;109;101;110;116;10;32;32;32;32;102;108;111;97;116;110;117;109;98;101;114;32;61;62;32;51;46;49;52;49;53;10;10;32;32;32;32;35;32;67;111;109;109;101;110;116;10;32;32;32;32;97;114;114;97;121;118;97;108;117;101;32;61;62;32;91;10;32;32;32;32;32;32;35;32;67;111;109;109;101;110;116;10;32;32;32;32;32;32;98;97;114;101;119;111;114;100;44;10;10;32;32;32;32;32;32;35;32;67;111;109;109;101;110;116;10;32;32;32;32;32;32;34;100;111;117;98;108;101;113;117;111;116;101;100;115;116;114;105;110;103;34;44;10;10;32;32;32;32;32;32;35;32;67;111;109;109;101;110;116;10;32;32;32;32;32;32;39;115;105;110;103;108;101;113;117;111;116;101;100;115;116;114;105;110;103;39;44;10;10;32;32;32;32;32;32;35;32;67;111;109;109;101;110;116;10;32;32;32;32;32;32;51;44;10;10;32;32;32;32;32;32;35;32;67;111;109;109;101;110;116;10;32;32;32;32;32;32;51;46;49;52;49;53;10;10;32;32;32;32;32;32;35;32;67;111;109;109;101;110;116;10;32;32;32;32;93;10;10;32;32;32;32;35;32;67;111;109;109;101;110;116;10;32;32;32;32;104;97;115;104;118;97;108;117;101;32;61;62;32;123;10;32;32;32;32;32;32;35;32;67;111;109;109;101;110;116;10;32;32;32;32;32;32;100;111;117;98;108;101;113;117;111;116;101;100;115;116;114;105;110;103;32;61;62;32;34;100;111;117;98;108;101;113;117;111;116;101;100;115;116;114;105;110;103;34;10;10;32;32;32;32;32;32;35;32;67;111;109;109;101;110;116;10;32;32;32;32;32;32;115;105;110;103;108;101;113;117;111;116;101;100;115;116;114;105;110;103;32;61;62;32;39;115;105;110;103;108;101;113;117;111;116;101;100;115;116;114;105;110;103;39;10;10;32;32;32;32;32;32;35;32;67;111;109;109;101;110;116;10;32;32;32;32;32;32;98;97;114;101;119;111;114;100;32;61;62;32;98;97;114;101;119;111;114;100;10;10;32;32;32;32;32;32;35;32;67;111;109;109;101;110;116;10;32;32;32;32;32;32;105;110;116;110;117;109;98;101;114;32;61;62;32;51;10;10;32;32;32;32;32;32;35;32;67;111;109;109;101;110;116;10;32;32;32;32;32;32;97;114;114;97;121;118;97;108;117;101;32;61;62;32;91;10;32;32;32;32;32;32;32;32;35;32;67;111;109;109;101;110;116;10;32;32;32;32;32;32;32;32;98;97;114;101;119;111;114;100;44;10;10;32;32;32;32;32;32;32;32;35;32;67;111;109;109;101;110;116;10;32;32;32;32;32;32;32;32;34;100;111;117;98;108;101;113;117;111;116;101;100;115;116;114;105;110;103;34;44;10;10;32;32;32;32;32;32;32;32;35;32;67;111;109;109;101;110;116;10;32;32;32;32;32;32;32;32;39;115;105;110;103;108;101;113;117;111;116;101;100;115;116;114;105;110;103;39;44;10;10;32;32;32;32;32;32;32;32;35;32;67;111;109;109;101;110;116;10;32;32;32;32;32;32;32;32;51;44;10;10;32;32;32;32;32;32;32;32;35;32;67;111;109;109;101;110;116;10;32;32;32;32;32;32;32;32;51;46;49;52;49;53;10;10;32;32;32;32;32;32;32;32;35;32;67;111;109;109;101;110;116;10;32;32;32;32;32;32;93;10;10;32;32;32;32;32;32;35;32;67;111;109;109;101;110;116;10;32;32;32;32;32;32;115;117;98;104;97;115;104;118;97;108;117;101;32;61;62;32;123;10;32;32;32;32;32;32;32;32;35;32;67;111;109;109;101;110;116;10;32;32;32;32;32;32;32;32;115;117;98;104;97;115;104;118;97;108;117;101;115;116;114;105;110;103;32;61;62;32;118;97;108;117;101;10;10;32;32;32;32;32;32;32;32;35;32;67;111;109;109;101;110;116;10;32;32;32;32;32;32;125;10;10;32;32;32;32;32;32;35;32;67;111;109;109;101;110;116;10;32;32;32;32;125;10;10;32;32;32;32;35;32;67;111;109;109;101;110;116;10;32;32;32;32;99;111;100;101;99;32;61;62;32;114;117;98;121;100;101;98;117;103;32;123;10;32;32;32;32;32;32;35;32;67;111;109;109;101;110;116;10;32;32;32;32;32;32;115;116;114;105;110;103;32;61;62;32;34;97;32;115;116;114;105;110;103;34;10;10;32;32;32;32;32;32;35;32;67;111;109;109;101;110;116;10;32;32;32;32;125;10;10;32;32;32;32;35;32;67;111;109;109;101;110;116;10;32;32;125;10;125;10]) (lits [105;110;112;117;116;32;123;10;32;32;115;116;100;105;110;32;123;10;32;32;32;32;35;32;67;111;109;109;101;110;116;10;32;32;32;32;100;111;117;98;108;101;113;117;111;116;101;100;115;116;114;105;110;103;32;61;62;32;34;100;111;117;98;108;101;113;117;111;116;101;100;115;116;114;105;110;103;32;119;105;116;104;32;101;115;99;97;112;101;100;32;92;34;32;34;10;10;32;32;32;32;35;32;67;111;109;109;101;110;116;10;32;32;32;32;115;105;110;103;108;101;113;117;111;116;101;100;115;116;114;105;110;103;32;61;62;32;39;115;105;110;103;108;101;113;117;111;116;101;100;115;116;114;105;110;103;32;119;105;116;104;32;101;115;99;97;112;101;100;32;92;39;32;39;10;10;32;32;32;32;35;32;67;111;109;109;101;110;116;10;32;32;32;32;34;100;111;117;98;108;101;113;117;111;116;101;100;107;101;121;34;32;61;62;32;118;97;108;117;101;10;10;32;32;32;32;35;32;67;111;109;109;101;110;116;10;32;32;32;32;39;115;105;110;103;108;101;113;117;111;116;101;100;107;101;121;39;32;61;62;32;118;97;108;117;101;10;10;32;32;32;32;35;32;67;111;109;109;101;110;116;10;32;32;32;32;98;97;114;101;119;111;114;100;32;61;62;32;98;97;114;101;119;111;114;100;10;10;32;32;32;32;35;32;67;111;109;109;101;110;116;10;32;32;32;32;105;110;116;110;117;109;98;101;114;32;61;62;32;51;10;10;32;32;32;32;35;32;67;111;109;109;101;110;116;10;32;32;32;32;102;108;111;97;116;110;117;109;98;101;114;32;61;62;32;51;46;49;52;49;53;10;10;32;32;32;32;35;32;67;111;109;109;101;110;116;10;32;32;32;32;97;114;114;97;121;118;97;108;117;101;32;61;62;32;91;10;32;32;32;32;32;32;35;32;67;111;109;109;101;110;116;10;32;32;32;32;32;32;98;97;114;101;119;111;114;100;44;10;10;32;32;32;32;32;32;35;32;67;111;109;109;101;110;116;10;32;32;32;32;32;32;34;100;111;117;98;108;101;113;117;111;116;101;100;115;116;114;105;110;103;34;44;10;10;32;32;32;32;32;32;35;32;67;111;109;109;101;110;116;10;32;32;32;32;32;32;39;115;105;110;103;108;101;113;117;111;116;101;100;115;116;114;105;110;103;39;44;10;10;32;32;32;32;32;32;35;32;67;111;109;109;101;110;116;10;32;32;32;32;32;32;51;44;10;10;32;32;32;32;32;32;35;32;67;111;109;109;101;110;116;10;32;32;32;32;32;32;51;46;49;52;49;53;10;10;32;32;32;32;32;32;35;32;67;111;109;109;101;110;116;10;32;32;32;32;93;10;10;32;32;32;32;35;32;67;111;109;109;101;110;116;10;32;32;32;32;104;97;115;104;118;97;108;117;101;32;61;62;32;123;10;32;32;32;32;32;32;35;32;67;111;109;109;101;110;116;10;32;32;32;32;32;32;100;111;117;98;108;101;113;117;111;116;101;100;115;116;114;105;110;103;32;61;62;32;34;100;111;117;98;108;101;113;117;111;116;101;100;115;116;114;105;110;103;34;10;10;32;32;32;32;32;32;35;32;67;111;109;109;101;110;116;10;32;32;32;32;32;32;115;105;110;103;108;101;113;117;111;116;101;100;115;116;114;105;110;103;32;61;62;32;39;115;105;110;103;108;101;113;117;111;116;101;100;115;116;114;105;110;103;39;10;10;32;32;32;32;32;32;35;32;67;111;109;109;101;110;116;10;32;32;32;32;32;32;98;97;114;101;119;111;114;100;32;61;62;32;98;97;114;101;119;111;114;100;10;10;32;32;32;32;32;32;35;32;67;111;109;109;101;110;116;10;32;32;32;32;32;32;105;110;116;110;117;109;98;101;114;32;61;62;32;51;10;10;32;32;32;32;32;32;35;32;67;111;109;109;101;110;116;10;32;32;32;32;32;32;97;114;114;97;121;118;97;108;117;101;32;61;62;32;91;10;32;32;32;32;32;32;32;32;35;32;67;111;109;109;101;110;116;10;32;32;32;32;32;32;32;32;98;97;114;101;119;111;114;100;44;10;10;32;32;32;32;32;32;32;32;35;32;67;111;109;109;101;110;116;10;32;32;32;32;32;32;32;32;34;100;111;117;98;108;101;113;117;111;116;101;100;115;116;114;105;110;103;34;44;10;10;32;32;32;32;32;32;32;32;35;32;67;111;109;109;101;110;116;10;32;32;32;32;32;32;32;32;39;115;105;110;103;108;101;113;117;111;116;101;100;115;116;114;105;110;103;39;44;10;10;32;32;32;32;32;32;32;32;35;32;67;111;109;109;101;110;116;10;32;32;32;32;32;32;32;32;51;44;10;10;32;32;32;32;32;32;32;32;35;32;67;111;109;109;101;110;116;10;32;32;32;32;32;32;32;32;51;46;49;52;49;53;10;10;32;32;32;32;32;32;32;32;35;32;67;111;109;109;101;110;116;10;32;32;32;32;32;32;93;10;10;32;32;32;32;32;32;35;32;67;111;109;109;101;110;116;10;32;32;32;32;32;32;115;117;98;104;97;115;104;118;97;108;117;101;32;61;62;32;123;10;32;32;32;32;32;32;32;32;35;32;67;111;109;109;101;110;116;10;32;32;32;32;32;32;32;32;115;117;98;104;97;115;104;118;97;108;117;101;115;116;114;105;110;103;32;61;62;32;118;97;108;117;101;10;10;32;32;32;32;32;32;32;32;35;32;67;111;109;109;101;110;116;10;32;32;32;32;32;32;125;10;10;32;32;32;32;32;32;35;32;67;111;109;109;101;110;116;10;32;32;32;32;125;10;10;32;32;32;32;35;32;67;111;109;109;101;110;116;10;32;32;32;32;99;111;100;101;99;32;61;62;32;114;117;98;121;100;101;98;117;103;32;123;10;32;32;32;32;32;32;35;32;67;111;109;109;101;110;116;10;32;32;32;32;32;32;115;116;114;105;110;103;32;61;62;32;34;97;32;115;116;114;105;110;103;34;10;10;32;32;32;32;32;32;35;32;67;111;109;109;101;110;116;10;32;32;32;32;125;10;10;32;32;32;32;35;32;67;111;109;109;101;110;116;10;32;32;125;10;125;10]) = true.
Proof. vm_compute. reflexivity. Qed.

(* TestParserIdenticFile: if_else-if_and_else_branch_with_comments *)
Example repo_test_35 : prints [] (lits [102;105;108;116;101;114;32;123;10;32;32;35;32;67;111;109;109;101;110;116;10;32;32;105;102;32;49;32;61;61;32;49;32;123;10;32;32;32;32;35;32;67;111;109;109;101;110;116;10;32;32;32;32;100;97;116;101;32;123;125;10;10;32;32;32;32;35;32;67;111;109;109;101;110;116;10;32;32;125;10;32;32;35;32;67;111;109;109;101;110;116;10;32;32;101;108;115;101;32;105;102;32;49;32;61;61;32;49;32;123;10;32;32;32;32;35;32;67;111;109;109;101;110;116;10;32;32;32;32;100;97;116;101;32;123;125;10;10;32;32;32;32;35;32;67;111;109;109;101;110;116;10;32;32;125;10;32;32;35;32;67;111;109;109;101;110;116;10;32;32;101;108;115;101;32;123;10;32;32;32;32;35;32;67;111;109;109;101;110;116;10;32;32;32;32;100;97;116;101;32;123;125;10;10;32;32;32;32;35;32;67;111;109;109;101;110;116;10;32;32;125;10;10;32;32;35;32;67;111;109;109;101;110;116;10;125;10]) (lits [102;105;108;116;101;114;32;123;10;32;32;35;32;67;111;109;109;101;110;116;10;32;32;105;102;32;49;32;61;61;32;49;32;123;10;32;32;32;32;35;32;67;111;109;109;101;110;116;10;32;32;32;32;100;97;116;101;32;123;125;10;10;32;32;32;32;35;32;67;111;109;109;101;110;116;10;32;32;125;10;32;32;35;32;67;111;109;109;101;110;116;10;32;32;101;108;115;101;32;105;102;32;49;32;61;61;32;49;32;123;10;32;32;32;32;35;32;67;111;109;109;101;110;116;10;32;32;32;32;100;97;116;101;32;123;125;10;10;32;32;32;32;35;32;67;111;109;109;101;110;116;10;32;32;125;10;32;32;35;32;67;111;109;109;101;110;116;10;32;32;101;108;115;101;32;123;10;32;32;32;32;35;32;67;111;109;109;101;110;116;10;32;32;32;32;100;97;116;101;32;123;125;10;10;32;32;32;32;35;32;67;111;109;109;101;110;116;10;32;32;125;10;10;32;32;35;32;67;111;109;109;101;110;116;10;125;10]) = true.
Proof. vm_compute. reflexivity. Qed.

(* TestParser: Whitespace, tab and newlines only *)
Example repo_test_36 : prints [] (lits [10;32;32;32;32;32;32;10;9;9;9]) (lits []) = true.
Proof. vm_compute. reflexivity. Qed.

(* TestParser: Single comment (one line without newline) *)
Example repo_test_37 : prints [] (lits [35;32;99;111;109;109;101;110;116;32;111;110;108;121]) (lits []) = true.
Proof. vm_compute. reflexivity. Qed.

(* TestParser: Comment surrounded by empty lines *)
Example repo_test_38 : prints [] (lits [10;35;32;99;111;109;109;101;110;116;32;111;110;108;121;10]) (lits []) = true.
Proof. vm_compute. reflexivity. Qed.

(* TestParser: Reformat plugins *)
Example repo_test_39 : prints [] (lits [105;110;112;117;116;32;123;32;115;116;100;105;110;32;123;125;32;125]) (lits [105;110;112;117;116;32;123;10;32;32;115;116;100;105;110;32;123;125;10;125;10]) = true.
Proof. vm_compute. reflexivity. Qed.

(* TestParser: Comments and whitespace *)
Example repo_test_40 : prints [] (lits [105;110;112;117;116;32;123;32;10;32;32;35;32;67;111;109;109;101;110;116;10;32;32;115;116;100;105;110;32;123;10;10;32;32;32;32;35;32;67;111;109;109;101;110;116;10;10;32;32;125;10;125]) (lits [105;110;112;117;116;32;123;10;32;32;35;32;67;111;109;109;101;110;116;10;32;32;115;116;100;105;110;32;123;10;32;32;32;32;35;32;67;111;109;109;101;110;116;10;32;32;125;10;125;10]) = true.
Proof. vm_compute. reflexivity. Qed.

(* TestParser: Multiple filter sections without empty lines *)
Example repo_test_41 : prints [] (lits [102;105;108;116;101;114;32;123;125;10;102;105;108;116;101;114;32;123;125;10;102;105;108;116;101;114;32;123;125;10]) (lits [102;105;108;116;101;114;32;123;125;10;10;102;105;108;116;101;114;32;123;125;10;10;102;105;108;116;101;114;32;123;125;10]) = true.
Proof. vm_compute. reflexivity. Qed.

(* TestParser: plugin section comment with whitespace before *)
Example repo_test_42 : prints [] (lits [10;10;35;32;67;111;109;109;101;110;116;10;102;105;108;116;101;114;32;123;125;10]) (lits [35;32;67;111;109;109;101;110;116;10;102;105;108;116;101;114;32;123;125;10]) = true.
Proof. vm_compute. reflexivity. Qed.

(* TestParser: plugin section comment with whitespace before and after *)
Example repo_test_43 : prints [] (lits [10;10;35;32;67;111;109;109;101;110;116;10;10;102;105;108;116;101;114;32;123;125;10]) (lits [35;32;67;111;109;109;101;110;116;10;10;102;105;108;116;101;114;32;123;125;10]) = true.
Proof. vm_compute. reflexivity. Qed.

(* TestParser: file header, footer and plugin section comments with whitespace before and after *)
Example repo_test_44 : prints [] (lits [35;32;80;114;101;32;70;105;108;116;101;114;32;99;111;109;109;101;110;116;10;10;35;32;70;105;108;116;101;114;32;99;111;109;109;101;110;116;10;102;105;108;116;101;114;32;123;125;10;10;35;32;73;110;112;117;116;32;99;111;109;109;101;110;116;10;105;110;112;117;116;32;123;125;10;10;35;32;70;105;108;101;32;102;111;111;116;101;114;32;99;111;109;109;101;110;116;10]) (lits [35;32;73;110;112;117;116;32;99;111;109;109;101;110;116;10;105;110;112;117;116;32;123;125;10;35;32;80;114;101;32;70;105;108;116;101;114;32;99;111;109;109;101;110;116;10;10;35;32;70;105;108;116;101;114;32;99;111;109;109;101;110;116;10;102;105;108;116;101;114;32;123;125;10;10;35;32;70;105;108;101;32;102;111;111;116;101;114;32;99;111;109;109;101;110;116;10]) = true.
Proof. vm_compute. reflexivity. Qed.

(* TestParser: file footer comment without spaceBefore *)
Example repo_test_45 : prints [] (lits [102;105;108;116;101;114;32;123;125;10;35;32;67;111;109;109;101;110;116;32;97;102;116;101;114;10]) (lits [102;105;108;116;101;114;32;123;125;10;10;35;32;67;111;109;109;101;110;116;32;97;102;116;101;114;10]) = true.
Proof. vm_compute. reflexivity. Qed.

(* TestParser: pluginSection footer comment with and without spaceBefore *)
Example repo_test_46 : prints [] (lits [102;105;108;116;101;114;32;123;10;32;32;112;108;117;103;105;110;32;123;125;10;10;32;32;35;32;112;108;117;103;105;110;83;101;99;116;105;111;110;32;102;111;111;116;101;114;32;99;111;109;109;101;110;116;10;125;10;10;102;105;108;116;101;114;32;123;10;32;32;112;108;117;103;105;110;32;123;125;10;32;32;35;32;112;108;117;103;105;110;83;101;99;116;105;111;110;32;102;111;111;116;101;114;32;99;111;109;109;101;110;116;10;125;10]) (lits [102;105;108;116;101;114;32;123;10;32;32;112;108;117;103;105;110;32;123;125;10;10;32;32;35;32;112;108;117;103;105;110;83;101;99;116;105;111;110;32;102;111;111;116;101;114;32;99;111;109;109;101;110;116;10;125;10;10;102;105;108;116;101;114;32;123;10;32;32;112;108;117;103;105;110;32;123;125;10;10;32;32;35;32;112;108;117;103;105;110;83;101;99;116;105;111;110;32;102;111;111;116;101;114;32;99;111;109;109;101;110;116;10;125;10]) = true.
Proof. vm_compute. reflexivity. Qed.

(* TestParser: pluginSection footer comment empty block with and without spaceBefore *)
Example repo_test_47 : prints [] (lits [102;105;108;116;101;114;32;123;10;10;32;32;35;32;112;108;117;103;105;110;83;101;99;116;105;111;110;32;102;111;111;116;101;114;32;99;111;109;109;101;110;116;10;125;10;10;102;105;108;116;101;114;32;123;10;32;32;35;32;112;108;117;103;105;110;83;101;99;116;105;111;110;32;102;111;111;116;101;114;32;99;111;109;109;101;110;116;10;125;10]) (lits [102;105;108;116;101;114;32;123;10;32;32;35;32;112;108;117;103;105;110;83;101;99;116;105;111;110;32;102;111;111;116;101;114;32;99;111;109;109;101;110;116;10;125;10;10;102;105;108;116;101;114;32;123;10;32;32;35;32;112;108;117;103;105;110;83;101;99;116;105;111;110;32;102;111;111;116;101;114;32;99;111;109;109;101;110;116;10;125;10]) = true.
Proof. vm_compute. reflexivity. Qed.

(* TestParser: plugins without comments *)
Example repo_test_48 : prints [] (lits [102;105;108;116;101;114;32;123;10;32;32;112;108;117;103;105;110;32;123;125;10;32;32;111;116;104;101;114;112;108;117;103;105;110;32;123;125;10;10;32;32;116;104;105;114;100;112;108;117;103;105;110;32;123;125;10;125;10]) (lits [102;105;108;116;101;114;32;123;10;32;32;112;108;117;103;105;110;32;123;125;10;10;32;32;111;116;104;101;114;112;108;117;103;105;110;32;123;125;10;10;32;32;116;104;105;114;100;112;108;117;103;105;110;32;123;125;10;125;10]) = true.
Proof. vm_compute. reflexivity. Qed.

(* TestParser: plugins with comments *)
Example repo_test_49 : prints [] (lits [102;105;108;116;101;114;32;123;10;32;32;35;32;112;108;117;103;105;110;32;99;111;109;109;101;110;116;10;32;32;112;108;117;103;105;110;32;123;125;10;32;32;35;32;111;116;104;101;114;112;108;117;103;105;110;32;99;111;109;109;101;110;116;10;32;32;111;116;104;101;114;112;108;117;103;105;110;32;123;125;10;10;32;32;35;32;116;104;105;114;100;32;112;108;117;103;105;110;10;32;32;116;104;105;114;100;112;108;117;103;105;110;32;123;125;10;125;10]) (lits [102;105;108;116;101;114;32;123;10;32;32;35;32;112;108;117;103;105;110;32;99;111;109;109;101;110;116;10;32;32;112;108;117;103;105;110;32;123;125;10;10;32;32;35;32;111;116;104;101;114;112;108;117;103;105;110;32;99;111;109;109;101;110;116;10;32;32;111;116;104;101;114;112;108;117;103;105;110;32;123;125;10;10;32;32;35;32;116;104;105;114;100;32;112;108;117;103;105;110;10;32;32;116;104;105;114;100;112;108;117;103;105;110;32;123;125;10;125;10]) = true.
Proof. vm_compute. reflexivity. Qed.

(* TestParser: plugin with multiple comments *)
Example repo_test_50 : prints [] (lits [102;105;108;116;101;114;32;123;10;32;32;35;32;97;100;100;105;116;105;111;110;97;108;32;99;111;109;109;101;110;116;10;10;32;32;35;32;112;108;117;103;105;110;32;99;111;109;109;101;110;116;10;35;32;109;117;108;116;105;112;108;101;32;108;105;110;101;115;10;32;32;112;108;117;103;105;110;32;123;125;10;32;32;35;32;102;111;111;116;101;114;32;99;111;109;109;101;110;116;10;125;10]) (lits [102;105;108;116;101;114;32;123;10;32;32;35;32;97;100;100;105;116;105;111;110;97;108;32;99;111;109;109;101;110;116;10;10;32;32;35;32;112;108;117;103;105;110;32;99;111;109;109;101;110;116;10;32;32;35;32;109;117;108;116;105;112;108;101;32;108;105;110;101;115;10;32;32;112;108;117;103;105;110;32;123;125;10;10;32;32;35;32;102;111;111;116;101;114;32;99;111;109;109;101;110;116;10;125;10]) = true.
Proof. vm_compute. reflexivity. Qed.

(* TestParserFile *)
Example repo_test_51 : prints [] (lits [35;32;99;111;109;109;101;110;116;10;102;105;108;116;101;114;32;35;32;101;120;99;101;112;116;105;111;110;97;108;95;99;111;109;109;101;110;116;10;123;10;32;32;35;32;99;111;109;109;101;110;116;32;112;114;101;10;10;32;32;35;32;99;111;109;109;101;110;116;10;32;32;109;117;116;97;116;101;32;35;32;101;120;99;101;112;116;105;111;110;97;108;95;99;111;109;109;101;110;116;10;32;32;123;10;32;32;32;32;35;32;99;111;109;109;101;110;116;10;32;32;32;32;105;100;32;35;32;101;120;99;101;112;116;105;111;110;97;108;95;99;111;109;109;101;110;116;10;32;32;32;32;61;62;32;35;32;101;120;99;101;112;116;105;111;110;97;108;95;99;111;109;109;101;110;116;10;32;32;32;32;99;111;109;109;101;110;116;10;32;32;32;32;35;32;99;111;109;109;101;110;116;32;49;10;32;32;32;32;97;100;100;95;116;97;103;32;35;32;101;120;99;101;112;116;105;111;110;97;108;95;99;111;109;109;101;110;116;10;32;32;32;32;61;62;32;35;32;101;120;99;101;112;116;105;111;110;97;108;95;99;111;109;109;101;110;116;10;32;32;32;32;91;10;32;32;32;32;32;32;35;32;99;111;109;109;101;110;116;10;32;32;32;32;32;32;34;118;97;108;117;101;34;44;10;32;32;32;32;32;32;35;32;99;111;109;109;101;110;116;10;32;32;32;32;32;32;34;118;97;108;117;101;50;34;10;32;32;32;32;32;32;35;32;99;111;109;109;101;110;116;32;50;10;32;32;32;32;93;10;32;32;32;32;35;32;99;111;109;109;101;110;116;10;32;32;32;32;97;100;100;95;102;105;101;108;100;32;35;32;101;120;99;101;112;116;105;111;110;97;108;95;99;111;109;109;101;110;116;10;32;32;32;32;61;62;32;35;32;101;120;99;101;112;116;105;111;110;97;108;95;99;111;109;109;101;110;116;10;32;32;32;32;123;10;32;32;32;32;32;32;35;32;99;111;109;109;101;110;116;10;32;32;32;32;32;32;34;107;101;121;49;34;32;61;62;32;34;118;97;108;117;101;34;10;32;32;32;32;32;32;34;107;101;121;50;34;32;61;62;32;34;118;97;108;117;101;50;34;10;32;32;32;32;32;32;35;32;99;111;109;109;101;110;116;10;32;32;32;32;125;10;32;32;32;32;35;32;99;111;109;109;101;110;116;10;32;32;125;10;32;32;35;32;99;111;109;109;101;110;116;10;32;32;105;102;32;35;32;101;120;99;101;112;116;105;111;110;97;108;95;99;111;109;109;101;110;116;10;32;32;40;32;35;32;101;120;99;101;112;116;105;111;110;97;108;95;99;111;109;109;101;110;116;10;32;32;34;116;114;117;101;34;32;35;32;101;120;99;101;112;116;105;111;110;97;108;95;99;111;109;109;101;110;116;10;32;32;61;61;32;35;32;101;120;99;101;112;116;105;111;110;97;108;95;99;111;109;109;101;110;116;10;32;32;34;102;97;108;115;101;34;10;32;32;35;32;101;120;99;101;112;116;105;111;110;97;108;95;99;111;109;109;101;110;116;10;32;32;41;32;35;32;101;120;99;101;112;116;105;111;110;97;108;95;99;111;109;109;101;110;116;10;32;32;97;110;100;32;35;32;101;120;99;101;112;116;105;111;110;97;108;95;99;111;109;109;101;110;116;10;32;32;33;32;35;32;101;120;99;101;112;116;105;111;110;97;108;95;99;111;109;109;101;110;116;10;32;32;91;102;111;111;98;97;114;93;32;35;32;101;120;99;101;112;116;105;111;110;97;108;95;99;111;109;109;101;110;116;10;32;32;111;114;32;35;32;101;120;99;101;112;116;105;111;110;97;108;95;99;111;109;109;101;110;116;10;32;32;34;102;111;111;34;32;35;32;101;120;99;101;112;116;105;111;110;97;108;95;99;111;109;109;101;110;116;10;32;32;110;111;116;32;35;32;101;120;99;101;112;116;105;111;110;97;108;95;99;111;109;109;101;110;116;10;32;32;105;110;32;35;32;101;120;99;101;112;116;105;111;110;97;108;95;99;111;109;109;101;110;116;10;32;32;91;98;97;114;93;10;32;32;123;32;35;32;99;111;109;109;101;110;116;10;32;32;32;32;109;117;116;97;116;101;32;123;125;10;32;32;32;32;35;32;99;111;109;109;101;110;116;10;32;32;125;32;35;32;99;111;109;109;101;110;116;10;32;32;101;108;115;101;32;35;32;101;120;99;101;112;116;105;111;110;97;108;95;99;111;109;109;101;110;116;10;32;32;105;102;32;35;32;101;120;99;101;112;116;105;111;110;97;108;95;99;111;109;109;101;110;116;10;32;32;91;102;105;101;108;100;93;32;35;32;101;120;99;101;112;116;105;111;110;97;108;95;99;111;109;109;101;110;116;10;32;32;61;126;32;35;32;101;120;99;101;112;116;105;111;110;97;108;95;99;111;109;109;101;110;116;10;32;32;47;114;101;103;101;120;47;32;35;32;101;120;99;101;112;116;105;111;110;97;108;95;99;111;109;109;101;110;116;10;32;32;97;110;100;32;35;32;101;120;99;101;112;116;105;111;110;97;108;95;99;111;109;109;101;110;116;10;32;32;33;32;35;32;101;120;99;101;112;116;105;111;110;97;108;95;99;111;109;109;101;110;116;10;32;32;40;32;35;32;101;120;99;101;112;116;105;111;110;97;108;95;99;111;109;109;101;110;116;10;32;32;49;32;35;32;101;120;99;101;112;116;105;111;110;97;108;95;99;111;109;109;101;110;116;10;32;32;60;32;35;32;101;120;99;101;112;116;105;111;110;97;108;95;99;111;109;109;101;110;116;10;32;32;50;32;35;32;101;120;99;101;112;116;105;111;110;97;108;95;99;111;109;109;101;110;116;10;32;32;41;32;35;32;101;120;99;101;112;116;105;111;110;97;108;95;99;111;109;109;101;110;116;10;32;32;123;32;35;32;99;111;109;109;101;110;116;10;32;32;32;32;109;117;116;97;116;101;32;123;125;10;32;32;32;32;35;32;99;111;109;109;101;110;116;10;32;32;32;32;109;117;116;97;116;101;32;123;125;10;32;32;32;32;35;32;99;111;109;109;101;110;116;10;32;32;125;32;35;32;99;111;109;109;101;110;116;10;32;32;101;108;115;101;32;35;32;101;120;99;101;112;116;105;111;110;97;108;95;99;111;109;109;101;110;116;10;32;32;123;32;35;32;99;111;109;109;101;110;116;10;32;32;32;32;109;117;116;97;116;101;32;123;125;10;32;32;32;32;35;32;99;111;109;109;101;110;116;10;32;32;32;32;109;117;116;97;116;101;32;123;125;10;32;32;32;32;35;32;99;111;109;109;101;110;116;10;32;32;32;32;105;102;32;34;116;114;117;101;34;32;61;61;32;34;116;114;117;101;34;32;123;10;32;32;32;32;32;32;35;32;99;111;109;109;101;110;116;10;32;32;32;32;125;32;101;108;115;101;32;123;10;32;32;32;32;32;32;35;32;99;111;109;109;101;110;116;10;32;32;32;32;32;32;109;117;116;97;116;101;32;123;125;10;32;32;32;32;32;32;35;32;99;111;109;109;101;110;116;10;32;32;32;32;125;10;32;32;32;32;35;32;99;111;109;109;101;110;116;10;32;32;32;32;109;117;116;97;116;101;32;123;125;10;32;32;32;32;35;32;99;111;109;109;101;110;116;10;32;32;125;32;35;32;99;111;109;109;101;110;116;10;125;10;35;32;99;111;109;109;101;110;116;10]) (lits [35;32;99;111;109;109;101;110;116;10;102;105;108;116;101;114;32;123;10;32;32;35;32;99;111;109;109;101;110;116;32;112;114;101;10;10;32;32;35;32;99;111;109;109;101;110;116;10;32;32;109;117;116;97;116;101;32;123;10;32;32;32;32;35;32;99;111;109;109;101;110;116;10;32;32;32;32;105;100;32;61;62;32;99;111;109;109;101;110;116;10;10;32;32;32;32;35;32;99;111;109;109;101;110;116;32;49;10;32;32;32;32;97;100;100;95;116;97;103;32;61;62;32;91;10;32;32;32;32;32;32;35;32;99;111;109;109;101;110;116;10;32;32;32;32;32;32;34;118;97;108;117;101;34;44;10;10;32;32;32;32;32;32;35;32;99;111;109;109;101;110;116;10;32;32;32;32;32;32;34;118;97;108;117;101;50;34;10;10;32;32;32;32;32;32;35;32;99;111;109;109;101;110;116;32;50;10;32;32;32;32;93;10;10;32;32;32;32;35;32;99;111;109;109;101;110;116;10;32;32;32;32;97;100;100;95;102;105;101;108;100;32;61;62;32;123;10;32;32;32;32;32;32;35;32;99;111;109;109;101;110;116;10;32;32;32;32;32;32;34;107;101;121;49;34;32;61;62;32;34;118;97;108;117;101;34;10;32;32;32;32;32;32;34;107;101;121;50;34;32;61;62;32;34;118;97;108;117;101;50;34;10;10;32;32;32;32;32;32;35;32;99;111;109;109;101;110;116;10;32;32;32;32;125;10;10;32;32;32;32;35;32;99;111;109;109;101;110;116;10;32;32;125;10;10;32;32;35;32;99;111;109;109;101;110;116;10;32;32;105;102;32;40;34;116;114;117;101;34;32;61;61;32;34;102;97;108;115;101;34;41;32;97;110;100;32;33;91;102;111;111;98;97;114;93;32;111;114;32;34;102;111;111;34;32;110;111;116;32;105;110;32;91;98;97;114;93;32;123;10;32;32;32;32;35;32;99;111;109;109;101;110;116;10;32;32;32;32;109;117;116;97;116;101;32;123;125;10;10;32;32;32;32;35;32;99;111;109;109;101;110;116;10;32;32;125;10;32;32;35;32;99;111;109;109;101;110;116;10;32;32;101;108;115;101;32;105;102;32;91;102;105;101;108;100;93;32;61;126;32;47;114;101;103;101;120;47;32;97;110;100;32;33;40;49;32;60;32;50;41;32;123;10;32;32;32;32;35;32;99;111;109;109;101;110;116;10;32;32;32;32;109;117;116;97;116;101;32;123;125;10;10;32;32;32;32;35;32;99;111;109;109;101;110;116;10;32;32;32;32;109;117;116;97;116;101;32;123;125;10;10;32;32;32;32;35;32;99;111;109;109;101;110;116;10;32;32;125;10;32;32;35;32;99;111;109;109;101;110;116;10;32;32;101;108;115;101;32;123;10;32;32;32;32;35;32;99;111;109;109;101;110;116;10;32;32;32;32;109;117;116;97;116;101;32;123;125;10;10;32;32;32;32;35;32;99;111;109;109;101;110;116;10;32;32;32;32;109;117;116;97;116;101;32;123;125;10;10;32;32;32;32;35;32;99;111;109;109;101;110;116;10;32;32;32;32;105;102;32;34;116;114;117;101;34;32;61;61;32;34;116;114;117;101;34;32;123;10;32;32;32;32;32;32;35;32;99;111;109;109;101;110;116;10;32;32;32;32;125;32;101;108;115;101;32;123;10;32;32;32;32;32;32;35;32;99;111;109;109;101;110;116;10;32;32;32;32;32;32;109;117;116;97;116;101;32;123;125;10;10;32;32;32;32;32;32;35;32;99;111;109;109;101;110;116;10;32;32;32;32;125;10;10;32;32;32;32;35;32;99;111;109;109;101;110;116;10;32;32;32;32;109;117;116;97;116;101;32;123;125;10;10;32;32;32;32;35;32;99;111;109;109;101;110;116;10;32;32;125;10;10;32;32;35;32;99;111;109;109;101;110;116;10;125;10;10;35;32;99;111;109;109;101;110;116;10]) = true.
Proof. vm_compute. reflexivity. Qed.

(* TestParseErrors: misspelled plugin section *)
Example repo_test_52 : fails_with (lits [70;73;76;84;69;82;32;123;10;32;32;105;102;32;49;32;61;61;32;49;32;123;10;32;32;32;32;112;108;117;103;105;110;123;125;10;32;32;125;10;125]) (lits [101;120;112;101;99;116;32;112;108;117;103;105;110;32;116;121;112;101]) = true.
Proof. vm_compute. reflexivity. Qed.

(* TestParseErrors: missing closing curly bracket (pluginsection) *)
Example repo_test_53 : fails_with (lits [102;105;108;116;101;114;32;123;10;32;32;105;102;32;49;32;61;61;32;49;32;123;10;32;32;32;32;112;108;117;103;105;110;123;125;10;32;32;125;10]) (lits [101;120;112;101;99;116;32;99;108;111;115;105;110;103;32;99;117;114;108;121;32;98;114;97;99;107;101;116]) = true.
Proof. vm_compute. reflexivity. Qed.

(* TestParseErrors: missing closing curly bracket (plugin) *)
Example repo_test_54 : fails_with (lits [102;105;108;116;101;114;32;123;10;32;32;112;108;117;103;105;110;32;123;125;10;32;32;112;108;117;103;105;110;50;32;123;10;32;32;112;108;117;103;105;110;51;32;123;125;10;125]) (lits [101;120;112;101;99;116;32;99;108;111;115;105;110;103;32;99;117;114;108;121;32;98;114;97;99;107;101;116]) = true.
Proof. vm_compute. reflexivity. Qed.

(* TestParseErrors: invalid value *)
Example repo_test_55 : fails_with (lits [102;105;108;116;101;114;32;123;10;32;32;112;108;117;103;105;110;32;123;10;32;32;32;32;118;97;108;117;101;32;61;62;32;35;105;110;118;97;108;105;100;35;10;32;32;125;10;125]) (lits [101;120;112;101;99;116;32;99;108;111;115;105;110;103;32;99;117;114;108;121;32;98;114;97;99;107;101;116]) = true.
Proof. vm_compute. reflexivity. Qed.

(* TestParseErrors: invalid array value *)
Example repo_test_56 : fails_with (lits [102;105;108;116;101;114;32;123;10;32;32;112;108;117;103;105;110;32;123;10;32;32;32;32;118;97;108;117;101;32;61;62;32;91;32;35;105;110;118;97;108;105;100;35;32;93;10;32;32;125;10;125]) (lits [101;120;112;101;99;116;32;99;108;111;115;105;110;103;32;115;113;117;97;114;101;32;98;114;97;99;107;101;116]) = true.
Proof. vm_compute. reflexivity. Qed.

(* TestParseErrors: missing closing double quotes *)
Example repo_test_57 : fails_with (lits [102;105;108;116;101;114;32;123;10;32;32;112;108;117;103;105;110;32;123;10;32;32;32;32;118;97;108;117;101;32;61;62;32;34;105;110;118;97;108;105;100;10;32;32;125;10;125]) (lits [101;120;112;101;99;116;32;99;108;111;115;105;110;103;32;100;111;117;98;108;101;32;113;117;111;116;101;115;32;40;34;41]) = true.
Proof. vm_compute. reflexivity. Qed.

(* TestParseErrors: missing closing single quotes *)
Example repo_test_58 : fails_with (lits [102;105;108;116;101;114;32;123;10;32;32;112;108;117;103;105;110;32;123;10;32;32;32;32;118;97;108;117;101;32;61;62;32;39;105;110;118;97;108;105;100;10;32;32;125;10;125]) (lits [101;120;112;101;99;116;32;99;108;111;115;105;110;103;32;115;105;110;103;108;101;32;113;117;111;116;101;32;40;39;41]) = true.
Proof. vm_compute. reflexivity. Qed.

(* TestParseErrors: missing closing double slash for regexp *)
Example repo_test_59 : fails_with (lits [102;105;108;116;101;114;32;123;10;32;32;105;102;32;91;102;105;101;108;100;93;32;61;126;32;47;46;42;10;32;32;32;32;112;108;117;103;105;110;32;123;125;10;32;32;125;10;125]) (lits [101;120;112;101;99;116;32;99;108;111;115;105;110;103;32;115;108;97;115;104;32;40;47;41;32;102;111;114;32;114;101;103;101;120;112]) = true.
Proof. vm_compute. reflexivity. Qed.

(* TestParseErrors: missing closing squre bracket *)
Example repo_test_60 : fails_with (lits [102;105;108;116;101;114;32;123;10;32;32;112;108;117;103;105;110;32;123;10;32;32;32;32;118;97;108;117;101;32;61;62;32;91;32;34;98;97;114;34;32;10;32;32;125;10;125]) (lits [101;120;112;101;99;116;32;99;108;111;115;105;110;103;32;115;113;117;97;114;101;32;98;114;97;99;107;101;116]) = true.
Proof. vm_compute. reflexivity. Qed.

(* TestParseErrors: missing closing curly bracket (value) *)
Example repo_test_61 : fails_with (lits [102;105;108;116;101;114;32;123;10;32;32;112;108;117;103;105;110;32;123;10;32;32;32;32;118;97;108;117;101;32;61;62;32;123;32;34;98;97;114;34;32;61;62;32;34;98;97;114;34;10;32;32;125;10;125]) (lits [101;120;112;101;99;116;32;99;108;111;115;105;110;103;32;99;117;114;108;121;32;98;114;97;99;107;101;116]) = true.
Proof. vm_compute. reflexivity. Qed.

(* TestParseErrors: missing closing curly bracket (if) *)
Example repo_test_62 : fails_with (lits [102;105;108;116;101;114;32;123;10;32;32;105;102;32;49;32;61;61;32;49;32;123;10;32;32;32;32;112;108;117;103;105;110;32;123;125;10;32;32;101;108;115;101;32;123;10;32;32;32;32;112;108;117;103;105;110;50;32;123;125;10;32;32;125;10;125]) (lits [101;120;112;101;99;116;32;99;108;111;115;105;110;103;32;99;117;114;108;121;32;98;114;97;99;107;101;116]) = true.
Proof. vm_compute. reflexivity. Qed.

(* TestParseErrors: missing closing curly bracket (else) *)
Example repo_test_63 : fails_with (lits [102;105;108;116;101;114;32;123;10;32;32;105;102;32;49;32;61;61;32;49;32;123;10;32;32;32;32;112;108;117;103;105;110;32;123;125;10;32;32;125;32;101;108;115;101;32;123;10;32;32;32;32;112;108;117;103;105;110;50;32;123;125;10;125]) (lits [101;120;112;101;99;116;32;99;108;111;115;105;110;103;32;99;117;114;108;121;32;98;114;97;99;107;101;116]) = true.
Proof. vm_compute. reflexivity. Qed.

(* TestParseErrors: missing closing curly bracket (else if) *)
Example repo_test_64 : fails_with (lits [102;105;108;116;101;114;32;123;10;32;32;105;102;32;49;32;61;61;32;49;32;123;10;32;32;32;32;112;108;117;103;105;110;32;123;125;10;32;32;125;32;101;108;115;101;32;105;102;32;50;32;61;61;32;50;32;123;10;32;32;32;32;112;108;117;103;105;110;50;32;123;125;10;32;32;101;108;115;101;32;123;10;32;32;32;32;112;108;117;103;105;110;51;32;123;125;10;32;32;125;10;125]) (lits [101;120;112;101;99;116;32;99;108;111;115;105;110;103;32;99;117;114;108;121;32;98;114;97;99;107;101;116]) = true.
Proof. vm_compute. reflexivity. Qed.

(* TestParseErrors: missing closing parenthesis *)
Example repo_test_65 : fails_with (lits [102;105;108;116;101;114;32;123;10;32;32;105;102;32;33;40;32;49;32;61;61;32;49;32;123;10;32;32;32;32;112;108;117;103;105;110;32;123;125;10;32;32;125;10;125]) (lits [101;120;112;101;99;116;32;99;108;111;115;105;110;103;32;112;97;114;101;110;116;104;101;115;105;115]) = true.
Proof. vm_compute. reflexivity. Qed.

(* TestParseErrors: invalid value for expression *)
Example repo_test_66 : fails_with (lits [102;105;108;116;101;114;32;123;10;32;32;105;102;32;91;116;101;115;116;93;32;61;61;32;35;116;101;115;116;35;32;123;10;32;32;32;32;112;108;117;103;105;110;32;123;125;10;32;32;125;10;125]) (lits [32;105;110;118;97;108;105;100;32;118;97;108;117;101;32;102;111;114;32;101;120;112;114;101;115;115;105;111;110]) = true.
Proof. vm_compute. reflexivity. Qed.

(* TestParseErrors: invalid boolean operator *)
Example repo_test_67 : fails_with (lits [102;105;108;116;101;114;32;123;10;32;32;105;102;32;49;32;61;61;32;49;32;110;111;114;32;50;32;61;61;32;50;32;123;10;32;32;32;32;112;108;117;103;105;110;123;125;10;32;32;125;10;125]) (lits [101;120;112;101;99;116;32;98;111;111;108;101;97;110;32;111;112;101;114;97;116;111;114]) = true.
Proof. vm_compute. reflexivity. Qed.

(* TestParseErrors: invalid comparison operator *)
Example repo_test_68 : fails_with (lits [102;105;108;116;101;114;32;123;10;32;32;105;102;32;91;102;105;101;108;100;93;32;63;126;32;47;46;42;47;32;123;10;32;32;32;32;112;108;117;103;105;110;123;125;10;32;32;125;10;125]) (lits [101;120;112;101;99;116;32;114;101;103;101;120;112;32;99;111;109;112;97;114;105;115;111;110;32;111;112;101;114;97;116;111;114]) = true.
Proof. vm_compute. reflexivity. Qed.

(* TestParseErrors: invalid compare operator *)
Example repo_test_69 : fails_with (lits [102;105;108;116;101;114;32;123;10;32;32;105;102;32;34;116;101;115;116;34;32;61;33;32;34;116;101;115;116;34;32;123;10;32;32;32;32;112;108;117;103;105;110;123;125;10;32;32;125;10;125]) (lits [101;120;112;101;99;116;32;99;111;109;112;97;114;101;32;111;112;101;114;97;116;111;114]) = true.
Proof. vm_compute. reflexivity. Qed.

(* TestParseErrors: invalid in operator *)
Example repo_test_70 : fails_with (lits [102;105;108;116;101;114;32;123;10;32;32;105;102;32;34;116;101;115;116;34;32;111;110;32;91;102;105;101;108;100;93;32;123;10;32;32;32;32;112;108;117;103;105;110;123;125;10;32;32;125;10;125]) (lits [101;120;112;101;99;116;32;105;110;32;111;112;101;114;97;116;111;114]) = true.
Proof. vm_compute. reflexivity. Qed.

(* TestParseErrors: invalid not in operator *)
Example repo_test_71 : fails_with (lits [102;105;108;116;101;114;32;123;10;32;32;105;102;32;34;116;101;115;116;34;32;110;111;32;105;110;32;91;102;105;101;108;100;93;32;123;10;32;32;32;32;112;108;117;103;105;110;123;125;10;32;32;125;10;125]) (lits [101;120;112;101;99;116;32;110;111;116;32;105;110;32;111;112;101;114;97;116;111;114]) = true.
Proof. vm_compute. reflexivity. Qed.

(* TestParseErrors: missing closing square bracket *)
Example repo_test_72 : fails_with (lits [102;105;108;116;101;114;32;123;10;32;32;105;102;32;34;116;101;115;116;34;32;105;110;32;91;102;105;101;108;100;93;91;115;117;98;102;105;101;108;100;32;123;10;32;32;32;32;112;108;117;103;105;110;123;125;10;32;32;125;10;125]) (lits [101;120;112;101;99;116;32;99;108;111;115;105;110;103;32;115;113;117;97;114;101;32;98;114;97;99;107;101;116]) = true.
Proof. vm_compute. reflexivity. Qed.

(* TestParseExceptionalComments *)
Example repo_test_73 : warning_count (lits [35;32;99;111;109;109;101;110;116;10;102;105;108;116;101;114;32;35;32;101;120;99;101;112;116;105;111;110;97;108;95;99;111;109;109;101;110;116;10;123;10;32;32;35;32;99;111;109;109;101;110;116;10;32;32;109;117;116;97;116;101;32;35;32;101;120;99;101;112;116;105;111;110;97;108;95;99;111;109;109;101;110;116;10;32;32;123;10;32;32;32;32;35;32;99;111;109;109;101;110;116;10;32;32;32;32;105;100;32;35;32;101;120;99;101;112;116;105;111;110;97;108;95;99;111;109;109;101;110;116;10;32;32;32;32;61;62;32;35;32;101;120;99;101;112;116;105;111;110;97;108;95;99;111;109;109;101;110;116;10;32;32;32;32;99;111;109;109;101;110;116;10;32;32;32;32;35;32;99;111;109;109;101;110;116;32;49;10;32;32;32;32;97;100;100;95;116;97;103;32;35;32;101;120;99;101;112;116;105;111;110;97;108;95;99;111;109;109;101;110;116;10;32;32;32;32;61;62;32;35;32;101;120;99;101;112;116;105;111;110;97;108;95;99;111;109;109;101;110;116;10;32;32;32;32;91;10;32;32;32;32;32;32;35;32;99;111;109;109;101;110;116;10;32;32;32;32;32;32;34;118;97;108;117;101;34;44;10;32;32;32;32;32;32;35;32;99;111;109;109;101;110;116;10;32;32;32;32;32;32;34;118;97;108;117;101;50;34;10;32;32;32;32;32;32;35;32;99;111;109;109;101;110;116;32;50;10;32;32;32;32;93;10;32;32;32;32;35;32;99;111;109;109;101;110;116;10;32;32;32;32;97;100;100;95;102;105;101;108;100;32;35;32;101;120;99;101;112;116;105;111;110;97;108;95;99;111;109;109;101;110;116;10;32;32;32;32;61;62;32;35;32;101;120;99;101;112;116;105;111;110;97;108;95;99;111;109;109;101;110;116;10;32;32;32;32;123;10;32;32;32;32;32;32;35;32;99;111;109;109;101;110;116;10;32;32;32;32;32;32;34;107;101;121;49;34;32;61;62;32;34;118;97;108;117;101;34;10;32;32;32;32;32;32;34;107;101;121;50;34;32;61;62;32;34;118;97;108;117;101;50;34;10;32;32;32;32;32;32;35;32;99;111;109;109;101;110;116;10;32;32;32;32;125;10;32;32;32;32;35;32;99;111;109;109;101;110;116;10;32;32;125;10;32;32;35;32;99;111;109;109;101;110;116;10;32;32;105;102;32;35;32;101;120;99;101;112;116;105;111;110;97;108;95;99;111;109;109;101;110;116;10;32;32;40;32;35;32;101;120;99;101;112;116;105;111;110;97;108;95;99;111;109;109;101;110;116;10;32;32;34;116;114;117;101;34;32;35;32;101;120;99;101;112;116;105;111;110;97;108;95;99;111;109;109;101;110;116;10;32;32;61;61;32;35;32;101;120;99;101;112;116;105;111;110;97;108;95;99;111;109;109;101;110;116;10;32;32;34;102;97;108;115;101;34;10;32;32;35;32;101;120;99;101;112;116;105;111;110;97;108;95;99;111;109;109;101;110;116;10;32;32;41;32;35;32;101;120;99;101;112;116;105;111;110;97;108;95;99;111;109;109;101;110;116;10;32;32;97;110;100;32;35;32;101;120;99;101;112;116;105;111;110;97;108;95;99;111;109;109;101;110;116;10;32;32;33;32;35;32;101;120;99;101;112;116;105;111;110;97;108;95;99;111;109;109;101;110;116;10;32;32;91;102;111;111;98;97;114;93;32;35;32;101;120;99;101;112;116;105;111;110;97;108;95;99;111;109;109;101;110;116;10;32;32;111;114;32;35;32;101;120;99;101;112;116;105;111;110;97;108;95;99;111;109;109;101;110;116;10;32;32;34;102;111;111;34;32;35;32;101;120;99;101;112;116;105;111;110;97;108;95;99;111;109;109;101;110;116;10;32;32;110;111;116;32;35;32;101;120;99;101;112;116;105;111;110;97;108;95;99;111;109;109;101;110;116;10;32;32;105;110;32;35;32;101;120;99;101;112;116;105;111;110;97;108;95;99;111;109;109;101;110;116;10;32;32;91;98;97;114;93;10;32;32;123;32;35;32;99;111;109;109;101;110;116;10;32;32;32;32;109;117;116;97;116;101;32;123;125;10;32;32;32;32;35;32;99;111;109;109;101;110;116;10;32;32;125;32;35;32;99;111;109;109;101;110;116;10;32;32;101;108;115;101;32;35;32;101;120;99;101;112;116;105;111;110;97;108;95;99;111;109;109;101;110;116;10;32;32;105;102;32;35;32;101;120;99;101;112;116;105;111;110;97;108;95;99;111;109;109;101;110;116;10;32;32;91;102;105;101;108;100;93;32;35;32;101;120;99;101;112;116;105;111;110;97;108;95;99;111;109;109;101;110;116;10;32;32;61;126;32;35;32;101;120;99;101;112;116;105;111;110;97;108;95;99;111;109;109;101;110;116;10;32;32;47;114;101;103;101;120;47;32;35;32;101;120;99;101;112;116;105;111;110;97;108;95;99;111;109;109;101;110;116;10;32;32;97;110;100;32;35;32;101;120;99;101;112;116;105;111;110;97;108;95;99;111;109;109;101;110;116;10;32;32;33;32;35;32;101;120;99;101;112;116;105;111;110;97;108;95;99;111;109;109;101;110;116;10;32;32;40;32;35;32;101;120;99;101;112;116;105;111;110;97;108;95;99;111;109;109;101;110;116;10;32;32;49;32;35;32;101;120;99;101;112;116;105;111;110;97;108;95;99;111;109;109;101;110;116;10;32;32;60;32;35;32;101;120;99;101;112;116;105;111;110;97;108;95;99;111;109;109;101;110;116;10;32;32;50;32;35;32;101;120;99;101;112;116;105;111;110;97;108;95;99;111;109;109;101;110;116;10;32;32;41;32;35;32;101;120;99;101;112;116;105;111;110;97;108;95;99;111;109;109;101;110;116;10;32;32;123;32;35;32;99;111;109;109;101;110;116;10;32;32;32;32;109;117;116;97;116;101;32;123;125;10;32;32;32;32;35;32;99;111;109;109;101;110;116;10;32;32;125;32;35;32;99;111;109;109;101;110;116;10;32;32;101;108;115;101;32;35;32;101;120;99;101;112;116;105;111;110;97;108;95;99;111;109;109;101;110;116;10;32;32;123;32;35;32;99;111;109;109;101;110;116;10;32;32;32;32;109;117;116;97;116;101;32;123;125;10;32;32;32;32;35;32;99;111;109;109;101;110;116;10;32;32;125;32;35;32;99;111;109;109;101;110;116;10;125;10;35;32;99;111;109;109;101;110;116;10]) = 34%nat.
Proof. vm_compute. reflexivity. Qed.

(* TestParseIgnoreComments *)
Example repo_test_74 : prints [OptIgnoreComments true] (lits [35;32;99;111;109;109;101;110;116;10;102;105;108;116;101;114;32;35;32;101;120;99;101;112;116;105;111;110;97;108;95;99;111;109;109;101;110;116;10;123;10;32;32;35;32;99;111;109;109;101;110;116;10;32;32;109;117;116;97;116;101;32;35;32;101;120;99;101;112;116;105;111;110;97;108;95;99;111;109;109;101;110;116;10;32;32;123;10;32;32;32;32;35;32;99;111;109;109;101;110;116;10;32;32;32;32;105;100;32;35;32;101;120;99;101;112;116;105;111;110;97;108;95;99;111;109;109;101;110;116;10;32;32;32;32;61;62;32;35;32;101;120;99;101;112;116;105;111;110;97;108;95;99;111;109;109;101;110;116;10;32;32;32;32;99;111;109;109;101;110;116;10;32;32;32;32;35;32;99;111;109;109;101;110;116;32;49;10;32;32;32;32;97;100;100;95;116;97;103;32;35;32;101;120;99;101;112;116;105;111;110;97;108;95;99;111;109;109;101;110;116;10;32;32;32;32;61;62;32;35;32;101;120;99;101;112;116;105;111;110;97;108;95;99;111;109;109;101;110;116;10;32;32;32;32;91;10;32;32;32;32;32;32;35;32;99;111;109;109;101;110;116;10;32;32;32;32;32;32;34;118;97;108;117;101;34;44;10;32;32;32;32;32;32;35;32;99;111;109;109;101;110;116;10;32;32;32;32;32;32;34;118;97;108;117;101;50;34;10;32;32;32;32;32;32;35;32;99;111;109;109;101;110;116;32;50;10;32;32;32;32;93;10;32;32;32;32;35;32;99;111;109;109;101;110;116;10;32;32;32;32;97;100;100;95;102;105;101;108;100;32;35;32;101;120;99;101;112;116;105;111;110;97;108;95;99;111;109;109;101;110;116;10;32;32;32;32;61;62;32;35;32;101;120;99;101;112;116;105;111;110;97;108;95;99;111;109;109;101;110;116;10;32;32;32;32;123;10;32;32;32;32;32;32;35;32;99;111;109;109;101;110;116;10;32;32;32;32;32;32;34;107;101;121;49;34;32;61;62;32;34;118;97;108;117;101;34;10;32;32;32;32;32;32;34;107;101;121;50;34;32;61;62;32;34;118;97;108;117;101;50;34;10;32;32;32;32;32;32;35;32;99;111;109;109;101;110;116;10;32;32;32;32;125;10;32;32;32;32;35;32;99;111;109;109;101;110;116;10;32;32;125;10;32;32;35;32;99;111;109;109;101;110;116;10;32;32;105;102;32;35;32;101;120;99;101;112;116;105;111;110;97;108;95;99;111;109;109;101;110;116;10;32;32;40;32;35;32;101;120;99;101;112;116;105;111;110;97;108;95;99;111;109;109;101;110;116;10;32;32;34;116;114;117;101;34;32;35;32;101;120;99;101;112;116;105;111;110;97;108;95;99;111;109;109;101;110;116;10;32;32;61;61;32;35;32;101;120;99;101;112;116;105;111;110;97;108;95;99;111;109;109;101;110;116;10;32;32;34;102;97;108;115;101;34;10;32;32;35;32;101;120;99;101;112;116;105;111;110;97;108;95;99;111;109;109;101;110;116;10;32;32;41;32;35;32;101;120;99;101;112;116;105;111;110;97;108;95;99;111;109;109;101;110;116;10;32;32;97;110;100;32;35;32;101;120;99;101;112;116;105;111;110;97;108;95;99;111;109;109;101;110;116;10;32;32;33;32;35;32;101;120;99;101;112;116;105;111;110;97;108;95;99;111;109;109;101;110;116;10;32;32;91;102;111;111;98;97;114;93;32;35;32;101;120;99;101;112;116;105;111;110;97;108;95;99;111;109;109;101;110;116;10;32;32;111;114;32;35;32;101;120;99;101;112;116;105;111;110;97;108;95;99;111;109;109;101;110;116;10;32;32;34;102;111;111;34;32;35;32;101;120;99;101;112;116;105;111;110;97;108;95;99;111;109;109;101;110;116;10;32;32;110;111;116;32;35;32;101;120;99;101;112;116;105;111;110;97;108;95;99;111;109;109;101;110;116;10;32;32;105;110;32;35;32;101;120;99;101;112;116;105;111;110;97;108;95;99;111;109;109;101;110;116;10;32;32;91;98;97;114;93;10;32;32;123;32;35;32;99;111;109;109;101;110;116;10;32;32;32;32;109;117;116;97;116;101;32;123;125;10;32;32;32;32;35;32;99;111;109;109;101;110;116;10;32;32;125;32;35;32;99;111;109;109;101;110;116;10;32;32;101;108;115;101;32;35;32;101;120;99;101;112;116;105;111;110;97;108;95;99;111;109;109;101;110;116;10;32;32;105;102;32;35;32;101;120;99;101;112;116;105;111;110;97;108;95;99;111;109;109;101;110;116;10;32;32;91;102;105;101;108;100;93;32;35;32;101;120;99;101;112;116;105;111;110;97;108;95;99;111;109;109;101;110;116;10;32;32;61;126;32;35;32;101;120;99;101;112;116;105;111;110;97;108;95;99;111;109;109;101;110;116;10;32;32;47;114;101;103;101;120;47;32;35;32;101;120;99;101;112;116;105;111;110;97;108;95;99;111;109;109;101;110;116;10;32;32;97;110;100;32;35;32;101;120;99;101;112;116;105;111;110;97;108;95;99;111;109;109;101;110;116;10;32;32;33;32;35;32;101;120;99;101;112;116;105;111;110;97;108;95;99;111;109;109;101;110;116;10;32;32;40;32;35;32;101;120;99;101;112;116;105;111;110;97;108;95;99;111;109;109;101;110;116;10;32;32;49;32;35;32;101;120;99;101;112;116;105;111;110;97;108;95;99;111;109;109;101;110;116;10;32;32;60;32;35;32;101;120;99;101;112;116;105;111;110;97;108;95;99;111;109;109;101;110;116;10;32;32;50;32;35;32;101;120;99;101;112;116;105;111;110;97;108;95;99;111;109;109;101;110;116;10;32;32;41;32;35;32;101;120;99;101;112;116;105;111;110;97;108;95;99;111;109;109;101;110;116;10;32;32;123;32;35;32;99;111;109;109;101;110;116;10;32;32;32;32;109;117;116;97;116;101;32;123;125;10;32;32;32;32;35;32;99;111;109;109;101;110;116;10;32;32;125;32;35;32;99;111;109;109;101;110;116;10;32;32;101;108;115;101;32;35;32;101;120;99;101;112;116;105;111;110;97;108;95;99;111;109;109;101;110;116;10;32;32;123;32;35;32;99;111;109;109;101;110;116;10;32;32;32;32;109;117;116;97;116;101;32;123;125;10;32;32;32;32;35;32;99;111;109;109;101;110;116;10;32;32;125;32;35;32;99;111;109;109;101;110;116;10;125;10;35;32;99;111;109;109;101;110;116;10]) (lits [102;105;108;116;101;114;32;123;10;32;32;109;117;116;97;116;101;32;123;10;32;32;32;32;105;100;32;61;62;32;99;111;109;109;101;110;116;10;32;32;32;32;97;100;100;95;116;97;103;32;61;62;32;91;10;32;32;32;32;32;32;34;118;97;108;117;101;34;44;10;32;32;32;32;32;32;34;118;97;108;117;101;50;34;10;32;32;32;32;93;10;32;32;32;32;97;100;100;95;102;105;101;108;100;32;61;62;32;123;10;32;32;32;32;32;32;34;107;101;121;49;34;32;61;62;32;34;118;97;108;117;101;34;10;32;32;32;32;32;32;34;107;101;121;50;34;32;61;62;32;34;118;97;108;117;101;50;34;10;32;32;32;32;125;10;32;32;125;10;10;32;32;105;102;32;40;34;116;114;117;101;34;32;61;61;32;34;102;97;108;115;101;34;41;32;97;110;100;32;33;91;102;111;111;98;97;114;93;32;111;114;32;34;102;111;111;34;32;110;111;116;32;105;110;32;91;98;97;114;93;32;123;10;32;32;32;32;109;117;116;97;116;101;32;123;125;10;32;32;125;32;101;108;115;101;32;105;102;32;91;102;105;101;108;100;93;32;61;126;32;47;114;101;103;101;120;47;32;97;110;100;32;33;40;49;32;60;32;50;41;32;123;10;32;32;32;32;109;117;116;97;116;101;32;123;125;10;32;32;125;32;101;108;115;101;32;123;10;32;32;32;32;109;117;116;97;116;101;32;123;125;10;32;32;125;10;125;10]) = true.
Proof. vm_compute. reflexivity. Qed.

(* TestPrefix: empty string *)
Example repo_test_75 : prefix (lits []) false = (lits []).
Proof. vm_compute. reflexivity. Qed.

(* TestPrefix: empty string with empty newline *)
Example repo_test_76 : prefix (lits []) true = (lits [10]).
Proof. vm_compute. reflexivity. Qed.

(* TestPrefix: simple attribute *)
Example repo_test_77 : prefix (lits [118;97;108;117;101;32;61;62;32;51;46;49;52;49;53;10]) false = (lits [10;32;32;118;97;108;117;101;32;61;62;32;51;46;49;52;49;53;10]).
Proof. vm_compute. reflexivity. Qed.

(* TestPrefix: simple attribute with comment *)
Example repo_test_78 : prefix (lits [35;32;99;111;109;109;101;110;116;10;118;97;108;117;101;32;61;62;32;51;46;49;52;49;53;10]) false = (lits [10;32;32;35;32;99;111;109;109;101;110;116;10;32;32;118;97;108;117;101;32;61;62;32;51;46;49;52;49;53;10]).
Proof. vm_compute. reflexivity. Qed.

(* TestPrefix: block *)
Example repo_test_79 : prefix (lits [97;100;100;95;102;105;101;108;100;32;123;10;32;32;35;32;99;111;109;109;101;110;116;10;32;32;118;97;108;117;101;32;61;62;32;51;46;49;52;49;53;10;125;10;10;97;100;100;95;116;97;103;32;61;62;32;91;32;34;102;111;111;98;97;114;34;32;93;10]) false = (lits [10;32;32;97;100;100;95;102;105;101;108;100;32;123;10;32;32;32;32;35;32;99;111;109;109;101;110;116;10;32;32;32;32;118;97;108;117;101;32;61;62;32;51;46;49;52;49;53;10;32;32;125;10;10;32;32;97;100;100;95;116;97;103;32;61;62;32;91;32;34;102;111;111;98;97;114;34;32;93;10]).
Proof. vm_compute. reflexivity. Qed.

(* TestPrefix: attribute with multiline string attribute *)
Example repo_test_80 : prefix (lits [118;97;108;117;101;32;61;62;32;34;115;116;114;105;110;103;10;119;105;116;104;32;109;117;108;116;105;112;108;101;10;108;105;110;101;115;34;10;111;116;104;101;114;118;97;108;117;101;32;61;62;32;51;46;49;52;49;53;10]) false = (lits [10;32;32;118;97;108;117;101;32;61;62;32;34;115;116;114;105;110;103;10;119;105;116;104;32;109;117;108;116;105;112;108;101;10;108;105;110;101;115;34;10;32;32;111;116;104;101;114;118;97;108;117;101;32;61;62;32;51;46;49;52;49;53;10]).
Proof. vm_compute. reflexivity. Qed.

(* TestPrefix: attribute with multiline string attribute (single quote) *)
Example repo_test_81 : prefix (lits [118;97;108;117;101;32;61;62;32;39;115;116;114;105;110;103;10;119;105;116;104;32;109;117;108;116;105;112;108;101;10;108;105;110;101;115;39;10;111;116;104;101;114;118;97;108;117;101;32;61;62;32;51;46;49;52;49;53;10]) false = (lits [10;32;32;118;97;108;117;101;32;61;62;32;39;115;116;114;105;110;103;10;119;105;116;104;32;109;117;108;116;105;112;108;101;10;108;105;110;101;115;39;10;32;32;111;116;104;101;114;118;97;108;117;101;32;61;62;32;51;46;49;52;49;53;10]).
Proof. vm_compute. reflexivity. Qed.

(* TestPrefix: comment with double and single quote *)
Example repo_test_82 : prefix (lits [35;32;99;111;109;109;101;110;116;32;119;105;116;104;32;34;32;97;110;100;32;39;10;111;116;104;101;114;118;97;108;117;101;32;61;62;32;51;46;49;52;49;53;10]) false = (lits [10;32;32;35;32;99;111;109;109;101;110;116;32;119;105;116;104;32;34;32;97;110;100;32;39;10;32;32;111;116;104;101;114;118;97;108;117;101;32;61;62;32;51;46;49;52;49;53;10]).
Proof. vm_compute. reflexivity. Qed.

(* TestPrefix: array with multiple string types *)
Example repo_test_83 : prefix (lits [118;97;108;117;101;32;61;62;32;91;32;34;115;116;114;105;110;103;34;44;32;39;115;116;114;105;110;103;39;44;32;115;116;114;105;110;103;32;93;10]) false = (lits [10;32;32;118;97;108;117;101;32;61;62;32;91;32;34;115;116;114;105;110;103;34;44;32;39;115;116;114;105;110;103;39;44;32;115;116;114;105;110;103;32;93;10]).
Proof. vm_compute. reflexivity. Qed.

(* TestEscapeQuotes *)
Example repo_test_84 : escape_quotes (lits []) 34 = (lits []).
Proof. vm_compute. reflexivity. Qed.

(* TestEscapeQuotes *)
Example repo_test_85 : escape_quotes (lits []) 39 = (lits []).
Proof. vm_compute. reflexivity. Qed.

(* TestEscapeQuotes *)
Example repo_test_86 : escape_quotes (lits [34]) 34 = (lits [92;34]).
Proof. vm_compute. reflexivity. Qed.

(* TestEscapeQuotes *)
Example repo_test_87 : escape_quotes (lits [34]) 39 = (lits [34]).
Proof. vm_compute. reflexivity. Qed.

(* TestEscapeQuotes *)
Example repo_test_88 : escape_quotes (lits [34;102;111;111;34;98;97;114;34]) 34 = (lits [92;34;102;111;111;92;34;98;97;114;92;34]).
Proof. vm_compute. reflexivity. Qed.

(* TestEscapeQuotes *)
Example repo_test_89 : escape_quotes (lits [34;102;111;111;34;98;97;114;34]) 39 = (lits [34;102;111;111;34;98;97;114;34]).
Proof. vm_compute. reflexivity. Qed.

(* TestEscapeQuotes *)
Example repo_test_90 : escape_quotes (lits [39]) 34 = (lits [39]).
Proof. vm_compute. reflexivity. Qed.

(* TestEscapeQuotes *)
Example repo_test_91 : escape_quotes (lits [39]) 39 = (lits [92;39]).
Proof. vm_compute. reflexivity. Qed.

(* TestEscapeQuotes *)
Example repo_test_92 : escape_quotes (lits [39;102;111;111;39;98;97;114;39]) 34 = (lits [39;102;111;111;39;98;97;114;39]).
Proof. vm_compute. reflexivity. Qed.

(* TestEscapeQuotes *)
Example repo_test_93 : escape_quotes (lits [39;102;111;111;39;98;97;114;39]) 39 = (lits [92;39;102;111;111;92;39;98;97;114;92;39]).
Proof. vm_compute. reflexivity. Qed.

(* TestEscapeBareword *)
Example repo_test_94 : escape_bareword (lits []) = (lits []).
Proof. vm_compute. reflexivity. Qed.

(* TestEscapeBareword *)
Example repo_test_95 : escape_bareword (lits [48]) = (lits [95]).
Proof. vm_compute. reflexivity. Qed.

(* TestEscapeBareword *)
Example repo_test_96 : escape_bareword (lits [98;97;114;101;119;111;114;100]) = (lits [98;97;114;101;119;111;114;100]).
Proof. vm_compute. reflexivity. Qed.

(* TestEscapeBareword *)
Example repo_test_97 : escape_bareword (lits [66;65;82;69;87;79;82;68]) = (lits [66;65;82;69;87;79;82;68]).
Proof. vm_compute. reflexivity. Qed.

(* TestEscapeBareword *)
Example repo_test_98 : escape_bareword (lits [95;98;97;114;101;95;119;111;114;100;95]) = (lits [95;98;97;114;101;95;119;111;114;100;95]).
Proof. vm_compute. reflexivity. Qed.

(* TestEscapeBareword *)
Example repo_test_99 : escape_bareword (lits [48;98;97;114;101;49;119;111;114;100;57]) = (lits [95;98;97;114;101;49;119;111;114;100;57]).
Proof. vm_compute. reflexivity. Qed.

(* TestEscapeBareword *)
Example repo_test_100 : escape_bareword (lits [45;40;41;32]) = (lits [95;95;95;95]).
Proof. vm_compute. reflexivity. Qed.

(* TestEscape *)
Example repo_test_101 : escape (lits [13]) = (lits [92;114]).
Proof. vm_compute. reflexivity. Qed.

(* TestUnescape *)
Example repo_test_102 : unescape (lits [92;114]) = (lits [13]).
Proof. vm_compute. reflexivity. Qed.

(* TestEscape *)
Example repo_test_103 : escape (lits [10]) = (lits [92;110]).
Proof. vm_compute. reflexivity. Qed.

(* TestUnescape *)
Example repo_test_104 : unescape (lits [92;110]) = (lits [10]).
Proof. vm_compute. reflexivity. Qed.

(* TestEscape *)
Example repo_test_105 : escape (lits [9]) = (lits [92;116]).
Proof. vm_compute. reflexivity. Qed.

(* TestUnescape *)
Example repo_test_106 : unescape (lits [92;116]) = (lits [9]).
Proof. vm_compute. reflexivity. Qed.

(* TestEscape *)
Example repo_test_107 : escape (lits [92]) = (lits [92;92]).
Proof. vm_compute. reflexivity. Qed.

(* TestUnescape *)
Example repo_test_108 : unescape (lits [92;92]) = (lits [92]).
Proof. vm_compute. reflexivity. Qed.

(* TestEscape *)
Example repo_test_109 : escape (lits [34]) = (lits [92;34]).
Proof. vm_compute. reflexivity. Qed.

(* TestUnescape *)
Example repo_test_110 : unescape (lits [92;34]) = (lits [34]).
Proof. vm_compute. reflexivity. Qed.

(* TestEscape *)
Example repo_test_111 : escape (lits [39]) = (lits [92;39]).
Proof. vm_compute. reflexivity. Qed.

(* TestUnescape *)
Example repo_test_112 : unescape (lits [92;39]) = (lits [39]).
Proof. vm_compute. reflexivity. Qed.

(* TestEscape *)
Example repo_test_113 : escape (lits [102;111;111;13;10;9;92;34;39;98;97;114]) = (lits [102;111;111;92;114;92;110;92;116;92;92;92;34;92;39;98;97;114]).
Proof. vm_compute. reflexivity. Qed.

(* TestUnescape *)
Example repo_test_114 : unescape (lits [102;111;111;92;114;92;110;92;116;92;92;92;34;92;39;98;97;114]) = (lits [102;111;111;13;10;9;92;34;39;98;97;114]).
Proof. vm_compute. reflexivity. Qed.

(* TestQuote *)
Example repo_test_115 : quote (lits [98;97;114;101;119;111;114;100]) DoubleQuoted = QOk (lits [34;98;97;114;101;119;111;114;100;34]).
Proof. vm_compute. reflexivity. Qed.

(* TestQuote *)
Example repo_test_116 : quote (lits [98;97;114;101;119;111;114;100]) SingleQuoted = QOk (lits [39;98;97;114;101;119;111;114;100;39]).
Proof. vm_compute. reflexivity. Qed.

(* TestQuote *)
Example repo_test_117 : quote (lits [98;97;114;101;119;111;114;100]) Bareword = QOk (lits [98;97;114;101;119;111;114;100]).
Proof. vm_compute. reflexivity. Qed.

(* TestQuote *)
Example repo_test_118 : quote (lits [109;117;108;116;105;112;108;101;32;119;111;114;100;115]) DoubleQuoted = QOk (lits [34;109;117;108;116;105;112;108;101;32;119;111;114;100;115;34]).
Proof. vm_compute. reflexivity. Qed.

(* TestQuote *)
Example repo_test_119 : quote (lits [109;117;108;116;105;112;108;101;32;119;111;114;100;115]) SingleQuoted = QOk (lits [39;109;117;108;116;105;112;108;101;32;119;111;114;100;115;39]).
Proof. vm_compute. reflexivity. Qed.

(* TestQuote *)
Example repo_test_120 : match quote (lits [109;117;108;116;105;112;108;101;32;119;111;114;100;115]) Bareword with QErr _ => true | _ => false end = true.
Proof. vm_compute. reflexivity. Qed.

(* TestQuote *)
Example repo_test_121 : match quote (lits [118;97;108;117;101;32;119;105;116;104;32;34;32;40;100;111;117;98;108;101;32;113;117;111;116;101;41]) DoubleQuoted with QErr _ => true | _ => false end = true.
Proof. vm_compute. reflexivity. Qed.

(* TestQuote *)
Example repo_test_122 : quote (lits [118;97;108;117;101;32;119;105;116;104;32;34;32;40;100;111;117;98;108;101;32;113;117;111;116;101;41]) SingleQuoted = QOk (lits [39;118;97;108;117;101;32;119;105;116;104;32;34;32;40;100;111;117;98;108;101;32;113;117;111;116;101;41;39]).
Proof. vm_compute. reflexivity. Qed.

(* TestQuote *)
Example repo_test_123 : match quote (lits [118;97;108;117;101;32;119;105;116;104;32;34;32;40;100;111;117;98;108;101;32;113;117;111;116;101;41]) Bareword with QErr _ => true | _ => false end = true.
Proof. vm_compute. reflexivity. Qed.

(* TestQuote *)
Example repo_test_124 : quote (lits [118;97;108;117;101;32;119;105;116;104;32;92;34;32;40;101;115;99;97;112;101;100;32;100;111;117;98;108;101;32;113;117;111;116;101;41]) DoubleQuoted = QOk (lits [34;118;97;108;117;101;32;119;105;116;104;32;92;34;32;40;101;115;99;97;112;101;100;32;100;111;117;98;108;101;32;113;117;111;116;101;41;34]).
Proof. vm_compute. reflexivity. Qed.

(* TestQuote *)
Example repo_test_125 : quote (lits [118;97;108;117;101;32;119;105;116;104;32;92;34;32;40;101;115;99;97;112;101;100;32;100;111;117;98;108;101;32;113;117;111;116;101;41]) SingleQuoted = QOk (lits [39;118;97;108;117;101;32;119;105;116;104;32;92;34;32;40;101;115;99;97;112;101;100;32;100;111;117;98;108;101;32;113;117;111;116;101;41;39]).
Proof. vm_compute. reflexivity. Qed.

(* TestQuote *)
Example repo_test_126 : match quote (lits [118;97;108;117;101;32;119;105;116;104;32;92;34;32;40;101;115;99;97;112;101;100;32;100;111;117;98;108;101;32;113;117;111;116;101;41]) Bareword with QErr _ => true | _ => false end = true.
Proof. vm_compute. reflexivity. Qed.

(* TestQuote *)
Example repo_test_127 : quote (lits [118;97;108;117;101;32;119;105;116;104;32;39;32;40;115;105;110;103;108;101;32;113;117;111;116;101;41]) DoubleQuoted = QOk (lits [34;118;97;108;117;101;32;119;105;116;104;32;39;32;40;115;105;110;103;108;101;32;113;117;111;116;101;41;34]).
Proof. vm_compute. reflexivity. Qed.

(* TestQuote *)
Example repo_test_128 : match quote (lits [118;97;108;117;101;32;119;105;116;104;32;39;32;40;115;105;110;103;108;101;32;113;117;111;116;101;41]) SingleQuoted with QErr _ => true | _ => false end = true.
Proof. vm_compute. reflexivity. Qed.

(* TestQuote *)
Example repo_test_129 : match quote (lits [118;97;108;117;101;32;119;105;116;104;32;39;32;40;115;105;110;103;108;101;32;113;117;111;116;101;41]) Bareword with QErr _ => true | _ => false end = true.
Proof. vm_compute. reflexivity. Qed.

(* TestQuote *)
Example repo_test_130 : quote (lits [118;97;108;117;101;32;119;105;116;104;32;92;39;32;40;101;115;99;97;112;101;100;32;115;105;110;103;108;101;32;113;117;111;116;101;41]) DoubleQuoted = QOk (lits [34;118;97;108;117;101;32;119;105;116;104;32;92;39;32;40;101;115;99;97;112;101;100;32;115;105;110;103;108;101;32;113;117;111;116;101;41;34]).
Proof. vm_compute. reflexivity. Qed.

(* TestQuote *)
Example repo_test_131 : quote (lits [118;97;108;117;101;32;119;105;116;104;32;92;39;32;40;101;115;99;97;112;101;100;32;115;105;110;103;108;101;32;113;117;111;116;101;41]) SingleQuoted = QOk (lits [39;118;97;108;117;101;32;119;105;116;104;32;92;39;32;40;101;115;99;97;112;101;100;32;115;105;110;103;108;101;32;113;117;111;116;101;41;39]).
Proof. vm_compute. reflexivity. Qed.

(* TestQuote *)
Example repo_test_132 : match quote (lits [118;97;108;117;101;32;119;105;116;104;32;92;39;32;40;101;115;99;97;112;101;100;32;115;105;110;103;108;101;32;113;117;111;116;101;41]) Bareword with QErr _ => true | _ => false end = true.
Proof. vm_compute. reflexivity. Qed.

(* TestQuoteWithEscape *)
Example repo_test_133 : quote_with_escape (lits [98;97;114;101;119;111;114;100]) DoubleQuoted = QOk (lits [34;98;97;114;101;119;111;114;100;34]).
Proof. vm_compute. reflexivity. Qed.

(* TestQuoteWithEscape *)
Example repo_test_134 : quote_with_escape (lits [98;97;114;101;119;111;114;100]) SingleQuoted = QOk (lits [39;98;97;114;101;119;111;114;100;39]).
Proof. vm_compute. reflexivity. Qed.

(* TestQuoteWithEscape *)
Example repo_test_135 : quote_with_escape (lits [98;97;114;101;119;111;114;100]) Bareword = QOk (lits [98;97;114;101;119;111;114;100]).
Proof. vm_compute. reflexivity. Qed.

(* TestQuoteWithEscape *)
Example repo_test_136 : quote_with_escape (lits [109;117;108;116;105;112;108;101;32;119;111;114;100;115]) DoubleQuoted = QOk (lits [34;109;117;108;116;105;112;108;101;32;119;111;114;100;115;34]).
Proof. vm_compute. reflexivity. Qed.

(* TestQuoteWithEscape *)
Example repo_test_137 : quote_with_escape (lits [109;117;108;116;105;112;108;101;32;119;111;114;100;115]) SingleQuoted = QOk (lits [39;109;117;108;116;105;112;108;101;32;119;111;114;100;115;39]).
Proof. vm_compute. reflexivity. Qed.

(* TestQuoteWithEscape *)
Example repo_test_138 : quote_with_escape (lits [109;117;108;116;105;112;108;101;32;119;111;114;100;115]) Bareword = QOk (lits [109;117;108;116;105;112;108;101;95;119;111;114;100;115]).
Proof. vm_compute. reflexivity. Qed.

(* TestQuoteWithEscape *)
Example repo_test_139 : quote_with_escape (lits [118;97;108;117;101;32;119;105;116;104;32;34;32;40;100;111;117;98;108;101;32;113;117;111;116;101;41]) DoubleQuoted = QOk (lits [34;118;97;108;117;101;32;119;105;116;104;32;92;34;32;40;100;111;117;98;108;101;32;113;117;111;116;101;41;34]).
Proof. vm_compute. reflexivity. Qed.

(* TestQuoteWithEscape *)
Example repo_test_140 : quote_with_escape (lits [118;97;108;117;101;32;119;105;116;104;32;34;32;40;100;111;117;98;108;101;32;113;117;111;116;101;41]) SingleQuoted = QOk (lits [39;118;97;108;117;101;32;119;105;116;104;32;34;32;40;100;111;117;98;108;101;32;113;117;111;116;101;41;39]).
Proof. vm_compute. reflexivity. Qed.

(* TestQuoteWithEscape *)
Example repo_test_141 : quote_with_escape (lits [118;97;108;117;101;32;119;105;116;104;32;34;32;40;100;111;117;98;108;101;32;113;117;111;116;101;41]) Bareword = QOk (lits [118;97;108;117;101;95;119;105;116;104;95;95;95;95;100;111;117;98;108;101;95;113;117;111;116;101;95]).
Proof. vm_compute. reflexivity. Qed.

(* TestQuoteWithEscape *)
Example repo_test_142 : quote_with_escape (lits [118;97;108;117;101;32;119;105;116;104;32;92;34;32;40;101;115;99;97;112;101;100;32;100;111;117;98;108;101;32;113;117;111;116;101;41]) DoubleQuoted = QOk (lits [34;118;97;108;117;101;32;119;105;116;104;32;92;34;32;40;101;115;99;97;112;101;100;32;100;111;117;98;108;101;32;113;117;111;116;101;41;34]).
Proof. vm_compute. reflexivity. Qed.

(* TestQuoteWithEscape *)
Example repo_test_143 : quote_with_escape (lits [118;97;108;117;101;32;119;105;116;104;32;92;34;32;40;101;115;99;97;112;101;100;32;100;111;117;98;108;101;32;113;117;111;116;101;41]) SingleQuoted = QOk (lits [39;118;97;108;117;101;32;119;105;116;104;32;92;34;32;40;101;115;99;97;112;101;100;32;100;111;117;98;108;101;32;113;117;111;116;101;41;39]).
Proof. vm_compute. reflexivity. Qed.

(* TestQuoteWithEscape *)
Example repo_test_144 : quote_with_escape (lits [118;97;108;117;101;32;119;105;116;104;32;92;34;32;40;101;115;99;97;112;101;100;32;100;111;117;98;108;101;32;113;117;111;116;101;41]) Bareword = QOk (lits [118;97;108;117;101;95;119;105;116;104;95;95;95;95;95;101;115;99;97;112;101;100;95;100;111;117;98;108;101;95;113;117;111;116;101;95]).
Proof. vm_compute. reflexivity. Qed.

(* TestQuoteWithEscape *)
Example repo_test_145 : quote_with_escape (lits [118;97;108;117;101;32;119;105;116;104;32;39;32;40;115;105;110;103;108;101;32;113;117;111;116;101;41]) DoubleQuoted = QOk (lits [34;118;97;108;117;101;32;119;105;116;104;32;39;32;40;115;105;110;103;108;101;32;113;117;111;116;101;41;34]).
Proof. vm_compute. reflexivity. Qed.

(* TestQuoteWithEscape *)
Example repo_test_146 : quote_with_escape (lits [118;97;108;117;101;32;119;105;116;104;32;39;32;40;115;105;110;103;108;101;32;113;117;111;116;101;41]) SingleQuoted = QOk (lits [39;118;97;108;117;101;32;119;105;116;104;32;92;39;32;40;115;105;110;103;108;101;32;113;117;111;116;101;41;39]).
Proof. vm_compute. reflexivity. Qed.

(* TestQuoteWithEscape *)
Example repo_test_147 : quote_with_escape (lits [118;97;108;117;101;32;119;105;116;104;32;39;32;40;115;105;110;103;108;101;32;113;117;111;116;101;41]) Bareword = QOk (lits [118;97;108;117;101;95;119;105;116;104;95;95;95;95;115;105;110;103;108;101;95;113;117;111;116;101;95]).
Proof. vm_compute. reflexivity. Qed.

(* TestQuoteWithEscape *)
Example repo_test_148 : quote_with_escape (lits [118;97;108;117;101;32;119;105;116;104;32;92;39;32;40;101;115;99;97;112;101;100;32;115;105;110;103;108;101;32;113;117;111;116;101;41]) DoubleQuoted = QOk (lits [34;118;97;108;117;101;32;119;105;116;104;32;92;39;32;40;101;115;99;97;112;101;100;32;115;105;110;103;108;101;32;113;117;111;116;101;41;34]).
Proof. vm_compute. reflexivity. Qed.

(* TestQuoteWithEscape *)
Example repo_test_149 : quote_with_escape (lits [118;97;108;117;101;32;119;105;116;104;32;92;39;32;40;101;115;99;97;112;101;100;32;115;105;110;103;108;101;32;113;117;111;116;101;41]) SingleQuoted = QOk (lits [39;118;97;108;117;101;32;119;105;116;104;32;92;39;32;40;101;115;99;97;112;101;100;32;115;105;110;103;108;101;32;113;117;111;116;101;41;39]).
Proof. vm_compute. reflexivity. Qed.

(* TestQuoteWithEscape *)
Example repo_test_150 : quote_with_escape (lits [118;97;108;117;101;32;119;105;116;104;32;92;39;32;40;101;115;99;97;112;101;100;32;115;105;110;103;108;101;32;113;117;111;116;101;41]) Bareword = QOk (lits [118;97;108;117;101;95;119;105;116;104;95;95;95;95;95;101;115;99;97;112;101;100;95;115;105;110;103;108;101;95;113;117;111;116;101;95]).
Proof. vm_compute. reflexivity. Qed.
