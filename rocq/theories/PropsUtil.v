(** Properties of package astutil, Plugin.ID, options and MultiErr: C18-C26, C35, C42. *)
From Coq Require Import List NArith ZArith Bool String Arith Lia.
From Verif Require Import Bytes Utf8 F64 Ast Actions Engine Parser AstPrint AstUtil Apply App
  EscapeFacts QuoteFacts SimpleFacts AstInd ApplyFacts.
Import ListNotations.
Local Open Scope N_scope.

(** ** C18: Unescape inverts Escape *)
Theorem C18_unescape_inverts_escape : forall s, unescape (escape s) = s.
Proof. exact unescape_escape. Qed.
Print Assumptions C18_unescape_inverts_escape.
Example C18_case : escape (b "a\" ++ [DQ; NL; 255]) = b "a\\\" ++ [DQ] ++ b "\n" ++ [255].
Proof. reflexivity. Qed.

(** ** C19: Unescape is the escape table, applied left to right without overlap *)
Theorem C19_unescape_table : forall s t, unescape s = t <-> unescapes s t.
Proof. exact unescape_iff. Qed.
Print Assumptions C19_unescape_table.
Example C19_case : unescape (b "\\n \n \x \") = b "\n " ++ [NL] ++ b " \x \".
Proof. reflexivity. Qed.

(** ** C20: an escaped value is a valid literal iff it does not end in a backslash *)
Theorem C20_escape_literal : forall q s, q = DQ \/ q = SQ ->
  (literal_value q (escape s) <-> forall x, s <> x ++ [BSL]).
Proof. exact literal_escape. Qed.
Print Assumptions C20_escape_literal.
Example C20_case_good : literal_value DQ (escape (b "say " ++ [DQ] ++ b "hi" ++ [DQ])).
Proof. apply C20_escape_literal; [now left|]. intros x E. apply (f_equal (fun l => last l 0)) in E. rewrite last_last in E. discriminate. Qed.
Example C20_case_bad : ~ literal_value DQ (escape (b "C:\")).
Proof. rewrite C20_escape_literal by now left. intros H. now apply (H (b "C:")). Qed.

(** ** C21: Quote *)
(** Full statement, false of the code: *)
Definition C21_full : Prop := forall t q v r, quote_char t q ->
  (quote v t = QOk r <-> r = q :: v ++ [q] /\ literal_value q v).
Theorem C21_refuted : exists t q v r, quote_char t q /\ quote v t = QOk r /\ ~ literal_value q v.
Proof.
  exists DoubleQuoted, DQ, (b "a" ++ [DQ] ++ b "b"), ([DQ] ++ b "a" ++ [DQ] ++ b "b" ++ [DQ]).
  split; [now left|]. split; [reflexivity|]. rewrite <- is_literal_spec. discriminate.
Qed.
Print Assumptions C21_refuted.
(** What holds: it never rejects a quotable value ... *)
Theorem C21_accepts_quotable : forall t q v, quote_char t q -> literal_value q v -> quote v t = QOk (q :: v ++ [q]).
Proof. exact quote_accepts_literals. Qed.
Print Assumptions C21_accepts_quotable.
(** ... and is right unless the value has an unescaped quote as first or second
    byte or ends in a backslash. *)
Theorem C21_partial : forall t q v r, quote_char t q ->
  ~ bare_quote_at q v 0 -> ~ bare_quote_at q v 1 -> (forall x, v <> x ++ [BSL]) ->
  (quote v t = QOk r <-> r = q :: v ++ [q] /\ literal_value q v).
Proof. exact quote_valid. Qed.
Print Assumptions C21_partial.
(** Exact behaviour on every value. *)
Theorem C21_exact : forall t q v r, quote_char t q ->
  (quote v t = QOk r <-> r = q :: v ++ [q] /\ ~ exists i, (2 <= i)%nat /\ bare_quote_at q v i).
Proof. exact quote_ok_iff. Qed.
Print Assumptions C21_exact.
Example C21_case_ok : quote (b "it's") DoubleQuoted = QOk ([DQ] ++ b "it's" ++ [DQ]).
Proof. reflexivity. Qed.
Example C21_case_err : exists m, quote (b "it's") SingleQuoted = QErr m.
Proof. eexists; reflexivity. Qed.

(** ** C22: QuoteWithEscape *)
Definition C22_full : Prop := forall t q v, quote_char t q ->
  exists w, quote_with_escape v t = QOk (q :: w ++ [q]) /\ literal_value q w.
Theorem C22_refuted : exists t q v w, quote_char t q /\
  quote_with_escape v t = QOk (q :: w ++ [q]) /\ ~ literal_value q w.
Proof.
  exists DoubleQuoted, DQ, (b "a" ++ [DQ] ++ b "b"), (b "a" ++ [DQ] ++ b "b").
  split; [now left|]. split; [reflexivity|]. rewrite <- is_literal_spec. discriminate.
Qed.
Print Assumptions C22_refuted.
(** Exact: valid iff the value does not end in a backslash and its second byte is
    not a quote after a byte that is neither a quote nor a backslash; only
    backslashes before quotes are inserted; valid values are kept. *)
Theorem C22_partial : forall t q v, quote_char t q ->
  exists w, quote_with_escape v t = QOk (q :: w ++ [q]) /\
    (literal_value q w <-> (forall x, v <> x ++ [BSL]) /\ ~ (exists c y, v = c :: q :: y /\ c <> q /\ c <> BSL)) /\
    backslashed q v w /\ (literal_value q v -> w = v).
Proof. exact quote_with_escape_literal. Qed.
Print Assumptions C22_partial.
Example C22_case : quote_with_escape (b "say 'hi'") SingleQuoted = QOk (b "'say \'hi\''").
Proof. reflexivity. Qed.

(** ** C23: barewords *)
Theorem C23_quote_bareword : forall v r, quote v Bareword = QOk r <-> bareword v /\ r = v.
Proof. exact quote_bareword_iff. Qed.
Print Assumptions C23_quote_bareword.
Theorem C23_escape_bareword : forall v n, rune_count v n ->
  exists w, quote_with_escape v Bareword = QOk w /\ List.length w = n /\
    (bareword w <-> 2 <= n)%nat /\ (bareword v -> w = v).
Proof. exact quote_with_escape_bareword. Qed.
Print Assumptions C23_escape_bareword.
Theorem C23_rune_count_total : forall v, exists n, rune_count v n.
Proof. exact rune_count_ex. Qed.
Print Assumptions C23_rune_count_total.
Example C23_case : quote_with_escape (b "4 x" ++ [195; 164]) Bareword = QOk (b "__x_").
Proof. reflexivity. Qed.
Example C23_case_id : bareword (b "add_field2").
Proof. apply is_bareword_spec. reflexivity. Qed.

(** ** C24: Plugin.ID *)
Theorem C24_first_id : forall pos name l com foot a, first_id l a ->
  plugin_id (Plugin pos name l com foot) =
  match a with AtStr s => IdOk (sa_val s)
  | _ => IdOther (b "attribut id is not of type string attribute") end.
Proof. exact plugin_id_first. Qed.
Print Assumptions C24_first_id.
Theorem C24_not_found : forall pos name l com foot,
  (exists m, plugin_id (Plugin pos name l com foot) = IdNotFound m) <-> ~ exists a, In a l /\ named_id a.
Proof. exact plugin_id_not_found. Qed.
Print Assumptions C24_not_found.
Example C24_case : first_id [AtNil; AtNum (NumAttr zero_pos (b "x") (Fin false 0 0) []);
    AtStr (StrAttr zero_pos (b "id") (b "foo") DoubleQuoted []);
    AtStr (StrAttr zero_pos (b "id") (b "bar") DoubleQuoted [])]
  (AtStr (StrAttr zero_pos (b "id") (b "foo") DoubleQuoted [])).
Proof.
  eexists [_; _], _. split; [reflexivity|]. split; [split; [discriminate|reflexivity]|].
  repeat constructor; intros [H1 H2]; try (now apply H1); discriminate.
Qed.

(** ** C25: ApplyPlugins visits every plugin once, in document order *)
Theorem C25_visits_in_order : forall {S : Type} (f : S -> cursor -> S) d root s,
  Forall no_ptr root -> (bops_depth root < d)%nat ->
  apply_plugins d (fun s c => PDone (f s c)) s root = AOk (fold_left f (visits root) s) root.
Proof. exact @apply_visits. Qed.
Print Assumptions C25_visits_in_order.
Theorem C25_visited_entries : forall root, map at_index (visits root) = map Some (flat_map entries root).
Proof. exact visits_entries. Qed.
Print Assumptions C25_visited_entries.
Theorem C25_visited_list : forall d root,
  Forall no_ptr root -> (bops_depth root < d)%nat ->
  apply_plugins d (inspect (fun l x => l ++ [x])) [] root = AOk (flat_map entries root) root.
Proof. exact apply_inspect_list. Qed.
Print Assumptions C25_visited_list.

Definition ex_plugin (n : string) : bop := BPlugin (Plugin zero_pos (b n) [] [] []).
Definition ex_tree : list bop :=
  [ ex_plugin "p1";
    BBranch (IfB zero_pos (Cond []) [ex_plugin "p2"; BBranch (IfB zero_pos (Cond []) [ex_plugin "p3"] [] []) [] (ElB zero_pos [BNil] [] [])] [] [])
      [IfB zero_pos (Cond []) [] [] []; IfB zero_pos (Cond []) [ex_plugin "p4"] [] []]
      (ElB zero_pos [ex_plugin "p5"] [] []);
    ex_plugin "p6" ].
Example C25_case_hyps : Forall no_ptr ex_tree /\ (bops_depth ex_tree < 3)%nat.
Proof. split; [repeat constructor|cbn; lia]. Qed.
Example C25_case : flat_map entries ex_tree =
  [ex_plugin "p1"; ex_plugin "p2"; ex_plugin "p3"; BNil; ex_plugin "p4"; ex_plugin "p5"; ex_plugin "p6"].
Proof. reflexivity. Qed.

(** ** C26: edits act on the visited entry; new nodes are not walked *)
(** Callbacks that, looking at the visited entry, perform operations: the tree is
    rewritten entry by entry by the effect [local_ops] of the operations. *)
Theorem C26_edits : forall {S : Type} (next : S -> bop -> S) (ops : S -> bop -> list cop) (g : S -> bop -> S * list bop),
  (forall s x, local_ops (ops s x) [x] = Some (snd (g s x)) /\ fst (g s x) = next s x) ->
  forall d root s, Forall no_ptr root -> (bops_depth root < d)%nat ->
  apply_plugins d (fun s c => match at_index c with
                    | Some x => do_ops (ops s x) (next s x)
                    | None => PPanic end) s root
  = AOk (fst (rewrite_bops g s root)) (snd (rewrite_bops g s root)).
Proof. exact @apply_edits. Qed.
Print Assumptions C26_edits.
(** One edit per visit, spelled out: what each of the four operations leaves in
    the place of the visited entry. *)
Theorem C26_one_edit : forall (choose : bop -> option cop) d root,
  Forall no_ptr root -> (bops_depth root < d)%nat ->
  apply_plugins d (fun l c => match at_index c with
                    | Some x => do_ops (match choose x with Some op => [op] | None => [] end) (l ++ [x])
                    | None => PPanic end) [] root
  = AOk (flat_map entries root)
        (snd (rewrite_bops (fun (_ : unit) x =>
           (tt, match choose x with
                | None => [x]
                | Some CDelete => []
                | Some (CReplace y) => [y]
                | Some (CInsertBefore y) => [y; x]
                | Some (CInsertAfter y) => [x; y]
                end)) tt root)).
Proof. exact apply_one_edit. Qed.
Print Assumptions C26_one_edit.
Example C26_case :
  snd (rewrite_bops (fun (_ : unit) x => (tt, if match x with BNil => true | _ => false end then [] else [ex_plugin "new"; x])) tt
    [ex_plugin "a"; BBranch (IfB zero_pos (Cond []) [BNil; ex_plugin "b"] [] []) [] zero_else])
  = [ex_plugin "new"; ex_plugin "a";
     BBranch (IfB zero_pos (Cond []) [ex_plugin "new"; ex_plugin "b"] [] []) [] zero_else].
Proof. reflexivity. Qed.
(** The loop of one call ends for every callback, whatever it does. *)
Theorem C26_loop_ends : forall {S : Type} (walk : S -> list bop -> aout S) (cb : S -> cursor -> prog S) k,
  (forall s l, walk s l <> AFuel) ->
  forall s c, (Z.of_nat (List.length (k_parent c)) - k_index c <= Z.of_nat k)%Z ->
    apply_loop walk cb k s c <> AFuel.
Proof. exact @apply_loop_terminates. Qed.
Print Assumptions C26_loop_ends.

(** ** C35: MultiErr shows every error completely *)
Theorem C35_multi_err : forall es, read_multi_err (multi_err es) = map (trim_right [NL]) es.
Proof. exact read_multi_err_multi_err. Qed.
Print Assumptions C35_multi_err.
Theorem C35_count : forall es, exists r, multi_err es =
  itoa (List.length es) ++ (if Nat.eqb (List.length es) 1 then b " error occurred:" else b " errors occurred:") ++ NL :: r.
Proof. exact multi_err_count. Qed.
Print Assumptions C35_count.
(** [trim_right [NL]] only removes newlines at the end. *)
Theorem C35_trim : forall s, exists w, s = trim_right [NL] s ++ w /\ Forall (fun c => c = NL) w.
Proof. exact trim_right_nl. Qed.
Print Assumptions C35_trim.
Example C35_case : read_multi_err (multi_err [b "a" ++ [NL] ++ b "	* b"; b "c" ++ [NL; NL]]) = [b "a" ++ [NL] ++ b "	* b"; b "c"].
Proof. reflexivity. Qed.

(** ** C42: options return the previous setting *)
Theorem C42_option_restores : forall opts x ff data,
  parse (opts ++ [x; snd (apply_opt x (config_of opts))]) ff data = parse opts ff data.
Proof. exact option_restores_parse. Qed.
Print Assumptions C42_option_restores.
Example C42_case : snd (apply_opt (OptMaxExpressions 5) (config_of [OptMaxExpressions 7])) = OptMaxExpressions 7.
Proof. reflexivity. Qed.
