(** Properties of the commands: C27 to C34.  Specification: LintFacts.v
    ([plugins_config], [missing], [duplicates], [fixed], [skeleton_config]) and
    AppFacts.v ([accepts], [cause], [about], [lint_file], [lint_run], [prints],
    [rewrites]). *)
From Coq Require Import List NArith ZArith Bool String Arith Lia.
From Verif Require Import Bytes Utf8 F64 Ast Peg Actions Engine Parser GrammarGen AstPrint AstUtil Apply AstInd ApplyFacts
  EscapeFacts SimpleFacts HistFacts ParseFacts Tree ParseTree App LintFacts AppFacts PropsTree.
Import ListNotations.

(** ** Samples *)
Definition sys : os := Os (fun _ => b "no such file") (fun _ => b "permission denied") (fun _ => b "read-only") (fun _ => b "disk full")
  (fun _ => None) (fun _ _ => b "?").
Definition text1 : bytes :=
  b "input { stdin { } } filter { if [a] { mutate { id => ""x"" } } else { drop { id => ""x"" } date { id => 5 } } }".
Definition text_fixed : bytes :=
  b "input {" ++ [NL] ++ b "  stdin {" ++ [NL] ++ b "    id => ""stdin-1""" ++ [NL] ++ b "  }" ++ [NL] ++ b "}" ++ [NL] ++
  b "filter {" ++ [NL] ++ b "  if [a] {" ++ [NL] ++ b "    mutate {" ++ [NL] ++ b "      id => ""x""" ++ [NL] ++ b "    }" ++ [NL] ++
  b "  } else {" ++ [NL].
Definition broken1 : bytes := b "input {".
Definition files (l : list (path * node)) : fs :=
  fun p => match find (fun x => beqb (fst x) p) l with Some (_, n) => n | None => NAbsent end.
Definition disk : fs := files
  [(b "good", NFile text1 true true); (b "bad", NFile broken1 true true); (b "dir", NDir); (b "secret", NFile text1 false false);
   (b "ok", NFile (b "input{}") true true)].
Definition start : world := World disk [] [].

(** ** C27: without auto-fix, lint lists exactly the plugins without id, and
    exactly those that repeat an id *)
Theorem C27_tree : forall c, wf_config c ->
  exists va c', lint_config false c = Some (va, c') /\
    v_noids va = map describe (filter missing (plugins_config c)) /\
    v_dups va = map describe (duplicates (plugins_config c)) /\
    skeleton_config c' = skeleton_config c /\ plugins_config c' = plugins_config c.
Proof.
  intros c W. destruct (lint_config_ok false c W) as (va & c' & E1 & E2 & E3 & E4 & E5 & E6). exists va, c'. auto.
Qed.
Print Assumptions C27_tree.
(** The whole command on a file that parses: the warnings, one report about
    missing ids, one about repeated ids, and nothing else. *)
Theorem C27_command : forall S w p content wr c,
  w_fs w p = NFile content true wr -> accepts [OptExceptionalCommentsWarning true] content c ->
  fst (lint S false w [p]) =
    CErrs (cf_warnings c
           ++ match map describe (filter missing (plugins_config c)) with
              | [] => []
              | l => [p ++ b ": no IDs found for:" ++ [NL] ++ flat_map (fun x => x ++ [NL]) l] end
           ++ match map describe (duplicates (plugins_config c)) with
              | [] => []
              | l => [p ++ b ": duplicate IDs found in:" ++ [NL] ++ flat_map (fun x => x ++ [NL]) l] end).
Proof.
  intros S w p content wr c E A.
  assert (Hp : w_fs w p <> NAbsent) by (rewrite E; discriminate).
  destruct (lint_one S false w p [] Hp) as (es & after & w1 & F & _ & _ & _ & L). rewrite L. cbn [lint fst cres_app]. rewrite app_nil_r.
  rewrite E in F. f_equal. remember (NFile content true wr) as n eqn:En.
  destruct F as [|n m e C _|content' wr' c0 A' O|content' wr' c0 c' es after A' O]; try discriminate.
  - exfalso. subst n. destruct C as (errs & R & _). exact (accepts_not _ _ _ _ A R).
  - injection En as E1 E2. subst. rewrite (accepts_fun _ _ _ _ A A').
    assert (R : forall t u l, b ": " ++ t = u -> App.report p t l = match l with [] => [] | _ => [p ++ u ++ [NL] ++ flat_map (fun x => x ++ [NL]) l] end).
    { intros t u l <-. unfold App.report, colon. now rewrite <- !app_assoc. }
    rewrite (R no_ids_title (b ": no IDs found for:")), (R dup_ids_title (b ": duplicate IDs found in:")) by reflexivity.
    destruct (map describe (filter _ _)), (map describe (duplicates _)); reflexivity.
Qed.
Print Assumptions C27_command.
(** [describe]: line, column and offset of the plugin, then its name *)
Theorem C27_describe : forall q n l co f, describe (Plugin q n l co f) =
  itoa (p_line q) ++ b ":" ++ itoa (p_col q) ++ b " [" ++ itoa (p_off q) ++ b "]" ++ b ": " ++ n.
Proof. intros. unfold describe, position_string. cbn [plugin_pos plugin_name]. now rewrite <- !app_assoc. Qed.
Print Assumptions C27_describe.
(** Trees from the parser meet the hypothesis of [C27_tree]. *)
Theorem C27_hypothesis : forall opts ff data c ff',
  k_entry (config_of opts) = "init"%string -> parse opts ff data = (Returned (VConfig c) [], ff') -> wf_config c.
Proof. intros opts ff data c ff' He E. exact (proj1 (parse_tree _ _ _ _ _ He E)). Qed.
Example C27_case : fst (lint sys false start [b "good"]) =
  CErrs [b "good: no IDs found for:" ++ [NL] ++ b "1:9 [8]: stdin" ++ [NL] ++ b "1:88 [87]: date" ++ [NL];
         b "good: duplicate IDs found in:" ++ [NL] ++ b "1:69 [68]: drop" ++ [NL]].
Proof. vm_compute. reflexivity. Qed.
(** The id must be the name itself: a quoted [id] is not recognised by ID(). *)
Example C27_quoted_name : exists c ff, parse [] [] (b "input { stdin { ""id"" => ""x"" } }") = (Returned (VConfig c) [], ff) /\
  map missing (plugins_config c) = [true].
Proof. eexists _, _. split; vm_compute; reflexivity. Qed.

(** ** C28: auto-fix adds ids and changes nothing else *)
Theorem C28_tree : forall c, wf_config c ->
  exists va c', lint_config true c = Some (va, c') /\
    skeleton_config c' = skeleton_config c /\
    plugins_config c' = fixed 1 (plugins_config c) /\
    v_noids va = [] /\ v_dups va = map describe (duplicates (plugins_config c)).
Proof.
  intros c W. destruct (lint_config_ok true c W) as (va & c' & E1 & E2 & E3 & E4 & E5 & E6). exists va, c'. auto.
Qed.
Print Assumptions C28_tree.
(** [fixed] spelled out: plugin number i keeps everything; if its ID() failed, the
    attribute id => "name-(i+1)" comes last. *)
Theorem C28_plugins : forall ps i q n l co f,
  nth_error ps i = Some (Plugin q n l co f) ->
  List.length (fixed 1 ps) = List.length ps /\
  ((exists id, plugin_id (Plugin q n l co f) = IdOk id /\ nth_error (fixed 1 ps) i = Some (Plugin q n l co f)) \/
   ((forall id, plugin_id (Plugin q n l co f) <> IdOk id) /\
    nth_error (fixed 1 ps) i =
      Some (Plugin q n (l ++ [AtStr (StrAttr zero_pos (b "id") (n ++ b "-" ++ itoa (S i)) DoubleQuoted [])]) co f))).
Proof.
  intros ps i q n l co f E. split; [apply fixed_length|]. rewrite fixed_nth, E. cbn [option_map Nat.add]. unfold fix_plugin, missing.
  destruct (plugin_id (Plugin q n l co f)) as [id|m|m]; [left|right|right]; eauto; (split; [discriminate|reflexivity]).
Qed.
Print Assumptions C28_plugins.
(** A plugin that had no id attribute has one afterwards; *)
Theorem C28_found : forall p x m, plugin_id p = IdNotFound m -> plugin_id (with_id p x) = IdOk x.
Proof. exact with_id_found. Qed.
Print Assumptions C28_found.
(** the generated ids of one run are pairwise different. *)
Theorem C28_distinct : forall n n' i j, n ++ b "-" ++ itoa i = n' ++ b "-" ++ itoa j -> i = j.
Proof. exact auto_ids_differ. Qed.
Print Assumptions C28_distinct.
Example C28_case : exists va c', (exists c ff, parse [] [] text1 = (Returned (VConfig c) [], ff) /\ lint_config true c = Some (va, c')) /\
  map plugin_id (plugins_config c') =
    [IdOk (b "stdin-1"); IdOk (b "x"); IdOk (b "x"); IdOther (b "attribut id is not of type string attribute")].
Proof. eexists _, _. split; [eexists _, _; split; vm_compute; reflexivity|vm_compute; reflexivity]. Qed.
(** A generated id may repeat an id that was already there. *)
Example C28_collision : exists va c', (exists c ff, parse [] [] (b "input { stdin { } stdin { id => ""stdin-1"" } }") = (Returned (VConfig c) [], ff)
    /\ lint_config true c = Some (va, c')) /\
  map plugin_id (plugins_config c') = [IdOk (b "stdin-1"); IdOk (b "stdin-1")] /\ v_dups va = [].
Proof. eexists _, _. split; [eexists _, _; split; vm_compute; reflexivity|vm_compute; auto]. Qed.

(** ** C29: lint rewrites a file only if it fixed something *)
Theorem C29_run : forall S af args w, (forall p, In p args -> w_fs w p <> NAbsent) ->
  exists es, fst (lint S af w args) = CErrs es /\
    lint_run S af (w_fs w) args es (w_fs (snd (lint S af w args))) /\
    w_out (snd (lint S af w args)) = w_out w.
Proof. exact lint_ok. Qed.
Print Assumptions C29_run.
(** Without auto-fix no file changes. *)
Theorem C29_no_fix : forall S args w q, (forall p, In p args -> w_fs w p <> NAbsent) ->
  w_fs (snd (lint S false w args)) q = w_fs w q.
Proof.
  intros S args w q H. destruct (lint_ok S false args w H) as (es & _ & R & _).
  revert R. generalize (w_fs (snd (lint S false w args))) as f'. generalize (w_fs w) as f. clear. intros f f' R.
  induction R as [f|f p args es after f1 es' f' F E1 E2 _ IH]; [reflexivity|]. rewrite IH.
  destruct (list_eq_dec N.eq_dec q p) as [->|Hn]; [|now apply E2]. rewrite E1. destruct F; auto; try discriminate; congruence.
Qed.
Print Assumptions C29_no_fix.
(** Neither do files that are not named, cannot be read, do not parse, or have an
    id in every plugin. *)
Theorem C29_untouched : forall S af args w q, (forall p, In p args -> w_fs w p <> NAbsent) ->
  (~ In q args \/ (exists m, cause S [OptExceptionalCommentsWarning true] q (w_fs w q) m) \/ w_fs w q = NDir \/
   exists content wr c, w_fs w q = NFile content true wr /\ accepts [OptExceptionalCommentsWarning true] content c /\
     Forall (fun p => exists id, plugin_id p = IdOk id) (plugins_config c)) ->
  w_fs (snd (lint S af w args)) q = w_fs w q.
Proof.
  intros S af args w q H. destruct (lint_ok S af args w H) as (es & _ & R & _).
  revert R. generalize (w_fs (snd (lint S af w args))) as f'. generalize (w_fs w) as f. clear. intros f f' R.
  induction R as [f|f p args es after f1 es' f' F E1 E2 _ IH]; intros C; [reflexivity|].
  destruct (list_eq_dec N.eq_dec q p) as [->|Hn].
  - assert (K : after = f p); [|rewrite IH; [congruence|]].
    + destruct C as [C|[[m C]|[C|(content & wr & c & C & A & D)]]].
      * exfalso. apply C. now left.
      * remember (f p) as n eqn:En. destruct F as [|n m' e C' A'|content wr c A O|content wr c c' es after A O]; auto.
        exfalso. destruct C as (errs & R & _). exact (accepts_not _ _ _ _ A R).
      * rewrite C in *. inversion F; subst; auto.
      * rewrite C in *.
        inversion F as [|n m e C' A' X1 X2 X3|content' wr' c0 A' O' X1 X2 X3|content' wr' c0 c' es0 after' A' _ M' K P W1 W2 W3 X1 X2 X3]; subst; auto.
        exfalso. rewrite (accepts_fun _ _ _ _ A A') in D. apply M'.
        clear -D. induction D as [|x l [id Hx] _ IHl]; [reflexivity|]. cbn. unfold missing at 1. now rewrite Hx.
    + rewrite E1, K. destruct C as [C|C]; [|auto]. exfalso. apply C. now left.
  - rewrite IH; [now apply E2|]. rewrite (E2 q Hn). destruct C as [C|C]; [|auto]. left. intros X. apply C. now right.
Qed.
Print Assumptions C29_untouched.
(** A file with a plugin without id is replaced by the formatted fixed tree. *)
Theorem C29_replaced : forall S w p content c,
  w_fs w p = NFile content true true -> os_short S p = None ->
  accepts [OptExceptionalCommentsWarning true] content c -> (exists x, In x (plugins_config c) /\ forall id, plugin_id x <> IdOk id) ->
  exists c', skeleton_config c' = skeleton_config c /\ plugins_config c' = fixed 1 (plugins_config c) /\
    w_fs (snd (lint S true w [p])) p = NFile (config_string c') true true.
Proof.
  intros S w p content c E O A (x & Hx & Hid).
  assert (Hp : w_fs w p <> NAbsent) by (rewrite E; discriminate).
  destruct (lint_one S true w p [] Hp) as (es & after & w1 & F & F1 & _ & _ & L). rewrite L. cbn [lint snd].
  rewrite F1. rewrite E in F.
  assert (M : In x (filter missing (plugins_config c))).
  { apply filter_In. split; [exact Hx|]. unfold missing. destruct (plugin_id x) as [id| |] eqn:X; auto. now elim (Hid id). }
  inversion F as [|n m e C A' E1 E2 E3|content' wr' c0 A' O' E1 E2 E3|content' wr' c0 c' es' after' A' _ M' K P W1 W2 W3 E1 E2 E3]; subst.
  - exfalso. destruct C as (errs & R & _). exact (accepts_not _ _ _ _ A R).
  - exfalso. rewrite (accepts_fun _ _ _ _ A A') in M. destruct O' as [O'|O']; [discriminate|]. rewrite O' in M. contradiction.
  - rewrite (accepts_fun _ _ _ _ A A') in *. exists c'. split; [exact K|]. split; [exact P|]. now apply W1.
Qed.
Print Assumptions C29_replaced.
Example C29_case : exists r w, lint sys true start [b "good"; b "bad"; b "dir"; b "ok"] = (r, w) /\
  (exists rest, w_fs w (b "good") = NFile (text_fixed ++ rest) true true) /\ w_fs w (b "bad") = disk (b "bad") /\ w_fs w (b "ok") = disk (b "ok").
Proof.
  eexists _, _. split; [vm_compute; reflexivity|]. split; [|split; vm_compute; reflexivity].
  eexists. vm_compute. reflexivity.
Qed.

(** ** C30: check succeeds iff every file parses *)
(** One error per unreadable or unparsable file, in argument order: [sel] says
    which arguments those are. *)
Theorem C30_check : forall S args w, (forall p, In p args -> w_fs w p <> NAbsent) ->
  exists bad es, fst (check S w args) = CErrs es /\
    w_fs (snd (check S w args)) = w_fs w /\ w_out (snd (check S w args)) = w_out w /\
    Forall2 (fun p e => exists m, cause S [OptIgnoreComments true] p (w_fs w p) m /\ about p m e) bad es /\
    exists sel, bad = map fst (filter snd (combine args sel)) /\
      Forall2 (fun p (failed : bool) =>
        if failed then exists m, cause S [OptIgnoreComments true] p (w_fs w p) m else fine [OptIgnoreComments true] (w_fs w p)) args sel.
Proof. exact check_ok. Qed.
Print Assumptions C30_check.
(** The exit: no error exactly when every argument is a directory or a readable
    file that Parse accepts (with default options). *)
Theorem C30_iff : forall S args w, (forall p, In p args -> w_fs w p <> NAbsent) ->
  (fst (check S w args) = CErrs [] <->
   forall p, In p args -> w_fs w p = NDir \/
     exists content wr c ff, w_fs w p = NFile content true wr /\ parse [] [] content = (Returned (VConfig c) [], ff)).
Proof.
  intros S args w H. destruct (check_ok S args w H) as (bad & es & E & _ & _ & F & sel & Eb & Fs). rewrite E.
  assert (X : es = [] <-> Forall (fun p => fine check_opts (w_fs w p)) args).
  { clear E H. split.
    - intros ->. assert (H : bad = []) by (now inversion F). rewrite H in Eb. symmetry in Eb. clear F H. revert Eb. induction Fs as [|p bd args sel Hp Fs IH]; intros E; [constructor|].
      cbn in E. destruct bd; cbn in E; [discriminate|]. constructor; auto.
    - intros G. assert (Hb : bad = []); [|rewrite Hb in F; now inversion F]. subst bad. clear F. induction Fs as [|p bd args sel Hp Fs IH]; [reflexivity|].
      inversion G; subst. cbn. destruct bd; cbn; [|auto]. exfalso. destruct Hp as [m Hp]. eapply cause_not_fine; eauto. }
  split.
  - intros Ee. inversion Ee as [E0]. apply X in E0. rewrite Forall_forall in E0. intros p Hp. specialize (E0 p Hp). specialize (H p Hp).
    destruct (w_fs w p) as [| |content r wr]; [congruence|now left|]. destruct E0 as (-> & c & A). right. destruct (A []) as (rec & P).
    destruct (proj2 (C06_acceptance [] [] content)) as (c0 & ff & P0); [eexists _, _; exact P|]. exists content, wr, c0, ff. auto.
  - intros G. f_equal. apply X, Forall_forall. intros p Hp. destruct (G p Hp) as [->|(content & wr & c & ff & -> & P)]; [exact I|].
    split; [reflexivity|]. destruct (proj1 (C06_acceptance [] [] content)) as (c0 & ff0 & P0); [eexists _, _; exact P|].
    exists c0. intros ff1. exists ff0. rewrite (parse_same _ ff1 [] _ plain_check). exact P0.
Qed.
Print Assumptions C30_iff.
Example C30_case : exists e1 e2 ff,
  check sys start [b "good"; b "bad"; b "dir"; b "secret"; b "ok"] = (CErrs [b "bad: " ++ e1; b "secret: " ++ e2], World disk ff []).
Proof. eexists _, _, _. vm_compute. reflexivity. Qed.
Example C30_case_nil : fst (check sys start [b "good"; b "dir"; b "ok"]) = CErrs [].
Proof. vm_compute. reflexivity. Qed.

(** ** C31: a file that cannot be stat'ed is reported: false for check and lint *)
(** The first such argument ends the process with a nil pointer dereference: what
    follows is not looked at, and nothing is reported. *)
Theorem C31_check_refuted : forall S args p rest w,
  (forall q, In q args -> w_fs w q <> NAbsent) -> w_fs w p = NAbsent -> fst (check S w (args ++ p :: rest)) = CPanic.
Proof.
  intros S args. induction args as [|q args IH]; intros p rest w H Hp.
  - cbn [app check]. now rewrite Hp.
  - assert (Hq : w_fs w q <> NAbsent) by (apply H; now left).
    assert (Ha : forall x, In x args -> w_fs w x <> NAbsent) by (intros x Hx; apply H; now right).
    cbn [app check]. destruct (w_fs w q) as [| |content r wr]; [congruence|now apply IH|].
    destruct (parse_file S [OptIgnoreComments true] w q) as [[v|t|] ff]; try reflexivity.
    + apply IH; auto.
    + specialize (IH p rest (World (w_fs w) ff (w_out w)) Ha Hp). destruct (check S _ (args ++ p :: rest)) as [r' w']. cbn [fst] in *. now rewrite IH.
Qed.
Print Assumptions C31_check_refuted.
Theorem C31_lint_refuted : forall S af args p rest w,
  (forall q, In q args -> w_fs w q <> NAbsent) -> w_fs w p = NAbsent -> fst (lint S af w (args ++ p :: rest)) = CPanic.
Proof.
  intros S af args. induction args as [|q args IH]; intros p rest w H Hp.
  - cbn [app lint]. now rewrite Hp.
  - assert (Hq : w_fs w q <> NAbsent) by (apply H; now left).
    change ((q :: args) ++ p :: rest) with (q :: (args ++ p :: rest)).
    destruct (lint_one S af w q (args ++ p :: rest) Hq) as (es & after & w1 & F & F1 & F2 & F3 & E). rewrite E.
    assert (Np : p <> q) by (intros ->; congruence).
    specialize (IH p rest w1). destruct (lint S af w1 (args ++ p :: rest)) as [r' w']. cbn [fst] in *. rewrite IH; [reflexivity| |rewrite F2; auto].
    intros x Hx. destruct (list_eq_dec N.eq_dec x q) as [->|Hn]; [rewrite F1; exact (lint_file_present _ _ _ _ _ _ F Hq)|].
    rewrite F2 by exact Hn. apply H. now right.
Qed.
Print Assumptions C31_lint_refuted.
(** format does report it; it stops there. *)
Theorem C31_format_partial : forall S write w p rest, w_fs w p = NAbsent ->
  format S write w (p :: rest) = (CErrs [p ++ b ": " ++ os_stat S p], w).
Proof. exact format_absent. Qed.
Print Assumptions C31_format_partial.
Example C31_case : fst (check sys start [b "good"; b "gone"; b "bad"]) = CPanic /\ fst (lint sys false start [b "gone"]) = CPanic.
Proof. split; vm_compute; reflexivity. Qed.

(** ** C32: format prints or rewrites exactly the formatted configurations *)
Theorem C32_print : forall S args w texts,
  Forall2 (fun p t => prints (w_fs w p) t) args texts ->
  exists ff, format S false w args = (CErrs [], World (w_fs w) ff (w_out w ++ List.concat texts)).
Proof.
  intros S args w texts H. destruct (format_print S [] args w texts H) as (ff & E). rewrite app_nil_r in E. exists ff. exact E.
Qed.
Print Assumptions C32_print.
Theorem C32_rewrite : forall S args w, NoDup args ->
  (forall p, In p args -> os_short S p = None /\ exists n, rewrites (w_fs w p) n) ->
  exists w', format S true w args = (CErrs [], w') /\ w_out w' = w_out w /\
    (forall p, In p args -> rewrites (w_fs w p) (w_fs w' p)) /\ (forall q, ~ In q args -> w_fs w' q = w_fs w q).
Proof.
  intros S args w N H. destruct (format_rewrite S [] args w N H) as (w' & E & R). rewrite app_nil_r in E. exists w'. split; [exact E|exact R].
Qed.
Print Assumptions C32_rewrite.
(** A file that cannot be read or parsed ends the run: an error about it, no
    effect on it and on what follows. *)
Theorem C32_print_stops : forall S args p rest w texts m,
  Forall2 (fun p t => prints (w_fs w p) t) args texts -> cause S [] p (w_fs w p) m ->
  exists e ff, format S false w (args ++ p :: rest) = (CErrs [e], World (w_fs w) ff (w_out w ++ List.concat texts)) /\ about p m e.
Proof.
  intros S args p rest w texts m H C. destruct (format_print S (p :: rest) args w texts H) as (ff & E). rewrite E.
  destruct (format_bad S false (World (w_fs w) ff (w_out w ++ List.concat texts)) p rest m C) as (e & ff' & E' & A). rewrite E'. eauto.
Qed.
Print Assumptions C32_print_stops.
Theorem C32_rewrite_stops : forall S args p rest w m, NoDup args -> ~ In p args ->
  (forall q, In q args -> os_short S q = None /\ exists n, rewrites (w_fs w q) n) -> cause S [] p (w_fs w p) m ->
  exists e w', format S true w (args ++ p :: rest) = (CErrs [e], w') /\ about p m e /\ w_out w' = w_out w /\
    (forall q, In q args -> rewrites (w_fs w q) (w_fs w' q)) /\ (forall q, ~ In q args -> w_fs w' q = w_fs w q).
Proof.
  intros S args p rest w m N Hp H C. destruct (format_rewrite S (p :: rest) args w N H) as (w1 & E & O & R1 & R2). rewrite E.
  assert (C1 : cause S format_opts p (w_fs w1 p) m) by (now rewrite R2).
  destruct (format_bad S true w1 p rest m C1) as (e & ff' & E' & A). rewrite E'. eexists _, _. split; [reflexivity|]. split; [exact A|]. auto.
Qed.
Print Assumptions C32_rewrite_stops.
(** So does one that cannot be opened for writing. *)
Theorem C32_unwritable_stops : forall S w p rest content c,
  w_fs w p = NFile content true false -> accepts [] content c ->
  exists e ff, format S true w (p :: rest) = (CErrs [e], World (w_fs w) ff (w_out w)) /\ within (os_create S p) e.
Proof. exact format_unwritable. Qed.
Print Assumptions C32_unwritable_stops.
Example C32_case : exists ff, format sys false start [b "ok"; b "dir"; b "ok"] =
  (CErrs [], World disk ff (b "input {}" ++ [NL] ++ b "input {}" ++ [NL])).
Proof. eexists. vm_compute. reflexivity. Qed.
Example C32_case_write : exists e w, format sys true start [b "ok"; b "bad"; b "good"] = (CErrs [e], w) /\
  w_fs w (b "ok") = NFile (b "input {}" ++ [NL]) true true /\ w_fs w (b "good") = disk (b "good") /\ w_out w = [].
Proof. eexists _, _. split; [vm_compute; reflexivity|]. vm_compute. auto. Qed.

(** ** C33: rewriting in place survives a crash: false *)
(** The contents a crash can leave: the old one, or any prefix of the new one, *)
Theorem C33_crash_states : forall old text s, In s (save_states old text) <-> s = old \/ exists post, text = s ++ post.
Proof. exact save_states_ok. Qed.
Print Assumptions C33_crash_states.
(** in particular the empty file. *)
Theorem C33_refuted : forall old text, In [] (save_states old text).
Proof. intros. apply save_states_ok. right. now exists text. Qed.
Print Assumptions C33_refuted.
(** The same loss happens without a crash when a write fails half way. *)
Theorem C33_failed_write_refuted : forall S w p rest content c k,
  w_fs w p = NFile content true true -> accepts [] content c -> os_short S p = Some k ->
  exists e ff, format S true w (p :: rest) =
    (CErrs [e], World (fs_set (w_fs w) p (NFile (firstn k (config_string c)) true true)) ff (w_out w)) /\ within (os_write S p) e.
Proof. exact format_short. Qed.
Print Assumptions C33_failed_write_refuted.
(** What holds: the last state is the complete new content. *)
Theorem C33_complete_partial : forall old text, last (save_states old text) old = text.
Proof.
  intros old text. unfold save_states. rewrite seq_S, map_app. cbn [map]. rewrite app_comm_cons, last_last. apply firstn_all.
Qed.
Print Assumptions C33_complete_partial.

(** ** C34: an error message for one file never quotes another file: false *)
(** The message about an unreadable file quotes the failure record of the file
    parsed before it, whatever that is. *)
Theorem C34_refuted : forall S w q content wr p c0 w0 r m,
  w_fs w q = NFile content true wr -> w_fs w p = NFile c0 r w0 -> r = false ->
  farthest_failure (snd (parse [OptIgnoreComments true] [] content)) = Some m -> contains m (os_open S p) = false ->
  exists es, fst (check S w [q; p]) = CErrs (es ++ [p ++ b ": " ++ p ++ b ": " ++ os_open S p ++ [NL] ++ m]).
Proof.
  intros S w q content wr p c0 w0 r m Eq Ep -> M C.
  assert (K : forall ff, snd (parse check_opts ff content) = snd (parse check_opts [] content)) by (intros ff; now rewrite (parse_same _ ff [] _ plain_check)).
  cbn [check]. rewrite Eq. unfold parse_file at 1. rewrite Eq.
  pose proof (K (w_ff w)) as K1. unfold check_opts in K1. destruct (parse_cases check_opts content plain_check) as [[c A]|[errs [N R]]].
  - destruct (A (w_ff w)) as (rec & P). unfold check_opts in P. rewrite P in *. cbn [snd] in K1. cbn [w_fs]. rewrite Ep. unfold parse_file. cbn [w_fs w_ff w_out]. rewrite Ep.
    exists []. cbn [fst cres_cons app]. unfold with_farthest, colon. rewrite K1, M, C. now rewrite <- !app_assoc.
  - destruct (R (w_ff w)) as (v & rec & P). unfold check_opts in P. rewrite P in *. cbn [snd] in K1. destruct errs as [|e0 errs]; [congruence|].
    cbn [w_fs]. rewrite Ep. unfold parse_file. cbn [w_fs w_ff w_out]. rewrite Ep.
    eexists [_]. cbn [fst cres_cons app]. do 2 f_equal. f_equal. unfold with_farthest, colon. rewrite K1, M, C. now rewrite <- !app_assoc.
Qed.
Print Assumptions C34_refuted.
Example C34_witness : exists e1 ff m, check sys start [b "bad"; b "secret"] =
  (CErrs [e1; b "secret: secret: permission denied" ++ [NL] ++ m], World disk ff []) /\
  farthest_failure (snd (parse [OptIgnoreComments true] [] broken1)) = Some m.
Proof. eexists _, _, _. split; vm_compute; reflexivity. Qed.
(** What holds: when all the files can be read, every message is the one the
    command would give for that file alone, whatever was parsed before. *)
Definition readable (n : node) : Prop := match n with NDir => True | NFile _ r _ => r = true | NAbsent => False end.
Definition errors_of (r : cres) : list bytes := match r with CErrs es => es | CPanic => [] end.
Theorem C34_check_partial : forall S args w, (forall p, In p args -> readable (w_fs w p)) ->
  fst (check S w args) = CErrs (flat_map (fun p => errors_of (fst (check S (World (w_fs w) [] []) [p]))) args).
Proof.
  intros S args. induction args as [|p args IH]; intros w H; [reflexivity|].
  assert (Hp : readable (w_fs w p)) by (apply H; now left).
  assert (Ha : forall q, In q args -> readable (w_fs w q)) by (intros q Hq; apply H; now right).
  cbn [flat_map check]. cbn [w_fs]. destruct (w_fs w p) as [| |content r wr] eqn:E; [contradiction| |]; cbn [w_fs].
  - cbn [fst errors_of app]. apply IH; auto.
  - cbn in Hp. subst r. unfold parse_file. cbn [w_fs w_ff]. rewrite E.
    pose proof (parse_same check_opts (w_ff w) [] content plain_check) as Q. unfold check_opts in Q. rewrite <- Q.
    destruct (parse_cases check_opts content plain_check) as [[c A]|[errs [N R]]].
    + destruct (A (w_ff w)) as (rec & P). unfold check_opts in P. rewrite P. cbn [fst errors_of app]. now rewrite (IH (World (w_fs w) rec (w_out w)) Ha).
    + destruct (R (w_ff w)) as (v & rec & P). unfold check_opts in P. rewrite P. destruct errs as [|e0 errs]; [congruence|].
      specialize (IH (World (w_fs w) rec (w_out w)) Ha). cbn [w_fs] in IH. destruct (check S (World (w_fs w) rec (w_out w)) args) as [r' w']. cbn [fst snd] in *.
      rewrite IH. reflexivity.
Qed.
Print Assumptions C34_check_partial.
(** lint and format on one file: the result does not depend on the past. *)
Theorem C34_lint_partial : forall S af w ff p, readable (w_fs w p) ->
  fst (lint S af w [p]) = fst (lint S af (World (w_fs w) ff (w_out w)) [p]) /\
  w_fs (snd (lint S af w [p])) = w_fs (snd (lint S af (World (w_fs w) ff (w_out w)) [p])).
Proof.
  intros S af w ff p Hp. cbn [lint w_fs]. destruct (w_fs w p) as [| |content r wr] eqn:E; [contradiction|split; reflexivity|].
  cbn in Hp. subst r. unfold parse_file. cbn [w_fs w_ff w_out]. rewrite E.
  pose proof (parse_same lint_opts (w_ff w) ff content plain_lint) as Q. unfold lint_opts in Q. rewrite <- Q. split; reflexivity.
Qed.
Print Assumptions C34_lint_partial.
Theorem C34_format_partial : forall S write w ff p, readable (w_fs w p) ->
  fst (format S write w [p]) = fst (format S write (World (w_fs w) ff (w_out w)) [p]) /\
  w_fs (snd (format S write w [p])) = w_fs (snd (format S write (World (w_fs w) ff (w_out w)) [p])) /\
  w_out (snd (format S write w [p])) = w_out (snd (format S write (World (w_fs w) ff (w_out w)) [p])).
Proof.
  intros S write w ff p Hp. cbn [format w_fs]. destruct (w_fs w p) as [| |content r wr] eqn:E; [contradiction|repeat split|].
  cbn in Hp. subst r. unfold parse_file. cbn [w_fs w_ff w_out]. rewrite E.
  pose proof (parse_same format_opts (w_ff w) ff content plain_format) as Q. unfold format_opts in Q. rewrite <- Q. repeat split.
Qed.
Print Assumptions C34_format_partial.
