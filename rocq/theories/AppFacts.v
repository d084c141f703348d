(** What the commands do to the files and what they report.  Specification:
    [within], [accepts], [failing], [printed], [lint_file], [lint_run]. *)
From Coq Require Import List NArith ZArith Bool String Arith Lia.
From Verif Require Import Bytes Utf8 F64 Ast Peg Actions Engine Parser GrammarGen AstPrint AstUtil Apply AstInd ApplyFacts
  EscapeFacts SimpleFacts HistFacts ParseFacts Tree ParseTree App LintFacts.
Import ListNotations.

(** ** Specification *)
(** The text [m] occurs in [t]. *)
Definition within (m t : bytes) : Prop := exists pre post, t = pre ++ m ++ post.
(** The error [e] is about the path [p] and contains the text [m]. *)
Definition about (p m e : bytes) : Prop := exists t, e = p ++ b ": " ++ t /\ within m t.

(** Parse of [content] with the given options, for whatever was parsed before *)
Definition accepts (opts : list popt) (content : bytes) (c : config) : Prop :=
  forall ff, exists rec, parse opts ff content = (Returned (VConfig c) [], rec).
Definition rejects (opts : list popt) (content : bytes) (errs : list perror) : Prop :=
  errs <> [] /\ forall ff, exists v rec, parse opts ff content = (Returned v errs, rec).

(** The options of the commands *)
Definition check_opts := [OptIgnoreComments true].
Definition lint_opts := [OptExceptionalCommentsWarning true].
Definition format_opts : list popt := [].

(** The cause why a file can not be used: it can not be read, or does not parse. *)
Definition cause (S : os) (opts : list popt) (p : path) (n : node) (m : bytes) : Prop :=
  match n with
  | NFile _ false _ => m = os_open S p
  | NFile content true _ => exists errs, rejects opts content errs /\ m = errors_text (os_fmt S) p errs
  | _ => False
  end.

(** The path is a directory (which commands skip) or a file that parses. *)
Definition fine (opts : list popt) (n : node) : Prop :=
  match n with
  | NAbsent => False
  | NDir => True
  | NFile content r _ => r = true /\ exists c, accepts opts content c
  end.

(** Outcome of lint for the path [p]: what it is before, the reported errors, what
    it is after. *)
Inductive lint_file (S : os) (af : bool) (p : path) : node -> list bytes -> node -> Prop :=
| lf_dir : lint_file S af p NDir [] NDir
| lf_bad n m e : cause S lint_opts p n m -> about p m e -> lint_file S af p n [e] n
| lf_clean content wr c : accepts lint_opts content c ->
    af = false \/ filter missing (plugins_config c) = [] ->
    lint_file S af p (NFile content true wr)
      (cf_warnings c ++ report p no_ids_title (map describe (filter missing (plugins_config c)))
                     ++ report p dup_ids_title (map describe (duplicates (plugins_config c))))
      (NFile content true wr)
| lf_fixed content wr c c' es after : accepts lint_opts content c ->
    af = true -> filter missing (plugins_config c) <> [] ->
    skeleton_config c' = skeleton_config c -> plugins_config c' = fixed 1 (plugins_config c) ->
    (wr = true -> os_short S p = None -> es = [] /\ after = NFile (config_string c') true true) ->
    (wr = true -> forall k, os_short S p = Some k ->
        (exists e, es = [e] /\ within (os_write S p) e) /\ after = NFile (firstn k (config_string c')) true true) ->
    (wr = false -> (exists e, es = [e] /\ within (os_create S p) e) /\ after = NFile content true false) ->
    lint_file S af p (NFile content true wr)
      (cf_warnings c ++ report p dup_ids_title (map describe (duplicates (plugins_config c))) ++ es) after.
(** ... for several paths *)
Inductive lint_run (S : os) (af : bool) : fs -> list path -> list bytes -> fs -> Prop :=
| lr_nil f : lint_run S af f [] [] f
| lr_cons f p args es after f1 es' f' :
    lint_file S af p (f p) es after ->
    f1 p = after -> (forall q, q <> p -> f1 q = f q) ->
    lint_run S af f1 args es' f' -> lint_run S af f (p :: args) (es ++ es') f'.

(** ** Proofs *)
Definition plain_opts (opts : list popt) : Prop :=
  k_entry (config_of opts) = "init"%string /\ k_recover (config_of opts) = true /\ k_max (config_of opts) = 0%N.
Lemma plain_check : plain_opts check_opts. Proof. repeat split. Qed.
Lemma plain_lint : plain_opts lint_opts. Proof. repeat split. Qed.
Lemma plain_format : plain_opts format_opts. Proof. repeat split. Qed.

Lemma parse_same opts ff ff' content : plain_opts opts -> parse opts ff content = parse opts ff' content.
Proof. intros (A & _ & B). apply parse_history; [exact A|]. unfold resets_record. now rewrite B. Qed.
Lemma parse_cases opts content : plain_opts opts ->
  (exists c, accepts opts content c) \/ (exists errs, rejects opts content errs).
Proof.
  intros Ho. pose proof Ho as (A & B & _). destruct (parse_kinds opts [] content A B) as (v & errs & E & K).
  destruct (parse opts [] content) as [r rec] eqn:P. cbn in E. subst r.
  destruct errs as [|e errs].
  - left. destruct K as [[c ->]|[_ K]]; [|congruence]. exists c. intros ff. exists rec. rewrite (parse_same opts ff [] content Ho). exact P.
  - right. exists (e :: errs). split; [discriminate|]. intros ff. exists v, rec. rewrite (parse_same opts ff [] content Ho). exact P.
Qed.
Lemma accepts_not opts content c errs : accepts opts content c -> rejects opts content errs -> False.
Proof. intros A [N R]. destruct (A []) as (r & E). destruct (R []) as (v & r' & E'). rewrite E in E'. inversion E'. congruence. Qed.
Lemma accepts_fun opts content c c' : accepts opts content c -> accepts opts content c' -> c = c'.
Proof. intros A B. destruct (A []) as (r & E). destruct (B []) as (r' & E'). rewrite E in E'. now inversion E'. Qed.
Lemma rejects_fun opts content c c' : rejects opts content c -> rejects opts content c' -> c = c'.
Proof. intros [_ A] [_ B]. destruct (A []) as (v & r & E). destruct (B []) as (v' & r' & E'). rewrite E in E'. now inversion E'. Qed.
Lemma accepts_wf opts content c : plain_opts opts -> accepts opts content c -> wf_config c.
Proof. intros (A & _) H. destruct (H []) as (r & E). exact (proj1 (parse_tree _ _ _ _ _ A E)). Qed.

Lemma cause_or_fine S opts p n : plain_opts opts -> n <> NAbsent -> fine opts n \/ exists m, cause S opts p n m.
Proof.
  intros Ho Hn. destruct n as [| |content [|] wr]; [congruence|now left| |right; now exists (os_open S p)].
  destruct (parse_cases opts content Ho) as [[c A]|[errs R]]; [left; split; [reflexivity|now exists c]|].
  right. exists (errors_text (os_fmt S) p errs), errs. auto.
Qed.
Lemma cause_not_fine S opts p n m : fine opts n -> cause S opts p n m -> False.
Proof.
  destruct n as [| |content r wr]; cbn; auto. intros (-> & c & A) (errs & R & _). eapply accepts_not; eauto.
Qed.

(** ParseFile *)
Lemma parse_file_fine S opts w p content wr c : accepts opts content c -> w_fs w p = NFile content true wr ->
  exists rec, parse_file S opts w p = (PFOk (VConfig c), rec).
Proof. intros A E. unfold parse_file. rewrite E. destruct (A (w_ff w)) as (rec & ->). eauto. Qed.
Lemma parse_file_bad S opts w p m : cause S opts p (w_fs w p) m ->
  exists rec, parse_file S opts w p = (PFErr m, rec).
Proof.
  unfold parse_file. destruct (w_fs w p) as [| |content [|] wr]; cbn; try contradiction.
  - intros (errs & [N R] & ->). destruct (R (w_ff w)) as (v & rec & ->). destruct errs; [congruence|]. eauto.
  - intros ->. eauto.
Qed.

Lemma within_refl m : within m m.
Proof. exists [], []. cbn. now rewrite app_nil_r. Qed.
Lemma with_farthest_within p t ff : within t (with_farthest p t ff).
Proof.
  unfold with_farthest. destruct (farthest_failure ff) as [m|]; [|apply within_refl]. destruct (contains m t); [apply within_refl|].
  exists (p ++ b ": "), ([NL] ++ m). unfold colon. now rewrite <- !app_assoc.
Qed.
Lemma about_farthest p t ff : about p t (colon p (with_farthest p t ff)).
Proof. eexists. split; [reflexivity|apply with_farthest_within]. Qed.

(** check *)
Lemma check_ok S args : forall w, (forall p, In p args -> w_fs w p <> NAbsent) ->
  exists bad es, fst (check S w args) = CErrs es /\ w_fs (snd (check S w args)) = w_fs w /\ w_out (snd (check S w args)) = w_out w /\
    Forall2 (fun p e => exists m, cause S check_opts p (w_fs w p) m /\ about p m e) bad es /\
    exists sel, bad = map fst (filter snd (combine args sel)) /\
      Forall2 (fun p (bd : bool) => if bd then exists m, cause S check_opts p (w_fs w p) m else fine check_opts (w_fs w p)) args sel.
Proof.
  induction args as [|p args IH]; intros w H; [exists [], []; repeat split; try constructor; exists []; split; constructor|].
  assert (Hp : w_fs w p <> NAbsent) by (apply H; now left).
  assert (Ha : forall q, In q args -> w_fs w q <> NAbsent) by (intros q Hq; apply H; now right).
  cbn [check]. destruct (cause_or_fine S check_opts p _ plain_check Hp) as [F|[m C]].
  - assert (K : exists ff, check S w (p :: args) = check S (World (w_fs w) ff (w_out w)) args).
    { cbn [check]. destruct (w_fs w p) as [| |content r wr] eqn:E; [congruence|exists (w_ff w); now destruct w|].
      destruct F as (-> & c & A). destruct (parse_file_fine S _ _ _ _ _ _ A E) as (rec & P). unfold check_opts in P. rewrite P. now exists rec. }
    destruct K as (ff & K). cbn [check] in K. rewrite K. destruct (IH (World (w_fs w) ff (w_out w)) Ha) as (bad & es & E1 & E2 & E3 & E4 & sel & E5 & E6).
    exists bad, es. split; [exact E1|]. split; [exact E2|]. split; [exact E3|]. split; [exact E4|]. exists (false :: sel). split; [exact E5|]. now constructor.
  - assert (K : exists ff, check S w (p :: args) =
      let '(r', w') := check S (World (w_fs w) ff (w_out w)) args in (cres_cons (colon p (with_farthest p m ff)) r', w')).
    { cbn [check]. destruct (parse_file_bad _ _ _ _ _ C) as (rec & P). unfold check_opts in P. rewrite P. exists rec.
      destruct (w_fs w p) as [| |content r wr]; [contradiction|contradiction|]. reflexivity. }
    destruct K as (ff & K). cbn [check] in K. rewrite K. destruct (IH (World (w_fs w) ff (w_out w)) Ha) as (bad & es & E1 & E2 & E3 & E4 & sel & E5 & E6).
    destruct (check S (World (w_fs w) ff (w_out w)) args) as [r' w']. cbn [fst snd] in *. subst r'. cbn [cres_cons].
    exists (p :: bad), (colon p (with_farthest p m ff) :: es). split; [reflexivity|]. split; [exact E2|]. split; [exact E3|].
    split; [constructor; [|exact E4]|].
    { exists m. split; [exact C|apply about_farthest]. }
    exists (true :: sel). split; [cbn; now rewrite E5|]. constructor; [now exists m|exact E6].
Qed.

(** lint *)
Lemma fs_set_same f p n : fs_set f p n p = n.
Proof. unfold fs_set. now rewrite beqb_refl. Qed.
Lemma fs_set_other f p n q : q <> p -> fs_set f p n q = f q.
Proof. unfold fs_set. intros H. destruct (beqb q p) eqn:E; [apply beqb_eq in E; congruence|reflexivity]. Qed.

Lemma filter_none {A} (f : A -> bool) l : existsb f l = false <-> filter f l = [].
Proof.
  induction l as [|x l IH]; cbn; [tauto|]. destruct (f x); cbn; [split; discriminate|exact IH].
Qed.

(** one file of lint *)
Lemma lint_one S af w p args : w_fs w p <> NAbsent ->
  exists es after w1, lint_file S af p (w_fs w p) es after /\ w_fs w1 p = after /\ (forall q, q <> p -> w_fs w1 q = w_fs w q) /\ w_out w1 = w_out w /\
    lint S af w (p :: args) = (let '(r', w') := lint S af w1 args in (cres_app es r', w')).
Proof.
  intros Hp. destruct (cause_or_fine S lint_opts p _ plain_lint Hp) as [F|[m C]].
  - cbn [lint]. destruct (w_fs w p) as [| |content r wr] eqn:E; [congruence| |].
    + exists [], NDir, w. split; [constructor|]. split; [exact E|]. split; [auto|]. split; [reflexivity|].
      destruct (lint S af w args) as [[es|] w']; reflexivity.
    + destruct F as (-> & c & A). destruct (parse_file_fine S _ _ _ _ _ _ A E) as (rec & P). unfold lint_opts in P. rewrite P. cbn [as_config].
      destruct (lint_config_ok af c (accepts_wf _ _ _ plain_lint A)) as (va & c' & L & L1 & L2 & L3 & L4 & L5). rewrite L, L1, L2, L3.
      destruct af; cbn [andb].
      * destruct (existsb missing (plugins_config c)) eqn:M.
        -- assert (M' : filter missing (plugins_config c) <> []) by (intros X; apply filter_none in X; congruence).
           set (w0 := World (w_fs w) rec (w_out w)). set (es0 := cf_warnings c ++ _ ++ _).
           assert (E0 : es0 = cf_warnings c ++ report p dup_ids_title (map describe (duplicates (plugins_config c)))) by reflexivity.
           unfold save. cbn [w0 w_fs w_out w_ff]. rewrite E. destruct wr.
           ++ destruct (os_short S p) as [k|] eqn:O.
              ** set (m := b "failed to write file with automatically fixed ID: " ++ os_write S p).
                 exists (cf_warnings c ++ report p dup_ids_title (map describe (duplicates (plugins_config c))) ++ [m]),
                   (NFile (firstn k (config_string c')) true true),
                   (World (fs_set (w_fs w) p (NFile (firstn k (config_string c')) true true)) rec (w_out w)).
                 split; [apply (lf_fixed S true p content true c c'); auto; try congruence|].
                 { intros _ k' Hk. split; [exists m; split; [reflexivity|]|congruence]. exists (b "failed to write file with automatically fixed ID: "), []. unfold m. now rewrite app_nil_r. }
                 split; [|split; [|split; [|rewrite E0, <- app_assoc; reflexivity]]]; cbn [w_fs w_out]; [apply fs_set_same|intros q Hq; now apply fs_set_other|reflexivity].
              ** exists (cf_warnings c ++ report p dup_ids_title (map describe (duplicates (plugins_config c))) ++ []),
                   (NFile (config_string c') true true),
                   (World (fs_set (w_fs w) p (NFile (config_string c') true true)) rec (w_out w)).
                 split; [apply (lf_fixed S true p content true c c'); auto; try congruence|].
                 split; [|split; [|split; [|rewrite E0, <- app_assoc; reflexivity]]]; cbn [w_fs w_out]; [apply fs_set_same|intros q Hq; now apply fs_set_other|reflexivity].
           ++ set (m := b "failed to open file for writting with automatically fixed ID: " ++ os_create S p).
              exists (cf_warnings c ++ report p dup_ids_title (map describe (duplicates (plugins_config c))) ++ [m]), (NFile content true false), w0.
              split; [apply (lf_fixed S true p content false c c'); auto; try congruence|].
              { intros _. split; [exists m; split; [reflexivity|]|reflexivity]. exists (b "failed to open file for writting with automatically fixed ID: "), []. unfold m. now rewrite app_nil_r. }
              split; [exact E|]. split; [auto|]. split; [reflexivity|]. rewrite E0, <- app_assoc. reflexivity.
        -- apply filter_none in M. eexists _, _, (World (w_fs w) rec (w_out w)). split; [apply lf_clean; [exact A|now right]|].
           split; [exact E|]. split; [auto|]. split; [reflexivity|]. rewrite M, !app_nil_r. reflexivity.
      * eexists _, _, (World (w_fs w) rec (w_out w)). split; [apply lf_clean; [exact A|now left]|].
        split; [exact E|]. split; [auto|]. split; [reflexivity|]. rewrite !app_nil_r. reflexivity.
  - destruct (parse_file_bad _ _ _ _ _ C) as (rec & P). unfold lint_opts in P. cbn [lint]. rewrite P.
    exists [colon p (with_farthest p m rec)], (w_fs w p), (World (w_fs w) rec (w_out w)).
    split; [eapply lf_bad; [exact C|apply about_farthest]|]. split; [reflexivity|]. split; [auto|]. split; [reflexivity|].
    destruct (w_fs w p) as [| |content r wr]; [contradiction|contradiction|].
    destruct (lint S af _ args) as [[es|] w']; reflexivity.
Qed.
Lemma lint_file_present S af p n es n' : lint_file S af p n es n' -> n <> NAbsent -> n' <> NAbsent.
Proof.
  destruct 1 as [|n m e C A|content wr c A O|content wr c c' es after A O M K P W1 W2 W3]; intros N; auto; try discriminate.
  destruct wr.
  - destruct (os_short S p) as [k|]; [destruct (W2 eq_refl k eq_refl) as [_ ->]|destruct (W1 eq_refl eq_refl) as [_ ->]]; discriminate.
  - destruct (W3 eq_refl) as [_ ->]. discriminate.
Qed.
Lemma lint_ok S af args : forall w, (forall p, In p args -> w_fs w p <> NAbsent) ->
  exists es, fst (lint S af w args) = CErrs es /\ lint_run S af (w_fs w) args es (w_fs (snd (lint S af w args))) /\
    w_out (snd (lint S af w args)) = w_out w.
Proof.
  induction args as [|p args IH]; intros w H; [exists []; repeat split; constructor|].
  assert (Hp : w_fs w p <> NAbsent) by (apply H; now left).
  destruct (lint_one S af w p args Hp) as (es & after & w1 & F & F1 & F2 & F3 & E). rewrite E.
  assert (Ha : forall q, In q args -> w_fs w1 q <> NAbsent).
  { intros q Hq. destruct (list_eq_dec N.eq_dec q p) as [->|Hn].
    - rewrite F1. exact (lint_file_present _ _ _ _ _ _ F Hp).
    - rewrite F2 by exact Hn. apply H. now right. }
  destruct (IH w1 Ha) as (es' & I1 & I2 & I3). destruct (lint S af w1 args) as [r' w']. cbn [fst snd] in *. subst r'. cbn [cres_app].
  exists (es ++ es'). split; [reflexivity|]. split; [econstructor; eauto|]. congruence.
Qed.

(** format *)
(** What format prints for a path *)
Inductive prints : node -> bytes -> Prop :=
| pr_dir : prints NDir []
| pr_file content wr c : accepts format_opts content c -> prints (NFile content true wr) (config_string c).
(** What a path becomes by format -w, when nothing fails *)
Inductive rewrites : node -> node -> Prop :=
| rw_dir : rewrites NDir NDir
| rw_file content c : accepts format_opts content c -> rewrites (NFile content true true) (NFile (config_string c) true true).

Lemma format_print S rest args : forall w texts,
  Forall2 (fun p t => prints (w_fs w p) t) args texts ->
  exists ff, format S false w (args ++ rest) = format S false (World (w_fs w) ff (w_out w ++ List.concat texts)) rest.
Proof.
  induction args as [|p args IH]; intros w texts H; inversion H as [|p0 t a0 ts Hp Ht]; subst; [exists (w_ff w); cbn; rewrite app_nil_r; now destruct w|].
  cbn [app format List.concat]. remember (w_fs w p) as n eqn:En. destruct Hp as [|content wr c A].
  - cbn [app]. apply (IH w ts Ht).
  - symmetry in En. destruct (parse_file_fine S _ _ _ _ _ _ A En) as (rec & P). unfold format_opts in P. rewrite P. cbn [as_config].
    destruct (IH (World (w_fs w) rec (w_out w ++ config_string c)) ts) as (ff & E); [exact Ht|]. cbn [w_fs w_ff w_out] in *.
    exists ff. rewrite E. now rewrite app_assoc.
Qed.
Lemma format_rewrite S rest args : forall w, NoDup args -> (forall p, In p args -> os_short S p = None /\ exists n, rewrites (w_fs w p) n) ->
  exists w', format S true w (args ++ rest) = format S true w' rest /\ w_out w' = w_out w /\
    (forall p, In p args -> rewrites (w_fs w p) (w_fs w' p)) /\ (forall q, ~ In q args -> w_fs w' q = w_fs w q).
Proof.
  induction args as [|p args IH]; intros w Hn H; [exists w; repeat split; auto; contradiction|].
  inversion Hn as [|p0 a0 Hn1 Hn2]; subst. destruct (H p (or_introl eq_refl)) as (Hs & n & Hp).
  assert (K : exists w1, format S true w ((p :: args) ++ rest) = format S true w1 (args ++ rest) /\ w_out w1 = w_out w /\
    w_fs w1 p = n /\ (forall q, q <> p -> w_fs w1 q = w_fs w q)).
  { cbn [app format]. remember (w_fs w p) as m eqn:Em. symmetry in Em. destruct Hp as [|content c A].
    - exists w. repeat split; auto.
    - destruct (parse_file_fine S _ _ _ _ _ _ A Em) as (rec & P). unfold format_opts in P. rewrite P. cbn [as_config].
      unfold save. cbn [w_fs w_out w_ff]. rewrite Em, Hs. eexists. split; [reflexivity|]. cbn [w_fs w_out].
      split; [reflexivity|]. split; [apply fs_set_same|]. intros q Hq. now apply fs_set_other. }
  destruct K as (w1 & E & O1 & F1 & F2). rewrite E.
  destruct (IH w1 Hn2) as (w' & E' & O' & F1' & F2').
  { intros q Hq. rewrite F2; [apply H; now right|]. intros ->. contradiction. }
  exists w'. split; [exact E'|]. split; [congruence|]. split.
  - intros q [<-|Hq]; [|rewrite <- F2; [auto|intros ->; contradiction]]. rewrite (F2' p Hn1), F1. exact Hp.
  - intros q Hq. rewrite F2' by (intros X; apply Hq; now right). apply F2. intros ->. apply Hq. now left.
Qed.
Lemma format_bad S write w p rest m : cause S format_opts p (w_fs w p) m ->
  exists e ff, format S write w (p :: rest) = (CErrs [e], World (w_fs w) ff (w_out w)) /\ about p m e.
Proof.
  intros C. destruct (parse_file_bad _ _ _ _ _ C) as (rec & P). unfold format_opts in P. cbn [format]. rewrite P.
  destruct (w_fs w p) as [| |content r wr]; [contradiction|contradiction|]. eexists _, rec. split; [reflexivity|].
  destruct (farthest_failure rec) as [f|]; [|exists m; split; [reflexivity|apply within_refl]].
  destruct (contains f m); [exists m; split; [reflexivity|apply within_refl]|].
  exists (m ++ [NL] ++ f). split; [unfold colon; now rewrite <- !app_assoc|]. exists [], ([NL] ++ f). reflexivity.
Qed.
Lemma format_absent S write w p rest : w_fs w p = NAbsent -> format S write w (p :: rest) = (CErrs [p ++ b ": " ++ os_stat S p], w).
Proof. intros E. cbn [format]. now rewrite E. Qed.
Lemma format_unwritable S w p rest content c : w_fs w p = NFile content true false -> accepts format_opts content c ->
  exists e ff, format S true w (p :: rest) = (CErrs [e], World (w_fs w) ff (w_out w)) /\ within (os_create S p) e.
Proof.
  intros E A. destruct (parse_file_fine S _ _ _ _ _ _ A E) as (rec & P). unfold format_opts in P. cbn [format]. rewrite E, P. cbn [as_config].
  unfold save. cbn [w_fs w_out w_ff]. rewrite E. eexists _, rec. split; [reflexivity|].
  exists (b "failed to open file for writting with automatically fixed ID: "), []. now rewrite app_nil_r.
Qed.
Lemma format_short S w p rest content c k : w_fs w p = NFile content true true -> accepts format_opts content c -> os_short S p = Some k ->
  exists e ff, format S true w (p :: rest) = (CErrs [e], World (fs_set (w_fs w) p (NFile (firstn k (config_string c)) true true)) ff (w_out w)) /\ within (os_write S p) e.
Proof.
  intros E A O. destruct (parse_file_fine S _ _ _ _ _ _ A E) as (rec & P). unfold format_opts in P. cbn [format]. rewrite E, P. cbn [as_config].
  unfold save. cbn [w_fs w_out w_ff]. rewrite E, O. eexists _, rec. split; [reflexivity|].
  exists (b "failed to write file with automatically fixed ID: "), []. now rewrite app_nil_r.
Qed.

(** Crash states *)
Lemma save_states_ok old text s : In s (save_states old text) <-> s = old \/ exists post, text = s ++ post.
Proof.
  unfold save_states. cbn [In]. rewrite in_map_iff. split.
  - intros [->|(n & <- & _)]; [now left|]. right. exists (skipn n text). symmetry. apply firstn_skipn.
  - intros [->|[post ->]]; [now left|]. right. exists (List.length s). split; [now rewrite firstn_app, Nat.sub_diag, firstn_all, app_nil_r|].
    apply in_seq. rewrite app_length. lia.
Qed.
