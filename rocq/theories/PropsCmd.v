(** Properties of the program as a process and of the not-found errors: C53, C54.
    Specification: AppFacts.v ([accepts], [cause], [about]), LintFacts.v ([plugins_config],
    [missing], [duplicates]), and [founder] below. *)
From Coq Require Import List NArith ZArith Bool String Arith Lia.
From Verif Require Import Bytes Utf8 F64 Ast Peg Actions Engine Parser GrammarGen AstPrint AstUtil Apply AstInd ApplyFacts
  EscapeFacts SimpleFacts HistFacts ParseFacts Tree ParseTree App LintFacts AppFacts PropsTree PropsApp PropsUtil Cmd.
Import ListNotations.

(** ** C53: the exit status tells whether the run was clean *)
(** check: status 0 and a silent standard error exactly when every argument is a directory or
    a readable file that Parse accepts; *)
Theorem C53_check : forall S tr args w, (forall p, In p args -> w_fs w p <> NAbsent) ->
  let x := fst (execute S tr None CmdCheck w args) in
  (x_status x = 0 \/ x_status x = 1) /\ (x_status x = 0 <-> x_stderr x = []) /\
  (x_status x = 0 <-> forall p, In p args -> w_fs w p = NDir \/
     exists content wr c ff, w_fs w p = NFile content true wr /\ parse [] [] content = (Returned (VConfig c) [], ff)).
Proof.
  intros S tr args w H. pose proof (C30_iff S args w H) as X. destruct (C30_check S args w H) as (bad & es & E & _).
  cbn [execute run_command]. destruct (check S w args) as [r w'] eqn:K. cbn [fst] in *. subst r. destruct es as [|e es]; cbn [x_status x_stderr].
  - split; [now left|]. split; [tauto|]. rewrite <- X. tauto.
  - split; [now right|]. split; [split; [discriminate|intros Q; discriminate Q]|]. rewrite <- X. split; intros Q; discriminate Q.
Qed.
Print Assumptions C53_check.
(** otherwise standard error shows one error per failing file, completely: the errors can be
    read back from it. *)
Theorem C53_check_report : forall S tr args w, (forall p, In p args -> w_fs w p <> NAbsent) ->
  x_status (fst (execute S tr None CmdCheck w args)) = 1 ->
  exists bad es t, x_stderr (fst (execute S tr None CmdCheck w args)) = b "error: " ++ t /\
    read_multi_err t = map (trim_right [NL]) es /\ bad <> [] /\
    Forall2 (fun p e => exists m, cause S [OptIgnoreComments true] p (w_fs w p) m /\ about p m e) bad es /\
    (forall p, In p bad <-> In p args /\ exists m, cause S [OptIgnoreComments true] p (w_fs w p) m).
Proof.
  intros S tr args w H. destruct (C30_check S args w H) as (bad & es & E & _ & _ & F & sel & Eb & Fs).
  cbn [execute run_command]. destruct (check S w args) as [r w'] eqn:K. cbn [fst] in *. subst r. destruct es as [|e es]; cbn [x_status x_stderr]; [discriminate|].
  intros _. exists bad, (e :: es), (multi_err (e :: es)). split; [reflexivity|]. split; [apply C35_multi_err|].
  split; [intros ->; inversion F|]. split; [exact F|]. intros p. rewrite Eb. clear -Fs. revert p.
  induction Fs as [|a s args sel Ha Fs IH]; intros p; [cbn; tauto|]. cbn [combine filter snd map In]. destruct s; cbn [map fst In].
  - rewrite IH. split; [intros [<-|[I C]]; auto|intros [[<-|I] C]; auto].
  - rewrite IH. split; [intros [I C]; auto|intros [[<-|I] C]; auto]. exfalso. destruct C as (m & C). exact (cause_not_fine _ _ _ _ _ Ha C).
Qed.
Print Assumptions C53_check_report.

(** lint, without --auto-fix-id: status 0 exactly when every argument is a directory or an
    accepted file without exceptional comments in which every plugin has a string id and no
    two plugins have the same. *)
Definition clean_file (n : node) : Prop :=
  n = NDir \/ exists content wr c ids, n = NFile content true wr /\ accepts [OptExceptionalCommentsWarning true] content c /\
    cf_warnings c = [] /\ map plugin_id (plugins_config c) = map IdOk ids /\ NoDup ids.
Lemma no_report p t l : App.report p t l = [] <-> l = [].
Proof. destruct l; split; intros H; auto; discriminate H. Qed.
Lemma ids_clean ps : filter missing ps = [] /\ duplicates ps = [] <-> exists ids, map plugin_id ps = map IdOk ids /\ NoDup ids.
Proof.
  unfold duplicates.
  assert (K : forall pre preids, map plugin_id pre = map IdOk preids ->
    (filter missing ps = [] /\ map snd (filter (fun x => existsb (same_id (snd x)) (fst x)) (contexts pre ps)) = []) <->
    exists ids, map plugin_id ps = map IdOk ids /\ NoDup ids /\ forall i, In i ids -> ~ In i preids).
  { induction ps as [|p ps IH]; intros pre preids Hp.
    - split; [intros _; exists []; repeat split; [constructor|intros i []]|split; reflexivity].
    - cbn [filter contexts snd fst map]. split.
      + intros [F D]. destruct (missing p) eqn:M; [discriminate F|]. unfold missing in M. destruct (plugin_id p) as [id|m|m] eqn:E; try discriminate M.
        destruct (existsb (same_id p) pre) eqn:X; [cbn in D; discriminate D|].
        assert (Hp' : map plugin_id (pre ++ [p]) = map IdOk (preids ++ [id])) by (rewrite !map_app, Hp; cbn [map]; now rewrite E).
        destruct (proj1 (IH _ _ Hp') (conj F D)) as (ids & E1 & E2 & E3).
        exists (id :: ids). cbn [map]. rewrite E1. split; [reflexivity|]. split.
        * constructor; [|exact E2]. intros I. apply (E3 id I). apply in_or_app. right. now left.
        * intros i [<-|I] J.
          -- assert (T : existsb (same_id p) pre = true); [|congruence]. apply existsb_exists.
             assert (In (IdOk id) (map plugin_id pre)) by (rewrite Hp; now apply in_map). apply in_map_iff in H as (q & Q1 & Q2).
             exists q. split; [exact Q2|]. unfold same_id. rewrite E, Q1. apply beqb_refl.
          -- apply (E3 i I). apply in_or_app. now left.
      + intros (ids & E1 & E2 & E3). destruct ids as [|id ids]; [discriminate E1|]. cbn [map] in E1. injection E1 as E E1.
        assert (M : missing p = false) by (unfold missing; now rewrite E). rewrite M.
        inversion E2 as [|? ? N1 N2]; subst.
        assert (X : existsb (same_id p) pre = false).
        { destruct (existsb (same_id p) pre) eqn:X; [|reflexivity]. exfalso. apply existsb_exists in X as (q & Q1 & Q2). unfold same_id in Q2. rewrite E in Q2.
          destruct (plugin_id q) as [i|m|m] eqn:Eq; try discriminate Q2. apply beqb_eq in Q2. subst i. apply (E3 id); [now left|].
          apply in_map with (f := plugin_id) in Q1. rewrite Hp, Eq in Q1. apply in_map_iff in Q1 as (x & X1 & X2). injection X1 as ->. exact X2. }
        rewrite X. cbn [snd fst map filter].
        apply (proj2 (IH (pre ++ [p]) (preids ++ [id]) ltac:(rewrite !map_app, Hp; cbn [map]; now rewrite E))).
        exists ids. split; [exact E1|]. split; [exact N2|]. intros i I J. apply in_app_or in J as [J|[<-|[]]]; [apply (E3 i); [now right|exact J]|contradiction]. }
  rewrite (K [] [] eq_refl). split; [intros (ids & A & B & _); eauto|intros (ids & A & B); exists ids; repeat split; auto].
Qed.
Lemma lint_file_clean S p n es n' : lint_file S false p n es n' -> n' = n /\ (es = [] <-> clean_file n).
Proof.
  destruct 1 as [|n m e C A|content wr c A O|content wr c c' es after A O]; [| | |discriminate].
  - split; [reflexivity|]. split; [now left|reflexivity].
  - split; [reflexivity|]. split; [discriminate|]. intros [->|(content & wr & c & ids & -> & A' & _)]; [contradiction|].
    exfalso. destruct C as (errs & R & _). exact (accepts_not _ _ _ _ A' R).
  - split; [reflexivity|]. split.
    + intros E. apply app_eq_nil in E as [E1 E2]. apply app_eq_nil in E2 as [E2 E3]. apply no_report, map_eq_nil in E2, E3.
      destruct (proj1 (ids_clean (plugins_config c)) (conj E2 E3)) as (ids & I1 & I2). right. exists content, wr, c, ids. auto.
    + intros [X|(content' & wr' & c' & ids & X & A' & W & I1 & I2)]; [discriminate X|]. injection X as <- <-. rewrite (accepts_fun _ _ _ _ A' A) in *.
      destruct (proj2 (ids_clean (plugins_config c)) (ex_intro _ ids (conj I1 I2))) as [F D]. now rewrite W, F, D.
Qed.
Lemma lint_run_clean S f args es f' : lint_run S false f args es f' -> (es = [] <-> forall p, In p args -> clean_file (f p)).
Proof.
  remember false as af eqn:Ha. induction 1 as [f|f p args es after f1 es' f' F E1 E2 _ IH]; [split; [intros _ p []|reflexivity]|]. subst af.
  apply lint_file_clean in F as [-> F].
  assert (G : forall q, f1 q = f q) by (intros q; destruct (list_eq_dec N.eq_dec q p) as [->|N]; [exact E1|now apply E2]).
  split.
  - intros E. apply app_eq_nil in E as [-> ->]. intros q [<-|I]; [now apply F|]. rewrite <- G. now apply IH.
  - intros A. rewrite (proj2 F), (proj2 IH); [reflexivity| |apply A; now left]. intros q I. rewrite G. apply A. now right.
Qed.
Theorem C53_lint : forall S tr args w, (forall p, In p args -> w_fs w p <> NAbsent) ->
  let x := fst (execute S tr None (CmdLint false) w args) in
  (x_status x = 0 \/ x_status x = 1) /\ (x_status x = 0 <-> x_stderr x = []) /\
  (x_status x = 0 <-> forall p, In p args -> w_fs w p = NDir \/
     exists content wr c ids, w_fs w p = NFile content true wr /\ accepts [OptExceptionalCommentsWarning true] content c /\
       cf_warnings c = [] /\ map plugin_id (plugins_config c) = map IdOk ids /\ NoDup ids).
Proof.
  intros S tr args w H. destruct (lint_ok S false args w H) as (es & E & R & _). apply lint_run_clean in R. unfold clean_file in R.
  cbn [execute run_command]. destruct (lint S false w args) as [r w'] eqn:K. cbn [fst] in *. subst r. destruct es as [|e es]; cbn [x_status x_stderr].
  - split; [now left|]. split; [tauto|]. rewrite <- R. tauto.
  - split; [now right|]. split; [split; intros Q; discriminate Q|]. rewrite <- R. split; intros Q; discriminate Q.
Qed.
Print Assumptions C53_lint.

(** format, printing: status 0 exactly when every argument is a directory or a readable file
    that Parse accepts. *)
Lemma prints_or S w p : (exists t, prints (w_fs w p) t) \/ w_fs w p = NAbsent \/ exists m, cause S [] p (w_fs w p) m.
Proof.
  destruct (w_fs w p) as [| |content r wr] eqn:E; [now (right; left)|left; exists []; constructor|].
  destruct (cause_or_fine S [] p (NFile content r wr) plain_format) as [F|C]; [discriminate| |right; right; exact C].
  destruct F as (-> & c & A). left. eexists. econstructor. exact A.
Qed.
Theorem C53_format : forall S tr args w,
  let x := fst (execute S tr None (CmdFormat false) w args) in
  (x_status x = 0 \/ x_status x = 1) /\ (x_status x = 0 <-> x_stderr x = []) /\
  (x_status x = 0 <-> forall p, In p args -> w_fs w p = NDir \/
     exists content wr c, w_fs w p = NFile content true wr /\ accepts [] content c).
Proof.
  intros S tr args w.
  assert (K : (exists texts, Forall2 (fun p t => prints (w_fs w p) t) args texts) \/
    exists pre p rest texts, args = pre ++ p :: rest /\ Forall2 (fun p t => prints (w_fs w p) t) pre texts /\
      (w_fs w p = NAbsent \/ exists m, cause S [] p (w_fs w p) m)).
  { clear. induction args as [|p args IH]; [left; exists []; constructor|]. destruct (prints_or S w p) as [[t Ht]|C].
    - destruct IH as [[texts F]|(pre & q & rest & texts & -> & F & C)]; [left; exists (t :: texts); now constructor|].
      right. exists (p :: pre), q, rest, (t :: texts). split; [reflexivity|]. split; [now constructor|exact C].
    - right. exists [], p, args, []. split; [reflexivity|]. split; [constructor|exact C]. }
  cbn [execute run_command]. destruct K as [[texts F]|(pre & p & rest & texts & -> & F & C)].
  - destruct (C32_print S args w texts F) as (ff & E). rewrite E. cbn [fst x_status x_stderr]. split; [now left|]. split; [tauto|]. split; [|reflexivity]. intros _.
    clear E. induction F as [|q t l ts Hq F IH]; [intros q []|]. intros q' [<-|I]; [|now apply IH].
    destruct Hq as [|content wr c A]; [now left|]. right. exists content, wr, c. auto.
  - assert (X : exists e w', format S false w (pre ++ p :: rest) = (CErrs [e], w') /\ e <> []).
    { destruct C as [C|(m & C)].
      - destruct (format_print S (p :: rest) pre w texts F) as (ff & E). rewrite E. cbn [format w_fs]. rewrite C. eexists _, _. split; [reflexivity|].
        unfold colon. destruct p; discriminate.
      - destruct (C32_print_stops S pre p rest w texts m F C) as (e & ff & E & (t & -> & _)). rewrite E. eexists _, _. split; [reflexivity|]. destruct p; discriminate. }
    destruct X as (e & w' & E & N). rewrite E. cbn [fst x_status x_stderr]. split; [now right|]. split; [split; intros Q; discriminate Q|].
    split; [discriminate|]. intros A. exfalso. destruct (A p) as [D|(content & wr & c & D & B)]; [apply in_or_app; right; now left| |].
    + rewrite D in C. destruct C as [C|(m & C)]; [discriminate C|exact C].
    + rewrite D in C. destruct C as [C|(m & errs & R & _)]; [discriminate C|]. exact (accepts_not _ _ _ _ B R).
Qed.
Print Assumptions C53_format.

(** For every command, flag and argument list: the status is 0, 1 or 2; it is 0 exactly when
    standard error stays empty. *)
Theorem C53_status : forall S tr conf c w args, tr <> [] ->
  let x := fst (execute S tr conf c w args) in
  (x_status x = 0 \/ x_status x = 1 \/ x_status x = 2) /\ (x_status x = 0 <-> x_stderr x = []).
Proof.
  intros S tr conf c w args T. unfold execute. destruct conf as [m|]; [cbn [fst x_status x_stderr]; split; [auto|split; intros Q; discriminate Q]|].
  destruct (run_command S c w args) as [[[|e es]|] w']; cbn [fst x_status x_stderr]; (split; [auto|]); split; intros Q; first [reflexivity|discriminate Q|contradiction].
Qed.
Print Assumptions C53_status.
(** check and lint write nothing to standard output; check changes no file, and with a broken
    configuration file of its own the program touches nothing. *)
Theorem C53_output : forall S tr c w args, (c = CmdCheck \/ exists af, c = CmdLint af) ->
  (forall p, In p args -> w_fs w p <> NAbsent) ->
  w_out (snd (execute S tr None c w args)) = w_out w /\
  (c = CmdCheck -> w_fs (snd (execute S tr None c w args)) = w_fs w) /\
  forall m, execute S tr (Some m) c w args = (Ended 1 (b "error processing config file: " ++ m), w).
Proof.
  intros S tr c w args Hc H. assert (R : snd (execute S tr None c w args) = snd (run_command S c w args)).
  { unfold execute. now destruct (run_command S c w args) as [r w']. }
  rewrite R. destruct Hc as [->|(af & ->)]; cbn [run_command].
  - destruct (C30_check S args w H) as (bad & es & _ & F & O & _). auto.
  - destruct (C29_run S af args w H) as (es & _ & _ & O). split; [exact O|]. split; [discriminate|reflexivity].
Qed.
Print Assumptions C53_output.
(** check and lint crash (status 2) exactly when some argument cannot be stat'ed. *)
Theorem C53_crash : forall S tr c w args, (c = CmdCheck \/ exists af, c = CmdLint af) ->
  (x_status (fst (execute S tr None c w args)) = 2 <-> exists p, In p args /\ w_fs w p = NAbsent).
Proof.
  intros S tr c w args Hc.
  assert (D : (forall p, In p args -> w_fs w p <> NAbsent) \/ exists pre p rest, args = pre ++ p :: rest /\ (forall q, In q pre -> w_fs w q <> NAbsent) /\ w_fs w p = NAbsent).
  { clear Hc. induction args as [|p args IH]; [left; intros p []|]. destruct (w_fs w p) as [| |content r wr] eqn:E.
    - right. exists [], p, args. split; [reflexivity|]. split; [intros q []|exact E].
    - destruct IH as [A|(pre & q & rest & -> & A & B)]; [left|right; exists (p :: pre), q, rest; split; [reflexivity|]; split; [|exact B]];
        (intros x [<-|I]; [rewrite E; discriminate|now apply A]).
    - destruct IH as [A|(pre & q & rest & -> & A & B)]; [left|right; exists (p :: pre), q, rest; split; [reflexivity|]; split; [|exact B]];
        (intros x [<-|I]; [rewrite E; discriminate|now apply A]). }
  assert (R : forall r w', run_command S c w args = (r, w') ->
    x_status (fst (execute S tr None c w args)) = match r with CErrs [] => 0 | CErrs _ => 1 | CPanic => 2 end).
  { intros r w' E. unfold execute. rewrite E. destruct r as [[|e es]|]; reflexivity. }
  destruct (run_command S c w args) as [r w'] eqn:E. rewrite (R _ _ eq_refl).
  destruct D as [A|(pre & p & rest & -> & A & B)].
  - split; [|intros (p & I & Hp); now elim (A p I)]. intros X. exfalso.
    assert (Y : exists es, r = CErrs es).
    { destruct Hc as [->|(af & ->)]; cbn [run_command] in E.
      - destruct (C30_check S args w A) as (bad & es & Q & _). rewrite E in Q. eauto.
      - destruct (lint_ok S af args w A) as (es & Q & _). rewrite E in Q. eauto. }
    destruct Y as (es & ->). destruct es; discriminate X.
  - split; [intros _; exists p; split; [apply in_or_app; right; now left|exact B]|]. intros _.
    assert (Y : r = CPanic); [|now rewrite Y].
    destruct Hc as [->|(af & ->)]; cbn [run_command] in E.
    + pose proof (C31_check_refuted S pre p rest w A B) as Q. now rewrite E in Q.
    + pose proof (C31_lint_refuted S af pre p rest w A B) as Q. now rewrite E in Q.
Qed.
Print Assumptions C53_crash.
Example C53_case :
  x_status (fst (execute sys (b "panic") None CmdCheck start [b "good"; b "dir"])) = 0 /\
  (exists m, fst (execute sys (b "panic") None CmdCheck start [b "bad"]) = Ended 1 (b "error: 1 error occurred:" ++ m)) /\
  x_status (fst (execute sys (b "panic") None (CmdLint false) start [b "ok"])) = 0 /\
  x_status (fst (execute sys (b "panic") None (CmdLint false) start [b "good"])) = 1 /\
  fst (execute sys (b "panic") None (CmdLint false) start [b "gone"]) = Ended 2 (b "panic").
Proof. split; [|split; [eexists|repeat split]]; vm_compute; reflexivity. Qed.

(** ** C54: not-found errors are recognised however they are wrapped *)
(** Specification: the error is a NotFounder, or one of the errors it wraps is. *)
Inductive founder : goerr -> Prop :=
| founder_here e : founder (ErrNotFound e)
| founder_wrap t e : founder e -> founder (ErrWrap t e)
| founder_join l e : In e l -> founder e -> founder (ErrJoin l).
Fixpoint goerr_size (e : goerr) : nat :=
  match e with
  | ErrText _ => 1
  | ErrNotFound e | ErrWrap _ e => S (goerr_size e)
  | ErrJoin l => S (list_sum (map goerr_size l))
  end.
Lemma in_size e l : In e l -> goerr_size e <= list_sum (map goerr_size l).
Proof. induction l as [|a l IH]; [intros []|]. cbn [map In]. change (list_sum (goerr_size a :: map goerr_size l)) with (goerr_size a + list_sum (map goerr_size l)). intros [->|I]; [lia|]. apply IH in I. lia. Qed.
Theorem C54_recognised : forall e, is_not_found (Some e) = true <-> founder e.
Proof.
  intros e. remember (goerr_size e) as n eqn:En. revert e En. induction n as [n IH] using lt_wf_ind. intros e ->. destruct e as [t|e|t e|l]; cbn [is_not_found as_not_founder].
  - split; [discriminate|inversion 1].
  - split; [constructor|reflexivity].
  - change (as_not_founder e) with (is_not_found (Some e)). rewrite (IH (goerr_size e)); [|cbn [goerr_size]; lia|reflexivity]. split; [now constructor|now inversion 1].
  - rewrite existsb_exists. split.
    + intros (x & I & X). econstructor; [exact I|]. apply (IH (goerr_size x)); [apply in_size in I; change (goerr_size (ErrJoin l)) with (S (list_sum (map goerr_size l))); lia|reflexivity|exact X].
    + inversion 1 as [| |l' x I X]; subst. exists x. split; [exact I|]. apply (IH (goerr_size x)); [apply in_size in I; change (goerr_size (ErrJoin l)) with (S (list_sum (map goerr_size l))); lia|reflexivity|exact X].
Qed.
Print Assumptions C54_recognised.
(** NewNotFoundError of nil is nil; of an error it is a not-found error whose text names it;
    an error made only from a text is not one. *)
Theorem C54_new : forall e t, new_not_found None = None /\ is_not_found None = false /\ is_not_found (Some (ErrText t)) = false /\
  exists e', new_not_found (Some e) = Some e' /\ is_not_found (Some e') = true /\ err_string e' = b "not found: " ++ err_string e.
Proof. intros e t. repeat split. exists (ErrNotFound e). repeat split. Qed.
Print Assumptions C54_new.
(** Printing with %s and %v gives the text of Error(), %q quotes it, %+v shows the wrapped
    error with %+v; *)
Theorem C54_format : forall q plus e,
  not_found_format q plus 115 false e = err_string (ErrNotFound e) /\ not_found_format q plus 115 true e = err_string (ErrNotFound e) /\
  not_found_format q plus 118 false e = err_string (ErrNotFound e) /\ not_found_format q plus 118 true e = b "not found: " ++ plus e /\
  forall f, not_found_format q plus 113 f e = q (err_string (ErrNotFound e)).
Proof. intros. repeat split. Qed.
Print Assumptions C54_format.
(** The error of Plugin.ID: nil exactly when there is an id, not-found exactly when no attribute
    is named id. *)
Theorem C54_id : forall p,
  (id_error p = None <-> exists id, plugin_id p = IdOk id) /\
  (forall e, id_error p = Some e -> is_not_found (Some e) = true -> plugin_id p = IdNotFound (err_string e)) /\
  (forall m, plugin_id p = IdNotFound m -> exists e, id_error p = Some e /\ is_not_found (Some e) = true /\ err_string e = m).
Proof.
  intros [q name l com foot]. unfold id_error. cbn [plugin_id plugin_name].
  assert (T : forall m, id_loop name l = IdNotFound m -> m = b "not found: " ++ id_not_found_text name).
  { clear. induction l as [|a l IH]; intros m; cbn [id_loop]; [intros H; injection H as <-; reflexivity|].
    destruct (negb (is_nil a) && beqb (attr_name a) (b "id")); [destruct a; discriminate|apply IH]. }
  destruct (id_loop name l) as [id|m|m] eqn:E.
  - split; [split; [intros _; now exists id|reflexivity]|]. split; [discriminate|discriminate].
  - rewrite (T m eq_refl). split; [split; [discriminate|intros (id & X); discriminate X]|].
    split; [intros e X _; injection X as <-; reflexivity|intros m' X; injection X as <-; eexists; repeat split].
  - split; [split; [discriminate|intros (id & X); discriminate X]|]. split; [intros e X Y; injection X as <-; discriminate Y|discriminate].
Qed.
Print Assumptions C54_id.
Example C54_case : is_not_found (Some (ErrWrap (b "lint") (ErrJoin [ErrText (b "x"); ErrNotFound (ErrText (b "y"))]))) = true /\
  founder (ErrWrap (b "lint") (ErrJoin [ErrText (b "x"); ErrNotFound (ErrText (b "y"))])).
Proof. split; [reflexivity|]. apply founder_wrap. eapply founder_join; [right; left; reflexivity|constructor]. Qed.
