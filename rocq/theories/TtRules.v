(** The parser's grammar, rule by rule, as rules of grammar.treetop. *)
From Coq Require Import List NArith Bool String Arith Lia.
From Verif Require Import Bytes Utf8 Ast Peg GrammarGen Engine EngineFacts PegSem Rules Treetop TreetopGen TtMap TtLaws.
Import ListNotations.
Open Scope string_scope.

(** grammar.treetop with four rules changed:
    - rvalue: no method calls ("Removed method_call", logstash_config.peg:537-543);
    - selector_element: no opening bracket in it (as quoted in logstash_config.peg:635-638,
      and implemented in 640-647);
    - hashentries: comments before the second and later entries (implemented by
      logstash_config.peg:322-339: a hashentry may start with comments);
    - comment: the end of the text ends a comment (logstash_config.peg:42-45). *)
Definition comment_line (stop : tx) : tx :=
  TSeq [TOpt (TRef "whitespace"); TLit [35]%N; TStar (TClass true [13; 10]%N []); TOpt (TLit [13]%N); stop].
Definition edited : list (string * tx) :=
  with_rule "rvalue" (TAlt [TRef "string"; TRef "number"; TRef "selector"; TRef "array"; TRef "regexp"])
  (with_rule "selector_element" (TSeq [TLit [91]%N; TPlus (TClass true [93; 91; 44]%N []); TLit [93]%N])
  (with_rule "hashentries" (TSeq [TRef "hashentry"; TStar (TSeq [TRef "whitespace"; TRef "_"; TRef "hashentry"])])
  (with_rule "comment" (TPlus (comment_line (TAlt [TLit [10]%N; TNot TAny])))
   treetop_grammar))).

Definition every (s : list N) : Prop := True.
Lemma every_app (t s : list N) : every (t ++ s) -> every s. Proof. auto. Qed.

Definition phi (n : string) : tx :=
  if n =? "init" then TAlt [TSeq [TRef "config"; TNot TAny; TNot TAny]; TSeq [TRef "_"; TNot TAny]]
  else if n =? "config" then TSeq [TRef "config"; TNot TAny]
  else if n =? "pluginSection" then TRef "plugin_section"
  else if n =? "branchOrPlugin" then TSeq [TRef "_"; TRef "branch_or_plugin"]
  else if n =? "plugin" then TSeq [TRef "_"; TRef "plugin"]
  else if n =? "branch" then TSeq [TRef "_"; TRef "branch"]
  else if n =? "value" then TAlt [TSeq [TRef "_"; TRef "plugin"]; TRef "bareword"; TRef "string"; TRef "number"; TRef "array"; TRef "hash"]
  else if n =? "hashentries" then TSeq [TRef "_"; TRef "hashentries"]
  else if n =? "hashentry" then TSeq [TRef "_"; TRef "hashentry"]
  else if n =? "ifCond" then TRef "if"
  else if n =? "elseIf" then TRef "else_if"
  else if n =? "elseCond" then TRef "else"
  else if n =? "negativeExpression" then TRef "negative_expression"
  else if n =? "inExpression" then TRef "in_expression"
  else if n =? "notInExpression" then TRef "not_in_expression"
  else if n =? "compareExpression" then TRef "compare_expression"
  else if n =? "regexpExpression" then TRef "regexp_expression"
  else TRef n.

Notation le := (TtLaws.le edited every).
Notation any := TtLaws.any.
Notation gf := (TtLaws.gf edited).
Definition gap_item : tx := TAlt [TRef "comment"; TRef "whitespace"].
Lemma gap_is : rule_of "_" edited = Some (TStar gap_item). Proof. reflexivity. Qed.

(** ** Small expressions *)
Definition ws_x : tx := TPlus (TClass false [32; 9; 13; 10]%N []).
Definition gap_x : tx := TStar (TAlt [TPlus (TSeq [TOpt ws_x; TLit [35]; TStar (TClass true [13; 10] []); TOpt (TLit [13]); TAlt [TLit [10]; TNot TAny]])%N; ws_x]).
Lemma ws_le P : le P ws_x (TRef "whitespace"). Proof. eapply le_ref; [reflexivity|apply le_refl]. Qed.
Lemma gap_le P : le P gap_x (TRef "_").
Proof.
  eapply le_ref; [reflexivity|]. apply le_star; [exact every_app|]. apply le_alt; [|apply le_alt; [apply ws_le|apply le_refl]].
  eapply le_ref; [reflexivity|]. apply le_plus; [exact every_app|]. apply le_seq; [exact every_app|apply le_opt, ws_le|apply le_refl].
Qed.
Definition x_of (e : expr) : tx := simp (er phi e).
Definition folds : list (tx * tx) :=
  [(gap_x, TRef "_"); (ws_x, TRef "whitespace"); (x_of double_e, TRef "double_quoted_string"); (x_of single_e, TRef "single_quoted_string");
   (TAlt [TRef "double_quoted_string"; TRef "single_quoted_string"], TRef "string");
   (x_of regexp_e, TRef "regexp"); (x_of bareword_e, TRef "bareword"); (x_of number_e, TRef "number");
   (x_of selel_e, TRef "selector_element"); (TPlus (TRef "selector_element"), TRef "selector")].
Lemma folds_le : Forall (fun p => le any (fst p) (snd p)) folds.
Proof.
  repeat (apply Forall_cons; [cbn [fst snd]; first [apply gap_le | apply ws_le | (eapply le_ref; [reflexivity|]; apply le_refl)]|]). apply Forall_nil.
Qed.
(** what stands for the body of a rule *)
Definition body (e : expr) : tx := simp (repls folds (x_of e)).
Lemma body_le e : le any (er phi e) (body e).
Proof.
  eapply le_trans; [apply simp_le; exact every_app|]. eapply le_trans; [apply (repls_le _ _ every_app folds folds_le)|]. apply simp_le. exact every_app.
Qed.

(** ** Rule by rule *)
Lemma string_alt P es es' : le P (TAlt es) (TAlt es') -> le P (TAlt (TRef "double_quoted_string" :: TRef "single_quoted_string" :: es)) (TAlt (TRef "string" :: es')).
Proof.
  intros A s o Hg Hp H. assert (K : forall o, tm edited (TAlt [TRef "double_quoted_string"; TRef "single_quoted_string"]) s o -> tm edited (TRef "string") s o) by (intros o' X; eapply tm_ref; [reflexivity|exact X]).
  inversion H; subst; [apply tm_alt, K; now apply tm_alt|].
  match goal with X : tm _ (TAlt _) _ _ |- _ => inversion X; subst end; [apply tm_alt, K, tm_alt_next; [assumption|now apply tm_alt]|].
  apply tm_alt_next; [apply K, tm_alt_next; [assumption|apply tm_alt_next; [assumption|constructor]]|]. now apply A.
Qed.
Lemma seq_fold P l k k' e : le P (TSeq l) e -> le any (TSeq k) (TSeq k') -> le P (TSeq (l ++ k)) (TSeq (e :: k')).
Proof.
  intros A B s o Hg Hp H.
  assert (K : (exists s1, tm edited (TSeq l) s (Some s1) /\ tm edited (TSeq k) s1 o) \/ (o = None /\ tm edited (TSeq l) s None)).
  { clear - H. revert s H. induction l as [|x l IH]; intros s H; cbn [app] in H.
    - left. exists s. split; [constructor|exact H].
    - inversion H; subst.
      + match goal with X : tm _ (TSeq (l ++ k)) _ _ |- _ => destruct (IH _ X) as [(s1 & C & D)|[-> C]] end; [left|right].
        * exists s1. split; [eapply tm_seq; eauto|exact D].
        * split; [reflexivity|eapply tm_seq; eauto].
      + right. split; [reflexivity|now apply tm_seq_no]. }
  destruct K as [(s1 & C & D)|[-> C]].
  - eapply tm_seq; [apply A; eauto|]. apply B; [eapply (gnext _ _ every_app); eauto|exact I|exact D].
  - apply tm_seq_no. now apply A.
Qed.
Lemma angle P es : le P (TAlt (TClass false [60; 62]%N [] :: es)) (TAlt (TLit [60]%N :: TLit [62]%N :: es)).
Proof.
  assert (N : forall c d r, c <> d -> tm edited (TLit [c]) (d :: r) None) by (intros c d r D; constructor; intros r' E; inversion E; congruence).
  assert (N0 : forall c, tm edited (TLit [c]) [] None) by (intros c; constructor; discriminate).
  intros s o Hg Hp H. inversion H; subst.
  - match goal with X : tm _ (TClass _ _ _) _ _ |- _ => inversion X; subst end.
    match goal with X : in_class _ _ _ ?c = true |- _ => unfold in_class in X; cbn [existsb] in X; rewrite xorb_false_l, !orb_false_r in X; apply orb_true_iff in X as [X|X]; apply N.eqb_eq in X; subst end.
    + apply tm_alt. exact (tm_lit edited [60%N] r).
    + apply tm_alt_next; [apply N; discriminate|apply tm_alt]. exact (tm_lit edited [62%N] r).
  - match goal with X : tm _ (TClass _ _ _) _ _ |- _ => inversion X; subst end.
    + match goal with X : in_class _ _ _ ?c = false |- _ => unfold in_class in X; cbn [existsb] in X; rewrite xorb_false_l, !orb_false_r in X; apply orb_false_iff in X as [X Y]; apply N.eqb_neq in X, Y end.
      apply tm_alt_next; [apply N; congruence|apply tm_alt_next; [apply N; congruence|assumption]].
    + apply tm_alt_next; [apply N0|apply tm_alt_next; [apply N0|assumption]].
Qed.
Lemma value_le : le gf (phi "value") (TRef "value").
Proof.
  eapply le_ref; [reflexivity|]. apply le_alt; [|apply le_refl]. eapply drop_gap1; [exact gap_is|apply le_refl].
Qed.
Ltac cong :=
  lazymatch goal with
  | |- TtLaws.le _ _ _ ?e ?e => apply le_refl
  | |- TtLaws.le _ _ _ _ (TSeq (TRef "_" :: _)) => eapply le_gap; [exact every_app|exact gap_is|cong]
  | |- TtLaws.le _ _ _ (TSeq (_ :: _)) (TSeq (_ :: _)) => apply le_seq; [exact every_app|cong|cong]
  | |- TtLaws.le _ _ _ (TAlt (TRef "double_quoted_string" :: _)) (TAlt (TRef "string" :: _)) => apply string_alt; cong
  | |- TtLaws.le _ _ _ (TAlt (TClass _ _ _ :: _)) _ => apply angle
  | |- TtLaws.le _ _ _ (TAlt (_ :: _)) (TAlt (_ :: _)) => apply le_alt; [cong|cong]
  | |- TtLaws.le _ _ _ (TAlt (TSeq [TRef "_"; TRef "plugin"] :: _)) (TRef "value") => exact value_le
  | |- TtLaws.le _ _ _ _ (TRef _) => eapply le_ref; [reflexivity|cong]
  | |- TtLaws.le _ _ _ (TStar _) (TStar _) => apply le_star; [exact every_app|cong]
  | |- TtLaws.le _ _ _ (TOpt _) (TOpt _) => apply le_opt; cong
  | |- _ => idtac
  end.
Lemma dup_gap P k k' : le gf (TSeq k) (TSeq k') -> le P (TSeq (TRef "_" :: TRef "_" :: k)) (TSeq (TRef "_" :: k')).
Proof. intros A. eapply le_gap; [exact every_app|exact gap_is|]. eapply drop_gap; [exact gap_is|exact A]. Qed.
Lemma block P : le P (TSeq [TStar (TSeq [TRef "_"; TRef "_"; TRef "branch_or_plugin"]); TRef "_"; TLit [125]%N])
  (TSeq [TRef "_"; TStar (TSeq [TRef "branch_or_plugin"; TRef "_"]); TLit [125]%N]).
Proof.
  eapply le_trans; [apply le_seq; [exact every_app|apply le_star; [exact every_app|apply dup_gap, le_refl]|apply le_refl]|].
  eapply star_gap; [exact every_app|exact gap_is|apply le_refl|apply le_refl].
Qed.
(** in front of two sequences with the same start *)
Ltac same k := lazymatch goal with
  | |- TtLaws.le _ _ _ (TSeq (?e :: _)) (TSeq (?e :: _)) => apply le_seq; [exact every_app|apply le_refl|same k]
  | |- _ => k
  end.
Theorem rules_le : forall n e, find_rule n gen_grammar = Some e -> forall s o, every s -> tm edited (er phi e) s o -> tm edited (phi n) s o.
Proof.
  rewrite rules_are_generated. intros n e F s o Hg H. apply body_le in H; [|exact Hg|exact I]. revert s o Hg H.
  enough (K : le any (body e) (phi n)) by (intros s o Hg H; apply K; auto; exact I).
  apply find_rule_in in F. cbn [rules In] in F.
  repeat (destruct F as [F|F]; [injection F as <- <-|]); [..|contradiction F];
    match goal with |- TtLaws.le _ _ _ ?a ?c => let a' := eval vm_compute in a in let c' := eval vm_compute in c in change (le any a' c') end.
  - (* init *) apply le_refl.
  - (* config *) apply (seq_fold any [TRef "_"; TRef "plugin_section"; TStar (TSeq [TRef "_"; TRef "plugin_section"]); TRef "_"] [TNot TAny]); [|apply le_refl].
    eapply le_ref; [reflexivity|]. same idtac. eapply gap_star; [exact every_app|exact gap_is|apply le_refl].
  - (* pluginSection *) eapply le_ref; [reflexivity|]. apply le_seq; [exact every_app|cong|]. same idtac.
    eapply star_gap; [exact every_app|exact gap_is|apply le_refl|apply le_refl].
  - (* branchOrPlugin *) eapply le_trans; [eapply alt_gap; exact gap_is|]. cong.
  - (* plugin *) eapply le_gap; [exact every_app|exact gap_is|]. apply le_seq1. eapply le_ref; [reflexivity|].
    apply le_seq; [exact every_app|cong|]. same idtac. eapply opt_gap; [exact every_app|exact gap_is|apply le_refl..].
  - (* attribute *) cong.
  - (* value *) cong.
  - (* array *) eapply le_ref; [reflexivity|]. same idtac. eapply opt_gap; [exact every_app|exact gap_is| |apply le_refl]. cong.
  - (* hash *) eapply le_ref; [reflexivity|]. same idtac. eapply opt_gap; [exact every_app|exact gap_is|apply le_unseq1, le_refl|apply le_refl].
  - (* hashentries *) eapply le_gap; [exact every_app|exact gap_is|]. apply le_seq1. cong.
  - (* hashentry *) eapply le_gap; [exact every_app|exact gap_is|]. apply le_seq1. cong.
  - (* branch *) eapply le_gap; [exact every_app|exact gap_is|]. apply le_seq1. cong.
  - (* ifCond *) eapply le_ref; [reflexivity|]. same idtac. apply block.
  - (* elseIf *) eapply le_ref; [reflexivity|]. same idtac. apply block.
  - (* elseCond *) eapply le_ref; [reflexivity|]. same idtac. apply block.
  - (* condition *) cong.
  - (* expression *) cong.
  - (* negativeExpression *) cong.
  - (* inExpression *) cong.
  - (* notInExpression *) eapply le_ref; [reflexivity|]. same idtac.
    apply (seq_fold any [TLit [110; 111; 116; 32]%N; TRef "_"; TLit [105; 110]%N] [TRef "_"; TRef "rvalue"]); [|apply le_refl]. cong.
  - (* rvalue *) cong.
  - (* compareExpression *) cong.
  - (* regexpExpression *) cong.
Qed.
