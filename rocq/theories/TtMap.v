(** From derivations of the parser's grammar to derivations of another grammar: an
    interpretation of the rules of the one in the other.  Code blocks and labels play
    no part in what is matched; a rejection of the whole input (fatal error) has no
    counterpart. *)
From Coq Require Import List NArith Bool String Arith Lia.
From Verif Require Import Bytes Utf8 F64 Ast Peg Actions Engine PosFacts EngineFacts Matches PegSem PegFacts Treetop.
Import ListNotations.

(** ** Characters *)
Lemma width_pos s : s <> [] -> 1 <= snd (decode_rune s).
Proof.
  intros H. destruct s as [|c s]; [congruence|]. cbn [decode_rune].
  repeat match goal with |- context [if ?x then _ else _] => destruct x | |- context [match ?x with [] => _ | _ => _ end] => destruct x end; cbn [snd]; lia.
Qed.
Lemma chars_upto_more n : forall m s, List.length s <= n -> List.length s <= m -> chars_upto n s = chars_upto m s.
Proof.
  induction n as [|n IH]; intros m s A B; destruct s as [|c s]; cbn [List.length] in *; try lia; [now destruct m|now destruct m|].
  destruct m as [|m]; [lia|]. cbn [chars_upto]. f_equal. pose proof (width_pos (c :: s) ltac:(congruence)) as W.
  apply IH; rewrite skipn_length; cbn [List.length]; lia.
Qed.
Lemma chars_cons s : s <> [] -> chars s = fst (decode_rune s) :: chars (skipn (snd (decode_rune s)) s).
Proof.
  intros H. unfold chars. pose proof (width_pos s H) as W. destruct s as [|c s]; [congruence|]. cbn [chars_upto List.length]. f_equal.
  apply chars_upto_more; rewrite skipn_length; cbn [List.length]; lia.
Qed.
Lemma chars_nil s : chars s = [] -> s = [].
Proof. destruct s; [reflexivity|]. intros H. rewrite chars_cons in H by congruence. discriminate. Qed.
Notation at_ p := (chars (pt_rest p)).
Lemma chars_step p : pt_rest p <> [] -> at_ p = fst (decode_rune (pt_rest p)) :: at_ (advance_pt p).
Proof. intros H. rewrite chars_cons by exact H. now rewrite advance_rest. Qed.
Lemma lit_chars rs : forallb (fun r => negb (r =? RuneError)%N) rs = true -> forall p, 
  match lit_end rs p with Some q => at_ p = rs ++ at_ q | None => forall t, at_ p <> rs ++ t end.
Proof.
  induction rs as [|r rs IH]; intros L p; cbn [lit_end]; [reflexivity|]. cbn [forallb] in L. apply andb_true_iff in L as [L1 L2].
  destruct (list_eq_dec N.eq_dec (pt_rest p) []) as [E|E].
  - rewrite E. cbn [decode_rune fst]. rewrite N.eqb_sym. apply negb_true_iff in L1. rewrite L1. intros t. unfold chars. cbn. discriminate.
  - rewrite (chars_step p E). destruct (N.eqb_spec (fst (decode_rune (pt_rest p))) r) as [->|D].
    + specialize (IH L2 (advance_pt p)). destruct (lit_end rs (advance_pt p)) as [q|]; [now rewrite IH|].
      intros t X. cbn in X. inversion X as [X1]. now apply (IH t).
    + intros t X. cbn in X. inversion X. congruence.
Qed.

(** ** Results are suffixes *)
Lemma tm_suffix g e s o : tm g e s o -> match o with Some r => exists t, s = t ++ r | None => True end.
Proof.
  induction 1; auto; try (now exists []); try (now exists [c]); try (now exists t);
    repeat match goal with A : exists _, _ |- _ => destruct A as [? ->] end; eauto;
    destruct o as [r0|]; auto; repeat match goal with A : exists _, _ |- _ => destruct A as [? ->] end; eauto;
    eexists; rewrite app_assoc; reflexivity.
Qed.

(** ** The expression without code blocks; [phi]: what stands for a rule *)
Section Map.
  Variable phi : string -> tx.
  Fixpoint er (e : expr) : tx :=
    match e with
    | EAct _ e | ELab _ e => er e
    | EAndCode PInitParser | EStateCode _ => TSeq []
    | EAndCode _ => TAlt []
    | EAny => TAny
    | EClass _ cs rs inv => TClass inv cs rs
    | ELit _ rs => TLit rs
    | EChoice l => TAlt (map er l)
    | ESeq l => TSeq (map er l)
    | ENot e => TNot (er e)
    | EPlus e => TPlus (er e)
    | EStar e => TStar (er e)
    | EOpt e => TOpt (er e)
    | ERef n => phi n
    end.

  Variable ign : bool.
  Variable g : grammar.
  Hypothesis Hg : grammar_lits_ok g = true.
  Variable G : list (string * tx).
  Variable good : list N -> Prop.
  Hypothesis good_app : forall t s, good (t ++ s) -> good s.
  Hypothesis Hphi : forall n e, find_rule n g = Some e -> forall s o, good s -> tm G (er e) s o -> tm G (phi n) s o.

  Definition out (r : pout) : option (option (list N)) :=
    match r with POk _ _ q => Some (Some (at_ q)) | PFail => Some None | PAbort => None end.
  Definition says (e : tx) (p : point) (r : pout) : Prop :=
    match r with POk _ _ q => tm G e (at_ p) (Some (at_ q)) | PFail => tm G e (at_ p) None | PAbort => True end.
  Lemma good_next e s r : good s -> tm G e s (Some r) -> good r.
  Proof. intros A B. apply tm_suffix in B as [t ->]. eauto. Qed.
  Lemma class_in cs rs inv c : class_match cs rs inv c = in_class inv cs rs c.
  Proof. unfold class_match, in_class. apply xorb_comm. Qed.

  Lemma rule_lits n e : find_rule n g = Some e -> lits_ok e = true.
  Proof. intros F. apply find_rule_in in F. unfold grammar_lits_ok in Hg. rewrite forallb_forall in Hg. exact (Hg _ F). Qed.
  Ltac lits := repeat match goal with
    | H : _ && _ = true |- _ => apply andb_true_iff in H as [? ?]
    | H : forallb _ (_ :: _) = true |- _ => cbn [forallb] in H
    | H : lits_ok _ = true |- _ => progress cbn [lits_ok forallb] in H
    end.
  Ltac use := repeat match goal with
    | H : ?A -> _, K : ?A |- _ => specialize (H K)
    end.
  Lemma peg_tm_all :
    (forall e en p r, peg ign g e en p r -> lits_ok e = true -> good (at_ p) -> says (er e) p r) /\
    (forall es en p r, pegs ign g es en p r -> forallb lits_ok es = true -> good (at_ p) -> says (TSeq (map er es)) p r) /\
    (forall e p r, pegt ign g e p r -> lits_ok e = true -> good (at_ p) ->
       match r with
       | Some (l, q) => tm G (TStar (er e)) (at_ p) (Some (at_ q)) /\
           match l with
           | [] => tm G (er e) (at_ p) None
           | _ => exists s, tm G (er e) (at_ p) (Some s) /\ tm G (TStar (er e)) s (Some (at_ q))
           end
       | None => True
       end).
  Proof.
    apply peg_mutind; unfold says in *; cbn [er map]; intros; auto.
    all: try match goal with H : _ = PFail \/ _ = PAbort |- _ => destruct H; subst; auto end.
    - constructor.
    - constructor.
    - constructor.
    - unfold one. rewrite chars_step by assumption. constructor.
    - rewrite H. constructor.
    - unfold one. rewrite chars_step by assumption. constructor. now rewrite <- class_in.
    - destruct (list_eq_dec N.eq_dec (pt_rest p) []) as [E|E]; [rewrite E; constructor|]. rewrite chars_step by exact E. constructor. rewrite <- class_in. destruct H; [contradiction|assumption].
    - pose proof (lit_chars rs H0 p) as L. rewrite H in L. rewrite L. constructor.
    - pose proof (lit_chars rs H0 p) as L. rewrite H in L. now constructor.
    - apply tm_not_none; auto.
    - eapply tm_not. apply H0; auto.
    - apply tm_opt; auto.
    - apply tm_opt_none; auto.
    - eapply Hphi; eauto. apply H1; auto. exact (rule_lits _ _ H).
    - eapply Hphi; eauto. apply H1; auto. exact (rule_lits _ _ H).
    - cbn [lits_ok forallb] in *. lits. apply tm_alt; auto.
    - cbn [lits_ok forallb] in H3. lits. specialize (H0 H3 H4). specialize (H2 H5 H4). destruct r; auto; now apply tm_alt_next.
    - constructor.
    - destruct (H0 H1 H2); auto.
    - destruct (H0 H1 H2) as (_ & s & A & B). eapply tm_plus; eauto.
    - destruct (H0 H1 H2) as (_ & A). now apply tm_plus_no.
    - constructor.
    - cbn [forallb] in H3. lits. specialize (H0 H3 H4). eapply tm_seq; [exact H0|]. apply H2; auto. eapply good_next; eauto.
    - cbn [forallb] in *. lits. apply tm_seq_no; auto.
    - cbn [forallb] in *. lits. eapply tm_seq; [apply H0; auto|]. apply H2; auto. eapply good_next; [|apply H0; auto]; auto.
    - split; [apply tm_star_end|]; auto.
    - specialize (H0 H3 H4). destruct (H2 H3) as [A B]; [eapply good_next; eauto|]. split; [eapply tm_star; eauto|]. eauto.
  Qed.
  Theorem peg_tm e en p r : peg ign g e en p r -> lits_ok e = true -> good (at_ p) -> says (er e) p r.
  Proof. apply peg_tm_all. Qed.
End Map.

(** The same between two Treetop grammars *)
Theorem tm_tm G G' (good : list N -> Prop) : (forall t s, good (t ++ s) -> good s) ->
  (forall n e, rule_of n G = Some e -> forall s o, good s -> tm G' e s o -> tm G' (TRef n) s o) ->
  forall e s o, tm G e s o -> good s -> tm G' e s o.
Proof.
  intros Ga Hr. assert (Gn : forall e s r, good s -> tm G e s (Some r) -> good r) by (intros e s r A B; apply tm_suffix in B as [t ->]; eauto).
  induction 1; intros Hs; try (constructor; auto; fail); eauto.
  - eapply tm_seq; eauto.
  - eapply tm_star; eauto.
  - eapply tm_plus; eauto.
  - eapply tm_not; eauto.
Qed.
