(** Inversion of runs, form by form. *)
From Coq Require Import List NArith Bool String Arith Lia.
From Verif Require Import Bytes Utf8 F64 Ast Peg Actions Engine Parser GrammarGen PosFacts Run EngineFacts Termination.
Import ListNotations.

Section Inv.
  Variable o : settings.
  Variable g : grammar.

  (** The expression limit was hit *)
  Definition limit_hit (rule : string) (s : st) (r : out) : Prop :=
    over_limit o (tick s) = true /\ r = OPanic max_expr_msg rule (tick s).
  Definition limit_ok (s : st) : Prop := over_limit o (tick s) = false.

  Lemma inv_act rule a e en s r : ev o g rule (EAct a e) en s r ->
    limit_hit rule s r \/ (limit_ok s /\ exists r1, ev o g rule e en (tick s) r1 /\ r = act_out o rule a (tick s) r1).
  Proof. intros H; inversion H; subst; [left; split; auto|discriminate|right; split; eauto]. Qed.
  Lemma inv_lab rule l e en s r : ev o g rule (ELab l e) en s r ->
    limit_hit rule s r \/ (limit_ok s /\ exists r1, ev o g rule e [] (tick s) r1 /\ r = lab_out l en r1).
  Proof. intros H; inversion H; subst; [left; split; auto|discriminate|right; split; eauto]. Qed.
  Lemma inv_not rule e en s r : ev o g rule (ENot e) en s r ->
    limit_hit rule s r \/ (limit_ok s /\ exists r1,
      ev o g rule e [] (set_mfinv (negb (s_mfinv (tick s))) (tick s)) r1 /\ r = not_out en (tick s) r1).
  Proof. intros H; inversion H; subst; [left; split; auto|discriminate|right; split; eauto]. Qed.
  Lemma inv_opt rule e en s r : ev o g rule (EOpt e) en s r ->
    limit_hit rule s r \/ (limit_ok s /\ exists r1, ev o g rule e [] (tick s) r1 /\ r = opt_out en r1).
  Proof. intros H; inversion H; subst; [left; split; auto|discriminate|right; split; eauto]. Qed.
  Lemma inv_ref rule n e en s r : find_rule n g = Some e -> ev o g rule (ERef n) en s r ->
    limit_hit rule s r \/ (limit_ok s /\ exists r1, ev o g n e [] (tick s) r1 /\ r = ref_out en r1).
  Proof.
    intros F H; inversion H as [|? ? ? ? ? ? P| | | | |? ? e' ? ? ? L F' E| | | |]; subst; [left; split; auto| |].
    - cbn in P. rewrite F in P. discriminate.
    - right. rewrite F in F'. injection F' as <-. split; eauto.
  Qed.
  Lemma inv_seq rule es en s r : ev o g rule (ESeq es) en s r ->
    limit_hit rule s r \/ (limit_ok s /\ evs o g rule (s_pt s) (s_warns s) es [] en (tick s) r).
  Proof. intros H; inversion H; subst; [left; split; auto|discriminate|right; split; eauto]. Qed.
  Lemma inv_choice rule es en s r : ev o g rule (EChoice es) en s r ->
    limit_hit rule s r \/ (limit_ok s /\ evc o g rule es en (tick s) r).
  Proof. intros H; inversion H; subst; [left; split; auto|discriminate|right; split; eauto]. Qed.
  Lemma inv_star rule e en s r : ev o g rule (EStar e) en s r ->
    limit_hit rule s r \/ (limit_ok s /\ evt o g rule e [] en (tick s) r).
  Proof. intros H; inversion H; subst; [left; split; auto|discriminate|right; split; eauto]. Qed.
  Lemma inv_plus rule e en s r : ev o g rule (EPlus e) en s r ->
    limit_hit rule s r \/ (limit_ok s /\ exists r1, evt o g rule e [] en (tick s) r1 /\ r = plus_out en r1).
  Proof. intros H; inversion H; subst; [left; split; auto|discriminate|right; split; eauto]. Qed.
  Lemma inv_prim rule e en s r r1 : prim_out o g rule e en (tick s) = Some r1 -> ev o g rule e en s r ->
    limit_hit rule s r \/ (limit_ok s /\ r = r1).
  Proof.
    intros P H. destruct (over_limit o (tick s)) eqn:L.
    - left. split; [exact L|]. eapply ev_fun; [exact H|]. now apply ev_limit.
    - right. split; [exact L|]. eapply ev_fun; [exact H|]. now apply ev_prim.
  Qed.
  Lemma inv_evs_cons rule pt w e es acc en s r : evs o g rule pt w (e :: es) acc en s r ->
    exists r1, ev o g rule e en s r1 /\
    match r1 with
    | OOk v en' s' => evs o g rule pt w es (v :: acc) en' s' r
    | OFail en' s' => r = OFail en' (restore pt (set_warns w s'))
    | x => r = x
    end.
  Proof. intros H; inversion H; subst; eexists; (split; [eassumption|]); cbn; auto. Qed.
  Lemma inv_evs_nil rule pt w acc en s r : evs o g rule pt w [] acc en s r -> r = OOk (VList (rev acc)) en s.
  Proof. intros H; inversion H; subst; auto. Qed.
  Lemma inv_evc_cons rule e es en s r : evc o g rule (e :: es) en s r ->
    exists r1, ev o g rule e [] s r1 /\
    match r1 with
    | OOk v en' s' => r = OOk v en s'
    | OFail en' s' => evc o g rule es en (set_warns (s_warns s) s') r
    | x => r = x
    end.
  Proof. intros H; inversion H; subst; eexists; (split; [eassumption|]); cbn; auto. Qed.
  Lemma inv_evc_nil rule en s r : evc o g rule [] en s r -> r = OFail en s.
  Proof. intros H; inversion H; subst; auto. Qed.
  Lemma inv_evt rule e acc en s r : evt o g rule e acc en s r ->
    exists r1, ev o g rule e [] s r1 /\
    match r1 with
    | OOk v en' s' => evt o g rule e (v :: acc) en s' r
    | OFail en' s' => r = OOk (VList (rev acc)) en s'
    | x => r = x
    end.
  Proof. intros H; inversion H; subst; eexists; (split; [eassumption|]); cbn; auto. Qed.
  (** A repetition never fails *)
  Lemma evt_not_fail rule e acc en s r : evt o g rule e acc en s r ->
    match r with OFail _ _ => False | OOk v en' _ => en' = en /\ exists l, v = VList l | _ => True end.
  Proof.
    induction 1; auto.
    split; eauto.
  Qed.
End Inv.

(** The rule init *)
Definition init_conf : expr :=
  match gen_init with EAct _ (ESeq [_; _; e]) => e | _ => EAny end.
Lemma gen_init_eq : gen_init = EAct (ARetConfig "conf") (ESeq [EStateCode SInitState; EAndCode PInitParser; init_conf]).
Proof. reflexivity. Qed.
Lemma find_init : find_rule "init" gen_grammar = Some gen_init.
Proof. reflexivity. Qed.



