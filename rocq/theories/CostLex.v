(** The cost of expressions without references: a bound linear in what remains,
    found by a checker that is proved correct. *)
From Coq Require Import List NArith Bool String Arith Lia.
From Verif Require Import Bytes Utf8 F64 Ast Peg Actions Engine Parser GrammarGen QuoteFacts PosFacts Run EngineFacts
  Termination LimitFacts MemoFacts Rules Cost CostFacts.
Import ListNotations.
Local Notation len := (@List.length N).

Definition act_dec (x y : action) : {x = y} + {x <> y}.
Proof. decide equality; try apply string_dec; try apply bool_dec; decide equality. Defined.
Definition pred_dec (x y : predicate) : {x = y} + {x <> y}.
Proof. decide equality; apply string_dec. Defined.
Definition code_dec (x y : statecode) : {x = y} + {x <> y}.
Proof. decide equality. Defined.
Fixpoint expr_dec (x y : expr) {struct x} : {x = y} + {x <> y}.
Proof.
  decide equality; try apply string_dec; try apply act_dec; try apply pred_dec; try apply code_dec; try apply bool_dec;
    try apply (list_eq_dec N.eq_dec); try apply (list_eq_dec expr_dec).
  apply list_eq_dec. decide equality; apply N.eq_dec.
Defined.

(** [la]: the cost is at most la * (1 + what remains); [lc]: at most la; [lt]: a success costs at most
    la * (1 + what it consumes); [lf]: a failure costs at most la *)
Record lk := LK { la : nat; lc : bool; lt : bool; lf : bool }.
Definition bound (K : lk) (s : bytes) (r : cres) (k : nat) : Prop :=
  k <= la K * (1 + len s) /\ (lc K = true -> k <= la K) /\
  (lt K = true -> forall q, r = COk q -> k + la K * len q <= la K * (1 + len s)) /\
  (lf K = true -> r = CFail -> k <= la K).

Fixpoint all_some {A} (l : list (option A)) : option (list A) :=
  match l with
  | [] => Some []
  | Some x :: l' => match all_some l' with Some m => Some (x :: m) | None => None end
  | None :: _ => None
  end.
Definition total (ks : list lk) : nat := fold_right (fun k n => la k + n) 0 ks.
Fixpoint seq_f (ks : list lk) : bool :=
  match ks with [] => true | k :: l => lf k && (match l with [] => true | _ => lc k end && seq_f l) end.
Fixpoint choice_t (ks : list lk) : bool :=
  match ks with [] => true | k :: l => lt k && (match l with [] => true | _ => lf k end && choice_t l) end.

Section Lex.
  Variable g : grammar.
  Variable nt : string -> bool.
  Hypothesis Hg : grammar_lits_ok g = true.
  Hypothesis Hnt : forall n e, find_rule n g = Some e -> nt n = false -> nul nt e = false.
  Variable sp : option (expr * nat).
  Hypothesis Hsp : forall e c s r k, sp = Some (e, c) -> cev g e s r k -> k <= c * (1 + len s).

  Fixpoint lx (e : expr) : option lk :=
    match sp with
    | Some (x, c) => if expr_dec e x then Some (LK c false false false) else
        match e with
        | EAct _ e | ELab _ e => match lx e with Some K => Some (LK (S (la K)) (lc K) (lt K) (lf K)) | None => None end
        | EAndCode _ | EStateCode _ | EAny | EClass _ _ _ _ | ELit _ _ => Some (LK 1 true true true)
        | EChoice l => match all_some (map lx l) with Some ks => Some (LK (S (total ks)) (forallb lc ks) (choice_t ks) (forallb lf ks)) | None => None end
        | ESeq l => match all_some (map lx l) with Some ks => Some (LK (S (total ks)) (forallb lc ks) (forallb lt ks) (seq_f ks)) | None => None end
        | ENot e => match lx e with Some K => Some (LK (S (la K)) (lc K) (lf K) (lc K)) | None => None end
        | EOpt e => match lx e with Some K => Some (LK (S (la K)) (lc K) (lt K && lf K) true) | None => None end
        | EStar e => match lx e with Some K => if lt K && negb (nul nt e) then Some (LK (2 * la K + 1) false (lf K) true) else None | None => None end
        | EPlus e => match lx e with Some K => if lt K && negb (nul nt e) then Some (LK (2 * la K + 1) false (lf K) (lf K)) else None | None => None end
        | ERef _ => None
        end
    | None =>
        match e with
        | EAct _ e | ELab _ e => match lx e with Some K => Some (LK (S (la K)) (lc K) (lt K) (lf K)) | None => None end
        | EAndCode _ | EStateCode _ | EAny | EClass _ _ _ _ | ELit _ _ => Some (LK 1 true true true)
        | EChoice l => match all_some (map lx l) with Some ks => Some (LK (S (total ks)) (forallb lc ks) (choice_t ks) (forallb lf ks)) | None => None end
        | ESeq l => match all_some (map lx l) with Some ks => Some (LK (S (total ks)) (forallb lc ks) (forallb lt ks) (seq_f ks)) | None => None end
        | ENot e => match lx e with Some K => Some (LK (S (la K)) (lc K) (lf K) (lc K)) | None => None end
        | EOpt e => match lx e with Some K => Some (LK (S (la K)) (lc K) (lt K && lf K) true) | None => None end
        | EStar e => match lx e with Some K => if lt K && negb (nul nt e) then Some (LK (2 * la K + 1) false (lf K) true) else None | None => None end
        | EPlus e => match lx e with Some K => if lt K && negb (nul nt e) then Some (LK (2 * la K + 1) false (lf K) (lf K)) else None | None => None end
        | ERef _ => None
        end
    end.
  (** one step, for the proofs *)
  Definition lx1 (e : expr) : option lk :=
        match e with
        | EAct _ e | ELab _ e => match lx e with Some K => Some (LK (S (la K)) (lc K) (lt K) (lf K)) | None => None end
        | EAndCode _ | EStateCode _ | EAny | EClass _ _ _ _ | ELit _ _ => Some (LK 1 true true true)
        | EChoice l => match all_some (map lx l) with Some ks => Some (LK (S (total ks)) (forallb lc ks) (choice_t ks) (forallb lf ks)) | None => None end
        | ESeq l => match all_some (map lx l) with Some ks => Some (LK (S (total ks)) (forallb lc ks) (forallb lt ks) (seq_f ks)) | None => None end
        | ENot e => match lx e with Some K => Some (LK (S (la K)) (lc K) (lf K) (lc K)) | None => None end
        | EOpt e => match lx e with Some K => Some (LK (S (la K)) (lc K) (lt K && lf K) true) | None => None end
        | EStar e => match lx e with Some K => if lt K && negb (nul nt e) then Some (LK (2 * la K + 1) false (lf K) true) else None | None => None end
        | EPlus e => match lx e with Some K => if lt K && negb (nul nt e) then Some (LK (2 * la K + 1) false (lf K) (lf K)) else None | None => None end
        | ERef _ => None
        end.
  Lemma lx_eq e : lx e = match sp with Some (x, c) => if expr_dec e x then Some (LK c false false false) else lx1 e | None => lx1 e end.
  Proof. destruct e; cbn [lx]; destruct sp as [[x0 c0]|]; reflexivity. Qed.
  Lemma lx_cases e K s r k : lx e = Some K -> cev g e s r k -> (lx1 e = Some K -> bound K s r k) -> bound K s r k.
  Proof.
    intros H C D. rewrite lx_eq in H. destruct sp as [[x c]|] eqn:E; [|auto]. destruct (expr_dec e x) as [->|]; [|auto].
    injection H as <-. specialize (Hsp x c s r k eq_refl C). unfold bound. cbn. repeat split; try discriminate. exact Hsp.
  Qed.

  Lemma lx_all :
    (forall e s r k, cev g e s r k -> lits_ok e = true -> forall K, lx e = Some K -> bound K s r k) /\
    (forall es s r k, cevs g es s r k -> forallb lits_ok es = true -> forall ks, all_some (map lx es) = Some ks ->
       bound (LK (total ks) (forallb lc ks) (forallb lt ks) (seq_f ks)) s r k) /\
    (forall es s r k, cevc g es s r k -> forallb lits_ok es = true -> forall ks, all_some (map lx es) = Some ks ->
       bound (LK (total ks) (forallb lc ks) (choice_t ks) (forallb lf ks)) s r k) /\
    (forall e s r k, cevt g e s r k -> lits_ok e = true -> forall K, lx e = Some K -> lt K = true -> nul nt e = false ->
       k <= 2 * la K * (1 + len s) /\ r <> CFail /\
       (lf K = true -> forall q, r = COk q -> k + 2 * la K * len q <= 2 * la K * len s + la K)).
  Proof.
    destruct (cost_shorter g nt Hg Hnt) as (S1 & _ & _ & S4).
    apply cev_mutind.
    - intros e s r P Hl K H. apply (lx_cases _ _ _ _ _ H (c_prim _ _ _ _ P)). intros E.
      pose proof (prim_shorter nt e s r Hl P) as Sh.
      assert (K = LK 1 true true true) as ->.
      { destruct e; try discriminate P; injection E as <-; reflexivity. }
      unfold bound. cbn [la lc lt lf]. repeat split; try lia. intros _ q ->. cbn in Sh. lia.
    - intros n s F _ K H. apply (lx_cases _ _ _ _ _ H (c_undef _ _ _ F)). discriminate.
    - intros a e s r k C IH Hl K H. apply (lx_cases _ _ _ _ _ H (c_act _ a _ _ _ _ C)). intros E. cbn [lx1] in E.
      destruct (lx e) as [K0|]; [|discriminate]. injection E as <-. destruct (IH Hl _ eq_refl) as (A & B & T & F).
      pose proof (S1 _ _ _ _ C Hl) as Sh.
      unfold bound. cbn [la lc lt lf]. repeat split.
      + nia. + intros X. specialize (B X). lia.
      + intros X q ->. specialize (T X _ eq_refl). cbn in Sh. nia.
      + intros X Y. specialize (F X Y). lia.
    - intros a e s q k C IH Hl K H. apply (lx_cases _ _ _ _ _ H (c_act_panic _ a _ _ _ _ C)). intros E. cbn [lx1] in E.
      destruct (lx e) as [K0|]; [|discriminate]. injection E as <-. destruct (IH Hl _ eq_refl) as (A & B & T & F).
      unfold bound. cbn [la lc lt lf]. repeat split; try discriminate.
      + nia. + intros X. specialize (B X). lia.
    - intros a e s r k C IH Hl K H. apply (lx_cases _ _ _ _ _ H (c_lab _ a _ _ _ _ C)). intros E. cbn [lx1] in E.
      destruct (lx e) as [K0|]; [|discriminate]. injection E as <-. destruct (IH Hl _ eq_refl) as (A & B & T & F).
      pose proof (S1 _ _ _ _ C Hl) as Sh.
      unfold bound. cbn [la lc lt lf]. repeat split.
      + nia. + intros X. specialize (B X). lia.
      + intros X q ->. specialize (T X _ eq_refl). cbn in Sh. nia.
      + intros X Y. specialize (F X Y). lia.
    - intros e s q k C IH Hl K H. apply (lx_cases _ _ _ _ _ H (c_not _ _ _ _ _ C)). intros E. cbn [lx1] in E.
      destruct (lx e) as [K0|]; [|discriminate]. injection E as <-. destruct (IH Hl _ eq_refl) as (A & B & T & F).
      unfold bound. cbn [la lc lt lf]. repeat split; try discriminate.
      + nia. + intros X. specialize (B X). lia. + intros X _. specialize (B X). lia.
    - intros e s k C IH Hl K H. apply (lx_cases _ _ _ _ _ H (c_not_ok _ _ _ _ C)). intros E. cbn [lx1] in E.
      destruct (lx e) as [K0|]; [|discriminate]. injection E as <-. destruct (IH Hl _ eq_refl) as (A & B & T & F).
      unfold bound. cbn [la lc lt lf]. repeat split; try discriminate.
      + nia. + intros X. specialize (B X). lia. + intros X q [= <-]. specialize (F X eq_refl). nia.
    - intros e s k C IH Hl K H. apply (lx_cases _ _ _ _ _ H (c_not_panic _ _ _ _ C)). intros E. cbn [lx1] in E.
      destruct (lx e) as [K0|]; [|discriminate]. injection E as <-. destruct (IH Hl _ eq_refl) as (A & B & T & F).
      unfold bound. cbn [la lc lt lf]. repeat split; try discriminate.
      + nia. + intros X. specialize (B X). lia.
    - intros e s r k C IH Hr Hl K H. apply (lx_cases _ _ _ _ _ H (c_opt _ _ _ _ _ C Hr)). intros E. cbn [lx1] in E.
      destruct (lx e) as [K0|]; [|discriminate]. injection E as <-. destruct (IH Hl _ eq_refl) as (A & B & T & F).
      pose proof (S1 _ _ _ _ C Hl) as Sh.
      unfold bound. cbn [la lc lt lf]. repeat split.
      + nia. + intros X. specialize (B X). lia.
      + intros X q ->. apply andb_true_iff in X as [X _]. specialize (T X _ eq_refl). cbn in Sh. nia.
      + congruence.
    - intros e s k C IH Hl K H. apply (lx_cases _ _ _ _ _ H (c_opt_no _ _ _ _ C)). intros E. cbn [lx1] in E.
      destruct (lx e) as [K0|]; [|discriminate]. injection E as <-. destruct (IH Hl _ eq_refl) as (A & B & T & F).
      unfold bound. cbn [la lc lt lf]. repeat split; try discriminate.
      + nia. + intros X. specialize (B X). lia.
      + intros X q [= <-]. apply andb_true_iff in X as [_ X]. specialize (F X eq_refl). nia.
    - intros n e s r k F C _ Hl K H. apply (lx_cases _ _ _ _ _ H (c_ref _ _ _ _ _ _ F C)). discriminate.
    - intros es s r k C IH Hl K H. apply (lx_cases _ _ _ _ _ H (c_seq _ _ _ _ _ C)). intros E. cbn [lx1] in E.
      destruct (all_some (map lx es)) as [ks|]; [|discriminate]. injection E as <-. destruct (IH Hl _ eq_refl) as (A & B & T & F).
      pose proof (S1 _ _ _ _ (c_seq _ _ _ _ _ C) Hl) as Sh.
      unfold bound in *. cbn [la lc lt lf] in *. repeat split.
      + nia. + intros X. specialize (B X). lia.
      + intros X q ->. specialize (T X _ eq_refl). cbn in Sh. nia.
      + intros X Y. specialize (F X Y). lia.
    - intros es s r k C IH Hl K H. apply (lx_cases _ _ _ _ _ H (c_choice _ _ _ _ _ C)). intros E. cbn [lx1] in E.
      destruct (all_some (map lx es)) as [ks|]; [|discriminate]. injection E as <-. destruct (IH Hl _ eq_refl) as (A & B & T & F).
      pose proof (S1 _ _ _ _ (c_choice _ _ _ _ _ C) Hl) as Sh.
      unfold bound in *. cbn [la lc lt lf] in *. repeat split.
      + nia. + intros X. specialize (B X). lia.
      + intros X q ->. specialize (T X _ eq_refl). cbn in Sh. nia.
      + intros X Y. specialize (F X Y). lia.
    - intros e s r k C IH Hl K H. apply (lx_cases _ _ _ _ _ H (c_star _ _ _ _ _ C)). intros E. cbn [lx1] in E.
      destruct (lx e) as [K0|]; [|discriminate]. destruct (lt K0) eqn:Et; [|discriminate]. destruct (nul nt e) eqn:En; [discriminate|].
      injection E as <-. destruct (IH Hl _ eq_refl Et eq_refl) as (A & B & T).
      pose proof (S4 _ _ _ _ C Hl) as Sh.
      unfold bound in *. cbn [la lc lt lf] in *. repeat split; try discriminate.
      + nia. + intros X q ->. specialize (T X _ eq_refl). cbn in Sh. nia. + congruence.
    - intros e s q r k k' C1 IH1 C IH Hl K H. apply (lx_cases _ _ _ _ _ H (c_plus _ _ _ _ _ _ _ C1 C)). intros E. cbn [lx1] in E.
      destruct (lx e) as [K0|]; [|discriminate]. destruct (lt K0) eqn:Et; [|discriminate]. destruct (nul nt e) eqn:En; [discriminate|].
      injection E as <-. destruct (IH Hl _ eq_refl Et eq_refl) as (A & B & T). destruct (IH1 Hl _ eq_refl) as (_ & _ & T1 & _).
      specialize (T1 Et _ eq_refl). pose proof (S4 _ _ _ _ C Hl) as Sh. pose proof (S1 _ _ _ _ C1 Hl) as (_ & Sh1). specialize (Sh1 En).
      unfold bound in *. cbn [la lc lt lf] in *. repeat split; try discriminate.
      + nia. + intros X q' ->. specialize (T X _ eq_refl). cbn in Sh. nia. + congruence.
    - intros e s r k C IH Hr Hl K H. apply (lx_cases _ _ _ _ _ H (c_plus_no _ _ _ _ _ C Hr)). intros E. cbn [lx1] in E.
      destruct (lx e) as [K0|]; [|discriminate]. destruct (lt K0) eqn:Et; [|discriminate]. destruct (nul nt e) eqn:En; [discriminate|].
      injection E as <-. destruct (IH Hl _ eq_refl) as (A & B & T & F).
      unfold bound in *. cbn [la lc lt lf] in *. repeat split; try discriminate.
      + nia. + intros X q ->. destruct Hr; discriminate. + intros X Y. specialize (F X Y). lia.
    - intros s _ ks E. injection E as <-. unfold bound. cbn [la lc lt lf total fold_right]. repeat split; try lia; try (intros _ q [= <-]; lia).
    - intros e es s q r k k' C1 IH1 C2 IH2 Hl ks E. cbn [map all_some] in E. cbn [forallb] in Hl. apply andb_true_iff in Hl as [Hl1 Hl2].
      destruct (lx e) as [K|]; [|discriminate]. destruct (all_some (map lx es)) as [ks'|] eqn:Ea; [|discriminate]. injection E as <-.
      destruct (IH1 Hl1 _ eq_refl) as (A & B & T & F). destruct (IH2 Hl2 _ eq_refl) as (A' & B' & T' & F').
      pose proof (S1 _ _ _ _ C1 Hl1) as (Sh & _). unfold bound in *. cbn [la lc lt lf total fold_right forallb seq_f] in *.
      change (fold_right (fun k n => la k + n) 0 ks') with (total ks') in *. repeat split.
      + nia.
      + intros X. apply andb_true_iff in X as [X Y]. specialize (B X). specialize (B' Y). lia.
      + intros X q' ->. apply andb_true_iff in X as [X Y]. specialize (T X _ eq_refl). specialize (T' Y _ eq_refl).
        destruct (cost_shorter g nt Hg Hnt) as (_ & S2 & _). pose proof (S2 _ _ _ _ C2 Hl2) as (Sh2 & _). nia.
      + intros X ->. apply andb_true_iff in X as [X Y]. apply andb_true_iff in Y as [Y Z]. specialize (F' Z eq_refl).
        destruct ks' as [|k1 ks']; [|specialize (B Y); lia]. destruct es as [|e' es]; [inversion C2|]. cbn in Ea.
        destruct (lx e'); [|discriminate]. destruct (all_some (map lx es)); discriminate.
    - intros e es s r k C IH Hr Hl ks E. cbn [map all_some] in E. cbn [forallb] in Hl. apply andb_true_iff in Hl as [Hl1 Hl2].
      destruct (lx e) as [K|]; [|discriminate]. destruct (all_some (map lx es)) as [ks'|] eqn:Ea; [|discriminate]. injection E as <-.
      destruct (IH Hl1 _ eq_refl) as (A & B & T & F).
      unfold bound in *. cbn [la lc lt lf total fold_right forallb seq_f] in *.
      change (fold_right (fun k n => la k + n) 0 ks') with (total ks') in *. repeat split.
      + nia. + intros X. apply andb_true_iff in X as [X Y]. specialize (B X). lia.
      + intros X q ->. destruct Hr; discriminate.
      + intros X ->. apply andb_true_iff in X as [X Y]. specialize (F X eq_refl). lia.
    - intros s _ ks E. injection E as <-. unfold bound. cbn [la lc lt lf total fold_right]. repeat split; try lia.
    - intros e es s r k C IH Hr Hl ks E. cbn [map all_some] in E. cbn [forallb] in Hl. apply andb_true_iff in Hl as [Hl1 Hl2].
      destruct (lx e) as [K|]; [|discriminate]. destruct (all_some (map lx es)) as [ks'|] eqn:Ea; [|discriminate]. injection E as <-.
      destruct (IH Hl1 _ eq_refl) as (A & B & T & F). pose proof (S1 _ _ _ _ C Hl1) as Sh.
      unfold bound in *. cbn [la lc lt lf total fold_right forallb choice_t] in *.
      change (fold_right (fun k n => la k + n) 0 ks') with (total ks') in *. repeat split.
      + nia. + intros X. apply andb_true_iff in X as [X Y]. specialize (B X). lia.
      + intros X q ->. apply andb_true_iff in X as [X Y]. specialize (T X _ eq_refl). cbn in Sh. nia.
      + intros X ->. congruence.
    - intros e es s r k k' C1 IH1 C2 IH2 Hl ks E. cbn [map all_some] in E. cbn [forallb] in Hl. apply andb_true_iff in Hl as [Hl1 Hl2].
      destruct (lx e) as [K|]; [|discriminate]. destruct (all_some (map lx es)) as [ks'|] eqn:Ea; [|discriminate]. injection E as <-.
      destruct (IH1 Hl1 _ eq_refl) as (A & B & T & F). destruct (IH2 Hl2 _ eq_refl) as (A' & B' & T' & F').
      unfold bound in *. cbn [la lc lt lf total fold_right forallb choice_t] in *.
      change (fold_right (fun k n => la k + n) 0 ks') with (total ks') in *. repeat split.
      + nia.
      + intros X. apply andb_true_iff in X as [X Y]. specialize (B X). specialize (B' Y). lia.
      + intros X q' ->. apply andb_true_iff in X as [X Y]. apply andb_true_iff in Y as [Y Z]. specialize (T' Z _ eq_refl).
        destruct (cost_shorter g nt Hg Hnt) as (_ & _ & S3 & _). pose proof (S3 _ _ _ _ C2 Hl2) as (Sh2 & _).
        destruct ks' as [|k1 ks']; [|specialize (F Y eq_refl); nia]. destruct es as [|e' es]; [inversion C2|]. cbn in Ea.
        destruct (lx e'); [|discriminate]. destruct (all_some (map lx es)); discriminate.
      + intros X ->. apply andb_true_iff in X as [X Y]. specialize (F X eq_refl). specialize (F' Y eq_refl). lia.
    - intros e s k C IH Hl K H Ht Hnu. destruct (IH Hl _ H) as (A & B & T & F). repeat split; try discriminate; [nia|].
      intros X q [= <-]. specialize (F X eq_refl). lia.
    - intros e s k C IH Hl K H Ht Hnu. destruct (IH Hl _ H) as (A & B & T & F). repeat split; try discriminate. nia.
    - intros e s q r k k' C1 IH1 C2 IH2 Hl K H Ht Hnu. destruct (IH1 Hl _ H) as (A & B & T & F). specialize (T Ht _ eq_refl).
      destruct (IH2 Hl _ H Ht Hnu) as (A' & B' & T'). pose proof (S1 _ _ _ _ C1 Hl) as (_ & Sh). specialize (Sh Hnu). split; [nia|].
      split; [exact B'|]. intros X q' ->. specialize (T' X _ eq_refl). nia.
  Qed.
End Lex.

(** ** Gaps: whitespace and comments *)
Notation gg := gen_grammar.
Notation ce := (cev gen_grammar).

Lemma ce_short e s r k : lits_ok e = true -> ce e s r k -> shorter (nul gen_nul e) s r.
Proof. intros H C. exact (proj1 (cost_shorter gg gen_nul gen_lits_ok gen_nul_ok) _ _ _ _ C H). Qed.
Lemma ce_alike e s r k r' k' : ce e s r k -> ce e s r' k' -> alike r r'.
Proof. intros C C'. exact (proj1 (cost_alike gg) _ _ _ _ C _ _ C'). Qed.
Lemma ce_ok e s q k r' k' : ce e s (COk q) k -> ce e s r' k' -> r' = CPanic \/ r' = COk q.
Proof. intros C C'. destruct (ce_alike _ _ _ _ _ _ C C') as [X|[X|X]]; [discriminate|auto|auto]. Qed.
Lemma ce_no e s k r' k' : ce e s CFail k -> ce e s r' k' -> r' = CPanic \/ r' = CFail.
Proof. intros C C'. destruct (ce_alike _ _ _ _ _ _ C C') as [X|[X|X]]; [discriminate|auto|auto]. Qed.

Definition lx0 := lx gen_nul None.
Lemma lx0_any e K s r k : lits_ok e = true -> lx0 e = Some K -> ce e s r k -> k <= la K * (1 + len s).
Proof.
  intros Hl H C. refine (proj1 (proj1 (lx_all gg gen_nul gen_lits_ok gen_nul_ok None _) _ _ _ _ C Hl K H)). discriminate.
Qed.

Lemma star_end e s q k : cevt gg e s (COk q) k -> exists k', ce e q CFail k'.
Proof.
  intros H. remember (COk q) as r eqn:E. induction H as [e s k H|e s k H|e s q0 r k k' H0 H IH].
  - injection E as ->. eauto.
  - discriminate.
  - apply IH, E.
Qed.
Definition gap_item : expr := EChoice [comment_e; ws_e].
Lemma ws_ends s q k r k' : ce ws_e s (COk q) k -> ce ws_e q r k' -> r = CFail.
Proof.
  intros H C. unfold ws_e in H. inversion H; subst; try discriminate.
  match goal with X : cev _ (EPlus _) _ _ _ |- _ => inversion X; subst; try discriminate end.
  2: match goal with X : _ \/ _ |- _ => destruct X; discriminate end.
  match goal with X : cevt _ _ _ _ _ |- _ => destruct (star_end _ _ _ _ X) as (kk & F) end.
  assert (Fc : exists x, cprim ws_class q = Some x) by (eexists; reflexivity). destruct Fc as (x & Fc).
  destruct (prim_cost _ _ _ _ _ _ Fc F) as (E & _). subst x.
  assert (P : forall r0 k0, ce (EPlus ws_class) q r0 k0 -> r0 = CFail).
  { intros r0 k0 P. inversion P; subst; try discriminate;
      match goal with X : cev _ ws_class _ _ _ |- _ => destruct (prim_cost _ _ _ _ _ _ Fc X) as (E & _); congruence end. }
  unfold ws_e in C. inversion C; subst; try discriminate;
    match goal with X : cev _ (EPlus ws_class) _ _ _ |- _ => apply P in X end; congruence.
Qed.
Lemma line_again s q k0 k1 r k : ce comment_line_e s CFail k0 -> ce ws_e s (COk q) k1 -> ce comment_line_e q r k ->
  r = CPanic \/ r = CFail.
Proof.
  intros L W C. unfold comment_line_e in L, C.
  set (l := [lit "#"; _; _; _]) in *.
  inversion L; subst; try discriminate. inversion C; subst; try discriminate.
  assert (O : ce (EOpt ws_e) s (COk q) (S k1)) by (apply c_opt; [exact W|discriminate]).
  match goal with X : cevs _ _ s CFail _ |- _ => inversion X; subst end.
  2: { match goal with X : cev _ (EOpt _) _ CFail _ |- _ => inversion X; subst; try discriminate; congruence end. }
  match goal with X : cev _ (EOpt _) s (COk ?z) _ |- _ => destruct (ce_ok _ _ _ _ _ _ O X) as [Y|Y]; [discriminate|injection Y as ->] end.
  match goal with X : cevs _ _ q r _ |- _ => inversion X; subst end.
  - match goal with X : cev _ (EOpt _) q (COk ?z) _ |- _ => assert (z = q) as ->; [|clear X] end.
    { match goal with X : cev _ (EOpt _) q (COk ?z) _ |- _ => inversion X; subst; try discriminate; auto end.
      match goal with X : cev _ ws_e q _ _ |- _ => pose proof (ws_ends _ _ _ _ _ W X); congruence end. }
    match goal with X : cevs _ _ q CFail _, Y : cevs _ _ q r _ |- _ =>
      destruct (proj1 (proj2 (cost_alike gg)) _ _ _ _ X _ _ Y) as [Z|[Z|Z]]; [discriminate|auto|auto] end.
  - tauto.
Qed.
Lemma comment_cases s r k : ce comment_e s r k ->
  match r with
  | COk q => exists k', ce comment_line_e q CFail k'
  | CFail => exists k', ce comment_line_e s CFail k'
  | CPanic => True
  end.
Proof.
  intros H. unfold comment_e in H. inversion H; subst; try discriminate; auto.
  match goal with X : cev _ (EPlus _) _ _ _ |- _ => inversion X; subst; try discriminate end.
  - match goal with X : cevt _ _ _ r _ |- _ => destruct r; auto; [exact (star_end _ _ _ _ X)|] end.
    match goal with X : cevt _ _ _ CFail _ |- _ => exfalso; clear - X; remember CFail as r; induction X; try discriminate; auto end.
  - match goal with X : _ \/ _ |- _ => destruct X as [-> | ->]; eauto end.
Qed.
Lemma comment_no s k0 r k : ce comment_line_e s CFail k0 -> ce comment_e s r k -> r = CPanic \/ r = CFail.
Proof.
  intros L H. destruct r; auto. exfalso. unfold comment_e in H. inversion H; subst; try discriminate.
  match goal with X : cev _ (EPlus _) _ _ _ |- _ => inversion X; subst; try discriminate end.
  - match goal with X : cev _ comment_line_e _ _ _ |- _ => destruct (ce_no _ _ _ _ _ L X) as [Z|Z]; discriminate end.
  - match goal with X : _ \/ _ |- _ => destruct X; discriminate end.
Qed.
(** the alternatives of an item of a gap *)
Lemma item_cases s r k : ce gap_item s r k ->
  (exists k', ce comment_e s r k') \/ ((exists k', ce comment_e s CFail k') /\ (r = CFail \/ exists k', ce ws_e s r k')).
Proof.
  intros H. unfold gap_item in H. inversion H; subst; try discriminate.
  match goal with X : cevc _ _ _ _ _ |- _ => inversion X; subst end; [left; eauto|right; split; [eauto|]].
  match goal with X : cevc _ [ws_e] _ _ _ |- _ => inversion X; subst end; [eauto|].
  match goal with X : cevc _ [] _ _ _ |- _ => inversion X; subst end. auto.
Qed.
Definition item_cost : nat := Eval vm_compute in match lx0 gap_item with Some K => la K | None => 0 end.
Lemma item_any s r k : ce gap_item s r k -> k <= item_cost * (1 + len s).
Proof.
  intros H. destruct (lx0 gap_item) as [K|] eqn:E; [|vm_compute in E; discriminate].
  pose proof (lx0_any _ _ _ _ _ (eq_refl : lits_ok gap_item = true) E H) as B.
  assert (Ek : la K = item_cost) by (vm_compute in E; injection E as <-; reflexivity). now rewrite Ek in B.
Qed.
Lemma item_len s q k : ce gap_item s (COk q) k -> len q < len s.
Proof. intros H. apply (ce_short gap_item s (COk q) k eq_refl H). vm_compute. reflexivity. Qed.
Lemma gap_after s k0 r k : ce comment_line_e s CFail k0 -> cevt gg gap_item s r k -> k <= 2 * item_cost * (1 + len s).
Proof.
  intros L H. inversion H; subst.
  - match goal with X : cev _ _ _ _ _ |- _ => apply item_any in X end. nia.
  - match goal with X : cev _ gap_item _ _ _ |- _ => apply item_any in X end. nia.
  - match goal with X : cev _ gap_item _ (COk ?z) _, Y : cevt _ _ _ _ _ |- _ => rename X into C1; rename Y into C2; rename z into q1 end.
    pose proof (item_any _ _ _ C1) as B1. pose proof (item_len _ _ _ C1) as B2.
    destruct (item_cases _ _ _ C1) as [(k2 & X)|(_ & [X|(k2 & X)])]; [|discriminate|].
    { destruct (comment_no _ _ _ _ L X); discriminate. }
    assert (N : forall r2 k3, ce gap_item q1 r2 k3 -> r2 = CPanic \/ r2 = CFail).
    { intros r2 k3 N. destruct r2; auto. exfalso. destruct (item_cases _ _ _ N) as [(k4 & Y)|(_ & [Y|(k4 & Y)])]; [|discriminate|].
      - unfold comment_e in Y. inversion Y; subst; try discriminate.
        match goal with Z : cev _ (EPlus _) _ _ _ |- _ => inversion Z; subst; try discriminate end.
        + match goal with Z : cev _ comment_line_e _ _ _ |- _ => destruct (line_again _ _ _ _ _ _ L X Z); discriminate end.
        + match goal with Z : _ \/ _ |- _ => destruct Z; discriminate end.
      - pose proof (ws_ends _ _ _ _ _ X Y). discriminate. }
    inversion C2; subst.
    + match goal with Z : cev _ gap_item q1 _ _ |- _ => apply item_any in Z end. nia.
    + match goal with Z : cev _ gap_item q1 _ _ |- _ => apply item_any in Z end. nia.
    + match goal with Z : cev _ gap_item q1 _ _ |- _ => destruct (N _ _ Z); discriminate end.
Qed.
Definition gap_cost : nat := 3 * item_cost + 1.
Lemma gap_bound s r k : ce gap_e s r k -> k <= gap_cost * (1 + len s).
Proof.
  intros H. unfold gap_e in H. change (EChoice [comment_e; ws_e]) with gap_item in H. inversion H; subst; try discriminate.
  assert (B : k0 <= 3 * item_cost * (1 + len s)).
  2: { unfold gap_cost. nia. }
  match goal with X : cevt _ _ _ _ _ |- _ => rename X into C end. inversion C; subst.
  - match goal with Z : cev _ gap_item _ _ _ |- _ => apply item_any in Z end. nia.
  - match goal with Z : cev _ gap_item _ _ _ |- _ => apply item_any in Z end. nia.
  - match goal with X : cev _ gap_item _ (COk ?z) _, Y : cevt _ _ ?z _ _ |- _ => rename X into C1; rename Y into C2; rename z into q1 end.
    pose proof (item_any _ _ _ C1) as B1. pose proof (item_len _ _ _ C1) as B2.
    destruct (item_cases _ _ _ C1) as [(k2 & X)|((k2 & X) & _)].
    + apply comment_cases in X as (k3 & X). pose proof (gap_after _ _ _ _ X C2). nia.
    + apply comment_cases in X as (k3 & X). pose proof (gap_after _ _ _ _ X C). nia.
Qed.

(** ** All expressions without references *)
Definition lxg := lx gen_nul (Some (gap_e, gap_cost)).
Lemma lxg_any e K s r k : lits_ok e = true -> lxg e = Some K -> ce e s r k -> k <= la K * (1 + len s).
Proof.
  intros Hl H C. refine (proj1 (proj1 (lx_all gg gen_nul gen_lits_ok gen_nul_ok (Some (gap_e, gap_cost)) _) _ _ _ _ C Hl K H)).
  intros e0 c s0 r0 k0 [= <- <-]. apply gap_bound.
Qed.
