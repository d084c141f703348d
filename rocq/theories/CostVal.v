(** The cost in tokens of values, arrays, hashes and plugins: linear in what is
    consumed, found by a checker that is proved correct. *)
From Coq Require Import List NArith ZArith Bool String Arith Lia.
From Verif Require Import Bytes Utf8 F64 Ast Peg Actions Engine Parser GrammarGen QuoteFacts PosFacts Run EngineFacts
  Termination LimitFacts MemoFacts Rules Cost CostFacts CostLex CostTok.
Import ListNotations.
Notation zl s := (Z.of_nat (@List.length N s)).
Local Open Scope Z_scope.

Definition KK : Z := 100.

(** success: at most KK * consumed + ss; failure (None: impossible): at most sf; abort: at most KK * rest + sp;
    in any case (if Some): at most sx *)
Record sm := SM { ss : Z; sf : option Z; spn : Z; sx : option Z }.
Definition holds (M : sm) (s : bytes) (r : cres) (k : nat) : Prop :=
  match r with
  | COk q => Z.of_nat k <= KK * (zl s - zl q) + ss M /\ zl q <= zl s
  | CFail => match sf M with Some f => Z.of_nat k <= f | None => False end
  | CPanic => Z.of_nat k <= KK * zl s + spn M
  end /\ match sx M with Some f => Z.of_nat k <= f | None => True end.

(** expressions that cannot fail: they succeed, or abort the parse *)
Fixpoint nf (e : expr) : bool :=
  match e with
  | EStar _ | EOpt _ | EStateCode _ | EAndCode (PFatalError _) => true
  | EAct _ e | ELab _ e => nf e
  | EChoice l => existsb nf l
  | ESeq l => forallb nf l
  | _ => false
  end.
Lemma nf_all :
  (forall e s r k, ce e s r k -> nf e = true -> r <> CFail) /\
  (forall es s r k, cevs gg es s r k -> forallb nf es = true -> r <> CFail) /\
  (forall es s r k, cevc gg es s r k -> existsb nf es = true -> r <> CFail) /\
  (forall e s r k, cevt gg e s r k -> r <> CFail).
Proof.
  apply cev_mutind; try (intros; cbn [nf forallb existsb] in *; try discriminate; auto; fail).
  all: try solve [intros; cbn [nf forallb existsb] in *; try discriminate; auto].
  - intros e s r P H. destruct e; cbn [nf] in H; try discriminate; cbn [cprim] in P.
    + destruct p; try discriminate. injection P as <-. discriminate.
    + injection P as <-. discriminate.
  - intros e es s q r k k' _ IH1 _ IH2 H. cbn in H. apply andb_true_iff in H as [_ H]. auto.
  - intros e es s r k _ IH Hr H. cbn in H. apply andb_true_iff in H as [H _]. auto.
  - intros e es s r k k' _ IH1 _ IH2 H. cbn in H. apply orb_true_iff in H as [H|H]; [destruct (IH1 H eq_refl)|auto].
Qed.

Definition bumpo (n : Z) (o : option Z) : option Z := match o with Some x => Some (x + n) | None => None end.
Definition addo (a c : option Z) : option Z := match a, c with Some x, Some y => Some (x + Z.max 0 y) | _, _ => None end.
Definition bump (M : sm) : sm := SM (ss M + 1) (bumpo 1 (sf M)) (spn M + 1) (bumpo 1 (sx M)).
Definition maxo (a : Z) (o : option Z) : Z := match o with Some x => Z.max a x | None => a end.

Section Sum.
  Variable tab : string -> option sm.

  Definition leaf_sm (e : expr) : sm :=
    SM (1 - (if nul gen_nul e then 0 else KK)) (if nf e then None else Some 1) 1 (Some 1).
  (** the summaries of the elements of a sequence, of the alternatives of a choice *)
  Definition cons_seq (M T : sm) : option sm :=
    match sf T with
    | None => Some (SM (ss M + ss T) (sf M) (Z.max (spn M) (ss M + spn T)) (addo (sx M) (sx T)))
    | Some f =>
        match sx M with
        | Some x => Some (SM (ss M + ss T) (Some (maxo (x + f) (sf M))) (Z.max (spn M) (ss M + spn T)) (addo (sx M) (sx T)))
        | None => None
        end
    end.
  Fixpoint seq_sm (l : list (option sm)) : option sm :=
    match l with
    | [] => Some (SM 0 None 0 (Some 0))
    | Some M :: l' => match seq_sm l' with Some T => cons_seq M T | None => None end
    | None :: _ => None
    end.
  Definition cons_choice (M T : sm) : sm :=
    match sf M with
    | None => M
    | Some f => SM (Z.max (ss M) (f + ss T)) (bumpo f (sf T)) (Z.max (spn M) (f + spn T))
                   (match sx M, sx T with Some x, Some y => Some (Z.max x (f + y)) | _, _ => None end)
    end.
  Fixpoint choice_sm (l : list (option sm)) : option sm :=
    match l with
    | [] => Some (SM (-1000) (Some 0) (-1000) (Some 0))
    | Some M :: l' => match choice_sm l' with Some T => Some (cons_choice M T) | None => None end
    | None :: _ => None
    end.
  Fixpoint sum (e : expr) : option sm :=
    if leaf e then Some (leaf_sm e) else
    match e with
    | EAct _ e => match sum e with Some M => Some (bump (SM (ss M) (sf M) (Z.max (spn M) (ss M)) (sx M))) | None => None end
    | ELab _ e => match sum e with Some M => Some (bump M) | None => None end
    | EOpt e => match sum e with Some M => Some (bump (SM (maxo (ss M) (sf M)) None (spn M) (sx M))) | None => None end
    | EStar e => match sum e with
                 | Some M => if ss M <=? 0 then Some (SM (maxo 0 (sf M) + 1) None (spn M + 1) None) else None
                 | None => None end
    | ERef n => match tab n with Some M => Some (bump M) | None => None end
    | ESeq l => match seq_sm (map sum l) with Some M => Some (bump M) | None => None end
    | EChoice l => match choice_sm (map sum l) with Some M => Some (bump M) | None => None end
    | _ => None
    end.

  Definition leo (a c : option Z) : bool := match a, c with Some x, Some y => x <=? y | _, None => false | None, Some _ => true end.
  (** for failure None is the strongest, for the any-bound the weakest *)
  Definition le_sm (M T : sm) : bool :=
    (ss M <=? ss T) && (match sf M, sf T with None, _ => true | Some x, Some y => x <=? y | _, _ => false end)
    && (spn M <=? spn T) && (match sx M, sx T with _, None => true | Some x, Some y => x <=? y | _, _ => false end).

  Lemma le_holds M T s r k : le_sm M T = true -> holds M s r k -> holds T s r k.
  Proof.
    unfold le_sm, holds. intros H. apply andb_true_iff in H as [H H4]. apply andb_true_iff in H as [H H3]. apply andb_true_iff in H as [H1 H2].
    apply Z.leb_le in H1, H3. intros [A X]. split.
    - destruct r; [lia| |lia]. destruct (sf M), (sf T); try discriminate; try tauto. apply Z.leb_le in H2. lia.
    - destruct (sx M), (sx T); try discriminate; auto. apply Z.leb_le in H4. lia.
  Qed.

  Hypothesis Htab : forall n M e, tab n = Some M -> find_rule n gen_grammar = Some e -> exists S', sum e = Some S' /\ le_sm S' M = true.

  Lemma bump_holds M s r k : holds M s r k -> holds (bump M) s r (S k).
  Proof.
    unfold holds, bump. cbn [ss sf spn sx]. intros [A X]. split.
    - destruct r; [lia| |lia]. destruct (sf M); cbn [bumpo]; [lia|exact A].
    - destruct (sx M); cbn [bumpo]; lia.
  Qed.

  Lemma sum_leaf e M : leaf e = true -> sum e = Some M -> M = leaf_sm e.
  Proof. intros H E. destruct e; cbn [sum] in E; rewrite H in E; congruence. Qed.

  Lemma sum_all :
    (forall e s r k, tev e s r k -> lits_ok e = true -> forall M, sum e = Some M -> holds M s r k) /\
    (forall es s r k, tevs es s r k -> forallb lits_ok es = true -> forall M, seq_sm (map sum es) = Some M -> holds M s r k) /\
    (forall es s r k, tevc es s r k -> forallb lits_ok es = true -> forall M, choice_sm (map sum es) = Some M -> holds M s r k) /\
    (forall e s r k, tevt e s r k -> lits_ok e = true -> forall M, sum e = Some M -> ss M <= 0 ->
       holds (SM (maxo 0 (sf M)) None (spn M) None) s r k).
  Proof.
    apply tev_mutind.
    - intros e s r k Hf C Hl M E. rewrite (sum_leaf _ _ Hf E). pose proof (ce_short _ _ _ _ Hl C) as Sh.
      unfold holds, leaf_sm. cbn [ss sf spn sx]. split; [|lia]. destruct r as [q| |].
      + cbn in Sh. destruct Sh as [S1 S2]. split; [|lia]. unfold KK. destruct (nul gen_nul e); [lia|]. specialize (S2 eq_refl). lia.
      + destruct (nf e) eqn:En; [|lia]. exact (proj1 nf_all _ _ _ _ C En eq_refl).
      + unfold KK. lia.
    - intros a e s r k Hf T IH Hl M E. cbn [sum] in E. rewrite Hf in E. destruct (sum e) as [S0|]; [|discriminate]. injection E as <-.
      apply bump_holds. specialize (IH Hl _ eq_refl). destruct IH as [A X]. split; [|exact X]. destruct r; cbn [ss sf spn sx]; [exact A|exact A|lia].
    - intros a e s q k Hf T IH Hl M E. cbn [sum] in E. rewrite Hf in E. destruct (sum e) as [S0|]; [|discriminate]. injection E as <-.
      apply bump_holds. specialize (IH Hl _ eq_refl). destruct IH as [A X]. split; [|exact X]. cbn [ss sf spn sx]. unfold KK in *. lia.
    - intros a e s r k Hf T IH Hl M E. cbn [sum] in E. rewrite Hf in E. destruct (sum e) as [S0|]; [|discriminate]. injection E as <-.
      apply bump_holds. auto.
    - intros e s r k Hf T IH Hr Hl M E. cbn [sum] in E. rewrite Hf in E. destruct (sum e) as [S0|]; [|discriminate]. injection E as <-.
      apply bump_holds. specialize (IH Hl _ eq_refl). destruct IH as [A X]. split; [|exact X]. destruct r; cbn [ss sf spn sx]; [|congruence|exact A].
      destruct (sf S0); cbn [maxo]; lia.
    - intros e s k Hf T IH Hl M E. cbn [sum] in E. rewrite Hf in E. destruct (sum e) as [S0|]; [|discriminate]. injection E as <-.
      apply bump_holds. specialize (IH Hl _ eq_refl). destruct IH as [A X]. split; [|exact X]. cbn [ss sf spn sx].
      destruct (sf S0); cbn [maxo]; [lia|contradiction].
    - intros n e s r k F T IH Hl M E. change (match tab n with Some M => Some (bump M) | None => None end = Some M) in E.
      destruct (tab n) as [S0|] eqn:Et; [|discriminate]. injection E as <-.
      destruct (Htab _ _ _ Et F) as (S' & E' & L). apply bump_holds. eapply le_holds; [exact L|].
      apply IH; [|exact E']. exact (forallb_rule n e gen_lits_ok F).
    - intros es s r k Hf T IH Hl M E. cbn [sum] in E. rewrite Hf in E. destruct (seq_sm (map sum es)) as [S0|] eqn:Es; [|discriminate]. injection E as <-.
      apply bump_holds. auto.
    - intros es s r k Hf T IH Hl M E. cbn [sum] in E. rewrite Hf in E. destruct (choice_sm (map sum es)) as [S0|] eqn:Es; [|discriminate]. injection E as <-.
      apply bump_holds. auto.
    - intros e s r k Hf T IH Hl M E. cbn [sum] in E. rewrite Hf in E. destruct (sum e) as [S0|]; [|discriminate].
      destruct (Z.leb_spec (ss S0) 0); [|discriminate]. injection E as <-. specialize (IH Hl _ eq_refl H). apply bump_holds in IH.
      exact IH.
    - intros s _ M E. injection E as <-. unfold holds. cbn [ss sf spn sx]. lia.
    - intros e es s q r k k' T1 IH1 T2 IH2 Hl M E. cbn [forallb] in Hl. apply andb_true_iff in Hl as [Hl1 Hl2]. cbn [map seq_sm] in E.
      destruct (sum e) as [S1|]; [|discriminate]. destruct (seq_sm (map sum es)) as [S2|]; [|discriminate].
      specialize (IH1 Hl1 _ eq_refl). specialize (IH2 Hl2 _ eq_refl). destruct IH1 as [A1 X1], IH2 as [A2 X2].
      unfold cons_seq in E. unfold holds in *. destruct (sf S2) as [f|] eqn:Ef.
      + destruct (sx S1) as [x|] eqn:Ex; [|discriminate]. injection E as <-. cbn [ss sf spn sx]. split.
        * destruct r; [lia|unfold maxo; destruct (sf S1); lia|lia].
        * cbn [addo]. destruct (sx S2); lia.
      + injection E as <-. cbn [ss sf spn sx]. split.
        * destruct r; [lia|contradiction|lia].
        * unfold addo. destruct (sx S1), (sx S2); lia.
    - intros e es s r k T IH Hr Hl M E. cbn [forallb] in Hl. apply andb_true_iff in Hl as [Hl1 Hl2]. cbn [map seq_sm] in E.
      destruct (sum e) as [S1|]; [|discriminate]. destruct (seq_sm (map sum es)) as [S2|] eqn:E2; [|discriminate].
      specialize (IH Hl1 _ eq_refl). destruct IH as [A X].
      unfold cons_seq in E. unfold holds in *. destruct (sf S2) as [f|] eqn:Ef.
      + destruct (sx S1) as [x|] eqn:Ex; [|discriminate]. injection E as <-. cbn [ss sf spn sx]. split.
        * destruct Hr as [-> | ->]; [|lia]. unfold maxo. destruct (sf S1); [lia|contradiction].
        * cbn [addo]. destruct (sx S2); lia.
      + injection E as <-. cbn [ss sf spn sx]. split.
        * destruct Hr as [-> | ->]; [exact A|lia].
        * unfold addo. destruct (sx S1), (sx S2); lia.
    - intros s _ M E. injection E as <-. unfold holds. cbn [ss sf spn sx]. lia.
    - intros e es s r k T IH Hr Hl M E. cbn [forallb] in Hl. apply andb_true_iff in Hl as [Hl1 Hl2]. cbn [map choice_sm] in E.
      destruct (sum e) as [S1|]; [|discriminate]. destruct (choice_sm (map sum es)) as [S2|]; [|discriminate].
      specialize (IH Hl1 _ eq_refl). injection E as <-. unfold cons_choice. destruct (sf S1) as [f|] eqn:Ef; [|exact IH].
      destruct IH as [A X]. split; cbn [ss sf spn sx].
      + destruct r; [lia|congruence|lia].
      + destruct (sx S1), (sx S2); auto. lia.
    - intros e es s r k k' T1 IH1 T2 IH2 Hl M E. cbn [forallb] in Hl. apply andb_true_iff in Hl as [Hl1 Hl2]. cbn [map choice_sm] in E.
      destruct (sum e) as [S1|]; [|discriminate]. destruct (choice_sm (map sum es)) as [S2|]; [|discriminate].
      specialize (IH1 Hl1 _ eq_refl). specialize (IH2 Hl2 _ eq_refl). injection E as <-. destruct IH1 as [A1 X1], IH2 as [A2 X2].
      unfold cons_choice. destruct (sf S1) as [f|] eqn:Ef; [|contradiction]. split; cbn [ss sf spn sx].
      + destruct r; [lia| |lia]. destruct (sf S2); cbn [bumpo]; [lia|contradiction].
      + destruct (sx S1), (sx S2); auto. lia.
    - intros e s k T IH Hl M E Hs. specialize (IH Hl _ E). destruct IH as [A X]. split; [|exact I]. cbn [ss sf spn sx].
      destruct (sf M); cbn [maxo]; [lia|contradiction].
    - intros e s k T IH Hl M E Hs. specialize (IH Hl _ E). destruct IH as [A X]. split; [|exact I]. cbn [ss sf spn sx]. exact A.
    - intros e s q r k k' T1 IH1 T2 IH2 Hl M E Hs. specialize (IH1 Hl _ E). specialize (IH2 Hl _ E Hs). destruct IH1 as [A1 X1], IH2 as [A2 X2].
      split; [|exact I]. cbn [ss sf spn sx] in *. destruct r; [lia|contradiction|]. unfold KK in *. lia.
  Qed.
End Sum.

(** ** The table *)
Fixpoint tfind (n : string) (l : list (string * sm)) : option sm :=
  match l with [] => None | (m, x) :: l' => if String.eqb m n then Some x else tfind n l' end.
Definition group : list string := ["value"; "array"; "hash"; "hashentries"; "hashentry"; "plugin"; "attribute"; "rvalue"]%string.
Definition low : sm := SM (-90) (Some 0) (-90) None.
Definition improve (t : list (string * sm)) : list (string * sm) :=
  map (fun n => (n, match find_rule n gen_grammar with
                    | Some e => match sum (fun m => tfind m t) e with Some x => x | None => low end
                    | None => low end)) group.
Definition vtable : list (string * sm) := Eval vm_compute in iter 12 improve (map (fun n => (n, low)) group).
Definition vtab (n : string) : option sm := tfind n vtable.
Lemma vtab_ok n M e : vtab n = Some M -> find_rule n gen_grammar = Some e -> exists M', sum vtab e = Some M' /\ le_sm M' M = true.
Proof.
  assert (C : forallb (fun x => match find_rule (fst x) gen_grammar with
                                | Some e => match sum vtab e with Some M' => le_sm M' (snd x) | None => false end
                                | None => false end) vtable = true) by (vm_compute; reflexivity).
  intros H F. rewrite forallb_forall in C.
  assert (I : In (n, M) vtable).
  { unfold vtab in H. revert H. generalize vtable. induction l as [|[m x] l IH]; cbn; [discriminate|].
    destruct (String.eqb_spec m n) as [->|]; [intros [= ->]; auto|auto]. }
  specialize (C _ I). cbn [fst snd] in C. rewrite F in C. destruct (sum vtab e) as [M'|]; [|discriminate]. eauto.
Qed.
(** Every expression the checker accepts *)
Lemma sum_holds e M s r k : lits_ok e = true -> sum vtab e = Some M -> tev e s r k -> holds M s r k.
Proof. intros Hl E T. exact (proj1 (sum_all vtab vtab_ok) _ _ _ _ T Hl M E). Qed.
