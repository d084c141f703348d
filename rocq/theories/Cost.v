(** How many expressions one run evaluates, on the remaining bytes alone.

    [cev e s r k]: evaluating [e] where the bytes [s] remain may end in [r] after
    [k] evaluations (the counter p.ExprCnt of logstash_config.go:12706, without
    Memoize).  Everything else of the state is forgotten, so a code block may
    or may not abort the parse here.  [ev_cost]: every run of the parser is one of these. *)
From Coq Require Import List NArith Bool String Arith Lia.
From Verif Require Import Bytes Utf8 F64 Ast Peg Actions Engine Parser GrammarGen QuoteFacts PosFacts Run EngineFacts
  Termination LimitFacts MemoFacts.
Import ListNotations.

Inductive cres := COk (q : bytes) | CFail | CPanic.

Definition adv (s : bytes) : bytes := skipn (snd (decode_rune s)) s.
Fixpoint lit_rest (rs : list N) (s : bytes) : option bytes :=
  match rs with
  | [] => Some s
  | r :: rs' => if (fst (decode_rune s) =? r)%N then lit_rest rs' (adv s) else None
  end.

(** expressions without parts *)
Definition cprim (e : expr) (s : bytes) : option cres :=
  match e with
  | EAndCode PInitParser | EStateCode _ => Some (COk s)
  | EAndCode (PPushError _) => Some CFail
  | EAndCode (PFatalError _) => Some CPanic
  | EAny => Some (match s with [] => CFail | _ => COk (adv s) end)
  | EClass _ cs rs inv =>
      Some (match s with [] => CFail | _ => if class_match cs rs inv (fst (decode_rune s)) then COk (adv s) else CFail end)
  | ELit _ rs => Some (match lit_rest rs s with Some q => COk q | None => CFail end)
  | _ => None
  end.

Section Cost.
  Variable g : grammar.

  Inductive cev : expr -> bytes -> cres -> nat -> Prop :=
  | c_prim e s r : cprim e s = Some r -> cev e s r 1
  | c_undef n s : find_rule n g = None -> cev (ERef n) s CFail 1
  | c_act a e s r k : cev e s r k -> cev (EAct a e) s r (S k)
  | c_act_panic a e s q k : cev e s (COk q) k -> cev (EAct a e) s CPanic (S k)
  | c_lab l e s r k : cev e s r k -> cev (ELab l e) s r (S k)
  | c_not e s q k : cev e s (COk q) k -> cev (ENot e) s CFail (S k)
  | c_not_ok e s k : cev e s CFail k -> cev (ENot e) s (COk s) (S k)
  | c_not_panic e s k : cev e s CPanic k -> cev (ENot e) s CPanic (S k)
  | c_opt e s r k : cev e s r k -> r <> CFail -> cev (EOpt e) s r (S k)
  | c_opt_no e s k : cev e s CFail k -> cev (EOpt e) s (COk s) (S k)
  | c_ref n e s r k : find_rule n g = Some e -> cev e s r k -> cev (ERef n) s r (S k)
  | c_seq es s r k : cevs es s r k -> cev (ESeq es) s r (S k)
  | c_choice es s r k : cevc es s r k -> cev (EChoice es) s r (S k)
  | c_star e s r k : cevt e s r k -> cev (EStar e) s r (S k)
  | c_plus e s q r k k' : cev e s (COk q) k -> cevt e q r k' -> cev (EPlus e) s r (S (k + k'))
  | c_plus_no e s r k : cev e s r k -> (r = CFail \/ r = CPanic) -> cev (EPlus e) s r (S k)
  with cevs : list expr -> bytes -> cres -> nat -> Prop :=
  | cs_nil s : cevs [] s (COk s) 0
  | cs_ok e es s q r k k' : cev e s (COk q) k -> cevs es q r k' -> cevs (e :: es) s r (k + k')
  | cs_no e es s r k : cev e s r k -> (r = CFail \/ r = CPanic) -> cevs (e :: es) s r k
  with cevc : list expr -> bytes -> cres -> nat -> Prop :=
  | cc_nil s : cevc [] s CFail 0
  | cc_ok e es s r k : cev e s r k -> r <> CFail -> cevc (e :: es) s r k
  | cc_next e es s r k k' : cev e s CFail k -> cevc es s r k' -> cevc (e :: es) s r (k + k')
  with cevt : expr -> bytes -> cres -> nat -> Prop :=
  | ct_stop e s k : cev e s CFail k -> cevt e s (COk s) k
  | ct_panic e s k : cev e s CPanic k -> cevt e s CPanic k
  | ct_more e s q r k k' : cev e s (COk q) k -> cevt e q r k' -> cevt e s r (k + k').

  Scheme cev_mind := Minimality for cev Sort Prop
    with cevs_mind := Minimality for cevs Sort Prop
    with cevc_mind := Minimality for cevc Sort Prop
    with cevt_mind := Minimality for cevt Sort Prop.
  Combined Scheme cev_mutind from cev_mind, cevs_mind, cevc_mind, cevt_mind.
End Cost.

(** ** Every run of the parser is one *)
Definition shape (r : out) : cres :=
  match r with OOk _ _ s => COk (pt_rest (s_pt s)) | OFail _ _ => CFail | _ => CPanic end.

Lemma set_warns_pt w s : s_pt (set_warns w s) = s_pt s. Proof. reflexivity. Qed.

Section Link.
  Variable o : settings.
  Variable g : grammar.
  Variable data : bytes.
  Hypothesis Hn : o_max o = None.
  Hypothesis Hg : grammar_lits_ok g = true.
  Notation rest s := (pt_rest (s_pt s)).

  Lemma lit_shape rule want p rs en : forall s,
    shape (lit_loop o rule want p rs en s) = match lit_rest rs (rest s) with Some q => COk q | None => CFail end.
  Proof.
    induction rs as [|c rs IH]; intros s; cbn [lit_loop lit_rest].
    - unfold shape. now rewrite fail_at_pt.
    - destruct (_ =? _)%N; [|reflexivity]. rewrite IH, read_pt, advance_rest. reflexivity.
  Qed.

  Lemma eof_match {A} s (x y : A) : (if at_eof s then x else y) = match rest s with [] => x | _ => y end.
  Proof.
    pose proof (at_eof_spec s) as H. destruct (at_eof s).
    - now rewrite (proj1 H eq_refl).
    - destruct (rest s); [|reflexivity]. discriminate (proj2 H eq_refl).
  Qed.

  Lemma prim_shape rule e en s r : prim_out o g rule e en s = Some r ->
    cprim e (rest s) = Some (shape r) \/ (exists n, e = ERef n /\ find_rule n g = None /\ shape r = CFail).
  Proof.
    intros P. destruct e; cbn [prim_out] in P; try discriminate; try (injection P as <-; left; cbn [cprim]).
    - destruct p; reflexivity.
    - cbn. f_equal. f_equal. destruct c; cbn; [now destruct (s_warns s)|now destruct (_ && _)].
    - f_equal. rewrite eof_match. destruct (rest s) eqn:E; [reflexivity|]. unfold shape. now rewrite fail_at_pt, read_pt, advance_rest, E.
    - f_equal. pose proof (at_eof_spec s) as H. destruct (at_eof s); cbn [negb andb].
      + now rewrite (proj1 H eq_refl).
      + destruct (rest s) eqn:E; [discriminate (proj2 H eq_refl)|]. destruct (class_match _ _ _ _); [|reflexivity].
        unfold shape. now rewrite fail_at_pt, read_pt, advance_rest, E.
    - now rewrite lit_shape.
    - right. exists name. destruct (find_rule name g); [discriminate|]. injection P as <-. repeat split.
  Qed.

  Lemma no_limit s : over_limit o s = true -> False.
  Proof. unfold over_limit. rewrite Hn. discriminate. Qed.

  Notation spent s k := (s_cnt s + N.of_nat k)%N.

  Lemma cost_all :
    (forall rule e en s r, ev o g rule e en s r -> lits_ok e = true -> Reach data (s_pt s) ->
       exists k, cev g e (rest s) (shape r) k /\ out_cnt r = spent s k) /\
    (forall rule pt w es acc en s r, evs o g rule pt w es acc en s r -> forallb lits_ok es = true -> Reach data pt -> Reach data (s_pt s) ->
       exists k, cevs g es (rest s) (shape r) k /\ out_cnt r = spent s k) /\
    (forall rule es en s r, evc o g rule es en s r -> forallb lits_ok es = true -> Reach data (s_pt s) ->
       exists k, cevc g es (rest s) (shape r) k /\ out_cnt r = spent s k) /\
    (forall rule e acc en s r, evt o g rule e acc en s r -> lits_ok e = true -> Reach data (s_pt s) ->
       (exists k, cevt g e (rest s) (shape r) k /\ out_cnt r = spent s k) /\
       (exists r1 k1, cev g e (rest s) r1 k1 /\
          match r1 with
          | COk q => (exists k2, cevt g e q (shape r) k2 /\ out_cnt r = spent s (k1 + k2)) /\
                     (forall v en' s', r = OOk v en' s' -> exists l, v = VList l /\ List.length acc < List.length l)
          | CFail => out_cnt r = spent s k1 /\ exists s', r = OOk (VList (rev acc)) en s'
          | CPanic => out_cnt r = spent s k1 /\ shape r = CPanic
          end)).
  Proof.
    assert (Tk : forall s, s_cnt (tick s) = (s_cnt s + 1)%N) by reflexivity.
    apply ev_mutind.
    - intros rule e en s L. destruct (no_limit _ L).
    - intros rule e en s r _ P Hl Hs. exists 1. pose proof (prim_cnt _ _ _ _ _ _ _ P) as C. rewrite Tk in C. split; [|exact C].
      destruct (prim_shape _ _ _ _ _ P) as [H|(n & -> & F & H)].
      + now constructor.
      + rewrite H. now constructor.
    - intros rule a e en s r _ _ IH Hl Hs. destruct (IH Hl Hs) as (k & H & C). exists (S k). rewrite Tk in C.
      destruct r as [v en' s'|en' s'|m x s'|]; cbn [act_out].
      + cbn zeta. cbn [shape out_cnt] in *. destruct (run_action _ _ _ _ _ _); cbn [shape out_cnt]; (split; [|cbn; lia]);
          [now apply c_act|now apply c_act|eapply c_act_panic; exact H].
      + split; [now apply c_act|cbn [out_cnt] in *; lia].
      + split; [now apply c_act|cbn [out_cnt] in *; lia].
      + split; [now apply c_act|cbn [out_cnt] in *; lia].
    - intros rule l e en s r _ _ IH Hl Hs. destruct (IH Hl Hs) as (k & H & C). exists (S k). rewrite Tk in C.
      destruct r; cbn in *; (split; [now apply c_lab|lia]).
    - intros rule e en s r _ R IH Hl Hs. destruct (IH Hl Hs) as (k & H & C). exists (S k).
      assert (T := ev_track o g data Hg _ _ _ _ _ R Hl Hs). cbn in Hl.
      destruct r as [v en' s'|en' s'|m x s'|]; unfold not_out, out_cnt in *; cbn [shape] in *; rewrite ?restore_cnt; cbn [s_cnt set_warns set_mfinv] in *; change (s_cnt (set_mfinv (negb (s_mfinv (tick s))) (tick s))) with (s_cnt s + 1)%N in C; rewrite ?Tk in C; change (s_cnt (tick s)) with (s_cnt s + 1)%N in *.
      + split; [eapply c_not; exact H|lia].
      + split; [|lia]. rewrite (restore_pt data).
        * now apply c_not_ok.
        * exact Hs.
        * cbn. rewrite (proj1 T). exact Hs.
      + split; [now apply c_not_panic|lia].
      + split; [now apply c_not_panic|lia].
    - intros rule e en s r _ R IH Hl Hs. destruct (IH Hl Hs) as (k & H & C). exists (S k).
      assert (T := ev_track o g data Hg _ _ _ _ _ R Hl Hs).
      rewrite Tk in C. destruct r as [v en' s'|en' s'|m x s'|]; cbn [opt_out shape out_cnt tracked] in *; (split; [|lia]).
      + apply c_opt; [exact H|discriminate].
      + rewrite (proj1 T). now apply c_opt_no.
      + apply c_opt; [exact H|discriminate].
      + apply c_opt; [exact H|discriminate].
    - intros rule name e en s r _ F _ IH _ Hs.
      assert (He : lits_ok e = true).
      { apply find_rule_in in F. unfold grammar_lits_ok in Hg. rewrite forallb_forall in Hg. exact (Hg _ F). }
      destruct (IH He Hs) as (k & H & C). exists (S k).
      rewrite Tk in C. destruct r; cbn [ref_out shape out_cnt] in *; (split; [eapply c_ref; eauto|lia]).
    - intros rule es en s r _ _ IH Hl Hs. destruct (IH Hl Hs Hs) as (k & H & C). exists (S k). rewrite Tk in C.
      split; [now apply c_seq|lia].
    - intros rule es en s r _ _ IH Hl Hs. destruct (IH Hl Hs) as (k & H & C). exists (S k). rewrite Tk in C.
      split; [now apply c_choice|lia].
    - intros rule e en s r _ _ IH Hl Hs. destruct (IH Hl Hs) as ((k & H & C) & _). exists (S k). rewrite Tk in C.
      split; [now apply c_star|lia].
    - intros rule e en s r _ _ IH Hl Hs. destruct (IH Hl Hs) as (_ & (r1 & k1 & H & D)). rewrite Tk in D.
      assert (Co : out_cnt (plus_out en r) = out_cnt r).
      { destruct r as [v ? ?| | |]; cbn; auto. destruct v; auto. destruct l; auto. }
      destruct r1 as [q| |].
      + destruct D as ((k2 & H2 & C) & Lg). exists (S (k1 + k2)). rewrite Co. split; [|lia].
        replace (shape (plus_out en r)) with (shape r); [eapply c_plus; eauto|].
        destruct r as [v en' s'|en' s'|m x s'|]; try reflexivity. destruct (Lg _ _ _ eq_refl) as (l & -> & Hlen).
        destruct l; [cbn in Hlen; lia|reflexivity].
      + destruct D as (C & s' & ->). exists (S k1). split; [|rewrite Co; lia]. apply c_plus_no; auto.
      + destruct D as (C & E). exists (S k1). split; [|rewrite Co; lia].
        destruct r; try discriminate E; apply c_plus_no; auto.
    - intros. exists 0. split; [constructor|cbn; lia].
    - intros rule pt w e es acc en s v en' s' r R IH1 _ IH2 Hl Hp Hs. cbn in Hl. apply andb_true_iff in Hl as [Hl1 Hl2].
      destruct (IH1 Hl1 Hs) as (k & H & C). assert (T := ev_track o g data Hg _ _ _ _ _ R Hl1 Hs). cbn in T.
      destruct (IH2 Hl2 Hp (steps_reach _ _ _ Hs T)) as (k' & H' & C'). exists (k + k'). cbn in C. split; [eapply cs_ok; eauto|lia].
    - intros rule pt w e es acc en s en' s' _ IH Hl Hp Hs. cbn in Hl. apply andb_true_iff in Hl as [Hl1 Hl2].
      destruct (IH Hl1 Hs) as (k & H & C). exists k. split; [apply cs_no; auto|]. unfold out_cnt in *. rewrite restore_cnt. exact C.
    - intros rule pt w e es acc en s m x s' _ IH Hl Hp Hs. cbn in Hl. apply andb_true_iff in Hl as [Hl1 Hl2].
      destruct (IH Hl1 Hs) as (k & H & C). exists k. split; [apply cs_no; auto|exact C].
    - intros. exists 0. split; [constructor|cbn; lia].
    - intros rule e es en s v en' s' _ IH Hl Hs. cbn in Hl. apply andb_true_iff in Hl as [Hl1 Hl2].
      destruct (IH Hl1 Hs) as (k & H & C). exists k. split; [apply cc_ok; [exact H|discriminate]|exact C].
    - intros rule e es en s en' s' r R IH1 _ IH2 Hl Hs. cbn in Hl. apply andb_true_iff in Hl as [Hl1 Hl2].
      destruct (IH1 Hl1 Hs) as (k & H & C). assert (T := ev_track o g data Hg _ _ _ _ _ R Hl1 Hs). destruct T as [T _].
      cbn [s_pt set_warns] in IH2. rewrite T in IH2. destruct (IH2 Hl2 Hs) as (k' & H' & C'). exists (k + k'). cbn in C, C'.
      split; [eapply cc_next; eauto|lia].
    - intros rule e es en s m x s' _ IH Hl Hs. cbn in Hl. apply andb_true_iff in Hl as [Hl1 Hl2].
      destruct (IH Hl1 Hs) as (k & H & C). exists k. split; [apply cc_ok; [exact H|discriminate]|exact C].
    - intros rule e acc en s en' s' R IH Hl Hs. destruct (IH Hl Hs) as (k & H & C).
      assert (T := ev_track o g data Hg _ _ _ _ _ R Hl Hs). destruct T as [T _]. cbn [shape] in *. rewrite T. split.
      + exists k. split; [now apply ct_stop|exact C].
      + exists CFail, k. split; [exact H|]. split; [exact C|]. eauto.
    - intros rule e acc en s v en' s' r R IH1 _ IH2 Hl Hs. destruct (IH1 Hl Hs) as (k & H & C).
      assert (T := ev_track o g data Hg _ _ _ _ _ R Hl Hs). cbn in T.
      destruct (IH2 Hl (steps_reach _ _ _ Hs T)) as ((k' & H' & C') & (r1 & k1 & H1 & D)). cbn in C. split.
      + exists (k + k'). split; [eapply ct_more; eauto|lia].
      + exists (COk (rest s')), k. split; [exact H|]. split.
        * exists k'. split; [exact H'|lia].
        * intros v' en2 s2 ->. destruct r1 as [q| |].
          -- destruct D as (_ & D). destruct (D _ _ _ eq_refl) as (l & -> & L). exists l. split; [reflexivity|cbn in L; lia].
          -- destruct D as (_ & s3 & D). injection D as -> _ _. exists (rev (v :: acc)). split; [reflexivity|]. rewrite rev_length. cbn. lia.
          -- destruct D as (_ & D). discriminate D.
    - intros rule e acc en s m x s' _ IH Hl Hs. destruct (IH Hl Hs) as (k & H & C). cbn [shape] in *. split.
      + exists k. split; [now apply ct_panic|exact C].
      + exists CPanic, k. split; [exact H|]. split; [exact C|reflexivity].
  Qed.
End Link.
