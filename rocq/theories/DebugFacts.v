(** The lines Debug prints: the runtime of Debug.v does what Engine.v does; the lines form
    calls within calls; positions; counts. *)
From Coq Require Import List NArith ZArith Bool String Arith Lia.
From Verif Require Import Bytes Utf8 F64 Ast Peg Actions Engine Parser GrammarGen QuoteFacts PosFacts Run EngineFacts
  Termination LimitFacts MemoFacts Stats StatsFacts Debug.
Import ListNotations.

(** ** The same outcome *)
Section Same.
  Variable o : settings.
  Variable g : grammar.

  Lemma restore_same p s d : fst (d_restore p s d) = restore p s.
  Proof. reflexivity. Qed.
  Lemma call_same name s d body r : (forall d, fst (body d) = r) -> fst (d_call name s d body) = r.
  Proof.
    intros H. unfold d_call. specialize (H (d_in name (s_pt s) d)). destruct (body _) as [r0 d0]. cbn in H. subst r0. now destruct r.
  Qed.
  Lemma dlit_same rule want start rs en : forall s d,
    fst (dlit_loop o rule want start rs en s d) = lit_loop o rule want start rs en s.
  Proof. induction rs as [|r rs IH]; intros s d; cbn [dlit_loop lit_loop]; [reflexivity|]. destruct (_ =? r)%N; [apply IH|reflexivity]. Qed.

  Variable f : string -> expr -> env -> st -> dbg -> out * dbg.
  Variable h : string -> expr -> env -> st -> out.
  Hypothesis Hf : forall rule e en s d, fst (f rule e en s d) = h rule e en s.

  Lemma dseq_same rule pt w es : forall acc en s d,
    fst (dseq_loop (f rule) pt w es acc en s d) = seq_loop (h rule) pt w es acc en s.
  Proof.
    induction es as [|e es IH]; intros acc en s d; cbn [dseq_loop seq_loop]; [reflexivity|].
    rewrite <- (Hf rule e en s d). destruct (f rule e en s d) as [[v en' s'|en' s'|m x s'|] d1]; cbn [fst]; try reflexivity. apply IH.
  Qed.
  Lemma dchoice_same rule es : forall en s d,
    fst (dchoice_loop (f rule) es en s d) = choice_loop (h rule) es en s.
  Proof.
    induction es as [|e es IH]; intros en s d; cbn [dchoice_loop choice_loop]; [reflexivity|].
    rewrite <- (Hf rule e [] s (d_note "cloneState" (s_pt s) d)). destruct (f rule e [] s _) as [[v en' s'|en' s'|m x s'|] d1]; cbn [fst]; try reflexivity. apply IH.
  Qed.
  Lemma dstar_same rule e k : forall acc en s d,
    fst (dstar_loop (f rule e []) k acc en s d) = star_loop (h rule e []) k acc en s.
  Proof.
    induction k as [|k IH]; intros acc en s d; cbn [dstar_loop star_loop]; [reflexivity|].
    rewrite <- (Hf rule e [] s d). destruct (f rule e [] s d) as [[v en' s'|en' s'|m x s'|] d1]; cbn [fst]; try reflexivity. apply IH.
  Qed.
  Lemma drule_same name e s d : fst (drule f name e s d) = h name e [] s.
  Proof.
    unfold drule. apply call_same. intros d'. rewrite <- (Hf name e [] s d'). now destruct (f name e [] s d').
  Qed.
  Lemma dstep_same k rule e en s d : fst (dstep o g f k rule e en s d) = step o g h k rule e en s.
  Proof.
    unfold dstep, step. destruct (over_limit o (tick s)); [reflexivity|].
    destruct e; try (apply call_same; intros d').
    - rewrite <- (Hf rule e en (tick s) d'). destruct (f rule e en (tick s) d') as [[v en' s'|en' s'|m x s'|] d1]; cbn [fst]; reflexivity.
    - reflexivity.
    - reflexivity.
    - now destruct (at_eof (tick s)).
    - now destruct (_ && _).
    - apply dlit_same.
    - apply dchoice_same.
    - apply dseq_same.
    - rewrite <- (Hf rule e [] (tick s) d'). destruct (f rule e [] (tick s) d') as [[v en' s'|en' s'|m x s'|] d1]; reflexivity.
    - rewrite <- (Hf rule e [] (set_mfinv (negb (s_mfinv (tick s))) (tick s)) (d_note "cloneState" (s_pt (tick s)) d')).
      destruct (f rule e [] (set_mfinv (negb (s_mfinv (tick s))) (tick s)) (d_note "cloneState" (s_pt (tick s)) d')) as [[v en' s'|en' s'|m x s'|] d1]; reflexivity.
    - rewrite <- (dstar_same rule e k [] en (tick s) d'). destruct (dstar_loop (f rule e []) k [] en (tick s) d') as [[v en' s'|en' s'|m x s'|] d1]; try reflexivity.
      destruct v; try reflexivity. now destruct l.
    - apply dstar_same.
    - rewrite <- (Hf rule e [] (tick s) d'). destruct (f rule e [] (tick s) d') as [[v en' s'|en' s'|m x s'|] d1]; reflexivity.
    - destruct (find_rule name g) as [e|]; [|reflexivity].
      rewrite <- (drule_same name e (tick s) d'). destruct (drule f name e (tick s) d') as [[v en' s'|en' s'|m x s'|] d1]; reflexivity.
  Qed.
End Same.
Theorem deval_same o g n : forall rule e en s d, fst (deval o g n rule e en s d) = eval o g n rule e en s.
Proof.
  induction n as [|n IH]; intros rule e en s d; [reflexivity|]. cbn [deval eval]. now apply dstep_same.
Qed.

(** ** Specification *)
(** The bytes of the input between two positions *)
Definition between (data : bytes) (p q : position) : bytes := firstn (p_off q - p_off p) (skipn (p_off p) data).
(** the rune of the input at a position (U+FFFD at the end) *)
Definition rune_at (data : bytes) (p : position) : N := fst (decode_rune (skipn (p_off p) data)).
(** the calls that have a line MATCH: rules and action expressions *)
Definition has_match (name : bytes) : bool := beqb name (b "parseActionExpr") || has_prefix (b "parseRule ") name.
(** A call of [name] that was entered at [p] and left at [q] has at its end the line MATCH
    with the text between [p] and [q] if it matched, and no such line if it did not match;
    then it left the position where it was ([strict]: nothing panicked). *)
Definition match_line (data : bytes) (strict : bool) (z : Z) (name : bytes) (p q : position) (m : list line) : Prop :=
  (m = [] /\ (strict = true -> has_match name = true -> q = p)) \/
  (has_match name = true /\ p_off p <= p_off q /\ m = [Line Match z q (between data p q) (rune_at data q)]).
(** Lines that are calls one after the other, with indents from [z] on: every call is a line
    ">", the lines of the calls within, which are indented by one blank more, perhaps the
    line MATCH, and a line "<" with the same name. *)
Inductive calls (data : bytes) (strict : bool) : Z -> list line -> Prop :=
| calls_nil z : calls data strict z []
| calls_next z name p q body m rest :
    calls data strict (z + 1) body -> match_line data strict (z + 1) name p q m -> calls data strict z rest ->
    calls data strict z (Line Enter (z + 1) p name (rune_at data p) :: body ++ m ++ Line Leave z q name (rune_at data q) :: rest).
(** a line ">" of the evaluation of an expression: the names of the functions that do it all
    start with "parse" *)
Definition expr_line (l : line) : bool :=
  match l_mark l with Enter => has_prefix (b "parse") (l_text l) && negb (has_prefix (b "parseRule ") (l_text l)) | _ => false end.
Definition expr_lines (ls : list line) : N := N.of_nat (List.length (filter expr_line ls)).

Lemma calls_app data st z a c : calls data st z a -> calls data st z c -> calls data st z (a ++ c).
Proof.
  induction 1 as [|z name p q body m rest Hb _ Hm Hr IH]; intros Hc; [exact Hc|].
  cbn [app]. rewrite <- !app_assoc. cbn [app]. constructor; auto.
Qed.
Lemma calls_weaken data z a st : calls data true z a -> calls data st z a.
Proof.
  induction 1 as [|z name p q body m rest Hb IHb Hm Hr IH]; constructor; auto.
  destruct Hm as [[-> Hm]|Hm]; [left; split; [reflexivity|auto]|now right].
Qed.
Lemma calls_indent data st z a : calls data st z a -> Forall (fun l => z <= l_indent l)%Z a.
Proof.
  induction 1 as [|z name p q body m rest Hb IHb Hm Hr IH]; [constructor|].
  constructor; [cbn; lia|]. apply Forall_app. split; [eapply Forall_impl; [|exact IHb]; cbn; lia|].
  apply Forall_app. split.
  - destruct Hm as [[-> _]|(_ & _ & ->)]; [constructor|]. constructor; [cbn; lia|constructor].
  - constructor; [cbn; lia|exact IH].
Qed.
Lemma exprs_app a c : expr_lines (a ++ c) = (expr_lines a + expr_lines c)%N.
Proof. unfold expr_lines. rewrite filter_app, app_length. lia. Qed.

(** ** Invariants *)
Section Inv.
  Variable o : settings.
  Variable g : grammar.
  Variable data : bytes.
  Hypothesis Hg : grammar_lits_ok g = true.

  Definition good_line (l : line) : Prop := true_pos data (l_pos l) /\ l_rune l = rune_at data (l_pos l).
  Definition rounds (r : out) : bool := match r with OPanic _ _ _ => false | _ => true end.
  (** one for the expression that the limit refused *)
  Definition refusal (r : out) : N := match r with OPanic _ _ s => if over_limit o s then 1 else 0 | _ => 0 end.
  Definition below (r : out) : Prop := match r with OPanic _ _ _ => True | OOk _ _ s | OFail _ s => over_limit o s = false | OFuel => True end.

  (** [d'] is [d] after printing [new] *)
  Definition adds (d d' : dbg) (new : list line) : Prop := d_depth d' = d_depth d /\ d_out d' = rev new ++ d_out d.
  Definition Good (c k : N) (s : st) (d : dbg) (x : out * dbg) : Prop :=
    fst x <> OFuel -> below (fst x) /\ exists new,
      adds d (snd x) new /\ calls data (rounds (fst x)) (d_depth d) new /\ Forall good_line new /\
      (s_cnt s + expr_lines new + refusal (fst x) = out_cnt (fst x))%N /\
      (N.of_nat (List.length new) + c + 10 * s_cnt s <= 10 * out_cnt (fst x) + k)%N.
  Definition end_pt (r : out) : option point := match r with OOk _ _ s | OFail _ s | OPanic _ _ s => Some (s_pt s) | OFuel => None end.
  (** the lines within a call of [name] that was entered at [p], up to [c] lines too many *)
  Definition Body (name : bytes) (p : point) (c : N) (s : st) (d : dbg) (x : out * dbg) : Prop :=
    fst x <> OFuel -> below (fst x) /\ exists body m,
      adds d (snd x) (body ++ m) /\ calls data (rounds (fst x)) (d_depth d) body /\ Forall good_line (body ++ m) /\
      (forall q, end_pt (fst x) = Some q -> match_line data (rounds (fst x)) (d_depth d) name (pt_pos p) (pt_pos q) m) /\
      (s_cnt s + expr_lines body + refusal (fst x) = out_cnt (fst x))%N /\
      (N.of_nat (List.length (body ++ m)) + 10 * s_cnt s <= 10 * out_cnt (fst x) + c)%N.

  Lemma good_print m text p d : Reach data p -> good_line (Line m (d_depth d) (pt_pos p) text (fst (decode_rune (pt_rest p)))).
  Proof. intros H. split; cbn; [now apply reach_true_pos|]. unfold rune_at. now rewrite (reach_rest _ _ H). Qed.
  Lemma rune_pt p : Reach data p -> fst (decode_rune (pt_rest p)) = rune_at data (pt_pos p).
  Proof. intros H. unfold rune_at. now rewrite (reach_rest _ _ H). Qed.

  Lemma adds_trans d1 d2 d3 a c : adds d1 d2 a -> adds d2 d3 c -> adds d1 d3 (a ++ c).
  Proof. intros [E1 E2] [E3 E4]. split; [congruence|]. now rewrite E4, E2, rev_app_distr, app_assoc. Qed.
  Lemma adds_nil d : adds d d [].
  Proof. now split. Qed.

  (** the two lines of cloneState, restoreState and restore *)
  Definition two (name : bytes) (z : Z) (p q : position) : list line :=
    [Line Enter (z + 1) p name (rune_at data p); Line Leave z q name (rune_at data q)].
  Lemma note_adds name p d : Reach data p -> adds d (d_note name p d) (two (b name) (d_depth d) (pt_pos p) (pt_pos p)).
  Proof.
    intros H. unfold d_note, d_leave, d_in, d_print, two, adds. cbn [d_depth d_out]. rewrite (rune_pt _ H). split; [lia|].
    cbn [rev app]. repeat f_equal; lia.
  Qed.
  Lemma restore_adds p s d : Reach data p -> Reach data (s_pt s) ->
    adds d (snd (d_restore p s d)) (two (b "restore") (d_depth d) (pt_pos (s_pt s)) (pt_pos p)) /\ s_pt (fst (d_restore p s d)) = p.
  Proof.
    intros H H'. unfold d_restore. cbn [fst snd]. rewrite (restore_pt data p s H H'). split; [|reflexivity].
    unfold d_leave, d_in, d_print, two, adds. cbn [d_depth d_out]. rewrite (rune_pt _ H), (rune_pt _ H'). split; [lia|].
    cbn [rev app]. repeat f_equal; lia.
  Qed.
  Lemma two_calls st name z p q : has_match name = false -> calls data st z (two name z p q).
  Proof.
    intros H. apply (calls_next data st z name p q [] [] []); [constructor| |constructor]. left. split; [reflexivity|congruence].
  Qed.
  Lemma two_good name z p q : Reach data p -> Reach data q -> Forall good_line (two name z (pt_pos p) (pt_pos q)).
  Proof. intros Hp Hq. repeat constructor; cbn; now apply reach_true_pos. Qed.
  Lemma two_exprs name z p q : has_prefix (b "parse") name = false -> expr_lines (two name z p q) = 0%N.
  Proof. intros H. unfold two, expr_lines, expr_line. cbn [filter l_mark l_text]. now rewrite H. Qed.

  (** a call: the lines around those of its body *)
  Lemma call_good name s d body c (e : N) : Reach data (s_pt s) ->
    (if has_prefix (b "parse") name && negb (has_prefix (b "parseRule ") name) then 1 else 0)%N = e ->
    (forall d, Body name (s_pt s) c s d (body d)) ->
    forall x, x = d_call name s d body -> fst x <> OFuel -> (forall q, end_pt (fst x) = Some q -> Reach data q) ->
    below (fst x) /\ exists new,
      adds d (snd x) new /\ calls data (rounds (fst x)) (d_depth d) new /\ Forall good_line new /\
      (s_cnt s + expr_lines new + refusal (fst x) = out_cnt (fst x) + e)%N /\
      (N.of_nat (List.length new) + 10 * s_cnt s <= 10 * out_cnt (fst x) + c + 2)%N.
  Proof.
    intros Hs He H x -> Hx Hq. unfold d_call in *. specialize (H (d_in name (s_pt s) d)).
    destruct (body (d_in name (s_pt s) d)) as [r d1]. unfold Body in H. cbn [fst snd] in *.
    assert (Hr : r <> OFuel) by (destruct r; auto).
    destruct (H Hr) as (Hb & bd & m & [A1 A2] & C & F & Hm & N1 & N2). clear H.
    cbn [d_depth d_in d_print] in A1, C, Hm. cbn [d_out d_in d_print] in A2.
    assert (Q : exists s', Reach data (s_pt s') /\ match_line data (rounds r) (d_depth d + 1) name (pt_pos (s_pt s)) (pt_pos (s_pt s')) m /\
      (match r with OOk _ _ s' | OFail _ s' | OPanic _ _ s' => (r, d_leave name (s_pt s') d1) | OFuel => (r, d1) end) = (r, d_leave name (s_pt s') d1)).
    { destruct r; try congruence; exists s0; (split; [now apply Hq|]; split; [now apply Hm|reflexivity]). }
    destruct Q as (s' & Rs & M & ->). cbn [fst snd]. split; [exact Hb|].
    set (z := d_depth d) in *.
    exists (Line Enter (z + 1) (pt_pos (s_pt s)) name (rune_at data (pt_pos (s_pt s))) :: bd ++ m ++ [Line Leave z (pt_pos (s_pt s')) name (rune_at data (pt_pos (s_pt s')))]).
    assert (E : Forall (fun l => expr_line l = false) m).
    { destruct M as [[-> _]|(_ & _ & ->)]; repeat constructor. }
    assert (E0 : expr_lines m = 0%N).
    { unfold expr_lines. clear - E. induction E as [|l m E _ IH]; [reflexivity|]. cbn [filter]. now rewrite E. }
    split; [|split; [|split; [|split]]].
    - unfold adds, d_leave, d_print. cbn [d_depth d_out]. split; [lia|].
      rewrite A2, A1. cbn [rev]. rewrite !rev_app_distr. cbn [rev app d_depth]. rewrite <- !app_assoc. cbn [app].
      rewrite (rune_pt _ Rs), (rune_pt _ Hs). replace (z + 1 - 1)%Z with z by lia. reflexivity.
    - apply calls_next; auto. constructor.
    - apply Forall_app in F as [F1 F2]. constructor; [split; cbn; [now apply reach_true_pos|reflexivity]|].
      apply Forall_app. split; [exact F1|]. apply Forall_app. split; [exact F2|]. constructor; [|constructor].
      split; cbn; [now apply reach_true_pos|reflexivity].
    - assert (G : expr_lines (Line Enter (z + 1) (pt_pos (s_pt s)) name (rune_at data (pt_pos (s_pt s))) :: bd ++ m ++ [Line Leave z (pt_pos (s_pt s')) name (rune_at data (pt_pos (s_pt s')))]) = (e + expr_lines bd)%N).
      { match goal with |- expr_lines (?l :: ?t) = _ => change (l :: t) with ([l] ++ t) end. rewrite !exprs_app, E0.
        change (expr_lines [Line Leave z (pt_pos (s_pt s')) name (rune_at data (pt_pos (s_pt s')))]) with 0%N.
        rewrite <- He. unfold expr_lines at 1, expr_line. cbn [filter l_mark l_text]. destruct (_ && _); cbn [List.length]; lia. }
      rewrite G. lia.
    - rewrite app_length in N2. cbn [List.length]. rewrite !app_length. cbn [List.length]. lia.
  Qed.

  Lemma body_of_good name p k s d x : has_match name = false -> Good 0 k s d x -> Body name p k s d x.
  Proof.
    intros H G Hx. destruct (G Hx) as (B & new & A & C & F & N1 & N2). split; [exact B|]. exists new, []. rewrite app_nil_r.
    split; [exact A|]. split; [exact C|]. split; [exact F|]. split; [|split; [exact N1|lia]].
    intros q _. left. split; [reflexivity|congruence].
  Qed.
  Lemma good_more c k c' k' s d x : Good c k s d x -> (c' + k <= k' + c)%N -> Good c' k' s d x.
  Proof.
    intros G H Hx. destruct (G Hx) as (B & new & A & C & F & N1 & N2). split; [exact B|]. exists new.
    repeat (split; [assumption|]). lia.
  Qed.
  (** no line more *)
  Lemma good_same k s d r : rounds r = true -> below r -> (r <> OFuel -> out_cnt r = s_cnt s) -> Good 0 k s d (r, d).
  Proof.
    intros R B E Hx. cbn [fst snd] in *. specialize (E Hx). split; [exact B|]. exists []. split; [apply adds_nil|]. split; [constructor|]. split; [constructor|].
    cbn [List.length fst]. split; [|lia]. destruct r; try discriminate; cbn [refusal] in *; unfold expr_lines; cbn [filter List.length]; lia.
  Qed.
  (** lines before *)
  Lemma good_before c k n s d d1 new x : adds d d1 new -> d_depth d1 = d_depth d -> (forall st, calls data st (d_depth d) new) -> Forall good_line new ->
    expr_lines new = 0%N -> N.of_nat (List.length new) = n -> Good c k s d1 x -> Good c (k + n) s d x.
  Proof.
    intros A D C F E L G Hx. destruct (G Hx) as (B & new' & A' & C' & F' & N1 & N2). split; [exact B|]. exists (new ++ new').
    split; [eapply adds_trans; eauto|]. split; [apply calls_app; [apply C|congruence]|]. split; [apply Forall_app; auto|].
    rewrite exprs_app, app_length, E. split; lia.
  Qed.
  Lemma good_note c k s d name p x : has_match (b name) = false -> has_prefix (b "parse") (b name) = false ->
    Reach data p -> Good c k s (d_note name p d) x -> Good c (k + 2) s d x.
  Proof.
    intros M P R. pose proof (note_adds name p d R) as A. apply (good_before _ _ _ _ _ _ _ _ A).
    - apply A.
    - intros. now apply two_calls.
    - now apply two_good.
    - now apply two_exprs.
    - reflexivity.
  Qed.
  Lemma restore_cnt p s : s_cnt (restore p s) = s_cnt s.
  Proof. unfold restore. now destruct (_ =? _). Qed.
  Lemma over_cnt s s' : s_cnt s' = s_cnt s -> over_limit o s' = over_limit o s.
  Proof. intros H. unfold over_limit. now rewrite H. Qed.

  Lemma dlit_good rule want start rs en s d :
    forallb (fun r => negb (r =? RuneError)%N) rs = true -> Reach data start -> Reach data (s_pt s) -> over_limit o s = false ->
    Good 0 4 s d (dlit_loop o rule want start rs en s d).
  Proof.
    assert (Fa : forall x p w s, s_cnt (fail_at x p w s) = s_cnt s).
    { intros. unfold fail_at. destruct (Bool.eqb _ _); auto. destruct (_ <? _); auto. now destruct (_ <? _). }
    assert (Rd : forall rule s, s_cnt (read o rule s) = s_cnt s).
    { intros. unfold read, check_rune. now destruct (_ && _). }
    intros Hr Hp. revert s. induction rs as [|r rs IH]; intros s Hs L; cbn [dlit_loop].
    - apply good_same; [reflexivity| |]; cbn; [rewrite (over_cnt s); auto|auto].
    - cbn in Hr. apply andb_true_iff in Hr as [Hr1 Hr2].
      destruct (N.eqb_spec (fst (decode_rune (pt_rest (s_pt s)))) r) as [E|E].
      + assert (Hn : pt_rest (s_pt s) <> []).
        { apply decode_nonempty. rewrite E. apply negb_true_iff, N.eqb_neq in Hr1. exact Hr1. }
        specialize (IH Hr2 (read o (Some rule) s)). rewrite read_pt in IH.
        specialize (IH (reach_next _ _ Hs Hn)). rewrite (over_cnt s) in IH by apply Rd. specialize (IH L).
        unfold Good in *. rewrite Rd in IH. exact IH.
      + assert (Hs' : Reach data (s_pt (fail_at false (pt_pos start) want s))) by now rewrite fail_at_pt.
        destruct (restore_adds start (fail_at false (pt_pos start) want s) d Hp Hs') as [A _].
        unfold d_restore in *. cbn [fst snd] in *.
        intros _. cbn [fst snd]. split; [cbn; rewrite (over_cnt s); [auto|now rewrite restore_cnt]|].
        eexists. split; [exact A|]. split; [now apply two_calls|]. split; [now apply two_good|]. rewrite two_exprs by reflexivity.
        cbn [refusal out_cnt]. rewrite restore_cnt, Fa. cbn [List.length two]. split; lia.
  Qed.

  Section Sub.
    Variable f : string -> expr -> env -> st -> dbg -> out * dbg.
    Hypothesis Ht : forall rule e en s d, lits_ok e = true -> Reach data (s_pt s) -> fst (f rule e en s d) <> OFuel ->
      tracked (s_pt s) (s_warns s) (fst (f rule e en s d)).
    Hypothesis Hgood : forall rule e en s d, lits_ok e = true -> Reach data (s_pt s) -> Good 4 0 s d (f rule e en s d).

    (** the next state *)
    Lemma next_ok rule e en s d v en' s' d1 : lits_ok e = true -> Reach data (s_pt s) -> f rule e en s d = (OOk v en' s', d1) ->
      Reach data (s_pt s') /\ over_limit o s' = false.
    Proof.
      intros He Hs E. pose proof (Ht rule e en s d He Hs) as T. pose proof (Hgood rule e en s d He Hs) as G. unfold Good in G. rewrite E in *. cbn [fst snd] in *.
      split; [|now apply G]. eapply steps_reach; [exact Hs|]. now apply T.
    Qed.
    Lemma next_fail rule e en s d en' s' d1 : lits_ok e = true -> Reach data (s_pt s) -> f rule e en s d = (OFail en' s', d1) ->
      s_pt s' = s_pt s /\ over_limit o s' = false.
    Proof.
      intros He Hs E. pose proof (Ht rule e en s d He Hs) as T. pose proof (Hgood rule e en s d He Hs) as G. unfold Good in G. rewrite E in *. cbn [fst snd] in *.
      split; [|now apply G]. now apply T.
    Qed.
    (** one evaluation and what follows *)
    Lemma good_then rule e en s d r d1 s1 c k x : lits_ok e = true -> Reach data (s_pt s) -> f rule e en s d = (r, d1) ->
      match r with OOk _ _ s' | OFail _ s' => s_cnt s1 = s_cnt s' | _ => False end ->
      Good c k s1 d1 x -> Good (4 + c) k s d x.
    Proof.
      intros He Hs E Hr G. pose proof (Hgood rule e en s d He Hs) as G0. unfold Good in G0. rewrite E in G0. cbn [fst snd] in G0.
      intros Hx. destruct G0 as (B0 & new0 & A0 & C0 & F0 & M1 & M2); [destruct r; try discriminate; contradiction|].
      destruct (G Hx) as (B & new & A & C & F & N1 & N2). split; [exact B|].
      exists (new0 ++ new). split; [eapply adds_trans; eauto|].
      destruct A0 as [D0 _]. rewrite D0 in C.
      split. { apply calls_app; [|exact C]. destruct r; try contradiction; cbn [rounds] in C0; destruct (rounds (fst x)); auto using calls_weaken. }
      split; [apply Forall_app; auto|]. rewrite exprs_app, app_length.
      assert (Z : refusal r = 0%N /\ out_cnt r = s_cnt s1) by (destruct r; try contradiction; cbn; auto). destruct Z as [Z1 Z2]. rewrite Z1, Z2 in *. split; lia.
    Qed.
    (** an evaluation that panics *)
    Lemma good_stop rule e en s d m x s' d1 : lits_ok e = true -> Reach data (s_pt s) -> f rule e en s d = (OPanic m x s', d1) ->
      Good 4 0 s d (OPanic m x s', d1).
    Proof. intros He Hs E. rewrite <- E. now apply Hgood. Qed.

    Lemma dseq_good rule pt w es : forall acc en s d, forallb lits_ok es = true -> Reach data pt -> Reach data (s_pt s) -> over_limit o s = false ->
      Good 0 0 s d (dseq_loop (f rule) pt w es acc en s d).
    Proof.
      induction es as [|e es IH]; intros acc en s d He Hp Hs L; cbn [dseq_loop].
      - apply good_same; cbn; auto.
      - cbn in He. apply andb_true_iff in He as [He1 He2].
        destruct (f rule e en s d) as [[v en' s'|en' s'|m x s'|] d1] eqn:E.
        + destruct (next_ok _ _ _ _ _ _ _ _ _ He1 Hs E) as [Rs L'].
          eapply good_more; [eapply (good_then _ _ _ _ _ _ _ s' 0 0 _ He1 Hs E); [reflexivity|]|].
          * apply IH; auto.
          * lia.
        + destruct (next_fail _ _ _ _ _ _ _ _ He1 Hs E) as [Ps L'].
          assert (Rs : Reach data (s_pt s')) by now rewrite Ps.
          assert (Rs' : Reach data (s_pt (set_warns w s'))) by exact Rs.
          eapply good_more; [eapply (good_then _ _ _ _ _ _ _ s' 0 4 _ He1 Hs E); [reflexivity|]|].
          * change 4%N with (2 + 2)%N. apply (good_note _ _ _ _ "restoreState" (s_pt s')); auto.
            set (d2 := d_note "restoreState" (s_pt s') d1).
            destruct (restore_adds pt (set_warns w s') d2 Hp Rs') as [A _].
            unfold d_restore in *. cbn [fst snd] in A. intros _. cbn [fst snd]. split.
            { cbn. rewrite (over_cnt s'); [exact L'|]. now rewrite restore_cnt. }
            eexists. split; [exact A|]. split; [now apply two_calls|]. split; [now apply two_good|]. rewrite two_exprs by reflexivity.
            cbn [refusal out_cnt]. rewrite restore_cnt. cbn [List.length two]. change (s_cnt (set_warns w s')) with (s_cnt s'). split; lia.
          * lia.
        + eapply good_more; [eapply good_stop; eauto|]. lia.
        + intros H. now contradiction H.
    Qed.
    Lemma dchoice_good rule es : forall en s d, forallb lits_ok es = true -> Reach data (s_pt s) -> over_limit o s = false ->
      Good 0 0 s d (dchoice_loop (f rule) es en s d).
    Proof.
      induction es as [|e es IH]; intros en s d He Hs L; cbn [dchoice_loop].
      - apply good_same; cbn; auto.
      - cbn in He. apply andb_true_iff in He as [He1 He2].
        apply good_more with (c := 2%N) (k := 2%N); [|lia]. change 2%N with (0 + 2)%N at 2. apply (good_note _ _ _ _ "cloneState" (s_pt s)); auto.
        set (d0 := d_note "cloneState" (s_pt s) d).
        destruct (f rule e [] s d0) as [[v en' s'|en' s'|m x s'|] d1] eqn:E.
        + destruct (next_ok _ _ _ _ _ _ _ _ _ He1 Hs E) as [Rs L'].
          eapply good_more; [eapply (good_then _ _ _ _ _ _ _ s' 0 0 _ He1 Hs E); [reflexivity|]|].
          * apply good_same; cbn; auto.
          * lia.
        + destruct (next_fail _ _ _ _ _ _ _ _ He1 Hs E) as [Ps L'].
          assert (Rs : Reach data (s_pt s')) by now rewrite Ps.
          eapply good_more; [eapply (good_then _ _ _ _ _ _ _ s' 0 2 _ He1 Hs E); [reflexivity|]|].
          * change 2%N with (0 + 2)%N. apply (good_note _ _ _ _ "restoreState" (s_pt s')); auto.
            apply (IH en (set_warns (s_warns s) s')); auto.
          * lia.
        + eapply good_more; [eapply good_stop; eauto|]. lia.
        + intros H. now contradiction H.
    Qed.
    Lemma dstar_good rule e k : lits_ok e = true -> forall acc en s d, Reach data (s_pt s) -> over_limit o s = false ->
      Good 0 0 s d (dstar_loop (f rule e []) k acc en s d).
    Proof.
      intros He. induction k as [|k IH]; intros acc en s d Hs L; cbn [dstar_loop]; [intros H; now contradiction H|].
      destruct (f rule e [] s d) as [[v en' s'|en' s'|m x s'|] d1] eqn:E.
      - destruct (next_ok _ _ _ _ _ _ _ _ _ He Hs E) as [Rs L'].
        eapply good_more; [eapply (good_then _ _ _ _ _ _ _ s' 0 0 _ He Hs E); [reflexivity|]; now apply IH|]. lia.
      - destruct (next_fail _ _ _ _ _ _ _ _ He Hs E) as [Ps L'].
        eapply good_more; [eapply (good_then _ _ _ _ _ _ _ s' 0 0 _ He Hs E); [reflexivity|]|].
        + apply good_same; cbn; auto.
        + lia.
      - eapply good_more; [eapply good_stop; eauto|]. lia.
      - intros H. now contradiction H.
    Qed.

    Lemma match_adds start v en s' d : Reach data start -> Reach data (s_pt s') ->
      adds d (d_match start (OOk v en s') d)
        [Line Match (d_depth d) (pt_pos (s_pt s')) (between data (pt_pos start) (pt_pos (s_pt s'))) (rune_at data (pt_pos (s_pt s')))].
    Proof.
      intros H H'. unfold d_match, d_print, adds. cbn [d_depth d_out rev app]. rewrite (rune_pt _ H'). split; [reflexivity|].
      unfold slice_from, between. now rewrite (reach_rest _ _ H).
    Qed.

    Lemma drule_good name e s d : lits_ok e = true -> Reach data (s_pt s) -> Good 0 2 s d (drule f name e s d).
    Proof.
      intros He Hs Hx.
      assert (P1 : has_prefix (b "parseRule ") (b "parseRule " ++ b name) = true) by reflexivity.
      assert (HM : has_match (b "parseRule " ++ b name) = true) by (unfold has_match; rewrite P1; apply orb_true_r).
      assert (Same : fst (drule f name e s d) = fst (f name e [] s (d_in (b "parseRule " ++ b name) (s_pt s) d))).
      { unfold drule, d_call. destruct (f name e [] s _) as [r d1]. now destruct r. }
      destruct (call_good (b "parseRule " ++ b name) s d
                 (fun d => let '(r, d1) := f name e [] s d in (r, d_match (s_pt s) r d1)) 0%N 0%N Hs) with (x := drule f name e s d) as (B & new & A & C & F & N1 & N2); auto.
      - clear d Hx Same. intros d. destruct (f name e [] s d) as [r d1] eqn:E. intros Hr. cbn [fst snd] in *.
        pose proof (Ht name e [] s d He Hs) as T. pose proof (Hgood name e [] s d He Hs) as G. unfold Good in G. rewrite E in T, G. cbn [fst snd] in T, G.
        specialize (T Hr). destruct (G Hr) as (B & new & A & C & F & N1 & N2). split; [exact B|].
        destruct r as [v en' s'|en' s'|m x s'|]; try congruence; cbn [rounds tracked end_pt] in *.
        + pose proof (steps_reach _ _ _ Hs T) as Rs.
          eexists new, _. split; [eapply adds_trans; [exact A|now apply match_adds]|]. split; [exact C|].
          split; [apply Forall_app; split; [exact F|repeat constructor; cbn; now apply reach_true_pos]|].
          split; [|split; [exact N1|rewrite app_length; cbn [List.length]; lia]].
          intros q Hq. injection Hq as <-. right. split; [exact HM|]. split; [now apply steps_off|]. destruct A as [-> _]. reflexivity.
        + exists new, []. rewrite app_nil_r. split; [exact A|]. split; [exact C|]. split; [exact F|]. split; [|split; [exact N1|lia]].
          intros q Hq. injection Hq as <-. left. split; [reflexivity|]. intros _ _. destruct T as [-> _]. reflexivity.
        + exists new, []. rewrite app_nil_r. split; [exact A|]. split; [exact C|]. split; [exact F|]. split; [|split; [exact N1|lia]].
          intros q Hq. left. split; [reflexivity|]. discriminate.
      - intros q Hq. rewrite Same in *. pose proof (Ht name e [] s _ He Hs Hx) as T.
        destruct (fst (f name e [] s _)); try congruence; cbn [end_pt tracked] in *; injection Hq as <-;
          [eapply steps_reach; eauto|destruct T as [-> _]; exact Hs|eapply steps_reach; eauto].
      - split; [exact B|]. exists new. repeat (split; [assumption|]). split; lia.
    Qed.

    Lemma act_body rule a e en s d : lits_ok e = true -> Reach data (s_pt s) ->
      Body (b "parseActionExpr") (s_pt s) 4 s d
        (let '(r, d1) := f rule e en s d in
         match r with
         | OOk _ en' s1 =>
             let text := slice_from (s_pt s) s1 in
             let pos := pt_pos (s_pt s) in
             let s2 := set_cur pos text s1 in
             let d2 := d_note "cloneState" (s_pt s2) d1 in
             let res := match run_action (o_ignore o) (s_warns s2) a en' pos text with
                        | RVal v => OOk v en' s2
                        | RErr v m => OOk v en' (add_err_at (Some rule) m pos s2)
                        | RPanic m => OPanic m rule s2
                        end in
             (res, match res with
                   | OOk _ _ s3 => d_match (s_pt s) res (d_note "restoreState" (s_pt s3) d2)
                   | _ => d2
                   end)
         | x => (x, d1)
         end).
    Proof.
      intros He Hs. destruct (f rule e en s d) as [r d1] eqn:E.
      pose proof (Ht rule e en s d He Hs) as T. pose proof (Hgood rule e en s d He Hs) as G. unfold Good in G. rewrite E in T, G. cbn [fst snd] in T, G.
      destruct r as [v en' s1|en' s1|m x s1|]; cbv zeta.
      - specialize (T ltac:(discriminate)). destruct (G ltac:(discriminate)) as (B & new & A & C & F & N1 & N2). cbn [tracked rounds below refusal out_cnt] in *.
        pose proof (steps_reach _ _ _ Hs T) as Rs.
        set (s2 := set_cur (pt_pos (s_pt s)) (slice_from (s_pt s) s1) s1).
        set (d2 := d_note "cloneState" (s_pt s2) d1).
        assert (A2 : adds d1 d2 (two (b "cloneState") (d_depth d1) (pt_pos (s_pt s1)) (pt_pos (s_pt s1)))) by (apply (note_adds "cloneState" (s_pt s1)); exact Rs).
        assert (D1 : d_depth d1 = d_depth d) by apply A. assert (D2 : d_depth d2 = d_depth d) by (destruct A2 as [K _]; congruence).
        assert (OKcase : forall v' s3, s_pt s3 = s_pt s1 -> s_cnt s3 = s_cnt s1 ->
          Body (b "parseActionExpr") (s_pt s) 4 s d (OOk v' en' s3, d_match (s_pt s) (OOk v' en' s3) (d_note "restoreState" (s_pt s3) d2))).
        { intros v' s3 E3 K3 _. cbn [fst snd below rounds refusal out_cnt end_pt]. split; [rewrite (over_cnt s1); auto|]. rewrite E3.
          pose proof (note_adds "restoreState" (s_pt s1) d2 Rs) as A3.
          set (d3 := d_note "restoreState" (s_pt s1) d2) in *. assert (D3 : d_depth d3 = d_depth d) by (destruct A3 as [K _]; congruence).
          assert (Rs3 : Reach data (s_pt s3)) by now rewrite E3.
          pose proof (match_adds (s_pt s) v' en' s3 d3 Hs Rs3) as A4.
          eexists ((new ++ two (b "cloneState") (d_depth d1) (pt_pos (s_pt s1)) (pt_pos (s_pt s1))) ++ two (b "restoreState") (d_depth d2) (pt_pos (s_pt s1)) (pt_pos (s_pt s1))), _.
          split; [eapply adds_trans; [eapply adds_trans; [eapply adds_trans; [exact A|exact A2]|exact A3]|exact A4]|].
          split; [apply calls_app; [apply calls_app; [exact C|rewrite D1; now apply two_calls]|rewrite D2; now apply two_calls]|].
          split. { repeat (apply Forall_app; split); auto; try (now apply two_good). repeat constructor; cbn; now apply reach_true_pos. }
          split; [|split].
          - intros q Hq. injection Hq as <-. right. split; [reflexivity|]. rewrite E3. split; [now apply steps_off|]. now rewrite D3.
          - rewrite !exprs_app, !two_exprs by reflexivity. lia.
          - rewrite !app_length. cbn [List.length two]. lia. }
        destruct (run_action _ _ _ _ _ _) as [v'|v' m|m].
        + apply OKcase; reflexivity.
        + apply OKcase; reflexivity.
        + intros _. cbn [fst snd below rounds end_pt]. split; [exact I|].
          eexists (new ++ two (b "cloneState") (d_depth d1) (pt_pos (s_pt s1)) (pt_pos (s_pt s1))), []. rewrite app_nil_r.
          split; [eapply adds_trans; [exact A|exact A2]|].
          split; [apply calls_app; [now apply calls_weaken|rewrite D1; now apply two_calls]|].
          split. { apply Forall_app; split; auto. now apply two_good. }
          split; [intros q _; left; split; [reflexivity|discriminate]|].
          cbn [refusal out_cnt]. rewrite (over_cnt s1) by reflexivity. rewrite B, exprs_app, two_exprs by reflexivity.
          rewrite app_length. cbn [List.length two]. change (s_cnt s2) with (s_cnt s1). split; lia.
      - intros Hr. destruct (G Hr) as (B & new & A & C & F & N1 & N2). cbn [fst snd]. split; [exact B|]. exists new, []. rewrite app_nil_r.
        split; [exact A|]. split; [exact C|]. split; [exact F|]. split; [|split; [exact N1|lia]].
        intros q Hq. injection Hq as <-. left. split; [reflexivity|]. intros _ _. destruct (T Hr) as [-> _]. reflexivity.
      - intros Hr. destruct (G Hr) as (B & new & A & C & F & N1 & N2). cbn [fst snd]. split; [exact B|]. exists new, []. rewrite app_nil_r.
        split; [exact A|]. split; [exact C|]. split; [exact F|]. split; [|split; [exact N1|lia]].
        intros q Hq. left. split; [reflexivity|]. discriminate.
      - intros Hr. now contradiction Hr.
    Qed.

    (** one evaluation, and the outcome made from its outcome with the state as it is *)
    Lemma pass_good rule e en s d (k : out -> out) c kk : lits_ok e = true -> Reach data (s_pt s) ->
      (forall r, r <> OFuel -> rounds (k r) = rounds r /\ refusal (k r) = refusal r /\ out_cnt (k r) = out_cnt r /\ (below r -> below (k r))) -> k OFuel = OFuel ->
      (c <= kk + 4)%N ->
      Good c kk s d (let '(r, d1) := f rule e en s d in (k r, d1)).
    Proof.
      intros He Hs K KF L. pose proof (Hgood rule e en s d He Hs) as G. unfold Good in *. destruct (f rule e en s d) as [r d1]. cbn [fst snd] in *.
      intros Hx. assert (Hr : r <> OFuel) by congruence. destruct (G Hr) as (B & new & A & C & F & N1 & N2).
      destruct (K r Hr) as (-> & -> & -> & KB). split; [auto|]. exists new. repeat (split; [assumption|]). lia.
    Qed.

    Lemma map_good s d c kk (k : out -> out) x :
      (forall r, r <> OFuel -> rounds (k r) = rounds r /\ refusal (k r) = refusal r /\ out_cnt (k r) = out_cnt r /\ (below r -> below (k r))) -> k OFuel = OFuel ->
      Good c kk s d x -> Good c kk s d (k (fst x), snd x).
    Proof.
      intros K KF G Hx. cbn [fst snd] in *. assert (Hr : fst x <> OFuel) by congruence. destruct (G Hr) as (B & new & A & C & F & N1 & N2).
      destruct (K _ Hr) as (E1 & E2 & E3 & KB). split; [auto|]. exists new. rewrite E1, E2, E3. repeat (split; [assumption|]). lia.
    Qed.

    Variable h : string -> expr -> env -> st -> out.
    Hypothesis Hsame : forall rule e en s d, fst (f rule e en s d) = h rule e en s.

    Lemma expr_call name s d body : Reach data (s_pt s) ->
      has_prefix (b "parse") name = true -> has_prefix (b "parseRule ") name = false ->
      (forall d, Body name (s_pt s) 4 (tick s) d (body d)) ->
      (fst (d_call name (tick s) d body) <> OFuel -> forall q, end_pt (fst (d_call name (tick s) d body)) = Some q -> Reach data q) ->
      Good 4 0 s d (d_call name (tick s) d body).
    Proof.
      intros Hs P1 P2 H Q Hx.
      destruct (call_good name (tick s) d body 4 1 Hs) with (x := d_call name (tick s) d body) as (B & new & A & C & F & N1 & N2); auto.
      { now rewrite P1, P2. }
      split; [exact B|]. exists new. repeat (split; [assumption|]). cbn [s_cnt tick set_cnt] in *. split; lia.
    Qed.

    Lemma dstep_good k rule e en s d : lits_ok e = true -> Reach data (s_pt s) ->
      (fst (dstep o g f k rule e en s d) <> OFuel -> forall q, end_pt (fst (dstep o g f k rule e en s d)) = Some q -> Reach data q) ->
      Good 4 0 s d (dstep o g f k rule e en s d).
    Proof.
      intros He Hs. unfold dstep. destruct (over_limit o (tick s)) eqn:L.
      { intros _ _. cbn [fst snd below rounds refusal out_cnt]. split; [exact I|]. exists []. split; [apply adds_nil|]. split; [constructor|]. split; [constructor|].
        rewrite L. unfold expr_lines. cbn [filter List.length s_cnt tick set_cnt]. split; lia. }
      assert (Hp : Reach data (s_pt (tick s))) by exact Hs.
      destruct e as [a e|p|c| |want chars ranges inv|want runes|es|es|l e|e|e|e|e|name];
        cbv zeta; intros Hq; (apply expr_call; [exact Hs|reflexivity|reflexivity| |exact Hq]); clear Hq d; intros d; cbn beta.
      - now apply (act_body rule a e en (tick s) d).
      - apply body_of_good; [reflexivity|]. apply good_more with (c := 0%N) (k := (2 + 2)%N); [|lia].
        apply (good_note _ _ _ _ "cloneState" (s_pt (tick s))); auto. set (d1 := d_note "cloneState" (s_pt (tick s)) d).
        destruct p as [|m|m]; cbn [run_predicate].
        + apply (good_note 0 0 _ _ "restoreState" (s_pt (tick s))); auto. apply good_same; cbn; auto.
        + apply (good_note 0 0 _ _ "restoreState" (s_pt (push_error (b m) (tick s)))); auto; [rewrite push_error_pt; exact Hp|].
          assert (Pe : s_cnt (push_error (b m) (tick s)) = s_cnt (tick s)).
          { unfold push_error. destruct (s_ff _); auto. destruct (_ <? _); auto. destruct (_ =? _); auto. now destruct (existsb _ _). }
          apply good_same; [reflexivity|cbn; now rewrite (over_cnt (tick s))|auto].
        + unfold fatal_error. cbv iota beta. set (s2 := set_ff _ (tick s)). intros _. cbn [fst snd below rounds refusal out_cnt]. split; [exact I|].
          exists []. split; [apply adds_nil|]. split; [constructor|]. split; [constructor|]. rewrite (over_cnt (tick s)) by reflexivity. rewrite L.
          unfold expr_lines. cbn [filter List.length]. change (s_cnt s2) with (s_cnt (tick s)). split; lia.
      - apply body_of_good; [reflexivity|]. assert (E : s_cnt (run_state o c (tick s)) = s_cnt (tick s)).
        { destruct c; cbn; [now destruct (s_warns s)|now destruct (_ && _)]. }
        apply good_same; [reflexivity|cbn [below]; now rewrite (over_cnt (tick s))|auto].
      - apply body_of_good; [reflexivity|]. pose proof (prim_cnt o g rule EAny en (tick s) _ eq_refl) as E. cbn [prim_out] in E.
        destruct (at_eof (tick s)); (apply good_same; [reflexivity|cbn [below]; now rewrite (over_cnt (tick s))|auto]).
      - apply body_of_good; [reflexivity|]. pose proof (prim_cnt o g rule (EClass want chars ranges inv) en (tick s) _ eq_refl) as E. cbn [prim_out] in E.
        destruct (_ && _); (apply good_same; [reflexivity|cbn [below]; now rewrite (over_cnt (tick s))|auto]).
      - apply body_of_good; [reflexivity|]. now apply dlit_good.
      - apply body_of_good; [reflexivity|]. eapply good_more; [now apply dchoice_good|lia].
      - apply body_of_good; [reflexivity|]. apply good_more with (c := 0%N) (k := (0 + 2)%N); [|lia].
        apply (good_note _ _ _ _ "cloneState" (s_pt (tick s))); auto. now apply dseq_good.
      - apply body_of_good; [reflexivity|].
        replace (let '(r, d1) := f rule e [] (tick s) d in match r with OOk v _ s' => (OOk v (bind l v en) s', d1) | OFail _ s' => (OFail en s', d1) | x => (x, d1) end)
          with (let '(r, d1) := f rule e [] (tick s) d in (lab_out l en r, d1)) by (destruct (f rule e [] (tick s) d) as [[]]; reflexivity).
        apply (pass_good rule e [] (tick s) d (lab_out l en)); auto; [|lia]. intros r _; destruct r; cbn; auto.
      - apply body_of_good; [reflexivity|]. apply good_more with (c := 2%N) (k := (4 + 2)%N); [|lia].
        apply (good_note _ _ _ _ "cloneState" (s_pt (tick s))); auto. set (d1 := d_note "cloneState" (s_pt (tick s)) d).
        set (s0 := set_mfinv (negb (s_mfinv (tick s))) (tick s)).
        assert (Fin : forall s' d2, Reach data (s_pt s') -> over_limit o s' = false ->
          let y := restore (s_pt (tick s)) (set_warns (s_warns (tick s)) (set_mfinv (negb (s_mfinv s')) s')) in
          s_cnt y = s_cnt s' /\
          (forall r, match r with OOk _ _ t | OFail _ t => t = y | _ => False end ->
           Good 0 4 s' d2 (r, snd (d_restore (s_pt (tick s)) (set_warns (s_warns (tick s)) (set_mfinv (negb (s_mfinv s')) s')) (d_note "restoreState" (s_pt s') d2))))).
        { intros s' d2 Rs L'. cbv zeta. split; [now rewrite restore_cnt|]. intros r Hr.
          change 4%N with (2 + 2)%N. apply (good_note _ _ _ _ "restoreState" (s_pt s')); auto. set (d3 := d_note "restoreState" (s_pt s') d2).
          assert (Rs' : Reach data (s_pt (set_warns (s_warns (tick s)) (set_mfinv (negb (s_mfinv s')) s')))) by exact Rs.
          destruct (restore_adds (s_pt (tick s)) _ d3 Hs Rs') as [A _].
          assert (Cy : s_cnt (restore (s_pt (tick s)) (set_warns (s_warns (tick s)) (set_mfinv (negb (s_mfinv s')) s'))) = s_cnt s') by now rewrite restore_cnt.
          intros _. cbn [fst snd]. split. { destruct r; try contradiction; subst; cbn [below]; now rewrite (over_cnt s'). }
          eexists. split; [exact A|]. split; [now apply two_calls|]. split; [now apply two_good|]. rewrite two_exprs by reflexivity.
          assert (Z : refusal r = 0%N /\ out_cnt r = s_cnt s') by (destruct r; try contradiction; subst; cbn [out_cnt refusal]; auto).
          destruct Z as [-> ->]. cbn [List.length two]. split; lia. }
        change (Good 2 4 s0 d1 (let '(r, d2) := f rule e [] s0 d1 in
          match r with
          | OOk _ _ s' => let '(s2, d3) := d_restore (s_pt (tick s)) (set_warns (s_warns (tick s)) (set_mfinv (negb (s_mfinv s')) s')) (d_note "restoreState" (s_pt s') d2) in (OFail en s2, d3)
          | OFail _ s' => let '(s2, d3) := d_restore (s_pt (tick s)) (set_warns (s_warns (tick s)) (set_mfinv (negb (s_mfinv s')) s')) (d_note "restoreState" (s_pt s') d2) in (OOk VNil en s2, d3)
          | x => (x, d2) end)).
        assert (Hs0 : Reach data (s_pt s0)) by exact Hs.
        change (lits_ok e = true) in He.
        destruct (f rule e [] s0 d1) as [[v en' s'|en' s'|m x s'|] d2] eqn:E.
        + destruct (next_ok _ _ _ _ _ _ _ _ _ He Hs0 E) as [Rs L'].
          eapply good_more; [eapply (good_then _ _ _ _ _ _ _ s' 0 4 _ He Hs0 E); [reflexivity|]|].
          * unfold d_restore at 1. cbv iota beta. now apply (Fin s' d2).
          * lia.
        + destruct (next_fail _ _ _ _ _ _ _ _ He Hs0 E) as [Ps L']. assert (Rs : Reach data (s_pt s')) by now rewrite Ps.
          eapply good_more; [eapply (good_then _ _ _ _ _ _ _ s' 0 4 _ He Hs0 E); [reflexivity|]|].
          * unfold d_restore at 1. cbv iota beta. now apply (Fin s' d2).
          * lia.
        + eapply good_more; [eapply good_stop; eauto|]. lia.
        + intros H. now contradiction H.
      - apply body_of_good; [reflexivity|]. 
        replace (let '(r, d1) := dstar_loop (f rule e []) k [] en (tick s) d in match r with OOk (VList []) _ s' => (OFail en s', d1) | x => (x, d1) end)
          with (plus_out en (fst (dstar_loop (f rule e []) k [] en (tick s) d)), snd (dstar_loop (f rule e []) k [] en (tick s) d))
          by (destruct (dstar_loop (f rule e []) k [] en (tick s) d) as [[[]| | |]]; try reflexivity; destruct l; reflexivity).
        apply map_good; [|reflexivity|].
        + intros r _. destruct r as [v ? ?| | |]; cbn; auto. destruct v; cbn; auto. destruct l; cbn; auto.
        + eapply good_more; [now apply dstar_good|lia].
      - apply body_of_good; [reflexivity|]. eapply good_more; [now apply dstar_good|lia].
      - apply body_of_good; [reflexivity|].
        replace (let '(r, d1) := f rule e [] (tick s) d in match r with OOk v _ s' => (OOk v en s', d1) | OFail _ s' => (OOk VNil en s', d1) | x => (x, d1) end)
          with (let '(r, d1) := f rule e [] (tick s) d in (opt_out en r, d1)) by (destruct (f rule e [] (tick s) d) as [[]]; reflexivity).
        apply (pass_good rule e [] (tick s) d (opt_out en)); auto; [|lia]. intros r _; destruct r; cbn; auto.
      - apply body_of_good; [reflexivity|]. destruct (find_rule name g) as [e'|] eqn:F.
        + assert (He' : lits_ok e' = true).
          { apply find_rule_in in F. unfold grammar_lits_ok in Hg. rewrite forallb_forall in Hg. exact (Hg _ F). }
          replace (let '(r, d1) := drule f name e' (tick s) d in match r with OOk v _ s' => (OOk v en s', d1) | OFail _ s' => (OFail en s', d1) | x => (x, d1) end)
            with (ref_out en (fst (drule f name e' (tick s) d)), snd (drule f name e' (tick s) d)) by (destruct (drule f name e' (tick s) d) as [[]]; reflexivity).
          apply map_good; [|reflexivity|].
          * intros r _. destruct r; cbn; auto.
          * eapply good_more; [now apply drule_good|lia].
        + apply good_same; cbn; auto.
    Qed.
  End Sub.

  Lemma eval_tracked n rule e en s : lits_ok e = true -> Reach data (s_pt s) -> eval o g n rule e en s <> OFuel ->
    tracked (s_pt s) (s_warns s) (eval o g n rule e en s).
  Proof. intros He Hs H. apply eval_ev in H. eapply ev_track; eauto. Qed.
  Theorem deval_good n : forall rule e en s d, lits_ok e = true -> Reach data (s_pt s) -> Good 4 0 s d (deval o g n rule e en s d).
  Proof.
    induction n as [|n IH]; intros rule e en s d He Hs; [intros H; now contradiction H|]. cbn [deval].
    apply dstep_good; auto.
    - intros rule' e' en' s' d' He' Hs'. rewrite deval_same. now apply eval_tracked.
    - change (dstep o g (deval o g n) n rule e en s d) with (deval o g (S n) rule e en s d). rewrite deval_same. intros H q Hq.
      pose proof (eval_tracked (S n) rule e en s He Hs H) as T.
      destruct (eval o g (S n) rule e en s); try congruence; cbn [end_pt tracked] in *; injection Hq as <-;
        [eapply steps_reach; eauto|destruct T as [-> _]; exact Hs|eapply steps_reach; eauto].
  Qed.
End Inv.
