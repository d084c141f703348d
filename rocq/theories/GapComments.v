(** The comments of a gap, as the parser collects them, are those of [gap_comments]. *)
From Coq Require Import List NArith ZArith Bool String Arith Lia.
From Verif Require Import Bytes Utf8 F64 Ast Peg Actions Engine Parser GrammarGen AstPrint PosFacts Run EngineFacts Matches Termination ParseFacts PegSem PegFacts
  LexFacts Tree Sound Rules SoundLex Spelled.
Import ListNotations.
Notation gap_e := Rules.gap_e.

Definition gc0 (t : bytes) : list bytes := flat_map line_comment (split NL t).
Lemma gc0_nl u v : gc0 (u ++ NL :: v) = gc0 u ++ gc0 v.
Proof.
  unfold gc0. induction u as [|c u IH]; [reflexivity|]. cbn [app split]. destruct (c =? NL)%N; cbn [flat_map].
  - now rewrite IH, app_assoc.
  - destruct (split NL u) as [|x ls] eqn:E1.
    { exfalso. destruct u as [|d u]; cbn in E1; [discriminate|]. destruct (d =? NL)%N; [discriminate|]. destruct (split NL u); discriminate. }
    cbn [flat_map] in IH. destruct (split NL (u ++ NL :: v)) as [|y ls'] eqn:E2.
    { exfalso. destruct u as [|d u]; cbn in E2; [discriminate|]. destruct (d =? NL)%N; [discriminate|]. destruct (split NL (u ++ NL :: v)); discriminate. }
    assert (E3 : y = x /\ ls' = ls ++ split NL v).
    { clear IH. revert x ls y ls' E1 E2. induction u as [|d u IH]; intros x ls y ls' E1 E2.
      - cbn in E1, E2. injection E1 as <- <-. injection E2 as <- <-. auto.
      - cbn [app split] in E1, E2. destruct (d =? NL)%N.
        + injection E1 as <- <-. injection E2 as <- <-. split; [reflexivity|].
          destruct (split NL u) as [|x ls] eqn:F1.
          { exfalso. destruct u as [|k u]; cbn in F1; [discriminate|]. destruct (k =? NL)%N; [discriminate|]. destruct (split NL u); discriminate. }
          destruct (split NL (u ++ NL :: v)) as [|y ls'] eqn:F2.
          { exfalso. destruct u as [|k u]; cbn in F2; [discriminate|]. destruct (k =? NL)%N; [discriminate|]. destruct (split NL (u ++ NL :: v)); discriminate. }
          destruct (IH _ _ _ _ eq_refl eq_refl) as [-> ->]. reflexivity.
        + destruct (split NL u) as [|x0 ls0] eqn:F1.
          { exfalso. destruct u as [|k u]; cbn in F1; [discriminate|]. destruct (k =? NL)%N; [discriminate|]. destruct (split NL u); discriminate. }
          destruct (split NL (u ++ NL :: v)) as [|y0 ls1] eqn:F2.
          { exfalso. destruct u as [|k u]; cbn in F2; [discriminate|]. destruct (k =? NL)%N; [discriminate|]. destruct (split NL (u ++ NL :: v)); discriminate. }
          injection E1 as <- <-. injection E2 as <- <-. destruct (IH _ _ _ _ eq_refl eq_refl) as [-> ->]. auto. }
    destruct E3 as [-> ->]. cbn [flat_map]. now rewrite flat_map_app, app_assoc.
Qed.
Lemma gc0_plain u v : ~ In HASH u -> gc0 (u ++ v) = gc0 v.
Proof.
  intros H. induction u as [|c u IH]; [reflexivity|]. assert (Hc : c <> HASH) by (intros ->; apply H; now left).
  specialize (IH ltac:(intros K; apply H; now right)). unfold gc0 in *. cbn [app split]. destruct (c =? NL)%N; cbn [flat_map].
  - exact IH.
  - destruct (split NL (u ++ v)) as [|x ls]; cbn [flat_map] in *.
    + rewrite <- IH. unfold line_comment. cbn. now rewrite (proj2 (N.eqb_neq _ _) Hc).
    + rewrite <- IH. unfold line_comment. cbn. now rewrite (proj2 (N.eqb_neq _ _) Hc).
Qed.
Lemma gc0_nil : gc0 [] = []. Proof. reflexivity. Qed.
Lemma gc0_none u : ~ In HASH u -> gc0 u = [].
Proof. intros H. rewrite <- (app_nil_r u). now rewrite gc0_plain. Qed.
Lemma trim_left_part cut s : exists x, s = x ++ trim_left cut s /\ Forall (fun c => mem c cut = true) x.
Proof. induction s as [|d s (x & E & F)]; cbn; [now exists []|]. destruct (mem d cut) eqn:M; [exists (d :: x); cbn; split; [congruence|now constructor]|now exists []]. Qed.
Lemma trim_right_part cut s : exists x, s = trim_right cut s ++ x /\ Forall (fun c => mem c cut = true) x.
Proof.
  unfold trim_right. destruct (trim_left_part cut (rev s)) as (x & E & F). exists (rev x). split; [|apply Forall_rev; exact F].
  rewrite <- rev_app_distr, <- E. now rewrite rev_involutive.
Qed.
Lemma nls_no_hash x : Forall (fun c => mem c [NL] = true) x -> ~ In HASH x.
Proof. intros F I. rewrite Forall_forall in F. discriminate (F _ I). Qed.
Lemma gc0_trim t : gc0 (trim [NL] t) = gc0 t.
Proof.
  unfold trim. destruct (trim_left_part [NL] t) as (x & E & F). rewrite E at 2. rewrite gc0_plain by now apply nls_no_hash.
  destruct (trim_right_part [NL] (trim_left [NL] t)) as (y & E2 & F2). rewrite E2 at 2. destruct y as [|c y]; [now rewrite app_nil_r|].
  inversion F2 as [|? ? Hc F3]; subst. assert (c = NL) by (unfold mem in Hc; cbn in Hc; rewrite orb_false_r in Hc; apply N.eqb_eq in Hc; auto). subst c.
  rewrite gc0_nl, (gc0_none y) by now apply nls_no_hash. now rewrite app_nil_r.
Qed.

Lemma replace_app u v : replace_byte CR [] (u ++ v) = replace_byte CR [] u ++ replace_byte CR [] v.
Proof. unfold replace_byte. apply flat_map_app. Qed.
Lemma replace_in c u : In c (replace_byte CR [] u) -> In c u.
Proof. unfold replace_byte. intros H. apply in_flat_map in H as (d & H & K). destruct (_ =? _)%N; cbn in K; [tauto|]. destruct K as [->|[]]. exact H. Qed.
Lemma comment_lines_text f s ls : map c_text (comment_lines f s ls) = flat_map line_comment ls.
Proof.
  revert f s. induction ls as [|l ls IH]; intros f s; [reflexivity|]. cbn [comment_lines flat_map]. unfold line_comment at 1.
  destruct (after_byte HASH l); cbn; now rewrite IH.
Qed.

(** Line numbers and the flag of the parser's loop say the same. *)
Lemma numbered_lines ls : forall i p, p <= i -> numbered (S i) p ls = comment_lines false (p + 1 <? S i) ls.
Proof.
  induction ls as [|l ls IH]; intros i p Hp; [reflexivity|]. cbn [numbered comment_lines]. unfold line_comment. destruct (after_byte HASH l) as [c|].
  - rewrite IH by lia. f_equal. f_equal. apply Nat.ltb_ge. lia.
  - rewrite IH by lia. f_equal. apply Nat.ltb_lt. lia.
Qed.
Lemma numbered_first ls : numbered 0 0 ls = comment_lines true false ls.
Proof.
  destruct ls as [|l ls]; [reflexivity|]. cbn [numbered comment_lines]. unfold line_comment. destruct (after_byte HASH l) as [c|]; rewrite numbered_lines by lia; reflexivity.
Qed.
Lemma numbered_app ls m : flat_map line_comment m = [] -> forall i p, numbered i p (ls ++ m) = numbered i p ls.
Proof.
  intros Hm. assert (Z : forall i p, numbered i p m = []).
  { induction m as [|l m IH]; intros i p; [reflexivity|]. cbn [numbered]. cbn [flat_map] in Hm. destruct (line_comment l) as [|c [|]]; cbn in Hm; try discriminate Hm. now apply IH. }
  induction ls as [|l ls IH]; intros i p; [apply Z|]. cbn [app numbered]. destruct (line_comment l) as [|c [|]]; now rewrite IH.
Qed.
Lemma split_nl u v : split NL (u ++ NL :: v) = split NL u ++ split NL v.
Proof.
  induction u as [|c u IH]; [reflexivity|]. cbn [app split]. destruct (c =? NL)%N; rewrite IH; [reflexivity|].
  destruct (split NL u) as [|x ls] eqn:E; [|reflexivity]. exfalso.
  destruct u as [|k u]; cbn in E; [discriminate|]. destruct (k =? NL)%N; [discriminate|]. destruct (split NL u); discriminate.
Qed.
Lemma trim_left_app cut u v : (exists c, In c u /\ mem c cut = false) -> trim_left cut (u ++ v) = trim_left cut u ++ v.
Proof.
  intros (c & I & M). induction u as [|d u IH]; [destruct I|]. cbn. destruct (mem d cut) eqn:D; [|reflexivity]. apply IH. destruct I as [->|I]; [congruence|exact I].
Qed.
Lemma in_nocr c u : In c u -> c <> CR -> In c (replace_byte CR [] u).
Proof. intros I Hc. unfold replace_byte. apply in_flat_map. exists c. split; [exact I|]. rewrite (proj2 (N.eqb_neq _ _) Hc). now left. Qed.
(** The comments up to the last one give those of the whole gap. *)
Lemma numbered_gap u w : In HASH u -> ~ In HASH w -> (exists x, u = x ++ [NL]) \/ w = [] ->
  numbered 0 0 (split NL (trim_left [NL] (replace_byte CR [] (u ++ w)))) = comment_lines true false (split NL (trim [NL] (replace_byte CR [] u))).
Proof.
  intros Hu Hw K. rewrite <- numbered_first. rewrite replace_app, trim_left_app by (exists HASH; split; [now apply in_nocr|reflexivity]).
  unfold trim. set (a := trim_left [NL] (replace_byte CR [] u)). assert (Ha : (exists x, a = x ++ [NL]) \/ replace_byte CR [] w = []).
  { destruct K as [(x & ->)| ->]; [left|now right]. subst a. rewrite replace_app. change (replace_byte CR [] [NL]) with [NL].
    rewrite trim_left_app; [eauto|]. exists HASH. split; [|reflexivity]. apply in_app_or in Hu as [Hu|[Hu|[]]]; [now apply in_nocr|discriminate Hu]. }
  assert (Hw' : ~ In HASH (replace_byte CR [] w)) by (intros I; apply Hw; now apply replace_in in I).
  clearbody a. revert Ha Hw'. generalize (replace_byte CR [] w). clear. intros w Ha Hw. destruct (trim_right_part [NL] a) as (y & E & F). rewrite E at 1. rewrite <- app_assoc.
  destruct y as [|c y].
  - destruct Ha as [(x & Hx)| ->]; [|cbn [app]; now rewrite app_nil_r]. exfalso. rewrite app_nil_r in E. subst a. clear Hw.
    unfold trim_right in E. rewrite rev_unit in E. cbn [trim_left] in E. change (mem NL [NL]) with true in E. cbv iota in E.
    apply (f_equal (@List.length N)) in E. rewrite app_length, rev_length in E. cbn in E. destruct (trim_left_part [NL] (rev x)) as (z & Z & _).
    apply (f_equal (@List.length N)) in Z. rewrite rev_length, app_length in Z. lia.
  - inversion F as [|? ? Hc F3]; subst. assert (c = NL) by (unfold mem in Hc; cbn in Hc; rewrite orb_false_r in Hc; apply N.eqb_eq in Hc; auto). subst c.
    cbn [app]. rewrite split_nl. apply numbered_app. change (gc0 (y ++ w) = []). apply gc0_none. intros I. apply in_app_or in I as [I|I]; [now apply nls_no_hash in F3|contradiction].
Qed.
Lemma numbered_none t : ~ In HASH t -> numbered 0 0 (split NL (trim_left [NL] (replace_byte CR [] t))) = [].
Proof.
  intros H. rewrite <- (app_nil_l (split _ _)). rewrite numbered_app; [reflexivity|]. change (gc0 (trim_left [NL] (replace_byte CR [] t)) = []). apply gc0_none. intros I. apply H.
  destruct (trim_left_part [NL] (replace_byte CR [] t)) as (x & E & _). apply replace_in. rewrite E. apply in_or_app. now right.
Qed.
Lemma tail_after y w : ~ In NL y -> ~ In HASH w -> tail_text true (y ++ NL :: w) = w.
Proof.
  intros Hy Hw. induction y as [|c y IH]; cbn [app tail_text].
  - rewrite N.eqb_refl. destruct (existsb (N.eqb HASH) w) eqn:E; [|reflexivity]. apply existsb_exists in E as (c & I & E). apply N.eqb_eq in E. subst c. contradiction.
  - rewrite (proj2 (N.eqb_neq c NL)) by (intros ->; apply Hy; now left). cbn [andb orb]. apply IH. intros I. apply Hy. now right.
Qed.
Lemma tail_hash t x y : t = HASH :: y -> tail_text x t = tail_text true y.
Proof. intros ->. cbn [tail_text]. change (HASH =? NL)%N with false. rewrite andb_false_r, orb_true_r. reflexivity. Qed.
Lemma tail_pre x t : In HASH t -> forall m, exists m', tail_text m (x ++ t) = tail_text m' t.
Proof.
  intros H. induction x as [|c x IH]; intros m; cbn [app tail_text]; [now exists m|].
  replace (existsb (N.eqb HASH) (x ++ t)) with true; [rewrite andb_false_r; apply IH|]. symmetry. apply existsb_exists. exists HASH. split; [apply in_or_app; now right|reflexivity].
Qed.
Lemma tail_some x y w : ~ In NL y -> ~ In HASH w -> tail_text false ((x ++ HASH :: y ++ [NL]) ++ w) = w.
Proof.
  intros Hy Hw. rewrite <- app_assoc. cbn [app]. rewrite <- app_assoc. cbn [app]. destruct (tail_pre x (HASH :: y ++ NL :: w) ltac:(now left) false) as (m & ->).
  rewrite (tail_hash _ _ _ eq_refl). now apply tail_after.
Qed.
Lemma tail_none x y : ~ In NL y -> tail_text false (x ++ HASH :: y) = [].
Proof.
  intros Hy. destruct (tail_pre x (HASH :: y) ltac:(now left) false) as (m & ->). rewrite (tail_hash _ _ _ eq_refl).
  induction y as [|c y IH]; [reflexivity|]. cbn [tail_text]. rewrite (proj2 (N.eqb_neq c NL)) by (intros ->; apply Hy; now left). cbn [andb orb]. apply IH. intros I. apply Hy. now right.
Qed.

(** The texts are those of [gap_comments]. *)
Lemma first_before_text x c : map c_text (first_before x c) = map c_text c.
Proof. destruct c as [|[]]; reflexivity. Qed.
Lemma last_after_text c : map c_text (last_after c) = map c_text c.
Proof. induction c as [|[t x a] c IH]; [reflexivity|]. cbn [last_after]. destruct c; [reflexivity|]. cbn [map] in *. now rewrite IH. Qed.
Theorem gap_block_text k t : map c_text (gap_block k t) = gap_comments t.
Proof.
  assert (E : map c_text (numbered 0 0 (split NL (trim_left [NL] (replace_byte CR [] t)))) = gap_comments t).
  { rewrite numbered_first, comment_lines_text. unfold gap_comments. fold (gc0 (trim_left [NL] (replace_byte CR [] t))) (gc0 (replace_byte CR [] t)).
    destruct (trim_left_part [NL] (replace_byte CR [] t)) as (x & E & F). rewrite E at 2. now rewrite gc0_plain by now apply nls_no_hash. }
  unfold gap_block. destruct k; rewrite ?first_before_text; try exact E. destruct (tail_text false t); rewrite ?last_after_text; exact E.
Qed.

(** the block the parser makes of a gap *)
Definition gap_com (k : place) (v : val) : cblock :=
  match k with
  | Plain => comment_block v false false
  | Next => comment_block v true false
  | Head => map_first clear_before (comment_block v true false)
  | Top => comment_block v false true
  end.
Lemma set_before_first c : map_first set_before c = first_before true c.
Proof. destruct c as [|[]]; reflexivity. Qed.
Lemma clear_before_first c : map_first clear_before c = first_before false c.
Proof. destruct c as [|[]]; reflexivity. Qed.
Lemma first_twice x y c : first_before x (first_before y c) = first_before x c.
Proof. destruct c as [|[]]; reflexivity. Qed.
Lemma set_after_last c : map_last set_after c = last_after c.
Proof. induction c as [|[t x a] c IH]; [reflexivity|]. cbn [map_last last_after]. destruct c; [reflexivity|]. now rewrite IH. Qed.
Lemma com_one k c : gap_com k (VList [VComments c]) = match k with Plain | Top => c | Next => first_before true c | Head => first_before false c end.
Proof. destruct k; unfold gap_com, comment_block; cbn [iface_slice comment_block_loop app andb]; rewrite ?set_before_first, ?clear_before_first, ?first_twice; reflexivity. Qed.
Lemma com_two k c : gap_com k (VList [VComments c; VWs]) = match k with Plain => c | Top => last_after c | Next => first_before true c | Head => first_before false c end.
Proof. destruct k; unfold gap_com, comment_block; cbn [iface_slice comment_block_loop app andb]; rewrite ?set_before_first, ?clear_before_first, ?first_twice, ?set_after_last; reflexivity. Qed.

Section Gap.
  Variable ign : bool.
  Notation g := gen_grammar.

  Definition gap_stop (p : point) : Prop := peg ign g (EChoice [comment_e; ws_e]) [] p PFail.
  Lemma star_stop e p r : pegt ign g e p r -> forall l q, r = Some (l, q) -> peg ign g e [] q PFail.
  Proof.
    induction 1 as [e p H|e p v en' q1 l1 q2 H1 H2 IH|e p H|e p v en' q1 H1 H2 IH]; intros l q E; try discriminate E.
    - injection E as <- <-. exact H.
    - injection E as <- <-. exact (IH _ _ eq_refl).
  Qed.
  Lemma steps_end p q : pt_rest p = [] -> Steps p q -> q = p.
  Proof. intros H S. induction S as [p|p q S IH N]; [reflexivity|]. exfalso. apply N. rewrite (IH H). exact H. Qed.

  Lemma no_abort_opt e en p : peg ign g (EOpt e) en p PFail -> False.
  Proof. intros H. inversion H. Qed.
  Lemma comment_fail p : peg ign g comment_e [] p PFail -> peg ign g comment_line_e [] p PFail.
  Proof.
    intros H. inversion H; subst. match goal with A : peg _ _ (EPlus _) _ _ _ |- _ => inversion A; subst end.
    match goal with A : pegt _ _ _ _ _ |- _ => inversion A; subst; assumption end.
  Qed.
  Lemma fail_comment p : peg ign g comment_line_e [] p PFail -> peg ign g comment_e [] p PFail.
  Proof. intros H. apply peg_act_no; [|now left]. eapply peg_plus_no. now apply pegt_stop. Qed.
  Lemma plus_stop e en p v en' q : peg ign g (EPlus e) en p (POk v en' q) -> peg ign g e [] q PFail.
  Proof. intros H. apply pi_plus in H as (_ & x & l & _ & H). exact (star_stop _ _ _ H _ _ eq_refl). Qed.
  Lemma comment_then p v en q : peg ign g comment_e [] p (POk v en q) -> peg ign g comment_e [] q PFail.
  Proof. intros H. apply pi_act in H as (v0 & H & _). apply fail_comment. eapply plus_stop. exact H. Qed.
  Lemma ws_stop p v en q : peg ign g ws_e [] p (POk v en q) -> peg ign g ws_e [] q PFail.
  Proof. intros H. apply pi_act in H as (v0 & H & _). apply peg_act_no; [|now left]. eapply peg_plus_no. apply pegt_stop. eapply plus_stop. exact H. Qed.
  Lemma ws_then p v en q : peg ign g comment_e [] p PFail -> peg ign g ws_e [] p (POk v en q) -> peg ign g comment_e [] q PFail.
  Proof.
    intros C W. apply fail_comment. apply comment_fail in C. unfold comment_line_e in *. inversion C; subst. match goal with A : pegs _ _ _ _ _ _ |- _ => inversion A; subst end.
    { exfalso. eapply no_abort_opt. eassumption. }
    match goal with A : peg _ _ (EOpt _) _ _ (POk _ ?e ?z) |- _ => assert (Z : e = [] /\ z = q) end.
    { match goal with A : peg _ _ (EOpt _) _ _ _ |- _ => assert (B := peg_fun _ _ _ _ _ _ _ A (peg_opt _ _ _ _ _ _ _ _ W)) end. inversion B. auto. }
    destruct Z as [-> ->]. apply peg_seq_no; [|now left]. eapply pegs_later; [|eassumption|now left]. apply peg_opt_none. eapply ws_stop. exact W.
  Qed.
  Lemma gap_stopped p : peg ign g comment_e [] p PFail -> peg ign g ws_e [] p PFail -> gap_stop p.
  Proof. intros A B. apply peg_choice_next; [exact A|]. apply peg_choice_next; [exact B|]. apply peg_choice_none. Qed.

  (** the items of a gap: comments, then white space *)
  Definition is_ws (p : point) (v : val) (q : point) : Prop := v = VWs /\ peg ign g ws_e [] p (POk v [] q).
  Definition is_com (p : point) (v : val) (q : point) : Prop := exists en, peg ign g comment_e [] p (POk v en q).
  Lemma env_act a e p v en q : peg ign g (EAct a (EPlus e)) [] p (POk v en q) -> en = [].
  Proof. intros H. apply pi_act in H as (? & H & _). now apply pi_plus in H as (-> & _). Qed.
  Lemma after_comments p l q : pegt ign g (EChoice [comment_e; ws_e]) p (Some (l, q)) -> peg ign g comment_e [] p PFail ->
    (l = [] /\ q = p) \/ exists v, l = [v] /\ is_ws p v q.
  Proof.
    intros H C. inversion H; subst; [now left|]. right. match goal with A : peg _ _ _ _ p (POk _ _ ?z), B : pegt _ _ _ ?z _ |- _ => rename A into H1; rename B into H2; rename z into q1 end.
    apply pi_choice in H1 as [(_ & en1 & H1)|[_ H1]]; [discriminate (peg_fun _ _ _ _ _ _ _ H1 C)|].
    apply pi_choice in H1 as [(_ & en1 & H1)|[_ H1]]; [|now apply pi_choice0 in H1]. pose proof (env_act _ _ _ _ _ _ H1) as ->.
    assert (Z := gap_stopped _ (ws_then _ _ _ _ C H1) (ws_stop _ _ _ _ H1)). inversion H2; subst.
    - eexists. split; [reflexivity|]. split; [|exact H1]. apply pi_act in H1 as (v0 & _ & E). now inversion E.
    - match goal with A : peg _ _ _ _ q1 (POk _ _ _) |- _ => discriminate (peg_fun _ _ _ _ _ _ _ A Z) end.
  Qed.
  Lemma gap_shape p l q : pegt ign g (EChoice [comment_e; ws_e]) p (Some (l, q)) ->
    (l = [] /\ q = p) \/ (exists v, l = [v] /\ is_ws p v q) \/ (exists v, l = [v] /\ is_com p v q) \/
    exists v w q1, l = [v; w] /\ is_com p v q1 /\ is_ws q1 w q.
  Proof.
    intros H. inversion H; subst; [now left|]. match goal with A : peg _ _ _ _ p (POk _ _ ?z), B : pegt _ _ _ ?z _ |- _ => rename A into H1; rename B into H2; rename z into q1 end.
    pose proof H1 as H0. apply pi_choice in H1 as [(_ & en1 & H1)|[C _]].
    - right; right. destruct (after_comments _ _ _ H2 (comment_then _ _ _ _ H1)) as [[-> ->]|(w & -> & Hw)].
      + left. eexists. split; [reflexivity|]. now exists en1.
      + right. eexists _, _, _. split; [reflexivity|]. split; [exists en1; exact H1|exact Hw].
    - right; left. destruct (after_comments _ _ _ H C) as [[X _]|(w & X & Hw)]; [discriminate X|eauto].
  Qed.

  Lemma line_text p v en q : peg ign g comment_line_e [] p (POk v en q) ->
    exists x y z, seg p q = x ++ HASH :: y ++ z /\ ~ In NL y /\ (z = [NL] \/ z = [] /\ pt_rest q = []).
  Proof.
    intros H. unfold comment_line_e in H.
    apply pi_seq in H as (v1 & en1 & q1 & l1 & H1 & H & _). apply pi_seq in H as (v2 & en2 & q2 & l2 & H2 & H & _). apply pi_seq in H as (v3 & en3 & q3 & l3 & H3 & H & _).
    apply pi_seq in H as (v4 & en4 & q4 & l4 & H4 & H & _). apply pi_seq in H as (v5 & en5 & q5 & l5 & H5 & H & _). apply pi_seq0 in H as (_ & _ & ->).
    pose proof (peg_steps _ _ gen_lits_ok _ _ _ _ _ _ H1 eq_refl) as S1. pose proof (peg_steps _ _ gen_lits_ok _ _ _ _ _ _ H2 eq_refl) as S2.
    pose proof (peg_steps _ _ gen_lits_ok _ _ _ _ _ _ H3 eq_refl) as S3. pose proof (peg_steps _ _ gen_lits_ok _ _ _ _ _ _ H4 eq_refl) as S4.
    pose proof (peg_steps _ _ gen_lits_ok _ _ _ _ _ _ H5 eq_refl) as S5.
    pose proof (peg_matches _ _ gen_lits_ok _ _ _ _ _ _ H2 eq_refl) as M2. apply mi_lit in M2; [|repeat constructor].
    pose proof (peg_matches _ _ gen_lits_ok _ _ _ _ _ _ H3 eq_refl) as M3. pose proof (peg_matches _ _ gen_lits_ok _ _ _ _ _ _ H4 eq_refl) as M4.
    assert (N3 : ~ In NL (seg q2 q3)).
    { apply mi_star in M3 as (l & F & E). rewrite E. intros I. apply in_concat in I as (t & It & Ih). rewrite Forall_forall in F. specialize (F _ It).
      apply class_not in F; [|repeat constructor]. rewrite Forall_forall in F. apply (F _ Ih). right. now left. }
    assert (N4 : ~ In NL (seg q3 q4)).
    { apply mi_opt in M4 as [M4|E]; [|rewrite E; tauto]. apply mi_lit in M4; [|repeat constructor]. rewrite M4. intros [X|[]]. discriminate X. }
    exists (seg p q1), (seg q2 q3 ++ seg q3 q4), (seg q4 q5).
    split; [|split; [intros I; apply in_app_or in I as [I|I]; auto|]].
    - pose proof (steps_trans _ _ _ S4 S5) as S45. pose proof (steps_trans _ _ _ S3 S45) as S35. pose proof (steps_trans _ _ _ S2 S35) as S25.
      rewrite (seg_app p q1) by assumption. f_equal. rewrite (seg_app q1 q2) by assumption. change (b "#") with [HASH] in M2.
      rewrite M2. cbn [app]. f_equal. rewrite (seg_app q2 q3) by assumption. rewrite <- app_assoc. f_equal. apply seg_app; assumption.
    - apply pi_choice in H5 as [(_ & en6 & H5)|[_ H5]].
      + left. pose proof (peg_matches _ _ gen_lits_ok _ _ _ _ _ _ H5 eq_refl) as M5. apply mi_lit in M5; [exact M5|repeat constructor].
      + right. apply pi_choice in H5 as [(_ & en6 & H5)|[_ H5]]; [|now apply pi_choice0 in H5]. apply pi_not in H5 as (_ & -> & H5). split; [apply seg_refl|]. inversion H5; subst; try discriminate; assumption.
  Qed.
  Lemma lines_text e p r : pegt ign g e p r -> e = comment_line_e -> forall l q, r = Some (l, q) -> l <> [] ->
    exists x y z, seg p q = x ++ HASH :: y ++ z /\ ~ In NL y /\ (z = [NL] \/ z = [] /\ pt_rest q = []).
  Proof.
    induction 1 as [e p H|e p v en' q1 l1 q2 H1 H2 IH|e p H|e p v en' q1 H1 H2 IH]; intros -> l q E N; try discriminate E.
    - injection E as <- <-. congruence.
    - injection E as <- <-. pose proof (peg_steps _ _ gen_lits_ok _ _ _ _ _ _ H1 eq_refl) as S1.
      pose proof (proj1 (proj2 (proj2 (peg_matches_all ign g gen_lits_ok)) _ _ _ H2 eq_refl)) as S2. cbn in S2.
      destruct l1 as [|v1 l1].
      + inversion H2; subst. now apply line_text in H1.
      + destruct (IH eq_refl _ _ eq_refl) as (x & y & z & E & A & B); [discriminate|]. exists (seg p q1 ++ x), y, z. split; [|auto]. now rewrite (seg_app p q1), E, app_assoc by assumption.
  Qed.
  Lemma com_text p v q : is_com p v q -> Steps p q /\ (exists c, v = VComments c /\ c = if ign then [] else comment_lines true false (split NL (trim [NL] (replace_byte CR [] (seg p q))))) /\
    exists x y z, seg p q = x ++ HASH :: y ++ z /\ ~ In NL y /\ (z = [NL] \/ z = [] /\ pt_rest q = []).
  Proof.
    intros (en & H). split; [exact (peg_steps _ _ gen_lits_ok _ _ _ _ _ _ H eq_refl)|]. apply pi_act in H as (v0 & H & E). split.
    - cbn in E. unfold act_comment in E. destruct ign; inversion E; eexists; split; reflexivity.
    - apply pi_plus in H as (_ & a & l & _ & H). eapply lines_text; [exact H|reflexivity|reflexivity|discriminate].
  Qed.
  Lemma ws_text p v q : is_ws p v q -> Steps p q /\ v = VWs /\ ~ In HASH (seg p q) /\ seg p q <> [].
  Proof.
    intros (-> & H). split; [exact (peg_steps _ _ gen_lits_ok _ _ _ _ _ _ H eq_refl)|]. split; [reflexivity|]. pose proof (peg_matches _ _ gen_lits_ok _ _ _ _ _ _ H eq_refl) as M.
    inversion M; subst. match goal with A : matches _ (EPlus _) _ |- _ => apply mi_plus in A as (l & N & F & ->) end.
    assert (K : forall t, In t l -> exists c, t = [c] /\ c <> HASH).
    { intros t It. rewrite Forall_forall in F. specialize (F _ It). apply class_ascii in F as (c & -> & C); [|repeat constructor..]. exists c. split; [reflexivity|]. intros ->. discriminate C. }
    split.
    - intros I. apply in_concat in I as (t & It & Ih). destruct (K _ It) as (c & -> & Hc). destruct Ih as [->|[]]. congruence.
    - destruct l as [|t l]; [congruence|]. destruct (K t (or_introl eq_refl)) as (c & -> & _). discriminate.
  Qed.
  Lemma quiet_gap k l : (forall v, In v l -> v = VWs \/ v = VComments []) -> gap_com k (VList l) = [].
  Proof.
    intros H. assert (Z : forall x y, comment_block (VList l) x y = []); [|destruct k; cbn [gap_com]; rewrite Z; reflexivity].
    intros x y. unfold comment_block. cbn [iface_slice]. induction l as [|v l IH]; [reflexivity|]. cbn [comment_block_loop].
    assert (H' : forall v, In v l -> v = VWs \/ v = VComments []) by (intros; apply H; now right). destruct (H v (or_introl eq_refl)) as [-> | ->]; [destruct y; exact (IH H')|].
    destruct (x && true); exact (IH H').
  Qed.
  Lemma gap_block_none k t : ~ In HASH t -> gap_block k t = [].
  Proof. intros H. unfold gap_block. rewrite numbered_none by exact H. destruct k; try reflexivity. now destruct (tail_text false t). Qed.
  Lemma gap_blocks k p l q : pegt ign g (EChoice [comment_e; ws_e]) p (Some (l, q)) -> gap_com k (VList l) = if ign then [] else gap_block k (seg p q).
  Proof.
    intros H. apply gap_shape in H as [[-> ->]|[(v & -> & H)|[(v & -> & H)|(v & w & q1 & -> & H & K)]]].
    - rewrite seg_refl, quiet_gap by (intros ? []). now destruct ign, k.
    - apply ws_text in H as (_ & -> & H & _). rewrite quiet_gap by (intros ? [<-|[]]; now left). now rewrite gap_block_none by exact H; destruct ign.
    - apply com_text in H as (_ & (c & -> & Ec) & x & y & z & Es & Ny & Ez). destruct ign; [subst c; apply quiet_gap; intros ? [<-|[]]; now right|].
      rewrite com_one. unfold gap_block. rewrite <- (app_nil_r (seg p q)). rewrite numbered_gap; [|rewrite Es; apply in_or_app; right; now left|intros []|now right]. rewrite <- Ec.
      destruct k; try reflexivity. rewrite Es. destruct Ez as [-> |[-> _]].
      + now rewrite tail_some by (auto; intros []).
      + rewrite !app_nil_r. now rewrite tail_none.
    - apply com_text in H as (S1 & (c & -> & Ec) & x & y & z & Es & Ny & Ez). apply ws_text in K as (S2 & -> & Nw & Zw). 
      destruct ign; [subst c; apply quiet_gap; intros ? [<-|[<-|[]]]; auto|]. rewrite com_two. unfold gap_block.
      assert (Hz : z = [NL]). { destruct Ez as [-> |[_ E]]; [reflexivity|]. exfalso. apply Zw. rewrite (steps_end _ _ E S2). apply seg_refl. }
      rewrite (seg_app p q1 q) by assumption.
      rewrite numbered_gap; [|rewrite Es; apply in_or_app; right; now left|exact Nw|left; subst z; exists (x ++ HASH :: y); rewrite Es, <- app_assoc; reflexivity]. rewrite <- Ec.
      destruct k; try reflexivity. rewrite Es, Hz. rewrite tail_some by auto. now destruct (seg q1 q).
  Qed.
  (** the gap and what follows it *)
  Lemma run_app t u r : gap_run t (u ++ r) -> gap_run u r -> gap_run (t ++ u) r.
  Proof.
    intros H. remember (u ++ r) as s eqn:E. revert E. induction H as [s|c t s C H IH|body cr t s B C H IH|body cr B C]; intros E K.
    - exact K.
    - cbn [app]. apply gr_ws; auto.
    - cbn [app]. rewrite <- !app_assoc. cbn [app]. apply gr_com; auto.
    - symmetry in E. apply app_eq_nil in E as [-> ->]. rewrite app_nil_r. now apply gr_end.
  Qed.
  Lemma run_ws t r : Forall ws_char t -> gap_run t r.
  Proof. induction 1; constructor; auto. Qed.
  Lemma ws_run p v en q : peg ign g ws_e [] p (POk v en q) -> gap_run (seg p q) (pt_rest q).
  Proof.
    intros H. pose proof (peg_matches _ _ gen_lits_ok _ _ _ _ _ _ H eq_refl) as M. apply mi_act in M. apply run_ws. apply mi_plus in M as (l & _ & F & ->).
    apply Forall_concat. eapply Forall_impl; [|exact F]. cbn. intros t M. apply ws_class_match in M as (c & -> & C). constructor; [exact C|constructor].
  Qed.
  Lemma line_run p v en q : peg ign g comment_line_e [] p (POk v en q) -> gap_run (seg p q) (pt_rest q).
  Proof.
    intros H. unfold comment_line_e in H.
    apply pi_seq in H as (v1 & en1 & q1 & l1 & H1 & H & _). apply pi_seq in H as (v2 & en2 & q2 & l2 & H2 & H & _). apply pi_seq in H as (v3 & en3 & q3 & l3 & H3 & H & _).
    apply pi_seq in H as (v4 & en4 & q4 & l4 & H4 & H & _). apply pi_seq in H as (v5 & en5 & q5 & l5 & H5 & H & _). apply pi_seq0 in H as (_ & _ & ->).
    pose proof (peg_steps _ _ gen_lits_ok _ _ _ _ _ _ H1 eq_refl) as S1. pose proof (peg_steps _ _ gen_lits_ok _ _ _ _ _ _ H2 eq_refl) as S2.
    pose proof (peg_steps _ _ gen_lits_ok _ _ _ _ _ _ H3 eq_refl) as S3. pose proof (peg_steps _ _ gen_lits_ok _ _ _ _ _ _ H4 eq_refl) as S4.
    pose proof (peg_steps _ _ gen_lits_ok _ _ _ _ _ _ H5 eq_refl) as S5.
    pose proof (peg_matches _ _ gen_lits_ok _ _ _ _ _ _ H2 eq_refl) as M2. apply mi_lit in M2; [|repeat constructor].
    pose proof (peg_matches _ _ gen_lits_ok _ _ _ _ _ _ H3 eq_refl) as M3. pose proof (peg_matches _ _ gen_lits_ok _ _ _ _ _ _ H4 eq_refl) as M4.
    assert (N3 : no_break (seg q2 q3)).
    { apply mi_star in M3 as (l & F & E). rewrite E. apply Forall_concat. eapply Forall_impl; [|exact F]. cbn beta. intros t M.
      apply class_not in M; [|repeat constructor]. eapply Forall_impl; [|exact M]. cbn beta. intros c Hc. split; intros ->; apply Hc; [left|right; left]; reflexivity. }
    assert (N4 : seg q3 q4 = [] \/ seg q3 q4 = [CR]).
    { apply mi_opt in M4 as [M4|E]; [right|now left]. apply mi_lit in M4; [exact M4|repeat constructor]. }
    pose proof (steps_trans _ _ _ S4 S5) as S45. pose proof (steps_trans _ _ _ S3 S45) as S35. pose proof (steps_trans _ _ _ S2 S35) as S25.
    rewrite (seg_app p q1) by assumption. apply run_app.
    - apply pi_opt in H1 as (_ & [(en6 & H1)|(_ & -> & _)]); [|rewrite seg_refl; constructor]. apply ws_run in H1.
      replace (seg q1 q5 ++ pt_rest q5) with (pt_rest q1); [exact H1|]. now destruct (steps_rest _ _ S25) as [<- _].
    - rewrite (seg_app q1 q2) by assumption. change (b "#") with [HASH] in M2. rewrite M2. cbn [app]. rewrite (seg_app q2 q3), (seg_app q3 q4) by assumption.
      apply pi_choice in H5 as [(_ & en6 & H5)|[_ H5]].
      + pose proof (peg_matches _ _ gen_lits_ok _ _ _ _ _ _ H5 eq_refl) as M5. apply mi_lit in M5; [|repeat constructor]. rewrite M5. apply (gr_com _ _ []); [exact N3|exact N4|constructor].
      + apply pi_choice in H5 as [(_ & en6 & H5)|[_ H5]]; [|now apply pi_choice0 in H5]. apply pi_not in H5 as (_ & -> & H5). rewrite seg_refl, app_nil_r.
        assert (Z : pt_rest q4 = []) by (inversion H5; subst; try discriminate; assumption). rewrite Z. now apply gr_end.
  Qed.
  Lemma items_run e p r : pegt ign g e p r -> lits_ok e = true -> (forall p v en q, peg ign g e [] p (POk v en q) -> gap_run (seg p q) (pt_rest q)) ->
    forall l q, r = Some (l, q) -> gap_run (seg p q) (pt_rest q).
  Proof.
    intros H L He. induction H as [e p H|e p v en' q1 l1 q2 H1 H2 IH|e p H|e p v en' q1 H1 H2 IH]; intros l q E; try discriminate E.
    - injection E as <- <-. rewrite seg_refl. constructor.
    - injection E as <- <-. pose proof (peg_steps _ _ gen_lits_ok _ _ _ _ _ _ H1 L) as S1.
      pose proof (proj1 (proj2 (proj2 (peg_matches_all ign g gen_lits_ok)) _ _ _ H2 L)) as S2. cbn in S2.
      rewrite (seg_app p q1) by assumption. apply run_app; [|now apply (IH L He l1)]. destruct (steps_rest _ _ S2) as [<- _]. eapply He. exact H1.
  Qed.
  Lemma gap_runs p l q : pegt ign g (EChoice [comment_e; ws_e]) p (Some (l, q)) -> gap_run (seg p q) (pt_rest q).
  Proof.
    intros H. eapply items_run; [exact H|reflexivity| |reflexivity]. clear. intros p v en q H.
    apply pi_choice in H as [(_ & en1 & H)|[_ H]].
    - apply pi_act in H as (v0 & H & _). apply pi_plus in H as (_ & x & l & _ & H). eapply items_run; [exact H|reflexivity|exact line_run|reflexivity].
    - apply pi_choice in H as [(_ & en1 & H)|[_ H]]; [now apply ws_run in H|now apply pi_choice0 in H].
  Qed.
  Theorem peg_gap en p v en2 q : peg ign g gap_e en p (POk v en2 q) ->
    Steps p q /\ gap_run (seg p q) (pt_rest q) /\ gap_stop q /\ (gap_stop p -> q = p) /\
    forall k, gap_com k v = if ign then [] else gap_block k (seg p q).
  Proof.
    intros H. pose proof (peg_steps _ _ gen_lits_ok _ _ _ _ _ _ H eq_refl) as S.
    split; [exact S|]. apply pi_star in H as (_ & l & -> & H). split; [exact (gap_runs _ _ _ H)|].
    split; [exact (star_stop _ _ _ H _ _ eq_refl)|]. split.
    - intros Z. inversion H; subst; [reflexivity|]. match goal with A : peg _ _ _ _ p (POk _ _ _) |- _ => discriminate (peg_fun _ _ _ _ _ _ _ A Z) end.
    - intros k. exact (gap_blocks k _ _ _ H).
  Qed.
End Gap.
