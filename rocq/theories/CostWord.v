(** A word followed by a gap and an opening brace is read cheaply as a condition:
    the cost is bounded by the length of the word (the branch rule tries the
    condition before the plugin whose name the word is). *)
From Coq Require Import List NArith ZArith Bool String Arith Lia.
From Verif Require Import Bytes Utf8 F64 Ast Peg Actions Engine Parser GrammarGen QuoteFacts PosFacts Run EngineFacts
  Termination LimitFacts MemoFacts Rules Cost CostFacts CostLex CostTok CostVal CostTools CostCond.
Import ListNotations.
Local Open Scope Z_scope.

Definition can (e : expr) (s q : bytes) : Prop := exists k, ce e s (COk q) k.
Lemma can_fun e s q q' : can e s q -> can e s q' -> q = q'.
Proof. intros (k & C) (k' & C'). destruct (ce_ok _ _ _ _ _ _ C C') as [X|X]; congruence. Qed.
Lemma can_act a e s q : can (EAct a e) s q -> can e s q.
Proof. intros (k & C). inversion C; subst; [discriminate|]. eexists; eassumption. Qed.
Lemma can_lab l e s q : can (ELab l e) s q -> can e s q.
Proof. intros (k & C). inversion C; subst; [discriminate|]. eexists; eassumption. Qed.
Lemma can_ref n e s q : find_rule n gen_grammar = Some e -> can (ERef n) s q -> can e s q.
Proof. intros F (k & C). inversion C; subst; try discriminate. replace e with e0 by congruence. eexists; eassumption. Qed.
Lemma can_seq es s q : can (ESeq es) s q -> runs es s q.
Proof. intros (k & C). inversion C; subst; [discriminate|]. eexists; eassumption. Qed.
Lemma can_alt es s q k : cevc gg es s (COk q) k -> exists e, In e es /\ can e s q.
Proof.
  remember (COk q) as r eqn:E. intros C. induction es as [|e es IH] in k, C |- *; inversion C; subst; try discriminate.
  - exists e. split; [now left|]. eexists; eassumption.
  - match goal with H : cevc _ es _ _ _ |- _ => destruct (IH _ H) as (e' & I & K) end. exists e'. split; [now right|exact K].
Qed.
Lemma can_choice es s q : can (EChoice es) s q -> exists e, In e es /\ can e s q.
Proof. intros (k & C). inversion C; subst; [discriminate|]. eapply can_alt; eassumption. Qed.
Lemma can_opt e s q : can (EOpt e) s q -> can e s q \/ ((exists k, ce e s CFail k) /\ q = s).
Proof. intros (k & C). inversion C; subst; [discriminate| |]; [left; eexists; eassumption|right; split; [eexists; eassumption|reflexivity]]. Qed.
Lemma can_plus e s q : can (EPlus e) s q -> exists p k, can e s p /\ cevt gg e p (COk q) k.
Proof.
  intros (k & C). inversion C; subst; [discriminate| |].
  - do 2 eexists. split; [eexists; eassumption|eassumption].
  - match goal with H : _ \/ _ |- _ => destruct H; discriminate end.
Qed.
Lemma can_star e s q : can (EStar e) s q -> exists k, cevt gg e s (COk q) k.
Proof. intros (k & C). inversion C; subst; [discriminate|]. eexists; eassumption. Qed.
Lemma star_fun e s q q' k k' : cevt gg e s (COk q) k -> cevt gg e s (COk q') k' -> q = q'.
Proof. intros C C'. destruct (proj2 (proj2 (proj2 (cost_alike gg))) _ _ _ _ C _ _ C') as [X|[X|X]]; congruence. Qed.
Lemma star_inv e s q k : cevt gg e s (COk q) k ->
  (exists k', ce e s CFail k' /\ q = s) \/ exists p k1 k2, ce e s (COk p) k1 /\ cevt gg e p (COk q) k2.
Proof. intros C. inversion C; subst; [left; eauto|right; eauto 10]. Qed.
Lemma runs1 e s q : runs [e] s q <-> can e s q.
Proof.
  split.
  - intros R. apply runs_cons in R as (p & k & C & (k' & R)). inversion R; subst. eexists; eassumption.
  - intros (k & C). eexists. eapply cs_ok; [exact C|constructor].
Qed.
Lemma runs2 e l s q : runs (e :: l) s q -> exists p, can e s p /\ runs l p q.
Proof. intros R. apply runs_cons in R as (p & k & C & R). exists p. split; [eexists; exact C|exact R]. Qed.

(** ** Gaps *)
Lemma warn_stays s q : can warn_e s q -> q = s.
Proof. intros (k & C). apply (prim_cost gg warn_e _ _ _ (COk s) eq_refl) in C as (C & _). congruence. Qed.
Lemma gaps_warn s q : runs [gaps_e; warn_e] s q -> can gap_e s q.
Proof. intros R. apply runs2 in R as (p & G & R). apply runs1, warn_stays in R as ->. now apply can_act in G. Qed.
Lemma gap_again s q p : can gap_e s q -> can gap_e q p -> p = q.
Proof.
  intros G G'. apply can_star in G as (k & G), G' as (k' & G'). apply star_end in G as (k1 & N).
  inversion G'; subst; [reflexivity|]. match goal with H : cev _ _ q (COk _) _ |- _ => destruct (ce_no _ _ _ _ _ N H); discriminate end.
Qed.
Lemma gap_stay s q : can gap_e s q -> can gap_e q q.
Proof. intros G. apply can_star in G as (k & G). apply star_end in G as (k1 & N). eexists. apply c_star, ct_stop, N. Qed.
Lemma gap_none s q : avoid [32; 9; 13; 10; 35]%N s -> can gap_e s q -> q = s.
Proof. intros A (k & C). pose proof (look_pass [32; 9; 13; 10; 35]%N 0 gap_e s _ _ ltac:(vm) A C). congruence. Qed.

(** a space before a gap changes nothing *)
Definition ws32 (u : bytes) : bytes := 32%N :: u.
Lemma ws_class_32 u : can ws_class (ws32 u) u.
Proof. eexists. apply c_prim. reflexivity. Qed.
Lemma opt_ws s z : can (EOpt ws_e) s z -> exists k, cevt gg ws_class s (COk z) k.
Proof.
  intros O. apply can_opt in O as [O|((k & N) & ->)].
  - apply can_act, can_plus in O as (p & k & (k0 & C) & T). eexists. eapply ct_more; eassumption.
  - unfold ws_e in N. inversion N; subst; [discriminate|]. match goal with H : cev _ (EPlus _) _ _ _ |- _ => inversion H; subst end; [discriminate| |].
    + exfalso. match goal with H : cevt _ _ _ CFail _ |- _ => clear - H; remember CFail as r; induction H; try discriminate; auto end.
    + eexists. eapply ct_stop. eassumption.
Qed.
Lemma ws_32 u z k : ce ws_e (ws32 u) (COk z) k -> exists k', cevt gg ws_class u (COk z) k'.
Proof.
  intros C. assert (W : can ws_e (ws32 u) z) by (eexists; exact C). apply can_act, can_plus in W as (p & k' & W & T).
  rewrite (can_fun _ _ _ _ (ws_class_32 u) W). eauto.
Qed.
Lemma opt_ws_32 u z z' : can (EOpt ws_e) (ws32 u) z -> can (EOpt ws_e) u z' -> z = z'.
Proof.
  intros O O'. apply opt_ws in O as (k & O), O' as (k' & O'). inversion O; subst.
  - exfalso. match goal with H : cev _ ws_class _ CFail _ |- _ => destruct (ws_class_32 u) as (k2 & W); destruct (ce_no _ _ _ _ _ H W); discriminate end.
  - match goal with H : cev _ ws_class _ (COk ?p) _ |- _ => rewrite <- (can_fun _ _ _ _ (ws_class_32 u) (ex_intro _ _ H)) in * end.
    eapply star_fun; eassumption.
Qed.
Lemma opt_ws_some s r k : ce (EOpt ws_e) s r k -> r <> CPanic -> exists z, r = COk z.
Proof. intros C Hr. inversion C; subst; try discriminate; [|eauto]. destruct r; eauto; congruence. Qed.
Lemma line_32 u r k r' k' : ce comment_line_e (ws32 u) r k -> ce comment_line_e u r' k' -> alike r r'.
Proof.
  intros C C'. destruct r as [q| |]; [| |now left].
  all: destruct r' as [q'| |]; [| |now (right; left)].
  all: unfold comment_line_e in C, C'; inversion C; subst; try discriminate; inversion C'; subst; try discriminate.
  all: repeat match goal with H : cevs _ (EOpt ws_e :: _) _ _ _ |- _ => inversion H; subst; clear H end;
    try solve [match goal with H : _ \/ _ |- _ => destruct H; discriminate end];
    try solve [match goal with H : cev _ (EOpt ws_e) _ CFail _ |- _ => destruct (opt_ws_some _ _ _ H ltac:(discriminate)) as (? & ?); discriminate end].
  all: match goal with H : cev _ (EOpt ws_e) (ws32 ?v) (COk ?z) _, H' : cev _ (EOpt ws_e) ?v (COk ?z') _ |- _ =>
         rewrite <- (opt_ws_32 _ _ _ (ex_intro _ _ H) (ex_intro _ _ H')) in * end.
  all: match goal with H : cevs _ ?l ?z _ ?k1, H' : cevs _ ?l ?z _ ?k2 |- _ => exact (proj1 (proj2 (cost_alike gg)) _ _ _ _ H _ _ H') end.
Qed.
Lemma item_split s r k : ce gap_item s r k ->
  ((exists k', ce comment_e s r k') /\ r <> CFail) \/ ((exists k', ce comment_e s CFail k') /\ exists k', ce ws_e s r k').
Proof.
  intros H. unfold gap_item in H. inversion H; subst; try discriminate.
  match goal with X : cevc _ _ _ _ _ |- _ => inversion X; subst end; [left; eauto|right; split; [eauto|]].
  match goal with X : cevc _ [ws_e] _ _ _ |- _ => inversion X; subst end; [eauto|].
  match goal with X : cevc _ [] _ _ _ |- _ => inversion X; subst end. eauto.
Qed.
Lemma comment_line s q : can comment_e s q -> exists p k, can comment_line_e s p /\ cevt gg comment_line_e p (COk q) k.
Proof. intros C. apply can_act, can_plus in C. exact C. Qed.
Lemma ws_fail s k : ce ws_e s CFail k -> exists k', ce ws_class s CFail k'.
Proof.
  intros N. unfold ws_e in N. inversion N; subst; [discriminate|]. match goal with H : cev _ (EPlus _) _ _ _ |- _ => inversion H; subst end; [discriminate| |eauto].
  exfalso. match goal with H : cevt _ _ _ CFail _ |- _ => clear - H; remember CFail as r; induction H; try discriminate; auto end.
Qed.
Lemma gap_32 u p p' : can gap_e (ws32 u) p -> can gap_e u p' -> p = p'.
Proof.
  intros G G'. apply can_star in G as (k & G), G' as (k' & G'). change (EChoice [comment_e; ws_e]) with gap_item in *.
  assert (Hw : forall k, ce ws_e (ws32 u) CFail k -> False).
  { intros k0 N. apply ws_fail in N as (k1 & N). destruct (ws_class_32 u) as (k2 & W). destruct (ce_no _ _ _ _ _ N W); discriminate. }
  destruct (star_inv _ _ _ _ G) as [(kx & H & _)|(p1 & ka & kb & I1 & G1)].
  { exfalso. destruct (item_split _ _ _ H) as [(_ & X)|(_ & (k1 & X))]; [congruence|eauto]. }
  destruct (item_split _ _ _ I1) as [((k1 & X) & _)|((k1 & X) & (k2 & Y))].
  - (* a comment *)
    destruct (comment_line _ _ (ex_intro _ _ X)) as (r1 & k2 & (k3 & L1) & Ls).
    assert (Hu : forall k, ce comment_e u CFail k -> False).
    { intros k4 N. apply comment_cases in N as (k5 & N). destruct (line_32 _ _ _ _ _ L1 N) as [Z|[Z|Z]]; discriminate. }
    destruct (star_inv _ _ _ _ G') as [(kx & H & ->)|(p2 & kc & kd & I2 & G2)].
    + exfalso. destruct (item_split _ _ _ H) as [(_ & Z)|((k4 & Z) & _)]; [congruence|eauto].
    + destruct (item_split _ _ _ I2) as [((k4 & Z) & _)|((k4 & Z) & _)]; [|destruct (Hu _ Z)].
      destruct (comment_line _ _ (ex_intro _ _ Z)) as (r2 & k5 & (k6 & L2) & Ls2).
      assert (r1 = r2) as <- by (destruct (line_32 _ _ _ _ _ L1 L2) as [E|[E|E]]; congruence).
      rewrite <- (star_fun _ _ _ _ _ _ Ls Ls2) in *. eapply star_fun; eassumption.
  - (* spaces *)
    apply comment_cases in X as (k3 & X). apply ws_32 in Y as (k4 & Y).
    assert (Hu : forall q, can comment_e u q -> False).
    { intros q C. destruct (comment_line _ _ C) as (r2 & k5 & (k6 & L2) & _). destruct (line_32 _ _ _ _ _ X L2) as [E|[E|E]]; discriminate. }
    destruct (star_inv _ _ _ _ G') as [(kx & H & ->)|(p2 & kc & kd & I2 & G2)].
    + destruct (item_split _ _ _ H) as [(_ & Z)|(_ & (k5 & Z))]; [congruence|].
      apply ws_fail in Z as (k6 & Z). destruct (star_inv _ _ _ _ Y) as [(ky & H1 & ->)|(p2 & kc & kd & I2 & G2)].
      * eapply star_fun; eassumption.
      * destruct (ce_no _ _ _ _ _ Z I2); discriminate.
    + destruct (item_split _ _ _ I2) as [((k5 & Z) & _)|(_ & (k5 & Z))]; [destruct (Hu p2); eexists; exact Z|].
      assert (W : can ws_e u p2) by (eexists; exact Z). apply can_act, can_plus in W as (p3 & k6 & (k7 & W) & T).
      pose proof (ct_more _ _ _ _ _ _ _ W T) as T'. rewrite <- (star_fun _ _ _ _ _ _ Y T') in *. eapply star_fun; eassumption.
Qed.

(** ** Words *)
Definition wordb : list N := class_bytes [95; 45]%N [(65, 90); (97, 122); (48, 57)]%N.
Definition word (w : bytes) : Prop := Forall (fun c => In c wordb) w.
Lemma word_starts w t : word w -> w <> [] -> starts wordb (w ++ t).
Proof. intros H N. destruct w as [|c w]; [congruence|]. inversion H; subst. exists c, (w ++ t). auto. Qed.
Lemma word_app x w : word (x ++ w) -> word w.
Proof. intros H. apply Forall_app in H. tauto. Qed.
Definition disj (L L' : list N) : bool := forallb (fun c => negb (mem c L')) L.
Lemma dead_can L L' n e s q : starts L s -> can e s q -> disj L L' = true -> look L' n e = Dead -> False.
Proof. intros St (k & C) H D. pose proof (dead_at _ _ _ _ _ _ _ St C H D). discriminate. Qed.

Section Word.
  Variables t p1 : bytes.
  Hypothesis At : avoid wordb t.
  Hypothesis Hg : can gap_e t p1.
  Hypothesis Hb : starts [123]%N p1.

  Lemma t_first : starts [32; 9; 13; 10; 35; 123]%N t.
  Proof.
    destruct t as [|c t'] eqn:E.
    - apply gap_none in Hg; [|exact I]. rewrite Hg in Hb. exact (let '(ex_intro _ c (ex_intro _ t (conj Ex _))) := Hb in match Ex with end).
    - exists c, t'. split; [reflexivity|]. destruct (in_dec N.eq_dec c [32; 9; 13; 10; 35]%N) as [J|J].
      + cbn in J |- *. tauto.
      + apply gap_none in Hg; [|exact J]. rewrite Hg in Hb. destruct Hb as (c' & t'' & [= <- _] & J'). cbn in J' |- *. tauto.
  Qed.

  Lemma t_head c u : mem c wordb = true -> t = c :: u -> False.
  Proof. intros H E. revert At. rewrite E. intros A. apply A, mem_in, H. Qed.
  Lemma gap_word w q : word w -> runs [gaps_e; warn_e] (w ++ t) q -> (w <> [] /\ q = w ++ t) \/ (w = [] /\ q = p1).
  Proof.
    intros H R. apply gaps_warn in R. destruct w as [|c w].
    - right. split; [reflexivity|]. exact (can_fun _ _ _ _ R Hg).
    - left. split; [discriminate|]. apply gap_none in R; [exact R|]. eapply starts_avoid; [apply word_starts; [exact H|discriminate]|vm].
  Qed.
  (** [q] is what is left of the word *)
  Definition left_of (w q : bytes) : Prop := exists x w', w = x ++ w' /\ q = w' ++ t.
  Lemma stay_word L e w q : only L e = true -> disj [32; 9; 13; 10; 35; 123]%N L = true -> can e (w ++ t) q -> left_of w q.
  Proof. intros H D (k & C). eapply stay; [exact H| |exact C]. eapply starts_avoid; [exact t_first|exact D]. Qed.
  Lemma left_trans w w' q : (exists x, w = x ++ w') -> left_of w' q -> left_of w q.
  Proof. intros (x & ->) (y & w'' & -> & ->). exists (x ++ y), w''. split; [now rewrite app_assoc|reflexivity]. Qed.

  Lemma rvalue_word w q : word w -> w <> [] -> can (ERef "rvalue") (w ++ t) q -> left_of w q.
  Proof.
    intros H N C. apply (can_ref _ rvalue_e) in C; [|vm]. pose proof (word_starts _ t H N) as St. apply can_choice in C as (e & I & C).
    destruct I as [<-|[<-|[<-|[<-|[<-|[<-|[]]]]]]].
    1: destruct (dead_can _ [34; 39]%N 0 _ _ _ St C ltac:(vm) ltac:(vm)).
    1: apply (stay_word (45 :: 46 :: span 48 57)%N number_e); [vm|vm|exact C].
    1: destruct (dead_can _ [91]%N 0 _ _ _ St C ltac:(vm) ltac:(vm)).
    1: destruct (dead_can _ [91]%N 1 _ _ _ St C ltac:(vm) ltac:(vm)).
    1: destruct (dead_can _ [47]%N 0 _ _ _ St C ltac:(vm) ltac:(vm)).
    destruct (dead_can _ []%N 0 _ _ _ St C ltac:(vm) ltac:(vm)).
  Qed.
  Lemma rvalue_brace s q : starts [123]%N s -> can (ERef "rvalue") s q -> False.
  Proof. intros St C. exact (dead_can _ [34; 39; 45; 48; 49; 50; 51; 52; 53; 54; 55; 56; 57; 91; 47]%N 3 _ _ _ St C ltac:(vm) ltac:(vm)). Qed.

  (** after the first value: gaps, the operator, gaps *)
  Lemma op_word op fin w q : word w -> runs (gaps_e :: warn_e :: op :: gaps_e :: warn_e :: [fin]) (w ++ t) q ->
    (forall s q, starts [123]%N s -> can op s q -> False) ->
    (forall s q, starts [123]%N s -> can fin s q -> False) ->
    (forall w q, word w -> w <> [] -> can op (w ++ t) q -> left_of w q) ->
    (forall w q, word w -> w <> [] -> can fin (w ++ t) q -> left_of w q) ->
    left_of w q.
  Proof.
    intros H R O1 F1 O2 F2. apply (runs_app [gaps_e; warn_e] (op :: gaps_e :: warn_e :: [fin])) in R as (s1 & R1 & R).
    destruct (gap_word _ _ H R1) as [(N & ->)|(-> & ->)].
    - apply runs2 in R as (s2 & R2 & R). destruct (O2 _ _ H N R2) as (x & w' & -> & ->). apply word_app in H.
      apply (runs_app [gaps_e; warn_e] [fin]) in R as (s3 & R3 & R). apply runs1 in R.
      destruct (gap_word _ _ H R3) as [(N' & ->)|(-> & ->)].
      + eapply left_trans; [eexists; reflexivity|]. now apply F2.
      + destruct (F1 _ _ Hb R).
    - apply runs2 in R as (s2 & R2 & R). destruct (O1 _ _ Hb R2).
  Qed.

  Lemma lab_rvalue_word l w q : word w -> w <> [] -> can (ELab l (ERef "rvalue")) (w ++ t) q -> left_of w q.
  Proof. intros H N C. apply can_lab in C. now apply rvalue_word. Qed.
  Lemma lab_rvalue_brace l s q : starts [123]%N s -> can (ELab l (ERef "rvalue")) s q -> False.
  Proof. intros St C. apply can_lab in C. eapply rvalue_brace; eassumption. Qed.
  Lemma bin_word n a x op fin w q : find_rule n gen_grammar = Some (bin a x [gaps_e; warn_e; op; gaps_e; warn_e] fin) ->
    word w -> w <> [] -> can (ERef n) (w ++ t) q ->
    (forall s q, starts [123]%N s -> can op s q -> False) ->
    (forall s q, starts [123]%N s -> can fin s q -> False) ->
    (forall w q, word w -> w <> [] -> can op (w ++ t) q -> left_of w q) ->
    (forall w q, word w -> w <> [] -> can fin (w ++ t) q -> left_of w q) ->
    left_of w q.
  Proof.
    intros F H N C O1 F1 O2 F2. apply (can_ref _ _ _ _ F), can_act, can_seq in C. apply runs2 in C as (s1 & C1 & R).
    apply lab_rvalue_word in C1 as (y & w' & -> & ->); [|assumption|assumption]. apply word_app in H.
    eapply left_trans; [eexists; reflexivity|]. eapply op_word; [exact H|exact R|exact O1|exact F1|exact O2|exact F2].
  Qed.
  (** [not in] cannot be read *)
  Lemma not_in_word w q : word w -> w <> [] -> can not_in_op_e (w ++ t) q -> False.
  Proof.
    intros H N C. apply can_choice in C as (e & I & C). destruct I as [<-|[<-|[]]]; [|destruct (dead_can _ []%N 0 _ _ _ (word_starts _ t H N) C ltac:(vm) ltac:(vm))].
    apply can_seq in C. apply runs2 in C as (s1 & (k & C1) & R).
    apply (prim_cost gg (lit "not ") _ _ _ _ eq_refl) in C1 as (C1 & _). destruct (lit_rest (b "not ") (w ++ t)) as [z|] eqn:E; [|discriminate].
    injection C1 as ->. apply lit_bytes in E; [|vm]. change (b "not ") with [110; 111; 116; 32]%N in E. cbn [List.app] in E.
    assert (Et : t = ws32 z).
    { destruct w as [|c0 w]; [congruence|]. injection E as -> E. inversion H as [|? ? _ H1]; subst.
      destruct w as [|c1 w]; [exfalso; cbn in E; eapply t_head; [|exact E]; vm|]. injection E as -> E. inversion H1 as [|? ? _ H2]; subst.
      destruct w as [|c2 w]; [exfalso; cbn in E; eapply t_head; [|exact E]; vm|]. injection E as -> E. inversion H2 as [|? ? _ H3]; subst.
      destruct w as [|c3 w]; [exact E|]. injection E as -> E. inversion H3 as [|? ? X _]; subst. exfalso. apply mem_in in X. discriminate X. }
    apply (runs_app [gaps_e; warn_e] [lit "in"]) in R as (s2 & R1 & R2). apply gaps_warn in R1. apply runs1 in R2.
    pose proof Hg as Hg'. rewrite Et in Hg'. rewrite <- (gap_32 _ _ _ Hg' R1) in R2.
    exact (dead_can _ [105]%N 0 _ _ _ Hb R2 ltac:(vm) ltac:(vm)).
  Qed.

  Lemma expr_word w q : word w -> w <> [] -> can (ERef "expression") (w ++ t) q -> left_of w q.
  Proof.
    intros H N C. apply (can_ref _ expression_e) in C; [|vm]. pose proof (word_starts _ t H N) as St. apply can_choice in C as (e & I & C).
    destruct I as [<-|[<-|[<-|[<-|[<-|[<-|[<-|[]]]]]]]].
    - destruct (dead_can _ [40]%N 0 _ _ _ St C ltac:(vm) ltac:(vm)).
    - destruct (dead_can _ [33]%N 1 _ _ _ St C ltac:(vm) ltac:(vm)).
    - eapply (bin_word "inExpression" (AInExpression "lv" "rv") "lv" in_op_e rv_fin); [vm|exact H|exact N|exact C| | | |].
      + intros s0 q0 S0 C0. exact (dead_can _ [105]%N 0 _ _ _ S0 C0 ltac:(vm) ltac:(vm)).
      + intros s0 q0 S0 C0. eapply lab_rvalue_brace; eassumption.
      + intros w0 q0 _ _ C0. apply (stay_word [105; 110]%N in_op_e); [vm|vm|exact C0].
      + intros w0 q0 H0 N0 C0. eapply lab_rvalue_word; eassumption.
    - eapply (bin_word "notInExpression" (ANotInExpression "lv" "rv") "lv" not_in_op_e rv_fin); [vm|exact H|exact N|exact C| | | |].
      + intros s0 q0 S0 C0. exact (dead_can _ [110]%N 0 _ _ _ S0 C0 ltac:(vm) ltac:(vm)).
      + intros s0 q0 S0 C0. eapply lab_rvalue_brace; eassumption.
      + intros w0 q0 H0 N0 C0. destruct (not_in_word _ _ H0 N0 C0).
      + intros w0 q0 H0 N0 C0. eapply lab_rvalue_word; eassumption.
    - eapply (bin_word "compareExpression" (ACompareExpression "lv" "co" "rv") "lv" (ELab "co" cmpop_e) rv_fin); [vm|exact H|exact N|exact C| | | |].
      + intros s0 q0 S0 C0. exact (dead_can _ [61; 33; 60; 62]%N 0 _ _ _ S0 C0 ltac:(vm) ltac:(vm)).
      + intros s0 q0 S0 C0. eapply lab_rvalue_brace; eassumption.
      + intros w0 q0 H0 N0 C0. destruct (dead_can _ [61; 33; 60; 62]%N 0 _ _ _ (word_starts _ t H0 N0) C0 ltac:(vm) ltac:(vm)).
      + intros w0 q0 H0 N0 C0. eapply lab_rvalue_word; eassumption.
    - eapply (bin_word "regexpExpression" (ARegexpExpression "lv" "ro" "rv") "lv" (ELab "ro" reop_e) re_fin); [vm|exact H|exact N|exact C| | | |].
      + intros s0 q0 S0 C0. exact (dead_can _ [61; 33]%N 0 _ _ _ S0 C0 ltac:(vm) ltac:(vm)).
      + intros s0 q0 S0 C0. exact (dead_can _ [34; 39; 47]%N 0 _ _ _ S0 C0 ltac:(vm) ltac:(vm)).
      + intros w0 q0 H0 N0 C0. destruct (dead_can _ [61; 33]%N 0 _ _ _ (word_starts _ t H0 N0) C0 ltac:(vm) ltac:(vm)).
      + intros w0 q0 H0 N0 C0. destruct (dead_can _ [34; 39; 47]%N 0 _ _ _ (word_starts _ t H0 N0) C0 ltac:(vm) ltac:(vm)).
    - apply can_act in C. eapply lab_rvalue_word; eassumption.
  Qed.

  (** what a condition costs *)
  Lemma expr_word_cost w r k : word w -> w <> [] -> tev (ERef "expression") (w ++ t) r k -> r <> CPanic ->
    match r with COk q => exists x w', w = x ++ w' /\ x <> [] /\ q = w' ++ t /\ Z.of_nat k <= 600 * zl x + 400 | _ => Z.of_nat k <= 400 end.
  Proof.
    intros H N T Hr. pose proof (expression_cost _ _ _ T) as E. destruct r as [q| |]; [| |congruence]; unfold EX in E.
    - destruct (tev_ce _ _ _ _ T) as (k' & C). destruct (expr_word w q H N (ex_intro _ _ C)) as (x & w' & -> & ->).
      exists x, w'. destruct (tev_short (ERef "expression") _ _ _ eq_refl T) as [_ L]. specialize (L eq_refl). rewrite !app_length in *.
      split; [reflexivity|]. split; [intros ->; cbn in L; lia|]. split; [reflexivity|]. lia.
    - destruct E as [E|(St & _)]; [exact E|]. exfalso. destruct St as (c & s0 & E0 & I). destruct w as [|c' w]; [congruence|]. injection E0 as -> _.
      inversion H; subst. destruct I as [<-|[<-|[]]]; match goal with X : In _ wordb |- _ => apply mem_in in X; discriminate X end.
  Qed.
  Lemma expr_brace_cost r k : tev (ERef "expression") p1 r k -> r = CFail /\ Z.of_nat k <= 400.
  Proof.
    intros T. assert (r = CFail).
    { destruct (tev_ce _ _ _ _ T) as (k' & C). eapply (dead_at _ (40 :: 33 :: 34 :: 39 :: 45 :: 91 :: 47 :: span 48 57)%N 5); [exact Hb|exact C|vm|vm]. }
    subst r. split; [reflexivity|]. pose proof (expression_cost _ _ _ T) as E. unfold EX in E. destruct E as [E|(St & _)]; [exact E|].
    exfalso. destruct St as (c & s0 & E0 & I), Hb as (c' & s1 & E1 & I'). rewrite E0 in E1. injection E1 as <- _. destruct I' as [<-|[]]. destruct I as [X|[X|[]]]; discriminate.
  Qed.
  Lemma more_word_cost w r k : word w -> tev more_expr_e (w ++ t) r k -> r <> CPanic ->
    match r with COk q => exists x w', w = x ++ w' /\ x <> [] /\ q = w' ++ t /\ Z.of_nat k <= 600 * zl x + 420 | _ => Z.of_nat k <= 420 end.
  Proof.
    intros H T Hr. apply inv_act in T as (k1 & r' & -> & T & Hr'); [|vm]. destruct Hr' as [->|(-> & _)]; [|congruence].
    apply inv_seq in T as (k2 & -> & T); [|vm].
    destruct (tokens more_tokens [more_lab] _ _ _ ltac:(vm) T) as [(p & k3 & R & T3 & ->)|(Hf & Hk & _)].
    - change (List.length more_tokens) with 5%nat. apply (runs_app [gaps_e; warn_e] [ELab "bo" boolop_e; gaps_e; warn_e]) in R as (s1 & R1 & R).
      apply runs2 in R as (s2 & R2 & R3).
      destruct (gap_word _ _ H R1) as [(N & ->)|(-> & ->)]; [|destruct (dead_can _ [97; 111; 120; 110]%N 0 _ _ _ Hb R2 ltac:(vm) ltac:(vm))].
      destruct (stay_word [97; 110; 100; 111; 114; 120]%N (ELab "bo" boolop_e) _ _ ltac:(vm) ltac:(vm) R2) as (x & w' & -> & ->). apply word_app in H.
      destruct (gap_word _ _ H R3) as [(N' & ->)|(-> & ->)].
      + apply inv_cons in T3 as [(q & k4 & k5 & -> & T4 & T5)|(T4 & Hf)].
        * inversion T5; subst. apply inv_lab in T4 as (k6 & -> & T4); [|vm]. apply expr_word_cost in T4 as (y & w'' & -> & Ny & -> & C); [|assumption|assumption|discriminate].
          exists (x ++ y), w''. rewrite app_assoc. split; [reflexivity|]. split; [destruct x; [exact Ny|discriminate]|]. split; [reflexivity|]. rewrite app_length. lia.
        * apply inv_lab in T4 as (k6 & -> & T4); [|vm]. apply expr_word_cost in T4; [|assumption|assumption|assumption].
          destruct Hf as [-> | ->]; lia.
      + apply inv_cons in T3 as [(q & k4 & k5 & -> & T4 & T5)|(T4 & Hf)].
        * apply inv_lab in T4 as (k6 & -> & T4); [|vm]. apply expr_brace_cost in T4 as (? & _). discriminate.
        * apply inv_lab in T4 as (k6 & -> & T4); [|vm]. apply expr_brace_cost in T4 as (-> & C). lia.
    - change (List.length more_tokens) with 5%nat in Hk. destruct Hf as [-> | ->]; [lia|congruence].
  Qed.
  Lemma mores_word_cost : forall n w r k, (List.length w <= n)%nat -> word w -> tevt more_expr_e (w ++ t) r k -> r <> CPanic ->
    Z.of_nat k <= 1020 * zl w + 420.
  Proof.
    induction n as [|n IH]; intros w r k Hn H T Hr.
    - destruct w; [|cbn in Hn; lia]. inversion T; subst.
      + match goal with X : tev more_expr_e _ _ _ |- _ => apply (more_word_cost []) in X; [|constructor|discriminate] end. cbn [List.length]. lia.
      + congruence.
      + match goal with X : tev more_expr_e _ _ _ |- _ => apply (more_word_cost []) in X as (x & w' & E & Nx & _); [|constructor|discriminate] end.
        destruct x; [congruence|discriminate].
    - inversion T; subst.
      + match goal with X : tev more_expr_e _ _ _ |- _ => apply more_word_cost in X; [|assumption|discriminate] end. lia.
      + congruence.
      + match goal with X : tev more_expr_e _ _ _, Y : tevt _ _ _ _ |- _ => apply more_word_cost in X as (x & w' & -> & Nx & -> & C); [|assumption|discriminate];
          apply IH in Y; [| |eapply word_app; exact H|exact Hr] end.
        * rewrite app_length. assert (1 <= List.length x)%nat by (destruct x; [congruence|cbn; lia]). lia.
        * rewrite app_length in Hn. assert (1 <= List.length x)%nat by (destruct x; [congruence|cbn; lia]). lia.
  Qed.
  Lemma cond_word_cost w r k : word w -> w <> [] -> tev (ERef "condition") (w ++ t) r k -> r <> CPanic -> Z.of_nat k <= 1020 * zl w + 830.
  Proof.
    intros H N T Hr. apply (inv_ref _ condition_e) in T as (k0 & -> & T); [|vm].
    apply inv_act in T as (k1 & r' & -> & T & Hr'); [|vm]. destruct Hr' as [->|(-> & _)]; [|congruence].
    apply inv_seq in T as (k2 & -> & T); [|vm]. apply inv_cons in T as [(p & k3 & k4 & -> & T3 & T4)|(T3 & Hf)].
    - apply inv_lab in T3 as (k5 & -> & T3); [|vm]. apply expr_word_cost in T3 as (x & w' & -> & Nx & -> & C); [|assumption|assumption|discriminate].
      rewrite app_length. apply word_app in H. assert (1 <= List.length x)%nat by (destruct x; [congruence|cbn; lia]).
      apply inv_cons in T4 as [(q & k6 & k7 & -> & T6 & T7)|(T6 & Hf)].
      + inversion T7; subst. apply inv_lab in T6 as (k8 & -> & T6); [|vm]. apply inv_star in T6 as (k9 & -> & T6); [|vm].
        apply (mores_word_cost (List.length w')) in T6; [|lia|assumption|discriminate]. lia.
      + apply inv_lab in T6 as (k8 & -> & T6); [|vm]. apply inv_star in T6 as (k9 & -> & T6); [|vm].
        apply (mores_word_cost (List.length w')) in T6; [|lia|assumption|assumption]. lia.
    - apply inv_lab in T3 as (k5 & -> & T3); [|vm]. apply expr_word_cost in T3; [|assumption|assumption|assumption].
      destruct Hf as [-> | ->]; [lia|congruence].
  Qed.
  Lemma cond_brace_cost r k : tev (ERef "condition") p1 r k -> Z.of_nat k <= 410.
  Proof.
    intros T. apply (inv_ref _ condition_e) in T as (k0 & -> & T); [|vm].
    apply inv_act in T as (k1 & r' & -> & T & Hr'); [|vm]. apply inv_seq in T as (k2 & -> & T); [|vm].
    apply inv_cons in T as [(p & k3 & k4 & -> & T3 & T4)|(T3 & Hf)]; apply inv_lab in T3 as (k5 & -> & T3); try vm;
      apply expr_brace_cost in T3 as (E & C); [discriminate|lia].
  Qed.
End Word.
