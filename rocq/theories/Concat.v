(** Files one after the other, and files cut between two sections (for PropsConcat.v).

    [frame]: what is written in front of a text can be written in front of a longer
    one; [unframe]: and the other way round. *)
From Coq Require Import List NArith ZArith Bool String Arith Lia.
From Verif Require Import Bytes Utf8 EscapeFacts F64 Ast AstInd Actions AstPrint Utf8Facts Blank LexFacts Tree Layout Spelled Written Exact.
Import ListNotations.

(** ** Gaps *)
Lemma gap_frame x u w : gap_run x u -> u <> [] -> gap_run x (u ++ w).
Proof. intros H N. induction H; [constructor|apply gr_ws; auto|apply gr_com; auto|congruence]. Qed.
Lemma gap_unframe x u w : gap_run x (u ++ w) -> gap_run x u.
Proof.
  intros H. remember (u ++ w) as s eqn:E. induction H; [constructor|apply gr_ws; auto|apply gr_com; auto|].
  symmetry in E. apply app_eq_nil in E as [-> _]. now apply gr_end.
Qed.
(** after a line feed the next gap follows *)
Lemma gap_nl x y v : gap_run x [] -> gap_run y v -> gap_run (x ++ NL :: y) v.
Proof.
  intros H K. remember [] as s eqn:E. induction H; cbn [app].
  - apply gr_ws; [cbn; tauto|exact K].
  - apply gr_ws; auto.
  - rewrite <- !app_assoc. cbn [app]. apply gr_com; auto.
  - rewrite <- app_assoc. cbn [app]. now apply gr_com.
Qed.
Lemma gap_after x y v : gap_run x [] -> x = [] \/ (exists z, x = z ++ [NL]) -> gap_run y v -> gap_run (x ++ y) v.
Proof.
  intros H E K. remember [] as s eqn:Es in H. induction H as [r|c t r C H IH|body cr t r B C H IH|body cr B C]; cbn [app].
  - exact K.
  - apply gr_ws; [exact C|]. apply IH; [exact Es|]. destruct E as [E|(z & E)]; [discriminate E|]. destruct z as [|d z]; [left; now injection E|right; exists z; now injection E].
  - rewrite <- !app_assoc. cbn [app]. apply gr_com; [exact B|exact C|]. apply IH; [exact Es|]. destruct E as [E|(z & E)]; [discriminate E|].
    destruct t as [|d t]; [now left|right]. destruct (exists_last (l := d :: t)) as (z' & l & El); [discriminate|]. exists z'.
    rewrite El in E |- *. assert (K1 : (HASH :: body ++ cr ++ NL :: z') ++ [l] = z ++ [NL]) by (rewrite <- E; cbn [app]; now rewrite <- !app_assoc).
    apply app_inj_tail in K1 as [_ ->]. reflexivity.
  - destruct E as [E|(z & E)]; [discriminate E|]. exfalso. assert (I : In NL (body ++ cr)).
    { destruct z as [|d z]; [pose proof (f_equal (hd 0%N) E) as E1; vm_compute in E1; discriminate E1|]. injection E as _ E. rewrite E. apply in_or_app. right. now left. }
    apply in_app_or in I as [I|I]; [|destruct C as [->| ->]; [exact I|destruct I as [I|[]]; discriminate I]].
    unfold no_break in B. rewrite ?Forall_forall in B. now apply (B _ I).
Qed.
(** ** Pieces after which a selector cannot go on *)
Fixpoint closed (l : list piece) : Prop :=
  match l with [] => True | PNosel :: l' => In (tok "]") l' /\ closed l' | _ :: l' => closed l' end.
Lemma closed_app l m : closed l -> closed m -> closed (l ++ m).
Proof. intros H K. induction l as [|x l IH]; [exact K|]. destruct x; cbn [closed app] in *; auto. destruct H as [I H]. split; [apply in_or_app; now left|auto]. Qed.
Lemma closed_flat {A} (f : A -> list piece) l : Forall (fun x => closed (f x)) l -> closed (flat_map f l).
Proof. induction 1; cbn [flat_map]; [exact I|now apply closed_app]. Qed.
Lemma closed_join {A} k sep (f : place -> A -> list piece) l : closed sep -> Forall (fun x => forall k, closed (f k x)) l -> closed (join k sep f l).
Proof. intros C F. destruct F as [|x l H F]; [exact I|]. rewrite join_cons. apply closed_app; [apply H|]. apply closed_flat. eapply Forall_impl; [|exact F]. intros y Hy. now apply closed_app. Qed.
Ltac cl := repeat first [exact I | assumption | apply closed_app | progress cbn [closed]].
Lemma closed_key k : closed (pc_key k). Proof. destruct k; exact I. Qed.
Lemma closed_value a : closed (pc_value a).
Proof.
  induction a as [ |s|n|p n l c f F|p n l c f F|p n v c F] using attr_ind'; try exact I.
  - cbn [pc_value]. apply closed_app; [exact I|]. apply closed_app; [|exact I]. apply closed_join; [exact I|]. eapply Forall_impl; [|exact F]. intros x H k. exact H.
  - cbn [pc_value]. apply closed_app; [exact I|]. apply closed_app; [|exact I]. apply closed_join; [exact I|]. eapply Forall_impl; [|exact F]. intros [p' k' v' c'] H k. cbn [pc_hentry hval] in *.
    apply closed_app; [exact I|]. apply closed_app; [apply closed_key|]. apply closed_app; [exact I|exact H].
  - destruct v as [p' n' l c' f]. cbn [pc_value pc_plugin pattrs] in *. apply closed_app; [exact I|]. apply closed_app; [|exact I]. apply closed_join; [exact I|].
    eapply Forall_impl; [|exact F]. intros x H k. apply closed_app; [exact I|]. apply closed_app; [exact I|exact H].
Qed.
Lemma closed_plugin x : closed (pc_plugin x).
Proof. change (closed (pc_value (AtPlug zero_pos [] x []))). apply closed_value. Qed.
Lemma closed_rvalue r : closed (pc_rvalue r).
Proof.
  destruct r; try exact I. change (In (tok "]") (pc_value (AtArr p name l com foot)) /\ closed (pc_value (AtArr p name l com foot))). split; [|apply closed_value].
  cbn [pc_value]. apply in_or_app. right. apply in_or_app. right. right. now left.
Qed.
Lemma closed_body e : closed (pc_body e).
Proof.
  assert (C : forall l, Forall (fun e => closed (pc_body e)) l -> closed (pc_cond (Cond l))).
  { intros l F. cbn [pc_cond]. apply closed_flat. eapply Forall_impl; [|exact F]. intros x H. apply closed_app; [destruct (bo_op (bo_of x)); exact I|exact H]. }
  induction e as [ |p bo [l] F|p bo [l] F|p bo s|p bo l r|p bo l r|p bo r|p bo l o r|p bo l o r] using cexpr_ind'; cbn [pc_body exprs] in *;
    repeat first [exact I | apply closed_rvalue | apply C; assumption | apply closed_app].
  destruct r; exact I.
Qed.
Lemma closed_cond c : closed (pc_cond c).
Proof. destruct c as [l]. cbn [pc_cond]. apply closed_flat. apply Forall_forall. intros e _. apply closed_app; [destruct (bo_op (bo_of e)); exact I|apply closed_body]. Qed.
Lemma closed_bop x : closed (pc_bop x).
Proof.
  induction x as [ |p|p|i es e Fi Fs Fe] using bop_ind'; try exact I.
  1,2: exact (closed_plugin p).
  assert (B : forall i, Forall (fun x => closed (pc_bop x)) (block i) -> closed (pc_if i)).
  { intros [p c l com f] F. cbn [pc_if block] in *. apply closed_app; [exact I|]. apply closed_app; [apply closed_cond|]. apply closed_app; [exact I|]. apply closed_app; [now apply closed_flat|exact I]. }
  cbn [pc_bop]. apply closed_app; [exact I|]. apply closed_app; [now apply B|]. apply closed_app.
  - apply closed_flat. eapply Forall_impl; [|exact Fs]. intros x H. apply closed_app; [exact I|now apply B].
  - destruct e as [p l c f]. cbn [pc_else eblock] in *. destruct (is_zero p); [exact I|]. apply closed_app; [exact I|]. apply closed_app; [now apply closed_flat|exact I].
Qed.
(** a section: everything before its last brace *)
Definition pc_front (k : place) (s : section) : list piece :=
  [PGap k (ps_com s); PTok (ptype_string (ps_type s)); PHid; tok "{"] ++ flat_map pc_bop (ps_bops s) ++ [PGap Plain (ps_foot s)].
Lemma front_section k s : pc_section k s = pc_front k s ++ [tok "}"].
Proof. unfold pc_section, pc_front. now rewrite <- !app_assoc. Qed.
Lemma closed_front k s : closed (pc_front k s).
Proof. unfold pc_front. apply closed_app; [exact I|]. apply closed_app; [|exact I]. apply closed_flat. apply Forall_forall. intros x _. apply closed_bop. Qed.
Lemma closed_section k s : closed (pc_section k s).
Proof. rewrite front_section. apply closed_app; [apply closed_front|exact I]. Qed.

(** ** Frames *)
Section Frame.
  Variable L : bool -> bytes -> bytes -> Prop.
  Hypothesis L_suffix : forall m t u, L m t u -> exists z, t = z ++ u.
  Hypothesis L_frame : forall m t u w, L m t u -> u <> [] -> L m (t ++ w) (u ++ w).
  Hypothesis L_unframe : forall m t u w, L m t (u ++ w) -> exists z, t = z ++ w /\ L m z u.
  Lemma writes_suffix l : forall t r, writes L l t r -> exists z, t = z ++ r.
  Proof.
    induction l as [|x l IH]; intros t r H; [exists []; exact H|]. destruct x; cbn [writes] in H.
    - destruct H as (u & -> & H). apply IH in H as (z & ->). eexists. now rewrite app_assoc.
    - destruct H as (y & u & -> & _ & _ & H). apply IH in H as (z & ->). eexists. now rewrite app_assoc.
    - destruct H as (y & u & -> & _ & H). apply IH in H as (z & ->). eexists. now rewrite app_assoc.
    - destruct H as (y & u & -> & _ & H). apply IH in H as (z & ->). eexists. now rewrite app_assoc.
    - destruct H as (y & u & -> & _ & _ & H). apply IH in H as (z & ->). eexists. now rewrite app_assoc.
    - destruct H as (_ & H). now apply IH.
    - destruct H as (u & K & H). apply IH in H as (z & ->). apply L_suffix in K as (z' & ->). eexists. now rewrite app_assoc.
  Qed.
  Lemma writes_nonempty l t r : writes L l t r -> r <> [] -> t <> [].
  Proof. intros H N E. apply writes_suffix in H as (z & E'). rewrite E in E'. symmetry in E'. now apply app_eq_nil in E' as [_ ->]. Qed.
  Lemma writes_close l : forall t r, In (tok "]") l -> writes L l t r -> In 93%N t.
  Proof.
    induction l as [|x l IH]; intros t r I H; [destruct I|]. destruct I as [->|I].
    - destruct H as (u & -> & _). now left.
    - destruct x; cbn [writes] in H.
      + destruct H as (u & -> & H). apply in_or_app. right. eauto.
      + destruct H as (y & u & -> & _ & _ & H). apply in_or_app. right. eauto.
      + destruct H as (y & u & -> & _ & H). apply in_or_app. right. eauto.
      + destruct H as (y & u & -> & _ & H). apply in_or_app. right. eauto.
      + destruct H as (y & u & -> & _ & _ & H). apply in_or_app. right. eauto.
      + destruct H as (_ & H). eauto.
      + destruct H as (u & K & H). apply L_suffix in K as (z' & ->). apply in_or_app. right. eauto.
  Qed.
  Lemma selector_in t w : In 93%N t -> selector_start (t ++ w) -> selector_start t.
  Proof.
    intros I (x & u & E & N & F). destruct t as [|c t]; [destruct I|]. cbn [app] in E. injection E as -> E. destruct I as [I|I]; [discriminate I|].
    assert (K : exists v, t = x ++ 93%N :: v).
    { clear N. revert t E I. induction F as [|c x C F IH]; intros t E I.
      - destruct t as [|d t]; [destruct I|]. injection E as -> _. now exists t.
      - destruct t as [|d t]; [destruct I|]. cbn [app] in E. injection E as -> E. destruct I as [->|I]; [cbn [In] in C; tauto|]. destruct (IH t E I) as (v & ->). now exists v. }
    destruct K as (v & ->). exists x, v. cbn [app]. auto.
  Qed.
  Lemma frame l : forall t r w, writes L l t r -> closed l -> r <> [] -> writes L l (t ++ w) (r ++ w).
  Proof.
    induction l as [|x l IH]; intros t r w H C N; [cbn in *; now subst|]. destruct x; cbn [writes closed] in *.
    - destruct H as (u & -> & H). exists (u ++ w). rewrite <- app_assoc. auto.
    - destruct H as (y & u & -> & A & B & H). exists y, (u ++ w). rewrite <- app_assoc. auto.
    - destruct H as (y & u & -> & A & H). exists y, (u ++ w). rewrite <- app_assoc. split; [reflexivity|]. split; [apply gap_frame; [exact A|eapply writes_nonempty; eauto]|auto].
    - destruct H as (y & u & -> & A & H). exists y, (u ++ w). rewrite <- app_assoc. split; [reflexivity|]. split; [apply gap_frame; [exact A|eapply writes_nonempty; eauto]|auto].
    - destruct H as (y & u & -> & A & B & H). exists y, (u ++ w). rewrite <- app_assoc. auto.
    - destruct H as (A & H). destruct C as [I C]. split; [|auto]. intros K. apply A. eapply selector_in; [eapply writes_close; eauto|exact K].
    - destruct H as (u & K & H). exists (u ++ w). split; [apply L_frame; [exact K|eapply writes_nonempty; eauto]|auto].
  Qed.
  Lemma unframe l : forall t r w, writes L l t (r ++ w) -> exists z, t = z ++ w /\ writes L l z r.
  Proof.
    induction l as [|x l IH]; intros t r w H; [exists r; split; [exact H|reflexivity]|]. destruct x; cbn [writes] in *.
    - destruct H as (u & -> & H). apply IH in H as (z & -> & H). exists (t0 ++ z). rewrite app_assoc. split; [reflexivity|]. eauto.
    - destruct H as (y & u & -> & A & B & H). apply IH in H as (z & -> & H). exists (y ++ z). rewrite app_assoc. split; [reflexivity|]. eauto 8.
    - destruct H as (y & u & -> & A & H). apply IH in H as (z & -> & H). exists (y ++ z). rewrite app_assoc. split; [reflexivity|]. apply gap_unframe in A. eauto 8.
    - destruct H as (y & u & -> & A & H). apply IH in H as (z & -> & H). exists (y ++ z). rewrite app_assoc. split; [reflexivity|]. apply gap_unframe in A. eauto 8.
    - destruct H as (y & u & -> & A & B & H). apply IH in H as (z & -> & H). exists (y ++ z). rewrite app_assoc. split; [reflexivity|]. eauto 8.
    - destruct H as (A & H). apply IH in H as (z & -> & H). exists z. split; [reflexivity|]. split; [|exact H]. intros (x & u & E & N & F). apply A. exists x, (u ++ w). split; [|auto]. rewrite E. cbn [app]. now rewrite <- !app_assoc.
    - destruct H as (u & K & H). apply IH in H as (z & -> & H). apply L_unframe in K as (z' & -> & K). exists z'. split; [reflexivity|]. eauto.
  Qed.
End Frame.
Lemma lost_suffix n : forall m t u, lost n m t u -> exists z, t = z ++ u.
Proof.
  induction n as [|n IH]; intros m t u H; [exists []; exact H|]. destruct H as [->|(c & x & _ & H)]; [now exists []|]. eapply writes_suffix; eauto.
Qed.
Lemma lost_frame n : forall m t u w, lost n m t u -> u <> [] -> lost n m (t ++ w) (u ++ w).
Proof.
  induction n as [|n IH]; intros m t u w H N; [cbn in *; now subst|]. destruct H as [->|(c & x & W & H)]; [now left|].
  right. exists c, x. split; [exact W|]. apply frame; [apply lost_suffix|exact IH|exact H| |exact N].
  cbn [closed]. apply closed_app; [apply closed_plugin|destruct m; exact I].
Qed.
Lemma lost_unframe n : forall m t u w, lost n m t (u ++ w) -> exists z, t = z ++ w /\ lost n m z u.
Proof.
  induction n as [|n IH]; intros m t u w H; [exists u; split; [exact H|reflexivity]|]. destruct H as [->|(c & x & W & H)]; [exists u; split; [reflexivity|now left]|].
  apply unframe in H as (z & -> & H); [|exact IH]. exists z. split; [reflexivity|]. right. eauto.
Qed.
Lemma writes_up n m l t r : n <= m -> writes (lost n) l t r -> writes (lost m) l t r.
Proof. intros H W. induction H; [exact W|]. eapply writes_mono; [apply lost_step|exact IHle]. Qed.

(** ** Sections *)
Definition pieces (k : place) (ss : list section) : list piece := match ss with [] => [] | s :: ss' => pc_section k s ++ flat_map (pc_section Plain) ss' end.
Lemma config_pieces ss foot : pc_config ss foot = pieces Top ss ++ [PGap Next foot]. Proof. destruct ss; reflexivity. Qed.
Lemma pieces_plain ss : pieces Plain ss = flat_map (pc_section Plain) ss. Proof. destruct ss; reflexivity. Qed.
Lemma pieces_app k ss1 ss2 : ss1 <> [] -> pieces k (ss1 ++ ss2) = pieces k ss1 ++ pieces Plain ss2.
Proof. destruct ss1 as [|s ss1]; [congruence|]. intros _. cbn [pieces app]. rewrite flat_map_app, pieces_plain. now rewrite app_assoc. Qed.
Lemma pieces_last k ss : ss <> [] -> exists l, pieces k ss = l ++ [tok "}"] /\ closed l.
Proof.
  destruct ss as [|s ss]; [congruence|]. intros _. cbn [pieces]. destruct ss as [|s2 ss] using rev_ind.
  - exists (pc_front k s). cbn [flat_map]. rewrite app_nil_r. split; [apply front_section|apply closed_front].
  - exists (pc_section k s ++ flat_map (pc_section Plain) ss ++ pc_front Plain s2). split.
    + rewrite flat_map_app. cbn [flat_map]. rewrite app_nil_r, (front_section Plain s2), <- !app_assoc. reflexivity.
    + apply closed_app; [apply closed_section|]. apply closed_app; [|apply closed_front]. apply closed_flat. apply Forall_forall. intros x _. apply closed_section.
Qed.
(** the first piece is a gap, its place does not matter here *)
Lemma pieces_first L k k' ss foot t r : writes L (pieces k ss ++ [PGap Next foot]) t r ->
  exists x u, t = x ++ u /\ gap_run x u /\ forall y, gap_run y u -> writes L (pieces k' ss ++ [PGap Next foot]) (y ++ u) r.
Proof.
  destruct ss as [|s ss]; intros (x & u & -> & G & H); exists x, u; (split; [reflexivity|]; split; [exact G|]; intros y Gy; exists y, u; split; [reflexivity|]; split; [exact Gy|exact H]).
Qed.

(** ** One after the other *)
Theorem concat_written ss1 ss2 foot1 foot2 d1 sep d2 :
  (forall p x y v, d1 = p ++ x -> gap_run x [] -> gap_run y v -> gap_run (x ++ sep ++ y) v) ->
  written (pc_config ss1 foot1) d1 [] -> written (pc_config ss2 foot2) d2 [] -> written (pc_config (ss1 ++ ss2) foot2) (d1 ++ sep ++ d2) [].
Proof.
  intros G (n1 & W1) (n2 & W2). apply (writes_up _ (max n1 n2)) in W1; [|lia]. apply (writes_up _ (max n1 n2)) in W2; [|lia]. exists (max n1 n2). set (n := max n1 n2) in *. clearbody n.
  rewrite config_pieces in *. destruct ss1 as [|s ss1].
  - cbn [app]. destruct W1 as (x & u & E & Gx & H). cbn [writes] in H. subst u. rewrite app_nil_r in E. subst d1.
    apply (pieces_first _ _ Top) in W2 as (y & v & -> & Gy & K). rewrite !app_assoc. apply K. rewrite <- app_assoc. now apply (G []).
  - rewrite pieces_app by discriminate. destruct (pieces_last Top (s :: ss1)) as (l & E & C); [discriminate|]. rewrite E in *. clear E.
    rewrite <- !app_assoc in *. apply written_app in W1 as (u & W1 & H). destruct H as (x & Eu & x' & v & Ex & Gx & H). cbn [writes] in H. subst v. rewrite app_nil_r in Ex. subst x' u.
    apply written_app. exists ((b "}" ++ x) ++ sep ++ d2). split.
    + apply frame; [apply lost_suffix|apply lost_frame|exact W1|exact C|discriminate].
    + exists (x ++ sep ++ d2). split; [now rewrite <- app_assoc|].
      apply (pieces_first _ _ Plain) in W2 as (y & v & -> & Gy & K). rewrite !app_assoc. apply K. rewrite <- app_assoc.
      apply writes_suffix in W1; [|apply lost_suffix]. destruct W1 as (z & ->). apply (G (z ++ b "}")); [now rewrite <- app_assoc|exact Gx|exact Gy].
Qed.
(** ** Cut *)
Theorem cut_written ss1 ss2 foot data : ss1 <> [] -> written (pc_config (ss1 ++ ss2) foot) data [] ->
  exists d d2, data = (d ++ b "}") ++ d2 /\ written (pc_config ss1 []) (d ++ b "}") [] /\ written (pc_config ss2 foot) d2 [].
Proof.
  intros N (n & W). rewrite config_pieces, pieces_app, <- app_assoc in W by exact N. apply written_app in W as (d2 & W1 & W2).
  destruct (pieces_last Top ss1 N) as (l & E & C). rewrite E in W1. apply written_app in W1 as (u & W1 & Hu). destruct Hu as (u' & -> & Hu). cbn [writes] in Hu. subst u'.
  apply (unframe _ (lost_unframe n) l data (b "}") d2) in W1. destruct W1 as (z & -> & W1).
  pose proof (writes_suffix _ (lost_suffix n) _ _ _ W1) as (d & ->). exists d, d2. split; [reflexivity|]. split.
  - exists n. rewrite config_pieces, E, <- app_assoc. apply written_app. exists (b "}"). split; [exact W1|]. exists []. split; [reflexivity|]. exists [], []. split; [reflexivity|]. split; [constructor|reflexivity].
  - exists n. rewrite config_pieces. apply (pieces_first _ _ Top) in W2 as (y & v & -> & Gy & K). now apply K.
Qed.

(** ** The line feed at the end *)
Lemma gap_trim z : gap_run (z ++ [NL]) [] -> gap_run z [].
Proof.
  intros H. remember (z ++ [NL]) as x eqn:E. remember [] as s eqn:Es in H |- *. revert z E. induction H as [r|c t r C H IH|body cr t r B C H IH|body cr B C]; intros z E.
  - symmetry in E. now apply app_eq_nil in E as [_ E].
  - destruct z as [|d z]; [constructor|]. injection E as <- E. apply gr_ws; auto.
  - destruct t as [|c t] using rev_ind.
    + assert (K : (HASH :: body ++ cr) ++ [NL] = z ++ [NL]) by (rewrite <- E; cbn [app]; now rewrite <- app_assoc). apply app_inj_tail in K as [<- _]. subst r. now apply gr_end.
    + clear IHt. assert (K : (HASH :: body ++ cr ++ NL :: t) ++ [c] = z ++ [NL]) by (rewrite <- E; cbn [app]; now rewrite <- !app_assoc). apply app_inj_tail in K as [<- ->]. apply gr_com; auto.
  - exfalso. assert (I : In NL (body ++ cr)).
    { destruct z as [|d z]; [pose proof (f_equal (hd 0%N) E) as E1; vm_compute in E1; discriminate E1|]. injection E as _ E. rewrite E. apply in_or_app. right. now left. }
    apply in_app_or in I as [I|I]; [|destruct C as [->| ->]; [exact I|destruct I as [I|[]]; discriminate I]].
    unfold no_break in B. rewrite Forall_forall in B. now apply (B _ I).
Qed.
Theorem trim_written ss foot d : written (pc_config ss foot) (d ++ [NL]) [] -> written (pc_config ss foot) d [].
Proof.
  intros (n & W). exists n. rewrite config_pieces in *. destruct ss as [|s ss].
  - destruct W as (x & u & E & G & H). cbn [writes] in H. subst u. rewrite app_nil_r in E. subst x. exists d, []. rewrite app_nil_r. split; [reflexivity|]. split; [now apply gap_trim|reflexivity].
  - destruct (pieces_last Top (s :: ss)) as (l & E & C); [discriminate|]. rewrite E, <- app_assoc in *. apply written_app in W as (u & W & H). destruct H as (x & -> & x' & v & Ex & G & H). cbn [writes] in H. subst v. rewrite app_nil_r in Ex. subst x'.
    destruct (writes_suffix _ (lost_suffix n) _ _ _ W) as (z & Ez).
    destruct x as [|c x] using rev_ind.
    + exfalso. rewrite app_nil_r in Ez. apply app_inj_tail in Ez as [_ Ez]. discriminate Ez.
    + clear IHx. rewrite !app_assoc in Ez. apply app_inj_tail in Ez as [Ed <-]. rewrite app_assoc in W. apply (unframe _ (lost_unframe n)) in W as (d' & E' & W). apply app_inj_tail in E' as [<- _].
      apply written_app. exists (b "}" ++ x). split; [exact W|]. exists x. split; [reflexivity|]. exists x, []. rewrite app_nil_r. split; [reflexivity|]. split; [now apply gap_trim|reflexivity].
Qed.
