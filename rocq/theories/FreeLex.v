(** Gaps of any layout, read with the option IgnoreComments. *)
From Coq Require Import List NArith Bool String Arith Lia.
From Verif Require Import Bytes Utf8 F64 Ast Peg Actions Engine AstPrint EscapeFacts QuoteFacts SimpleFacts PosFacts Matches PegSem LexFacts Tree Rules Bare Reads Lines Layout
  ReadLex ReadGap ReadCom ReadVal Spelled Written.
Import ListNotations.

Notation ok := (Reads.ok true rules).
Notation oks := (Reads.oks true rules).
Notation okt := (Reads.okt true rules).
Notation no := (Reads.no true rules).
Notation nos := (Reads.nos true rules).
Notation rd := (@ReadGap.rd true).
Notation rds := (@ReadGap.rds true).
Notation rdt := (@ReadGap.rdt true).
Notation name_reads := (@ReadGap.name_reads_stop true).
Notation selector_reads := (@ReadGap.selector_reads true).
Notation quoted_reads_rd := (@ReadGap.quoted_reads_rd true).

(** ** The first character *)
Definition head (P : N -> Prop) (s : bytes) : Prop := match s with [] => True | c :: _ => P c end.
Lemma head_app (P : N -> Prop) t s : t <> [] -> head P t -> head P (t ++ s).
Proof. destruct t; [congruence|auto]. Qed.
Definition gapc : list N := [32; 9; 13; 10; 35]%N.
Lemma gap_head (P : N -> Prop) t r : gap_run t r -> (forall c, In c gapc -> P c) -> head P r -> head P (t ++ r).
Proof.
  intros H I R. destruct H as [r|c t r W _|body cr t r _ _ _|body cr _ _]; [exact R| | |].
  - cbn. apply I. unfold ws_char in W. cbn in *. intuition.
  - cbn. apply I. cbn. auto 10.
  - cbn. apply I. cbn. auto 10.
Qed.
Lemma gap_stop t r cs rs : gap_run t r -> forallb (fun c => negb (class_match cs rs false c)) gapc = true -> stop cs rs false r -> stop cs rs false (t ++ r).
Proof.
  intros H F R. apply (gap_head (fun c => (c < 128)%N /\ class_match cs rs false c = false) t r H); [|exact R].
  intros c I. rewrite forallb_forall in F. specialize (F _ I). apply negb_true_iff in F. split; [|exact F]. cbn in I. intuition (subst; reflexivity).
Qed.
Lemma gap_first t r cs : gap_run t r -> forallb (fun c => negb (existsb (N.eqb c) cs)) gapc = true -> first_not cs r -> first_not cs (t ++ r).
Proof.
  intros H F R. apply (gap_head (fun c => ~ In c cs) t r H); [|exact R]. intros c I J. rewrite forallb_forall in F. specialize (F _ I). apply negb_true_iff in F.
  assert (X : existsb (N.eqb c) cs = true) by (apply existsb_exists; exists c; split; [exact J|apply N.eqb_refl]). congruence.
Qed.

(** ** Lines of comments *)
Lemma ws_hit t : Forall ws_char t -> Forall (fun c => (c < 128)%N /\ class_match [32; 9; 13; 10]%N [] false c = true) t.
Proof. intros H. eapply Forall_impl; [|exact H]. intros c I. unfold ws_char in I. enum I; split; reflexivity. Qed.
Lemma ws_text_reads t s en : t <> [] -> Forall ws_char t -> nosp s -> rd ws_e en (t ++ s) VWs en s.
Proof.
  intros N H K. pose proof (rdt_chars (ign := true) "[ \t\r\n]" [32; 9; 13; 10]%N [] t s (ws_hit t H) K) as R.
  destruct t as [|c w]; [congruence|]. eapply rd_act1; [eapply rd_plus; exact R|reflexivity].
Qed.
Lemma ws_none s en : nosp s -> no ws_e en s.
Proof. intros H. apply no_act, no_plus, no_stop, H. Qed.
Lemma opt_ws_reads t s en : Forall ws_char t -> nosp s -> exists v, rd (EOpt ws_e) en (t ++ s) v en s.
Proof.
  intros H K. destruct t as [|c t]; [eexists; apply rd_opt_none; now apply ws_none|].
  eexists. eapply rd_opt, (ws_text_reads (c :: t) s []); [discriminate|exact H|exact K].
Qed.
Lemma runes_end w cs t : Forall (fun x => x < 128)%N cs -> Forall (fun x => ~ In x cs) t -> exists l, okt (EClass w cs [] true) t [] l.
Proof.
  intros A. remember (List.length t) as n eqn:En. revert t En. induction n as [n IH] using lt_wf_ind. intros t En F.
  destruct t as [|x t0] eqn:Et; [exists []; apply okt_stop, no_class; now left|]. rewrite <- Et in *. assert (Nt : t <> []) by (subst t; discriminate). clear Et.
  pose proof (decode_width t Nt) as W. set (m := snd (decode_rune t)) in *.
  assert (D : decode_rune (firstn m t) = decode_rune t) by (apply decode_firstn; fold m; lia).
  assert (L : List.length (firstn m t) = m) by (rewrite firstn_length; lia).
  assert (Nf : firstn m t <> []) by (intros E; rewrite E in L; cbn in L; lia).
  assert (E : t = firstn m t ++ skipn m t) by (symmetry; apply firstn_skipn).
  pose proof F as F0. rewrite E in F0. apply Forall_app in F0 as [F1 F2].
  destruct (IH (List.length (skipn m t))) with (t := skipn m t) as (l & K); [subst n; rewrite skipn_length; lia|reflexivity|exact F2|].
  exists (VBytes (firstn m t) :: l). rewrite E at 1. eapply okt_more; [|exact K]. rewrite app_nil_r. apply ok_class; [exact Nf|rewrite firstn_skipn; fold m; now rewrite L|].
  rewrite firstn_skipn. apply class_negated_in.
  destruct (rune_bytes (firstn m t) Nf) as [(y & Ey & Y1 & Y2)|[Y1 Y2]]; [rewrite D; fold m; now rewrite L| |].
  - rewrite D in Y2. rewrite Y2. rewrite Ey in F1. now inversion F1.
  - rewrite D in Y2. intros J. rewrite Forall_forall in A. specialize (A _ J). lia.
Qed.
Lemma eof_reads en : rd eof_e en [] VNil en [].
Proof. exists []. split; [reflexivity|]. apply ok_not, no_any. Qed.
(** the end of a comment *)
Definition cr_ok (cr : bytes) : Prop := cr = [] \/ cr = [CR].
Lemma line_ok u body cr t s : Forall ws_char u -> no_break body -> cr_ok cr -> t = [NL] \/ (t = [] /\ s = []) ->
  exists v, rd comment_line_e [] ((u ++ HASH :: body ++ cr ++ t) ++ s) v [] s.
Proof.
  intros U B C T. replace ((u ++ HASH :: body ++ cr ++ t) ++ s) with (u ++ HASH :: body ++ cr ++ t ++ s) by (now rewrite <- !app_assoc, <- !app_comm_cons, <- !app_assoc).
  destruct (opt_ws_reads u (HASH :: body ++ cr ++ t ++ s) [] U) as (v0 & W); [split; reflexivity|].
  assert (F : Forall (fun x => ~ In x [13; 10]%N) body). { eapply Forall_impl; [|exact B]. intros c [C1 C2] I. enum I; auto. }
  assert (X : exists l, rdt (EClass "[^\r\n]" [13; 10]%N [] true) (body ++ cr ++ t ++ s) l (cr ++ t ++ s)).
  { destruct (cr ++ t ++ s) as [|c r] eqn:E.
    - destruct (runes_end "[^\r\n]" [13; 10]%N body) as (l & K); [repeat constructor|exact F|]. exists l, body. split; [reflexivity|exact K].
    - assert (I : In c [13; 10]%N). { destruct C as [-> | ->], T as [-> | [-> ->]]; cbn in E; inversion E; subst; cbn; auto. }
      destruct (okt_runes (ign := true) "[^\r\n]" [13; 10]%N c body r) as (l & K & _); [repeat constructor|exact I|exact F|]. exists l, body. split; [reflexivity|exact K]. }
  destruct X as (l & X).
  assert (Y : exists v, rd (EOpt (ELit """\r""" [13%N])) [] (cr ++ t ++ s) v [] (t ++ s)).
  { destruct C as [-> | ->]; [|eexists; eapply rd_opt, (rd_chr _ _ []); reflexivity].
    eexists. cbn [app]. apply rd_opt_none, no_chr; [repeat constructor|]. destruct T as [-> | [-> ->]]; cbv; intuition discriminate. }
  destruct Y as (v1 & Y).
  assert (Z : exists v, rd (EChoice [ELit """\n""" [10%N]; eof_e]) [] (t ++ s) v [] s).
  { destruct T as [-> | [-> ->]]; [eexists; eapply rd_choice, (rd_chr _ 10%N []); reflexivity|].
    eexists. eapply rd_next; [apply no_chr; [repeat constructor|exact Logic.I]|]. eapply rd_choice, eof_reads. }
  destruct Z as (v2 & Z).
  enough (A : rds [EOpt ws_e; lit "#"; EStar (EClass "[^\r\n]" [13; 10]%N [] true); EOpt (ELit """\r""" [13%N]); EChoice [ELit """\n""" [10%N]; eof_e]]
    [] (u ++ HASH :: body ++ cr ++ t ++ s) [] s).
  { destruct A as (w & l0 & E & A). rewrite E. exists (VList l0), w. split; [reflexivity|now apply ok_seq]. }
  eapply rds_cons; [exact W|]. eapply rds_cons; [apply rd_chr; reflexivity|]. eapply rds_cons; [apply rd_star, X|].
  eapply rds_cons; [exact Y|]. eapply rds_cons; [exact Z|apply rds_nil].
Qed.
Lemma line_none u s en : Forall ws_char u -> nogap s -> no comment_line_e en (u ++ s).
Proof.
  intros U [N H]. destruct (opt_ws_reads u s en U N) as (v & R). apply no_seq. eapply nos_rd; [exact R|]. apply nos_here, no_chr; [repeat constructor|exact H].
Qed.
Lemma gap_split t r : gap_run t r -> exists u t', t = u ++ t' /\ Forall ws_char u /\ gap_run t' r /\ (t' = [] \/ exists t2, t' = HASH :: t2).
Proof.
  induction 1 as [r|c t r W H (u & t' & -> & U & G & S)|body cr t r B C H _|body cr B C].
  - exists [], []. repeat split; [constructor|constructor|now left].
  - exists (c :: u), t'. split; [reflexivity|]. split; [now constructor|]. auto.
  - exists [], (HASH :: body ++ cr ++ NL :: t). split; [reflexivity|]. split; [constructor|]. split; [now constructor|right; eauto].
  - exists [], (HASH :: body ++ cr). split; [reflexivity|]. split; [constructor|]. split; [now constructor|right; eauto].
Qed.
Lemma lines_ok t s : gap_run t s -> nogap s -> exists l u, rdt comment_line_e (t ++ s) l (u ++ s) /\ Forall ws_char u /\ (l = [] -> u = t).
Proof.
  remember (List.length t) as n eqn:En. revert t En. induction n as [n IH] using lt_wf_ind. intros t En H G.
  destruct (gap_split t s H) as (u & t' & -> & U & H' & S). destruct S as [-> | (t2 & ->)].
  - exists [], u. rewrite app_nil_r. split; [apply rdt_stop; now apply line_none|]. auto.
  - inversion H' as [|c t0 r0 W|body cr t0 r0 B C H0 E1|body cr B C E1 E2].
    + exfalso. subst. cbv in W. repeat (destruct W as [W|W]; [discriminate W|]). exact W.
    + destruct (IH (List.length t0)) with (t := t0) as (l & w & R & Uw & _); [|reflexivity|exact H0|exact G|].
      { subst n t2. rewrite !app_length. cbn [List.length]. rewrite !app_length. cbn [List.length]. lia. }
      destruct (line_ok u body cr [NL] (t0 ++ s) U B C (or_introl eq_refl)) as (v & L).
      exists (v :: l), w. split; [|split; [exact Uw|discriminate]]. eapply rdt_more; [|exact R]. eapply rd_eq; [exact L|]. rewrite <- !app_assoc, <- !app_comm_cons, <- !app_assoc. reflexivity.
    + destruct (line_ok u body cr [] [] U B C (or_intror (conj eq_refl eq_refl))) as (v & L). rewrite !app_nil_r in L.
      exists [v], []. split; [|split; [constructor|discriminate]]. rewrite app_nil_r. cbn [app]. eapply rdt_more; [exact L|]. apply rdt_stop. apply (line_none [] []); [constructor|split; exact Logic.I].
Qed.
Lemma rdt_nil_no e i s : rdt e i [] s -> no e [] i.
Proof. intros (t & -> & H). inversion H; subst. assumption. Qed.
Lemma gap_vals t s : gap_run t s -> nogap s -> exists l, rdt (EChoice [comment_e; ws_e]) (t ++ s) l s /\ Forall (fun v => v = VWs \/ v = VComments []) l.
Proof.
  intros H G. assert (S : rdt (EChoice [comment_e; ws_e]) s [] s).
  { apply rdt_stop, no_choice; [apply no_act, no_plus; exact (line_none [] s [] (Forall_nil _) G)|]. apply no_choice; [|apply no_none]. apply ws_none, G. }
  assert (W : forall u, Forall ws_char u -> exists l, rdt (EChoice [comment_e; ws_e]) (u ++ s) l s /\ Forall (fun v => v = VWs \/ v = VComments []) l).
  { intros u U. destruct u as [|c u]; [exists []; split; [exact S|constructor]|]. exists [VWs]. split; [|repeat constructor; now left].
    eapply rdt_more; [|exact S]. eapply rd_next; [apply no_act, no_plus; now apply line_none|]. eapply rd_choice, (ws_text_reads (c :: u) s []); [discriminate|exact U|apply G]. }
  destruct (lines_ok t s H G) as (l & u & R & U & E). destruct l as [|v l].
  - rewrite <- (E eq_refl). now apply W.
  - destruct (W u U) as (l2 & R2 & F2). exists (VComments [] :: l2). split; [|constructor; [now right|exact F2]]. eapply rdt_more; [|exact R2].
    eapply rd_choice. destruct R as (w & Ew & R). exists w. split; [exact Ew|]. eapply ok_act; [apply ok_plus; exact R|reflexivity].
Qed.

(** ** Gaps, packaged *)
Definition quiet (v : val) : Prop := forall x y, comment_block v x y = [].
Definition xskip (i s : bytes) : Prop := exists v, (forall en, rd gap_e en i v en s) /\ quiet v.
Lemma quiet_vals l : Forall (fun v => v = VWs \/ v = VComments []) l -> quiet (VList l).
Proof.
  intros H x y. unfold comment_block. cbn [iface_slice]. induction H as [|v l [-> | ->] H IH]; [reflexivity| |]; cbn [comment_block_loop]; destruct x, y; exact IH.
Qed.
Lemma gap_xskip t s : gap_run t s -> nogap s -> xskip (t ++ s) s.
Proof. intros H G. destruct (gap_vals t s H G) as (l & R & F). exists (VList l). split; [intros en; now apply rd_star|now apply quiet_vals]. Qed.
Lemma xskip_none s : nogap s -> xskip s s.
Proof. intros G. exact (gap_xskip [] s (gr_nil s) G). Qed.
Lemma xgaps i s en : xskip i s -> exists v, rd gaps_e en i v en s.
Proof. intros (v & R & _). destruct (R en) as (t & E & K). exists (VText t), t. split; [exact E|]. eapply ok_act; [exact K|reflexivity]. Qed.
(** white space, then a gap *)
Lemma ws_app t u r : Forall ws_char t -> gap_run u r -> gap_run (t ++ u) r.
Proof. induction 1; [auto|]. intros K. cbn [app]. constructor; auto. Qed.
Lemma ws_xskip t u s : t <> [] -> Forall ws_char t -> gap_run u s -> nogap s -> exists j, (forall en, rd ws_e en (t ++ u ++ s) VWs en j) /\ xskip j s.
Proof.
  intros N T H G. destruct (gap_split u s H) as (w & t' & -> & U & H' & S). exists (t' ++ s). split; [|now apply gap_xskip].
  intros en. rewrite <- !app_assoc, app_assoc. apply ws_text_reads; [destruct t; [congruence|discriminate]|now apply Forall_app|].
  destruct S as [-> | (t2 & ->)]; [apply G|split; reflexivity].
Qed.
(** a gap in front of a closing bracket: with and without white space first *)
Lemma gap_ws_cases t s : gap_run t s -> nogap s -> (forall en, no ws_e en (t ++ s)) \/ exists j, (forall en, rd ws_e en (t ++ s) VWs en j) /\ xskip j s.
Proof.
  intros H G. destruct (gap_split t s H) as (w & t' & -> & U & H' & S).
  assert (K : nosp (t' ++ s)) by (destruct S as [-> | (t2 & ->)]; [apply G|split; reflexivity]). rewrite <- app_assoc.
  destruct w as [|c w]; [left; intros en; now apply ws_none|right]. exists (t' ++ s). split; [|now apply gap_xskip].
  intros en. apply ws_text_reads; [discriminate|exact U|exact K].
Qed.

(** ** Dropped plugins *)
(** what may stand in front of the elements of an array, and how it is read *)
Class losing := Lost : bool -> bytes -> bytes -> Prop.
Class lost_reads (L : losing) : Prop := lost_read : forall m t u, L m t u -> t = u \/
  exists i j x, xskip t i /\ rd value_e [] i (VPlugin x) [] j /\ if (m : bool) then exists g, j = g ++ 44%N :: u /\ gap_run g (44%N :: u) else j = u.
Notation written := (writes Lost).
