(** Values, attributes and plugins in any layout, read with the option IgnoreComments. *)
From Coq Require Import List NArith Bool String Arith Lia.
From Verif Require Import Bytes Utf8 F64 Ast Peg Actions Engine AstPrint AstInd EscapeFacts QuoteFacts SimpleFacts PosFacts Matches PegSem LexFacts Tree Rules Bare Reads Lines Layout
  ReadLex ReadGap ReadCom ReadVal Spelled Written FreeLex.
Import ListNotations.

(** ** The value that is read *)
Definition xvalue (a : attr) : val :=
  match a with
  | AtNil => VNil
  | AtStr s => VAttr (AtStr (StrAttr zero_pos [] (sa_val s) (sa_type s) []))
  | AtNum n => VAttr (AtNum (NumAttr zero_pos [] (na_val n) []))
  | AtArr _ _ l _ _ => VAttr (AtArr zero_pos [] (map shape_attr l) [] [])
  | AtHash _ _ l _ _ => VAttr (AtHash zero_pos [] (map shape_hentry l) [] [])
  | AtPlug _ _ v _ => VPlugin (shape_plugin v)
  end.

(** ** What follows a value *)
Notation wstop := (stop [95; 45]%N [(65, 90); (97, 122); (48, 57)]%N false).
Notation bstop := (stop [95]%N [(65, 90); (97, 122); (48, 57)]%N false).
Notation dstop := (stop [] [(48, 57)]%N false).
Definition vf (s : bytes) : Prop := wstop s /\ first_not [46%N] s /\ exists s', xskip s s' /\ first_not [123%N] s'.
Lemma wstop_bare s : wstop s -> bstop s.
Proof.
  destruct s as [|c s]; [auto|]. intros [H K]. split; [exact H|]. apply class_miss. intros X. rewrite <- not_true_iff_false, class_spec in K. apply K. revert X. cls. tauto.
Qed.
Lemma wstop_digit s : wstop s -> dstop s.
Proof.
  destruct s as [|c s]; [auto|]. intros [H K]. split; [exact H|]. apply class_miss. intros X. rewrite <- not_true_iff_false, class_spec in K. apply K. revert X. cls. tauto.
Qed.
Lemma wstop_chr c s : (c < 128)%N -> class_match [95; 45]%N [(65, 90); (97, 122); (48, 57)]%N false c = false -> wstop (c :: s).
Proof. split; assumption. Qed.
Ltac differ := cbv; intuition discriminate.
(** a gap, then a character that goes on neither a word nor a plugin *)
Lemma vf_gap t c r : gap_run t (c :: r) -> plain c -> class_match [95; 45]%N [(65, 90); (97, 122); (48, 57)]%N false c = false -> ~ In c [46; 123]%N -> vf (t ++ c :: r).
Proof.
  intros G P W N. split; [apply gap_stop; [exact G|reflexivity|split; [apply P|exact W]]|]. split; [apply gap_first; [exact G|reflexivity|]; cbn in *; tauto|].
  exists (c :: r). split; [apply gap_xskip; [exact G|now apply nogap_plain]|cbn in *; tauto].
Qed.
Lemma vf_ws t u c r : t <> [] -> Forall ws_char t -> gap_run u (c :: r) -> plain c -> c <> 123%N -> vf (t ++ u ++ c :: r).
Proof.
  intros N T G P C. assert (H : gap_run (t ++ u) (c :: r)) by now apply ws_app.
  destruct t as [|w t]; [congruence|]. inversion T as [|? ? Tw Tt]; subst. unfold ws_char in Tw. split; [enum Tw; split; reflexivity|]. split; [enum Tw; differ|].
  exists (c :: r). split; [rewrite app_assoc; apply gap_xskip; [exact H|now apply nogap_plain]|]. cbn. intuition.
Qed.

(** ** Simple values *)
Lemma xplugin_no_word w s s' en : name_ok w -> wstop s -> xskip s s' -> first_not [123%N] s' -> no plugin_e en (w ++ s).
Proof.
  intros W D K F. apply no_act, no_seq. assert (G : nogap (w ++ s)). { eapply firstc_nogap; [exact namec_plain|]. apply firstc_app. now apply name_first. }
  destruct (xskip_none _ G) as (v & R & _). eapply nos_rd; [eapply rd_lab, (R [])|].
  destruct (name_reads w s W D) as (a & en' & R1 & _). eapply nos_rd; [eapply rd_lab, R1|].
  destruct (xgaps s s' (bind "name" (VAttr (AtStr a)) (bind "comment" v en)) K) as (v2 & R2). eapply nos_rd; [exact R2|].
  apply nos_warn, nos_here, no_chr; [repeat constructor|exact F].
Qed.
Lemma xplugin_no_name s s' en : xskip s s' -> first_not [DQ; SQ] s' -> wstop s' -> no plugin_e en s.
Proof.
  intros (v & R & _) H K. apply no_act, no_seq. eapply nos_rd; [eapply rd_lab, (R [])|]. apply nos_here, no_lab. now apply name_no.
Qed.
Lemma xplugin_no_number t s s' en : number_text t -> wstop s -> xskip s s' -> first_not [123%N] s' -> no plugin_e en (t ++ s).
Proof.
  intros (sg & ip & fp & -> & Hs & Ni & Di & Hf) D K F.
  assert (W : word (sg ++ ip)).
  { split; [destruct sg, ip; try discriminate; congruence|]. apply Forall_app. split; [destruct Hs as [-> | ->]; repeat constructor; now right|]. eapply Forall_impl; [|exact Di]. intros c Hc. left. now right. }
  rewrite app_assoc, <- app_assoc. destruct Hf as [->|(f & -> & Hf)]; [eapply xplugin_no_word; eauto; now left|].
  apply no_act, no_seq. assert (G : nogap ((sg ++ ip) ++ (46%N :: f) ++ s)). { eapply firstc_nogap; [exact namec_plain|]. apply firstc_app. apply name_first. now left. }
  destruct (xskip_none _ G) as (v & R & _). eapply nos_rd; [eapply rd_lab, (R [])|].
  destruct (name_reads (sg ++ ip) ((46%N :: f) ++ s)) as (a & en' & R1 & _); [now left|split; reflexivity|].
  eapply nos_rd; [eapply rd_lab, R1|].
  destruct (xgaps ((46%N :: f) ++ s) _ (bind "name" (VAttr (AtStr a)) (bind "comment" v en)) (xskip_none _ (nogap_plain 46%N (f ++ s) ltac:(split; [reflexivity|differ])))) as (v2 & R2). eapply nos_rd; [exact R2|].
  apply nos_warn, nos_here, no_chr; [repeat constructor|differ].
Qed.
Lemma xstr_reads s r : str_ok (sa_type s) (sa_val s) -> vf r -> rd value_e [] (sa_value_string s ++ r) (xvalue (AtStr s)) [] r.
Proof.
  intros H (D & _ & s' & K & F).
  assert (Q : forall q, In q [DQ; SQ] -> literal_value q (sa_val s) ->
    rd value_e [] (([q] ++ sa_val s ++ [q]) ++ r) (VAttr (str0 (if N.eqb q DQ then DoubleQuoted else SingleQuoted) (sa_val s))) [] r).
  { intros q Hq Hv. apply rd_next; [apply no_ref with (1 := find_plugin); apply xplugin_no_word with (s' := s'); auto; right; exists q, (sa_val s); auto|].
    apply rd_next; [apply bareword_no; enum Hq; split; reflexivity|]. destruct (quoted_reads_rd q (sa_val s) r Hq Hv) as (en' & R). eapply rd_choice. rewrite <- !app_assoc. exact R. }
  unfold sa_value_string. cbn [xvalue]. destruct (sa_type s); cbn [str_ok sat_string] in *; [| | |contradiction].
  - apply (Q DQ); [now left|exact H].
  - apply (Q SQ); [right; now left|exact H].
  - cbn [app]. rewrite app_nil_r. assert (W : name_ok (sa_val s)).
    { left. destruct H as (c & v & -> & _ & H1 & H2). split; [discriminate|]. constructor; [left; now left|]. eapply Forall_impl; [|exact H2]. intros d Hd. now left. }
    apply rd_next; [apply no_ref with (1 := find_plugin); apply xplugin_no_word with (s' := s'); auto|]. eapply rd_choice. apply bareword_reads_stop; [exact H|now apply wstop_bare].
Qed.
Lemma xnumber_no_bare t r en : firstc (fun c => digit c \/ c = 45%N) t -> no bareword_e en (t ++ r).
Proof. intros (c & u & -> & H). apply bareword_no. cbn. unfold digit in H. split; [lia|]. apply class_miss. cls. lia. Qed.
Lemma xnum_reads t v r : number_text t -> parse_float t = Some v -> vf r -> rd value_e [] (t ++ r) (VAttr (AtNum (NumAttr zero_pos [] v []))) [] r.
Proof.
  intros T P (D & D2 & s' & K & F). pose proof (number_first _ T) as N1.
  apply rd_next; [apply no_ref with (1 := find_plugin); apply xplugin_no_number with (s' := s'); auto|].
  apply rd_next; [now apply xnumber_no_bare|]. apply rd_next; [apply string_no; destruct N1 as (c & u & -> & N1); unfold digit, DQ, SQ in *; cbn; lia|].
  eapply rd_choice. apply number_stop; auto. now apply wstop_digit.
Qed.
Lemma str_first t v s : str_ok t v -> sa_value_string s = sat_string t ++ v ++ sat_string t -> firstc namec (sa_value_string s).
Proof.
  intros H ->. apply name_first. destruct t; cbn [str_ok sat_string] in *; [| | |contradiction].
  - right. exists DQ, v. split; [now left|auto].
  - right. exists SQ, v. split; [right; now left|auto].
  - left. destruct H as (c & u & -> & _ & H1 & H2). cbn [app]. rewrite app_nil_r. split; [discriminate|]. constructor; [left; now left|]. eapply Forall_impl; [|exact H2]. intros d Hd. now left.
Qed.
Lemma xnum_first t : number_text t -> firstc namec t.
Proof. intros H. eapply firstc_imp; [|apply number_first, H]. intros c [D|D]; left; [left; now right|now right]. Qed.

(** ** The first character of a value *)
Section Values.
Context {LO : losing} {HLO : lost_reads LO}.
Lemma xval_first nm a i r : wf_attr nm a -> written (pc_value a) i r -> firstc valc i.
Proof.
  destruct a as [|s|v|p m l c f|p m l c f|p m v c]; cbn [wf_attr]; intros H W.
  - contradiction.
  - destruct H as (_ & H & _). destruct W as (u & -> & _). apply firstc_app. eapply firstc_imp; [intros c X; left; exact X|]. eapply str_first; [exact H|reflexivity].
  - destruct W as (x & u & -> & T & _). apply firstc_app. eapply firstc_imp; [intros c X; left; exact X|]. now apply xnum_first.
  - destruct W as (u & -> & _). exists 91%N. eexists. split; [reflexivity|]. right. now left.
  - destruct W as (u & -> & _). exists 123%N. eexists. split; [reflexivity|]. right. now right.
  - destruct H as (_ & _ & _ & H & _). destruct v as [vp vn vl vc vf]. destruct W as (u & -> & _). apply firstc_app. eapply firstc_imp; [intros x X; left; exact X|]. apply name_first, H.
Qed.
Lemma xval_nogap nm a i r : wf_attr nm a -> written (pc_value a) i r -> nogap i.
Proof. intros H W. eapply firstc_nogap; [exact valc_plain|]. eapply xval_first; eauto. Qed.
(** ** The end of a list: a gap and a closing bracket *)
Definition ends (i : bytes) (c : N) (r : bytes) : Prop := exists t, i = t ++ c :: r /\ gap_run t (c :: r).
Lemma ends_written i s f r c : b s = [c] -> written [PGap Plain f; tok s] i r -> ends i c r.
Proof. intros E (t & u & -> & G & w & -> & K). cbn in K. subst w. rewrite E in *. exists t. auto. Qed.
Lemma ends_vf i c r : closer c -> ends i c r -> vf i.
Proof. intros C (t & -> & G). apply vf_gap; [exact G|now apply closer_plain| |]; destruct C as [-> | ->]; try reflexivity; differ. Qed.
Lemma ends_skip i c r : closer c -> ends i c r -> xskip i (c :: r).
Proof. intros C (t & -> & G). apply gap_xskip; [exact G|]. apply nogap_plain. now apply closer_plain. Qed.

(** ** The arrow *)
Lemma arrow_reads i j es en en' s : written arrow i j -> nogap j -> (forall en, rds es en j en' s -> rds es en j en' s) -> rds es en j en' s ->
  rds ([gaps_e; warn_e; lit "=>"; gaps_e; warn_e] ++ es) en i en' s.
Proof.
  intros (t & u & -> & G1 & u1 & -> & t2 & u2 & -> & G2 & ->) G _ R. change (b "=>") with [61; 62]%N in *. cbn [app] in G1.
  destruct (xgaps _ _ en (gap_xskip _ _ G1 (nogap_plain 61%N _ ltac:(apply plain_close)))) as (v1 & R1). destruct (xgaps _ _ en (gap_xskip _ _ G2 G)) as (v2 & R2).
  eapply rds_cons; [exact R1|]. apply rds_warn. eapply rds_cons; [apply (rd_lit _ [61; 62]%N); repeat constructor|]. eapply rds_cons; [exact R2|]. apply rds_warn. exact R.
Qed.
Lemma arrow_head (P : N -> Prop) i j : written arrow i j -> (forall c, In c gapc -> P c) -> P 61%N -> head P i.
Proof. intros (t & u & -> & G1 & u1 & -> & _) H1 H2. apply gap_head; [exact G1|exact H1|exact H2]. Qed.
Lemma arrow_stop i j cs rs : written arrow i j -> forallb (fun c => negb (class_match cs rs false c)) (61%N :: gapc) = true -> stop cs rs false i.
Proof.
  intros W F. cbn [forallb] in F. apply andb_true_iff in F as [F1 F]. apply (arrow_head (fun c => (c < 128)%N /\ class_match cs rs false c = false) i j W).
  - intros c I. rewrite forallb_forall in F. specialize (F _ I). apply negb_true_iff in F. split; [|exact F]. cbn in I. intuition (subst; reflexivity).
  - split; [reflexivity|]. now apply negb_true_iff in F1.
Qed.
Lemma arrow_dot i j : written arrow i j -> first_not [46%N] i.
Proof. intros W. apply (arrow_head (fun c => ~ In c [46%N]) i j W); [|differ]. intros c I J. cbn [In gapc] in I. repeat (destruct I as [<- | I]; [revert J; differ|]). exact I. Qed.

(** ** Arrays *)
Definition Vx (a : attr) : Prop := forall nm i r, wf_attr nm a -> written (pc_value a) i r -> vf r -> rd value_e [] i (xvalue a) [] r.
Lemma unnamed_x a : wf_attr false a -> xvalue a = VAttr (shape_attr a).
Proof.
  intros H. destruct a as [|s|n|p m l c f|p m l c f|p m x c]; cbn [wf_attr named] in H; try contradiction; cbn [xvalue shape_attr]; unfold shape_str, shape_num; try (destruct H as [-> _]; reflexivity).
  destruct H as [H _]. discriminate.
Qed.
Lemma com_x a v x : quiet v -> a <> AtNil -> act_attribute_comment (VAttr (shape_attr a)) v x = RVal (VAttr (shape_attr a)).
Proof. intros Q N. unfold act_attribute_comment. rewrite Q. destruct a; try congruence; reflexivity. Qed.
Lemma wf_not_nil nm a : wf_attr nm a -> a <> AtNil. Proof. now intros H ->. Qed.
Lemma xelems l : Forall (fun a => wf_attr false a /\ Vx a) l -> forall f i r,
  written (flat_map (fun y => [PHid; tok ","] ++ PGap Next (attr_com y) :: pc_value y) l ++ [PGap Plain f; tok "]"]) i r ->
  exists C, rdt more_value_e i (map (fun x => VAttr (shape_attr x)) l) C /\ ends C 93%N r /\ vf i.
Proof.
  induction 1 as [|x l [Hx Vxx] H IH]; intros f i r W; cbn [flat_map] in W.
  - cbn [app] in W. apply (ends_written _ _ _ _ 93%N) in W; [|reflexivity]. exists i. split; [|split; [exact W|eapply ends_vf; [now left|exact W]]].
    apply rdt_stop, no_act, no_seq. destruct (xgaps _ _ [] (ends_skip _ _ _ (or_introl eq_refl) W)) as (v & R). eapply nos_rd; [exact R|]. apply nos_warn, nos_here, no_chr; [repeat constructor|differ].
  - rewrite <- !app_assoc in W. destruct W as (t & u & -> & G1 & u1 & -> & t2 & u2 & -> & G2 & W). apply written_app in W as (j & Wx & W).
    apply IH in W as (C & R & E & F). exists C. split; [|split; [exact E|]].
    + pose proof (xval_nogap _ _ _ _ Hx Wx) as G. change (b ",") with [44%N] in *. cbn [app] in *.
      destruct (xgaps _ _ [] (gap_xskip _ _ G1 (nogap_plain 44%N _ ltac:(apply plain_close)))) as (v1 & R1). destruct (gap_xskip _ _ G2 G) as (v2 & R2 & Q2).
      eapply rdt_more; [|exact R]. eapply rd_act; [eapply rds_cons; [exact R1|]; apply rds_warn; eapply rds_cons; [apply rd_chr; reflexivity|]; eapply rds_cons; [eapply rd_lab, R2|];
        eapply rds_cons; [eapply rd_lab, rd_ref with (1 := find_value); exact (Vxx false _ _ Hx Wx F)|apply rds_nil]|].
      intros t0. cbn [run_action]. change (act_attribute_comment (xvalue x) v2 true = RVal (VAttr (shape_attr x))). rewrite (unnamed_x x Hx). apply com_x; [exact Q2|eapply wf_not_nil, Hx].
    + apply vf_gap; [exact G1|apply plain_close|reflexivity|differ].
Qed.
Lemma xvalue_no c s en : closer c -> no value_e en (c :: s).
Proof.
  intros Hc. destruct (closer_no c s Hc) as (H1 & H2 & H3 & H4 & H5 & H6).
  apply no_choice; [apply no_ref with (1 := find_plugin); eapply xplugin_no_name; [apply xskip_none, nogap_plain, closer_plain, Hc| |]; assumption|].
  apply no_choice; [now apply bareword_no|]. apply no_choice; [now apply string_no|]. apply no_choice; [now apply number_no|].
  apply no_choice; [apply no_ref with (1 := find_array), no_act, no_seq, nos_here; eapply first_not_lit; [|repeat constructor|exact H6]; now left|].
  apply no_choice; [apply no_ref with (1 := find_hash), no_act, no_seq, nos_here; eapply first_not_lit; [|repeat constructor|exact H6]; right; now left|].
  apply no_choice; [apply no_soft|apply no_none].
Qed.
Lemma xclose c w e en s : (c < 128)%N -> rd (EChoice [ELit w [c]; e]) en (c :: s) (VBytes [c]) en s.
Proof. intros H. eapply rd_choice. now apply (rd_chr w c []). Qed.
Lemma attributes_lost px v (f : attr -> attr) rest : act_attributes (VPlugin px) (VList (map (fun y => VAttr (f y)) rest)) v = RVal (VAttrs (map f rest)).
Proof.
  unfold act_attributes. cbn [act_attribute_comment iface_slice app].
  replace (attributes_loop (map (fun y => VAttr (f y)) rest)) with (inl (B := val) (map f rest)); [reflexivity|]. induction rest as [|y r IH]; [reflexivity|]. cbn [map attributes_loop]. now rewrite <- IH.
Qed.
Lemma xarray l p m c f i r : Forall (fun a => wf_attr false a /\ Vx a) l -> written (pc_value (AtArr p m l c f)) i r ->
  exists en', rd array_e [] i (VAttr (AtArr zero_pos [] (map shape_attr l) [] [])) en' r.
Proof.
  intros H W. cbn [pc_value app] in W. destruct W as (i0 & -> & i1 & LL & W). change (b "[") with [91%N]. cbn [app]. destruct (lost_read _ _ _ LL) as [E|(i & j & px & (v1 & R1 & Q1) & V & J)]; [subst i0; clear LL; destruct H as [|x l [Hx Vxx] H]|].
  - cbn [join app] in W. apply (ends_written _ _ _ _ 93%N) in W; [|reflexivity]. destruct (ends_skip _ _ _ (or_introl eq_refl) W) as (v & R & Q).
    eexists. eapply rd_act.
    + eapply rds_cons; [apply rd_chr; reflexivity|]. eapply rds_cons; [eapply rd_lab, rd_opt_none|].
      * apply no_act, no_seq. eapply nos_rd; [eapply rd_lab, R|]. apply nos_here, no_lab, no_ref with (1 := find_value). apply xvalue_no. now left.
      * eapply rds_cons; [eapply rd_lab, R|]. eapply rds_cons; [apply xclose; reflexivity|apply rds_nil].
    + intros t. cbn [run_action]. change (act_array VNil v = RVal (VAttr (AtArr zero_pos [] [] [] []))). unfold act_array. now rewrite Q.
  - rewrite join_cons, <- app_assoc in W. destruct W as (t & u & -> & G & W). change (written (pc_value x ++ flat_map (fun y => [PHid; tok ","] ++ PGap Next (attr_com y) :: pc_value y) l ++ [PGap Plain f; tok "]"]) u r) in W.
    apply written_app in W as (j & Wx & W).
    destruct (xelems l H f j r W) as (C & M & E & F). destruct (ends_skip _ _ _ (or_introl eq_refl) E) as (v & R & Q).
    destruct (gap_xskip _ _ G (xval_nogap _ _ _ _ Hx Wx)) as (v1 & R1 & Q1).
    eexists. eapply rd_act.
    + eapply rds_cons; [apply rd_chr; reflexivity|]. eapply rds_cons; [eapply rd_lab, rd_opt; eapply rd_act with (v := VAttrs (map shape_attr (x :: l)))|].
      * eapply rds_cons; [eapply rd_lab, R1|]. eapply rds_cons; [eapply rd_lab, rd_ref with (1 := find_value); exact (Vxx false _ _ Hx Wx F)|].
        eapply rds_cons; [eapply rd_lab, rd_star, M|apply rds_nil].
      * intros t0. cbn [run_action]. change (act_attributes (xvalue x) (VList (map (fun x => VAttr (shape_attr x)) l)) v1 = RVal (VAttrs (map shape_attr (x :: l)))). rewrite (unnamed_x x Hx).
        exact (attributes_ok _ _ v1 (com_x x v1 false Q1 (wf_not_nil _ _ Hx)) shape_attr l).
      * eapply rds_cons; [eapply rd_lab, R|]. eapply rds_cons; [apply xclose; reflexivity|apply rds_nil].
    + intros t0. cbn [run_action]. change (act_array (VAttrs (map shape_attr (x :: l))) v = RVal (VAttr (AtArr zero_pos [] (map shape_attr (x :: l)) [] []))). unfold act_array. now rewrite Q.
  - (* a dropped plugin *)
    assert (W' : written (flat_map (fun y => [PHid; tok ","] ++ PGap Next (attr_com y) :: pc_value y) l ++ [PGap Plain f; tok "]"]) j r).
    { destruct l as [|x l]; cbn [nonempty] in J; [subst j; exact W|]. destruct J as (g & -> & G). rewrite join_cons in W. cbn [flat_map].
      rewrite <- !app_assoc. exists g, (44%N :: i1). split; [reflexivity|]. split; [exact G|]. exists i1. split; [reflexivity|]. rewrite <- app_assoc in W. exact W. }
    destruct (xelems l H f j r W') as (C & M & E & _). destruct (ends_skip _ _ _ (or_introl eq_refl) E) as (v & R & Q).
    eexists. eapply rd_act.
    + eapply rds_cons; [apply rd_chr; reflexivity|]. eapply rds_cons; [eapply rd_lab, rd_opt; eapply rd_act with (v := VAttrs (map shape_attr l))|].
      * eapply rds_cons; [eapply rd_lab, R1|]. eapply rds_cons; [eapply rd_lab, rd_ref with (1 := find_value); exact V|].
        eapply rds_cons; [eapply rd_lab, rd_star, M|apply rds_nil].
      * intros t0. cbn [run_action]. change (act_attributes (VPlugin px) (VList (map (fun x => VAttr (shape_attr x)) l)) v1 = RVal (VAttrs (map shape_attr l))).
        exact (attributes_lost px v1 shape_attr l).
      * eapply rds_cons; [eapply rd_lab, R|]. eapply rds_cons; [apply xclose; reflexivity|apply rds_nil].
    + intros t0. cbn [run_action]. change (act_array (VAttrs (map shape_attr l)) v = RVal (VAttr (AtArr zero_pos [] (map shape_attr l) [] []))). unfold act_array. now rewrite Q.
Qed.

(** ** Hashes *)
Definition Hx (e : hentry) : Prop := match e with HEntry _ _ v _ => Vx v end.
Lemma xkey_reads k i s : key_ok k -> written (pc_key k) i s -> bstop s -> dstop s -> first_not [46%N] s -> exists v, rd (EChoice [number_e; bareword_e; string_e]) [] i v [] s /\
  (match v with VAttr (AtStr x) => Some (HKStr x) | VAttr (AtNum x) => Some (HKNum x) | _ => None end) = Some (shape_key k).
Proof.
  intros H W D D1 D2. destruct k as [x|x]; cbn [key_ok pc_key shape_key] in *.
  - destruct H as (E1 & H & E2). destruct W as (u & -> & ->). exists (VAttr (str0 (sa_type x) (sa_val x))). split; [|unfold str0, shape_str; now rewrite E1].
    assert (Q : forall q, In q [DQ; SQ] -> literal_value q (sa_val x) ->
      rd (EChoice [number_e; bareword_e; string_e]) [] (([q] ++ sa_val x ++ [q]) ++ s) (VAttr (str0 (if N.eqb q DQ then DoubleQuoted else SingleQuoted) (sa_val x))) [] s).
    { intros q Hq Hv. apply rd_next; [apply number_no; enum Hq; differ|]. apply rd_next; [apply bareword_no; enum Hq; split; reflexivity|].
      destruct (quoted_reads_rd q (sa_val x) s Hq Hv) as (en' & R). eapply rd_choice. rewrite <- !app_assoc. exact R. }
    unfold sa_value_string. destruct (sa_type x); cbn [str_ok sat_string] in *; [| | |contradiction].
    + apply (Q DQ); [now left|exact H].
    + apply (Q SQ); [right; now left|exact H].
    + cbn [app]. rewrite app_nil_r. apply rd_next; [|eapply rd_choice; apply bareword_reads_stop; auto].
      destruct H as (c & v & -> & _ & H1 & _). apply number_no; cbn; unfold bareword_start in H1; [lia|]. split; [lia|]. apply class_miss. cls. lia.
  - destruct H as (E1 & _ & E2). destruct W as (t & u & -> & T & P & ->). exists (VAttr (AtNum (NumAttr zero_pos [] (na_val x) []))). split; [|unfold shape_num; now rewrite E1].
    eapply rd_choice. apply number_stop; auto.
Qed.
Lemma xkey_first k i s : key_ok k -> written (pc_key k) i s -> firstc namec i.
Proof.
  destruct k as [x|x]; cbn [key_ok pc_key]; intros H W.
  - destruct W as (u & -> & _). apply firstc_app. eapply str_first; [apply H|reflexivity].
  - destruct W as (t & u & -> & T & _). apply firstc_app. now apply xnum_first.
Qed.
(** an entry after its gap *)
Lemma xhentry_reads p k v com i j r : wf_hentry (HEntry p k v com) -> Vx v -> xskip i j -> written (pc_key k ++ arrow ++ pc_value v) j r -> vf r ->
  rd (ERef "hashentry") [] i (VHEntry (shape_hentry (HEntry p k v com))) [] r.
Proof.
  intros (Hk & _ & Hv & _) V (w & R & Q) W F. apply written_app in W as (j1 & Wk & W). apply written_app in W as (j2 & Wa & Wv).
  destruct (xkey_reads k j j1 Hk Wk) as (kv & Rk & Ek); [apply (arrow_stop _ _ _ _ Wa); reflexivity|apply (arrow_stop _ _ _ _ Wa); reflexivity|apply (arrow_dot _ _ Wa)|].
  eapply rd_ref with (1 := find_hashentry). eapply rd_act.
  - eapply rds_cons; [eapply rd_lab, R|]. eapply rds_cons; [eapply rd_lab, Rk|].
    apply (arrow_reads j1 j2 [ELab "value" (ERef "value")] _ _ _ Wa); [eapply xval_nogap; eauto|auto|].
    eapply rds_cons; [eapply rd_lab, rd_ref with (1 := find_value); exact (V false _ _ Hv Wv F)|apply rds_nil].
  - intros t. cbn [run_action]. change (act_hashentry zero_pos kv (xvalue v) w = RVal (VHEntry (shape_hentry (HEntry p k v com)))). rewrite (unnamed_x v Hv).
    unfold act_hashentry. rewrite Ek, Q. reflexivity.
Qed.
Lemma xhentry_no i c s en : closer c -> xskip i (c :: s) -> no (ERef "hashentry") en i.
Proof.
  intros Hc (v & R & _). destruct (closer_no c s Hc) as (H1 & H2 & H3 & H4 & H5 & _). apply no_ref with (1 := find_hashentry), no_act, no_seq. eapply nos_rd; [eapply rd_lab, (R [])|].
  apply nos_here, no_lab. apply no_choice; [now apply number_no|]. apply no_choice; [now apply bareword_no|]. apply no_choice; [now apply string_no|apply no_none].
Qed.
Lemma xentries l : Forall (fun e => wf_hentry e /\ Hx e) l -> forall f i r,
  written (flat_map (fun y => [PWs] ++ pc_hentry Next y) l ++ [PGap Plain f; tok "}"]) i r ->
  exists C, rdt more_hashentry_e i (map (fun x => VHEntry (shape_hentry x)) l) C /\ ends C 125%N r /\ vf i.
Proof.
  induction 1 as [|x l [Wx Vxx] H IH]; intros f i r W; cbn [flat_map] in W.
  - cbn [app] in W. apply (ends_written _ _ _ _ 125%N) in W; [|reflexivity]. exists i. split; [|split; [exact W|eapply ends_vf; [now right|exact W]]].
    apply rdt_stop. destruct W as (t & -> & G). apply no_act, no_seq. destruct (gap_ws_cases t (125%N :: r) G) as [N|(j & R & K)]; [apply nogap_plain, plain_close|apply nos_here, N|].
    eapply nos_rd; [apply R|]. apply nos_here, no_lab. eapply xhentry_no; [|exact K]. now right.
  - rewrite <- !app_assoc in W. destruct W as (t & u & -> & N & T & W). destruct x as [p k v com]. cbn [pc_hentry] in W. rewrite <- !app_assoc in W. destruct W as (t2 & u2 & -> & G & W).
    change (written (pc_key k ++ arrow ++ pc_value v ++ flat_map (fun y => [PWs] ++ pc_hentry Next y) l ++ [PGap Plain f; tok "}"]) u2 r) in W.
    rewrite !app_assoc in W. rewrite <- app_assoc in W. apply written_app in W as (j & We & W). rewrite <- app_assoc in We. apply IH in W as (C & R & E & F). exists C. split; [|split; [exact E|]].
    + assert (Fk : firstc namec u2). { destruct Wx as (Hk & _). pose proof We as We'. apply written_app in We' as (j1 & Wk & _). eapply xkey_first; eauto. }
      destruct (ws_xskip t t2 u2 N T G) as (j0 & R0 & K0); [eapply firstc_nogap; [exact namec_plain|exact Fk]|].
      eapply rdt_more; [|exact R]. eapply rd_act; [eapply rds_cons; [apply R0|]; eapply rds_cons; [eapply rd_lab, xhentry_reads; eauto|apply rds_nil]|]. reflexivity.
    + assert (Fk : firstc namec u2). { destruct Wx as (Hk & _). pose proof We as We'. apply written_app in We' as (j1 & Wk & _). eapply xkey_first; eauto. }
      destruct Fk as (c & w & -> & Nc). apply vf_ws; [exact N|exact T|exact G|now apply namec_plain|]. intros ->. apply (namec_not _ Nc). now left.
Qed.
Lemma xhash l p m c f i r : Forall (fun e => wf_hentry e /\ Hx e) l -> written (pc_value (AtHash p m l c f)) i r ->
  exists en', rd hash_e [] i (VAttr (AtHash zero_pos [] (map shape_hentry l) [] [])) en' r.
Proof.
  intros H W. cbn [pc_value app] in W. destruct W as (i1 & -> & W). change (b "{") with [123%N]. cbn [app]. destruct H as [|x l [Wx Vxx] H].
  - cbn [join app] in W. apply (ends_written _ _ _ _ 125%N) in W; [|reflexivity]. pose proof (ends_skip _ _ _ (or_intror eq_refl) W) as K. pose proof K as (v & R & Q).
    eexists. eapply rd_act.
    + eapply rds_cons; [apply rd_chr; reflexivity|]. eapply rds_cons; [eapply rd_lab, rd_opt_none|].
      * apply no_ref with (1 := find_hashentries). apply no_act, no_seq, nos_here, no_lab. eapply xhentry_no; [|exact K]. now right.
      * eapply rds_cons; [eapply rd_lab, R|]. eapply rds_cons; [apply xclose; reflexivity|apply rds_nil].
    + intros t. cbn [run_action]. change (act_hash VNil v = RVal (VAttr (AtHash zero_pos [] [] [] []))). unfold act_hash. now rewrite Q.
  - rewrite join_cons, <- app_assoc in W. destruct x as [xp k v com]. cbn [pc_hentry] in W. rewrite <- !app_assoc in W. destruct W as (t2 & u2 & -> & G & W).
    change (written (pc_key k ++ arrow ++ pc_value v ++ flat_map (fun y => [PWs] ++ pc_hentry Next y) l ++ [PGap Plain f; tok "}"]) u2 r) in W.
    rewrite !app_assoc in W. rewrite <- app_assoc in W. apply written_app in W as (j & We & W). rewrite <- app_assoc in We.
    assert (Fk : firstc namec u2). { destruct Wx as (Hk & _). pose proof We as We'. apply written_app in We' as (j1 & Wk & _). eapply xkey_first; eauto. }
    destruct (xentries l H f j r W) as (C & M & E & F). destruct (ends_skip _ _ _ (or_intror eq_refl) E) as (w & R & Q).
    assert (K : xskip (t2 ++ u2) u2) by (apply gap_xskip; [exact G|eapply firstc_nogap; [exact namec_plain|exact Fk]]).
    eexists. eapply rd_act.
    + eapply rds_cons; [apply rd_chr; reflexivity|]. eapply rds_cons; [eapply rd_lab, rd_opt, rd_ref with (1 := find_hashentries); eapply rd_act with (v := VHEntries (map shape_hentry (HEntry xp k v com :: l)))|].
      * eapply rds_cons; [eapply rd_lab, xhentry_reads; eauto|]. eapply rds_cons; [eapply rd_lab, rd_star, M|apply rds_nil].
      * intros t0. cbn [run_action].
        change (act_hashentries (VHEntry (shape_hentry (HEntry xp k v com))) (VList (map (fun x => VHEntry (shape_hentry x)) l)) = RVal (VHEntries (map shape_hentry (HEntry xp k v com :: l)))).
        unfold act_hashentries. cbn [shape_hentry iface_slice]. replace (hentries_loop (map (fun x => VHEntry (shape_hentry x)) l)) with (Some (map shape_hentry l)); [reflexivity|]. clear. induction l as [|y l IH]; [reflexivity|]. cbn [map hentries_loop]. now rewrite <- IH.
      * eapply rds_cons; [eapply rd_lab, R|]. eapply rds_cons; [apply xclose; reflexivity|apply rds_nil].
    + intros t0. cbn [run_action]. change (act_hash (VHEntries (map shape_hentry (HEntry xp k v com :: l))) w = RVal (VAttr (AtHash zero_pos [] (map shape_hentry (HEntry xp k v com :: l)) [] []))). unfold act_hash. now rewrite Q.
Qed.

(** ** Attributes and plugins *)
Lemma wf_name a : wf_attr true a -> name_ok (Spelled.attr_name a).
Proof. destruct a; cbn [wf_attr named Spelled.attr_name]; try tauto. Qed.
Lemma xattribute a i r : wf_attr true a -> Vx a -> written ([PTok (Spelled.attr_name a)] ++ arrow ++ pc_value a) i r -> vf r ->
  rd (ERef "attribute") [] i (VAttr (shape_attr a)) [] r.
Proof.
  intros H V W F. destruct W as (i1 & -> & W). change (written (arrow ++ pc_value a) i1 r) in W. apply written_app in W as (j & Wa & Wv).
  destruct (name_reads (Spelled.attr_name a) i1) as (x & en' & R & Ex & Px); [now apply wf_name|apply (arrow_stop _ _ _ _ Wa); reflexivity|].
  eapply rd_ref with (1 := find_attribute). eapply rd_act.
  - eapply rds_cons; [eapply rd_lab, R|]. apply (arrow_reads i1 j [ELab "value" (ERef "value")] _ _ _ Wa); [eapply xval_nogap; eauto|auto|].
    eapply rds_cons; [eapply rd_lab, rd_ref with (1 := find_value); exact (V true _ _ H Wv F)|apply rds_nil].
  - intros t. cbn [run_action]. change (act_attribute zero_pos (VAttr (AtStr x)) (xvalue a) = RVal (VAttr (shape_attr a))).
    unfold act_attribute. rewrite Ex. destruct a; cbn [wf_attr] in H; try contradiction; reflexivity.
Qed.
Lemma xattribute_no c s en : closer c -> no (ERef "attribute") en (c :: s).
Proof.
  intros Hc. destruct (closer_no c s Hc) as (H1 & H2 & _). apply no_ref with (1 := find_attribute), no_act, no_seq, nos_here, no_lab. now apply name_no.
Qed.
Lemma xattr_first a i r : wf_attr true a -> written ([PTok (Spelled.attr_name a)] ++ arrow ++ pc_value a) i r -> firstc namec i.
Proof. intros H (u & -> & _). apply firstc_app, name_first. now apply wf_name. Qed.
Lemma xattrs l : Forall (fun a => wf_attr true a /\ Vx a) l -> forall f i r,
  written (flat_map (fun y => [PWs] ++ pc_attr Next y) l ++ [PGap Plain f; tok "}"]) i r ->
  exists C, rdt more_attr_e i (map (fun x => VAttr (shape_attr x)) l) C /\ ends C 125%N r /\ vf i.
Proof.
  induction 1 as [|x l [Wx Vxx] H IH]; intros f i r W; cbn [flat_map] in W.
  - cbn [app] in W. apply (ends_written _ _ _ _ 125%N) in W; [|reflexivity]. exists i. split; [|split; [exact W|eapply ends_vf; [now right|exact W]]].
    apply rdt_stop. destruct W as (t & -> & G). apply no_act, no_seq. destruct (gap_ws_cases t (125%N :: r) G) as [N|(j & R & (v & K & _))]; [apply nogap_plain, plain_close|apply nos_here, N|].
    eapply nos_rd; [apply R|]. eapply nos_rd; [eapply rd_lab, (K [])|]. apply nos_here, no_lab, xattribute_no. now right.
  - rewrite <- !app_assoc in W. destruct W as (t & u & -> & N & T & W). unfold pc_attr in W. rewrite <- !app_assoc in W. destruct W as (t2 & u2 & -> & G & W).
    change (written ([PTok (Spelled.attr_name x)] ++ arrow ++ pc_value x ++ flat_map (fun y => [PWs] ++ pc_attr Next y) l ++ [PGap Plain f; tok "}"]) u2 r) in W.
    rewrite !app_assoc in W. rewrite <- app_assoc in W. apply written_app in W as (j & We & W). rewrite <- app_assoc in We. apply IH in W as (C & R & E & F).
    pose proof (xattr_first x u2 j Wx We) as Fk. exists C. split; [|split; [exact E|]].
    + destruct (ws_xskip t t2 u2 N T G) as (j0 & R0 & (v & K0 & Q)); [eapply firstc_nogap; [exact namec_plain|exact Fk]|].
      eapply rdt_more; [|exact R]. eapply rd_act; [eapply rds_cons; [apply R0|]; eapply rds_cons; [eapply rd_lab, K0|]; eapply rds_cons; [eapply rd_lab, xattribute; eauto|apply rds_nil]|].
      intros t0. cbn [run_action]. change (act_attribute_comment (VAttr (shape_attr x)) v true = RVal (VAttr (shape_attr x))). apply com_x; [exact Q|eapply wf_not_nil, Wx].
    + destruct Fk as (c & w & -> & Nc). apply vf_ws; [exact N|exact T|exact G|now apply namec_plain|]. intros ->. apply (namec_not _ Nc). now left.
Qed.
Lemma xplugin_reads x i j r : wf_plugin x -> Forall Vx (match x with Plugin _ _ l _ _ => l end) -> xskip i j -> written (pc_plugin x) j r ->
  rd (ERef "plugin") [] i (VPlugin (shape_plugin x)) [] r.
Proof.
  destruct x as [p n l c f]. intros (Hn & _ & _ & Hl) V (v0 & R0 & Q0) W. cbn [pc_plugin app] in W.
  assert (H : Forall (fun a => wf_attr true a /\ Vx a) l). { apply All_Forall in Hl. rewrite Forall_forall in *. auto. } clear V Hl.
  destruct W as (i1 & -> & t & u & -> & G & u1 & -> & W). change (b "{") with [123%N] in *. cbn [app] in G.
  change (written (join Plain [PWs] pc_attr l ++ [PGap Plain f; tok "}"]) u1 r) in W.
  destruct (name_reads n (t ++ 123%N :: u1)) as (x & en' & R & Ex & Px); [exact Hn|apply gap_stop; [exact G|reflexivity|split; reflexivity]|].
  assert (B : forall en, exists en', rds [ELab "attributes" (EOpt attrs_e); ELab "footerComment" gap_e; close "}" (fatal "expect closing curly bracket")] en u1 en' r /\
    lookup "attributes" en' = (match l with [] => VNil | _ => VAttrs (map shape_attr l) end) /\ quiet (lookup "footerComment" en') /\
    lookup "name" en' = lookup "name" en /\ lookup "comment" en' = lookup "comment" en).
  { clear R R0. intros en. destruct H as [|a l [Ha Va] H].
    - cbn [join app] in W. apply (ends_written _ _ _ _ 125%N) in W; [|reflexivity]. destruct (ends_skip _ _ _ (or_intror eq_refl) W) as (v & R & Q).
      eexists. split; [|split; [|split; [|split]]].
      + eapply rds_cons; [eapply rd_lab, rd_opt_none|].
        * apply no_act, no_seq. eapply nos_rd; [eapply rd_lab, R|]. apply nos_here, no_lab, xattribute_no. now right.
        * eapply rds_cons; [eapply rd_lab, R|]. eapply rds_cons; [apply xclose; reflexivity|apply rds_nil].
      + reflexivity.
      + exact Q.
      + reflexivity.
      + reflexivity.
    - rewrite join_cons in W. unfold pc_attr at 1 in W. rewrite <- !app_assoc in W. destruct W as (t2 & u2 & -> & G2 & W).
      change (written ([PTok (Spelled.attr_name a)] ++ arrow ++ pc_value a ++ flat_map (fun y => [PWs] ++ pc_attr Next y) l ++ [PGap Plain f; tok "}"]) u2 r) in W.
      rewrite !app_assoc in W. rewrite <- app_assoc in W. apply written_app in W as (j & We & W). rewrite <- app_assoc in We.
      pose proof (xattr_first a u2 j Ha We) as Fk. destruct (xattrs l H f j r W) as (C & M & E & F). destruct (ends_skip _ _ _ (or_intror eq_refl) E) as (v & R & Q).
      destruct (gap_xskip _ _ G2) as (v1 & R1 & Q1); [eapply firstc_nogap; [exact namec_plain|exact Fk]|].
      eexists. split; [|split; [|split; [|split]]].
      + eapply rds_cons; [eapply rd_lab, rd_opt; eapply rd_act with (v := VAttrs (map shape_attr (a :: l)))|].
        * eapply rds_cons; [eapply rd_lab, R1|]. eapply rds_cons; [eapply rd_lab, xattribute; eauto|]. eapply rds_cons; [eapply rd_lab, rd_star, M|apply rds_nil].
        * intros t0. exact (attributes_ok _ _ v1 (com_x a v1 false Q1 (wf_not_nil _ _ Ha)) shape_attr l).
        * eapply rds_cons; [eapply rd_lab, R|]. eapply rds_cons; [apply xclose; reflexivity|apply rds_nil].
      + reflexivity.
      + exact Q.
      + reflexivity.
      + reflexivity. }
  destruct (xgaps (t ++ 123%N :: u1) _ (bind "name" (VAttr (AtStr x)) (bind "comment" v0 [])) (gap_xskip _ _ G (nogap_plain 123%N u1 ltac:(apply plain_close)))) as (v2 & R2).
  destruct (B (bind "name" (VAttr (AtStr x)) (bind "comment" v0 []))) as (en2 & RB & L1 & L2 & L3 & L4).
  eapply rd_ref with (1 := find_plugin). eapply rd_act.
  - eapply rds_cons; [eapply rd_lab, R0|]. eapply rds_cons; [eapply rd_lab, R|]. eapply rds_cons; [exact R2|]. apply rds_warn. eapply rds_cons; [apply rd_chr; reflexivity|]. exact RB.
  - intros t0. cbn [run_action]. rewrite L1, L3, L4. unfold act_plugin.
    change (lookup "name" (bind "name" (VAttr (AtStr x)) (bind "comment" v0 []))) with (VAttr (AtStr x)). change (lookup "comment" (bind "name" (VAttr (AtStr x)) (bind "comment" v0 []))) with v0.
    rewrite Q0, L2, Ex, Px. destruct l; reflexivity.
Qed.

(** ** All values *)
Theorem xvalue_reads a : Vx a.
Proof.
  induction a as [|s|v|p nm l c f IH|p nm l c f IH|p nm v c IH] using attr_ind'; intros b0 i r H W Fo.
  - contradiction.
  - destruct W as (u & -> & ->). apply xstr_reads; [apply H|exact Fo].
  - destruct W as (t & u & -> & T & P & ->). now apply xnum_reads.
  - destruct H as (_ & _ & _ & Hl). assert (A : Forall (fun a => wf_attr false a /\ Vx a) l). { apply All_Forall in Hl. rewrite Forall_forall in *. auto. }
    destruct (xarray l p nm c f i r A W) as (en' & R). destruct W as (u & -> & _). change (b "[") with [91%N] in *. cbn [app] in *.
    apply rd_next; [apply no_ref with (1 := find_plugin); eapply xplugin_no_name; [apply xskip_none, nogap_plain, plain_close| |]; [differ|split; reflexivity]|].
    apply rd_next; [apply bareword_no; split; reflexivity|]. apply rd_next; [apply string_no; differ|]. apply rd_next; [apply number_no; [differ|split; reflexivity]|].
    eapply rd_choice, rd_ref with (1 := find_array). exact R.
  - destruct H as (_ & _ & _ & Hl). assert (A : Forall (fun a => wf_hentry a /\ Hx a) l).
    { apply All_Forall in Hl. rewrite Forall_forall in *. intros [hp hk hv hc] I. split; [auto|]. exact (IH _ I). }
    destruct (xhash l p nm c f i r A W) as (en' & R). destruct W as (u & -> & _). change (b "{") with [123%N] in *. cbn [app] in *.
    apply rd_next; [apply no_ref with (1 := find_plugin); eapply xplugin_no_name; [apply xskip_none, nogap_plain, plain_close| |]; [differ|split; reflexivity]|].
    apply rd_next; [apply bareword_no; split; reflexivity|]. apply rd_next; [apply string_no; differ|]. apply rd_next; [apply number_no; [differ|split; reflexivity]|].
    apply rd_next; [apply no_ref with (1 := find_array), no_act, no_seq, nos_here, no_chr; [repeat constructor|differ]|].
    eapply rd_choice, rd_ref with (1 := find_hash). exact R.
  - destruct H as (_ & _ & _ & Hp & _). cbn [pc_value] in W. cbn [xvalue]. eapply rd_choice. eapply xplugin_reads; [exact Hp|destruct v; exact IH| |exact W].
    apply xskip_none. destruct v as [vp vn vl vc vf0]. destruct W as (u & -> & _). eapply firstc_nogap; [exact namec_plain|]. apply firstc_app, name_first, Hp.
Qed.
End Values.
