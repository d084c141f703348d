(** Names of plugins that start with a keyword: when they are taken for a branch. *)
From Coq Require Import List NArith Bool String Arith Lia.
From Verif Require Import Bytes Utf8 F64 Ast Peg Actions Engine AstPrint AstInd EscapeFacts QuoteFacts SimpleFacts PosFacts Matches PegSem PegFacts LexFacts Tree Rules Bare Reads Lines Layout
  ReadLex ReadGap ReadCom ReadVal ReadCond ReadBop Spelled Written FreeLex FreeVal FreeCond.
Import ListNotations.
Notation ok := (Reads.ok true rules).
Notation no := (Reads.no true rules).
Notation nos := (Reads.nos true rules).
Notation rd := (@ReadGap.rd true).
Notation rds := (@ReadGap.rds true).
Notation rdt := (@ReadGap.rdt true).

(** ** Words that start like a keyword *)
Lemma xlit_cases w en s : Forall (fun r => r < 128)%N (b w) -> no (lit w) en s \/ exists t, s = b w ++ t /\ rd (lit w) en s (VBytes (b w)) en t.
Proof.
  intros A. destruct (ReadBop.strip (b w) s) as [t|] eqn:E.
  - apply strip_some in E. right. exists t. split; [exact E|]. rewrite E. now apply rd_lit.
  - left. apply no_lit; [exact A|]. intros t ->. assert (X : ReadBop.strip (b w) (b w ++ t) = Some t) by now apply strip_some. congruence.
Qed.
(** a gap and an opening brace *)
Definition opening (s : bytes) : Prop := exists g r, s = g ++ 123%N :: r /\ gap_run g (123%N :: r).
Lemma opening_stop s cs rs : opening s -> forallb (fun c => negb (class_match cs rs false c)) (123%N :: gapc) = true -> stop cs rs false s.
Proof.
  intros (g & r & -> & G) F. cbn [forallb] in F. apply andb_true_iff in F as [F1 F]. apply gap_stop; [exact G|exact F|]. split; [reflexivity|]. now apply negb_true_iff in F1.
Qed.
Lemma opening_skip s : opening s -> exists r, xskip s (123%N :: r).
Proof. intros (g & r & -> & G). exists r. apply gap_xskip; [exact G|apply nogap_plain, plain_close]. Qed.
Lemma opening_brace r : opening (123%N :: r).
Proof. exists [], r. split; [reflexivity|constructor]. Qed.
Lemma opening_head (P : N -> Prop) s : opening s -> (forall c, In c (123%N :: gapc) -> P c) -> head P s.
Proof. intros (g & r & -> & G) F. apply (gap_head P _ _ G); [intros c I; apply F; now right|]. cbn. apply F. now left. Qed.
Lemma opening_word s : opening s -> head (fun c => ~ word_char c) s.
Proof. intros O. apply (opening_head _ s O). intros c I W. unfold word_char, bareword_char, bareword_start in W. enum I; lia. Qed.
Lemma xquote_nolit q c w en s : In q [DQ; SQ] -> ~ In c [DQ; SQ] -> Forall (fun r => r < 128)%N (c :: w) -> forall nm, no (ELit nm (c :: w)) en (q :: s).
Proof. intros H N A nm. apply no_chr; [exact A|]. intros [E|[]]. subst. now apply N. Qed.
(** the keyword is within the word *)
Lemma key_in k n s t : Forall word_char k -> opening s -> n ++ s = k ++ t -> exists t0, n = k ++ t0 /\ t = t0 ++ s.
Proof.
  intros K O. revert n. induction K as [|c k Hc K IH]; intros n E; [exists n; auto|]. destruct n as [|x n].
  - exfalso. cbn [app] in E. pose proof (opening_word s O) as F. rewrite E in F. exact (F Hc).
  - cbn [app] in E. injection E as -> E. destruct (IH n E) as (t0 & -> & ->). exists t0. auto.
Qed.
Ltac keys := apply Forall_forall; intros ? I; unfold word_char, bareword_char, bareword_start; cbv [b String.list_ascii_of_string] in I; cbn in I; repeat destruct I as [<- | I]; try contradiction; lia.

(** ** Numbers in words *)
Lemma span t : exists d r, t = d ++ r /\ Forall digit d /\ no_digit r.
Proof.
  induction t as [|c t (d & r & -> & D & N)]; [exists [], []; repeat split; constructor|].
  destruct (digit_dec c) as [H|H]; [exists (c :: d), r; auto|exists [], (c :: d ++ r); repeat split; auto].
Qed.
Lemma number_cases t : Forall word_char t -> wordbrace t [] \/ exists w r, t = w ++ r /\ word_number w /\ no_digit r.
Proof.
  intros W. destruct t as [|c u]; [now left; left|]. inversion W as [|x l Wc Wu]; subst. destruct (digit_dec c) as [D|D].
  - destruct (span u) as (d & r & -> & Hd & N). right. exists (c :: d), r. split; [reflexivity|]. split; [|exact N]. exists (c :: d). split; [discriminate|]. auto.
  - destruct (N.eq_dec c 45) as [-> | M].
    + destruct u as [|x u]; [left; right; exists 45%N, []; auto|]. inversion Wu; subst. destruct (digit_dec x) as [Dx|Dx].
      * destruct (span u) as (d & r & -> & Hd & N). right. exists (45%N :: x :: d), r. split; [reflexivity|]. split; [|exact N]. exists (x :: d). split; [discriminate|]. auto.
      * left. right. exists 45%N, (x :: u). split; [reflexivity|]. split; [exact Wc|]. split; [exact D|]. intros _. right. eauto.
    + left. right. exists c, u. split; [reflexivity|]. split; [exact Wc|]. split; [exact D|]. congruence.
Qed.
Lemma word_number_text w : word_number w -> number_text w.
Proof. intros (d & N & D & [-> | ->]); [exists [], d, []|exists [45%N], d, []]; rewrite app_nil_r; auto 10. Qed.
Lemma word_number_chars w : word_number w -> Forall word_char w.
Proof.
  intros (d & N & D & [-> | ->]); [|constructor; [now right|]]; (eapply Forall_impl; [|exact D]; intros c H; left; right; exact H).
Qed.
Lemma word_number_ne w : word_number w -> w <> [].
Proof. intros (d & N & D & [-> | ->]); [exact N|discriminate]. Qed.
Lemma num_first w X : word_number w -> firstc rvc (w ++ X).
Proof. intros H. apply firstc_app. eapply firstc_imp; [|apply number_first, word_number_text, H]. intros c I. now right. Qed.
Lemma num_nogap w X : word_number w -> nogap (w ++ X).
Proof. intros H. eapply firstc_nogap; [exact rvc_plain|]. now apply num_first. Qed.
Definition num0 (v : f64) : attr := AtNum (NumAttr zero_pos [] v []).
Lemma num_reads w v X : word_number w -> parse_float w = Some v -> rfollow X -> rd (ERef "rvalue") [] (w ++ X) (VAttr (num0 v)) [] X.
Proof.
  intros H P [D F]. eapply rd_ref with (1 := find_rvalue). eapply rd_next; [|eapply rd_choice, number_stop; [now apply word_number_text|exact P|exact D|]].
  - apply string_no. apply firstc_not with (P := fun c => digit c \/ c = 45%N); [intros c0 [Hc|Hc] I; enum I; unfold digit, DQ, SQ in *; lia|]. apply firstc_app, number_first, word_number_text, H.
  - destruct X; [exact Logic.I|]. intros [E|[]]. apply F. now left.
Qed.

(** ** Expressions in words *)
Lemma xexpression_no s en : no_rv s -> first_not [40; 33]%N s -> no (ERef "expression") en s.
Proof.
  intros H K. pose proof (fun en => xrvalue_no s en H) as N. apply no_ref with (1 := find_expression).
  assert (F : forall c, In c [40; 33]%N -> first_not [c] s). { destruct s as [|c0 s]; [intros; exact Logic.I|]. intros c I [E|[]]. apply K. now subst. }
  apply no_choice; [apply no_act, no_seq, nos_here, no_chr; [repeat constructor|apply F; now left]|].
  apply no_choice; [apply no_ref with (1 := find_neg); apply no_choice; [|apply no_choice; [|apply no_none]]; (apply no_act, no_seq, nos_here, no_chr; [repeat constructor|apply F; right; now left])|].
  apply no_choice; [apply no_ref with (1 := find_in), no_act, no_seq, nos_here, no_lab, N|].
  apply no_choice; [apply no_ref with (1 := find_notin), no_act, no_seq, nos_here, no_lab, N|].
  apply no_choice; [apply no_ref with (1 := find_cmp), no_act, no_seq, nos_here, no_lab, N|].
  apply no_choice; [apply no_ref with (1 := find_re), no_act, no_seq, nos_here, no_lab, N|].
  apply no_choice; [apply no_act, no_lab, N|apply no_none].
Qed.
(** a number; [X'] comes after the gap *)
Lemma num_expr w v X X' : word_number w -> parse_float w = Some v -> rfollow X -> xskip X X' -> no (ERef "inExpression") [] (w ++ X) ->
  (forall en, no not_in_op_e en X') -> (forall en, no cmpop_e en X') -> (forall en, no reop_e en X') ->
  exists e, rd (ERef "expression") [] (w ++ X) (VExpr e) [] X.
Proof.
  intros H P F K N1 N2 N3 N4. pose proof (num_reads w v X H P F) as R. pose proof (num_first w X H) as Fl. eexists.
  eapply rd_ref with (1 := find_expression). eapply rd_next; [now apply xparen_no|]. eapply rd_next; [now apply xneg_no|]. eapply rd_next; [exact N1|].
  eapply rd_next; [apply no_ref with (1 := find_notin), no_act, no_seq; exact (xbin_no not_in_op_e _ _ _ _ [gaps_e; warn_e; ELab "rv" (ERef "rvalue")] [] R K N2)|].
  eapply rd_next; [apply no_ref with (1 := find_cmp), no_act, no_seq; exact (xbin_no (ELab "co" cmpop_e) _ _ _ _ [gaps_e; warn_e; ELab "rv" (ERef "rvalue")] [] R K (fun en => no_lab _ _ _ _ _ _ (N3 [])))|].
  eapply rd_next; [apply no_ref with (1 := find_re), no_act, no_seq; exact (xbin_no (ELab "ro" reop_e) _ _ _ _ [gaps_e; warn_e; ELab "rv" (EChoice [string_e; regexp_e])] [] R K (fun en => no_lab _ _ _ _ _ _ (N4 [])))|].
  eapply rd_choice, rd_act1; [eapply rd_lab, R|]. intros t. reflexivity.
Qed.
Lemma in_rfollow s : rfollow (b "in" ++ s).
Proof. split; [split; reflexivity|differ]. Qed.
Lemma in_nogap s : nogap (b "in" ++ s).
Proof. apply nogap_plain. split; [reflexivity|differ]. Qed.
Lemma in_expr w v x u X : word_number w -> parse_float w = Some v -> word_number x -> parse_float x = Some u -> rfollow X ->
  exists e, rd (ERef "expression") [] (w ++ b "in" ++ x ++ X) (VExpr e) [] X.
Proof.
  intros H P Hx Px F. pose proof (num_reads w v (b "in" ++ x ++ X) H P (in_rfollow _)) as R. pose proof (num_first w (b "in" ++ x ++ X) H) as Fl. eexists.
  eapply rd_ref with (1 := find_expression). eapply rd_next; [now apply xparen_no|]. eapply rd_next; [now apply xneg_no|]. eapply rd_choice, rd_ref with (1 := find_in). eapply rd_act.
  - destruct (xgaps _ _ (bind "lv" (VAttr (num0 v)) []) (xskip_none _ (in_nogap (x ++ X)))) as (v1 & R1). destruct (xgaps _ _ (bind "lv" (VAttr (num0 v)) []) (xskip_none _ (num_nogap x X Hx))) as (v2 & R2).
    eapply rds_cons; [eapply rd_lab, R|]. eapply rds_cons; [exact R1|]. apply rds_warn. eapply rds_cons; [eapply rd_choice with (en' := []), (rd_lit _ (b "in")); repeat constructor|]. eapply rds_cons; [exact R2|]. apply rds_warn.
    eapply rds_cons; [eapply rd_lab, (num_reads x u X Hx Px F)|apply rds_nil].
  - intros t0. reflexivity.
Qed.

(** ** Aborts *)
Definition ab (e : expr) (s : bytes) : Prop := forall en p, pt_rest p = s -> peg true rules e en p PAbort.
Definition abs (es : list expr) (s : bytes) : Prop := forall en p, pt_rest p = s -> pegs true rules es en p PAbort.
Definition abt (e : expr) (s : bytes) : Prop := forall p, pt_rest p = s -> pegt true rules e p None.
Lemma ab_act a e s : ab e s -> ab (EAct a e) s.
Proof. intros H en p E. apply peg_act_no; [now apply H|now right]. Qed.
Lemma ab_lab l e s : ab e s -> ab (ELab l e) s.
Proof. intros H en p E. apply peg_lab_no; [now apply H|now right]. Qed.
Lemma ab_ref n e s : find_rule n rules = Some e -> ab e s -> ab (ERef n) s.
Proof. intros F H en p E. eapply peg_ref_no; [exact F|now apply H|now right]. Qed.
Lemma ab_seq es s : abs es s -> ab (ESeq es) s.
Proof. intros H en p E. apply peg_seq_no; [now apply H|now right]. Qed.
Lemma ab_choice e es s : ab e s -> ab (EChoice (e :: es)) s.
Proof. intros H en p E. apply peg_choice_abort. now apply H. Qed.
Lemma ab_next e es s : no e [] s -> ab (EChoice es) s -> ab (EChoice (e :: es)) s.
Proof. intros N H en p E. apply peg_choice_next; [|now apply H]. eapply (reads_all true rules); eauto. Qed.
Lemma ab_star e s : abt e s -> ab (EStar e) s.
Proof. intros H en p E. apply peg_star_abort. now apply H. Qed.
Lemma abs_here e es s : ab e s -> abs (e :: es) s.
Proof. intros H en p E. apply pegs_no; [now apply H|now right]. Qed.
Lemma abs_rd e es i s : (forall en, exists v en', rd e en i v en' s) -> abs es s -> abs (e :: es) i.
Proof.
  intros R H en p E. destruct (R (bare_env en)) as (v & en' & t & -> & K). destruct (proj1 (reads_all true rules) _ _ _ _ _ _ K p en E eq_refl) as (v0 & en1 & q & D & _ & Q & _).
  eapply pegs_later; [exact D|now apply H|now right].
Qed.
Lemma abs_warn es s : abs es s -> abs (warn_e :: es) s.
Proof. intros H. eapply abs_rd; [|exact H]. intros en. eexists _, _, []. split; [reflexivity|]. apply ok_state. Qed.
Lemma abt_here e s : ab e s -> abt e s.
Proof. intros H p E. apply pegt_abort. now apply H. Qed.
Lemma abt_later e i v en' s : rd e [] i v en' s -> abt e s -> abt e i.
Proof.
  intros (t & -> & K) H p E. destruct (proj1 (reads_all true rules) _ _ _ _ _ _ K p [] E eq_refl) as (v0 & en1 & q & D & _ & Q & _).
  eapply pegt_later; [exact D|now apply H].
Qed.
(** a number out of range *)
Lemma num_aborts w X : word_number w -> ~ fits w -> rfollow X -> ab (ERef "rvalue") (w ++ X).
Proof.
  intros H P [D F]. eapply ab_ref; [exact find_rvalue|]. eapply ab_next.
  - apply string_no. apply firstc_not with (P := fun c => digit c \/ c = 45%N); [intros c0 [Hc|Hc] I; enum I; unfold digit, DQ, SQ in *; lia|]. apply firstc_app, number_first, word_number_text, H.
  - apply ab_choice. intros en p E.
    destruct (number_text_stop (ign := true) w X (bare_env en) (word_number_text w H) D) as (v & t & Et & K). { destruct X; [exact Logic.I|]. intros [C|[]]. apply F. now left. }
    apply app_inv_tail in Et. subst t. destruct (proj1 (reads_all true rules) _ _ _ _ _ _ K p en E eq_refl) as (v0 & en1 & q & G & S & Q & _).
    eapply peg_act_abort; [exact G|reflexivity|]. rewrite (seg_text p q w X S E Q). intros u. unfold fits in P. cbn [run_action]. unfold act_number. destruct (parse_float w); [|discriminate]. exfalso. apply P. discriminate.
Qed.
Lemma num_expr_aborts w X : word_number w -> ~ fits w -> rfollow X -> ab (ERef "expression") (w ++ X).
Proof.
  intros H P F. pose proof (num_first w X H) as Fl. eapply ab_ref; [exact find_expression|]. apply ab_next; [now apply xparen_no|]. apply ab_next; [now apply xneg_no|].
  apply ab_choice. eapply ab_ref; [exact find_in|]. apply ab_act, ab_seq, abs_here, ab_lab. now apply num_aborts.
Qed.
Lemma in_expr_aborts w v x X : word_number w -> parse_float w = Some v -> word_number x -> ~ fits x -> rfollow X -> ab (ERef "expression") (w ++ b "in" ++ x ++ X).
Proof.
  intros H P Hx Px F. pose proof (num_reads w v (b "in" ++ x ++ X) H P (in_rfollow _)) as R. pose proof (num_first w (b "in" ++ x ++ X) H) as Fl.
  eapply ab_ref; [exact find_expression|]. apply ab_next; [now apply xparen_no|]. apply ab_next; [now apply xneg_no|].
  apply ab_choice. eapply ab_ref; [exact find_in|]. apply ab_act, ab_seq. eapply abs_rd; [intros en; eexists _, _; eapply rd_lab, R|].
  eapply abs_rd; [intros en; destruct (xgaps _ _ en (xskip_none _ (in_nogap (x ++ X)))) as (v1 & R1); eauto|]. apply abs_warn.
  eapply abs_rd; [intros en; eexists _, _; eapply rd_choice with (en' := []), (rd_lit _ (b "in")); repeat constructor|].
  eapply abs_rd; [intros en; destruct (xgaps _ _ en (xskip_none _ (num_nogap x X Hx))) as (v1 & R1); eauto|]. apply abs_warn.
  apply abs_here, ab_lab. now apply num_aborts.
Qed.

(** ** What a word says as a condition *)
Lemma tail_rfollow r s : Forall word_char r -> no_digit r -> opening s -> rfollow (r ++ s).
Proof.
  intros W D O. destruct r as [|c r]; cbn [app].
  - split; [apply (opening_stop s _ _ O); reflexivity|]. apply (opening_head _ s O). intros c I. enum I; differ.
  - inversion W; subst. cbn in D. unfold word_char, bareword_char, bareword_start, digit in *. split; [split; [lia|]; apply class_miss; cls; lia|cbn; lia].
Qed.
Definition braced (t s : bytes) : Prop := Forall word_char t /\ opening s /\ (t = [] -> exists r, s = 123%N :: r).
Lemma word_xskip t s : Forall word_char t -> opening s -> exists s0, braced t s0 /\ xskip (t ++ s) (t ++ s0) /\ (t <> [] -> s0 = s).
Proof.
  intros W O. destruct t as [|c t].
  - destruct (opening_skip s O) as (r & K). exists (123%N :: r). split; [split; [constructor|split; [apply opening_brace|eauto]]|]. split; [exact K|congruence].
  - exists s. split; [split; [exact W|split; [exact O|discriminate]]|]. split; [|auto]. apply xskip_none, nogap_plain, word_is_plain. now inversion W.
Qed.
Lemma braced_head t s : braced t s -> head (fun c => word_char c \/ c = 123%N) (t ++ s).
Proof. intros (W & _ & H). destruct t as [|c t]; [destruct (H eq_refl) as (r & ->); now right|]. left. now inversion W. Qed.
Lemma braced_first t s cs : braced t s -> Forall (fun c => ~ word_char c /\ c <> 123%N) cs -> first_not cs (t ++ s).
Proof.
  intros B H. apply braced_head in B. destruct (t ++ s) as [|c u]; [exact Logic.I|]. intros I. rewrite Forall_forall in H. destruct (H c I) as [H1 H2]. destruct B; auto.
Qed.
Lemma braced_no_rv t s : wordbrace t [] -> braced t s -> no_rv (t ++ s) /\ first_not [40; 33]%N (t ++ s).
Proof.
  intros [-> | (c & u & -> & W & D & H)] (_ & O & B).
  - destruct (B eq_refl) as (r & ->). split; [split; [differ|split; [split; reflexivity|exact Logic.I]]|differ].
  - cbn [app]. unfold word_char, bareword_char, bareword_start, digit in *.
    split; [split; [cbn; unfold DQ, SQ; lia|split]|cbn; lia].
    + split; [cbn; lia|]. apply class_miss. cls. lia.
    + destruct (N.eq_dec c 45) as [-> | Nc].
      * destruct (H eq_refl) as [-> | (d & w & -> & Wd & Hd)]; [apply (opening_stop s _ _ O); reflexivity|]. unfold word_char, bareword_char, bareword_start, digit in *. split; [cbn; lia|]. apply class_miss. cls. lia.
      * destruct c as [|p]; [exact Logic.I|]. do 6 (destruct p as [p|p|]; try exact Logic.I). now elim Nc.
Qed.
Ltac noword := apply Forall_forall; let x := fresh "x" in let I := fresh "I" in intros x I; cbv in I; repeat destruct I as [<- | I]; try contradiction; (split; [unfold word_char, bareword_char, bareword_start; lia|discriminate]).
Lemma braced_cmp t s en : braced t s -> no cmpop_e en (t ++ s).
Proof.
  intros B. apply no_act. repeat (apply no_choice; [apply no_chr; [repeat constructor|apply braced_first; [exact B|noword]]|]).
  apply no_choice; [|apply no_choice; [apply no_soft|apply no_none]]. apply no_stop. apply braced_head in B. destruct (t ++ s) as [|c u]; [exact Logic.I|]. cbn in B.
  unfold word_char, bareword_char, bareword_start in B. split; [lia|]. apply class_miss. cls. lia.
Qed.
Lemma braced_re t s en : braced t s -> no reop_e en (t ++ s).
Proof.
  intros B. apply no_act. repeat (apply no_choice; [apply no_chr; [repeat constructor|apply braced_first; [exact B|noword]]|]).
  apply no_choice; [apply no_soft|apply no_none].
Qed.
Lemma opening_inv c s : opening (c :: s) -> c = 32%N -> opening s.
Proof.
  intros (g & r & E & G) ->. inversion G as [r0 E1|x t r0 W H E1|body cr t r0 B C H E1|body cr B C E1 E2]; subst; cbn [app] in E; inversion E; subst. exists t, r. auto.
Qed.
Lemma braced_notin t s en : braced t s -> no not_in_op_e en (t ++ s).
Proof.
  intros (W & O & H). apply no_choice; [|apply no_choice; [apply no_soft|apply no_none]]. apply no_seq.
  destruct (xlit_cases "not " [] (t ++ s)) as [N|(u & E & R)]; [repeat constructor|now apply nos_here|]. eapply nos_rd; [exact R|].
  change (b "not " ++ u) with (b "not" ++ 32%N :: u) in E. apply key_in in E; [|keys|exact O]. destruct E as (t0 & -> & E). apply Forall_app in W as [_ W].
  destruct t0 as [|c t0]; [|inversion E; inversion W; subst; unfold word_char, bareword_char, bareword_start in *; lia]. cbn [app] in E. subst s.
  destruct (opening_skip u (opening_inv _ _ O eq_refl)) as (r & K). destruct (xgaps _ _ [] K) as (v & R1). eapply nos_rd; [exact R1|]. apply nos_warn, nos_here. no_lits.
Qed.
(** an expression: none, one that ends within the word, or a number out of range *)
Lemma expr_cases t s : braced t s ->
  no (ERef "expression") [] (t ++ s) \/
  (exists e r x, t = e ++ r /\ word_expr e /\ rd (ERef "expression") [] (t ++ s) (VExpr x) [] (r ++ s)) \/
  (too_big t /\ ab (ERef "expression") (t ++ s)).
Proof.
  intros B. pose proof B as (W & O & Hb). destruct (number_cases t W) as [N|(w & r & -> & Hw & D)].
  - left. destruct (braced_no_rv t s N B). now apply xexpression_no.
  - apply Forall_app in W as [_ Wr]. pose proof (tail_rfollow r s Wr D O) as F. rewrite <- app_assoc.
    destruct (parse_float w) as [v|] eqn:P; [|right; right; assert (NF : ~ fits w) by (unfold fits; congruence); split; [exists [], w, r; exact (conj eq_refl (conj wl_nil (conj Hw (conj NF D))))|now apply num_expr_aborts]].
    assert (Fw : fits w) by (unfold fits; congruence).
    destruct (word_xskip r s Wr O) as (s0 & B0 & K & Es).
    assert (Num : no (ERef "inExpression") [] (w ++ r ++ s) -> exists e r0 x, w ++ r = e ++ r0 /\ word_expr e /\ rd (ERef "expression") [] (w ++ r ++ s) (VExpr x) [] (r0 ++ s)).
    { intros N. destruct (num_expr w v (r ++ s) (r ++ s0) Hw P F K N) as (e & R); [intros en; now apply braced_notin|intros en; now apply braced_cmp|intros en; now apply braced_re|]. exists w, r, e. split; [reflexivity|]. split; [now constructor|exact R]. }
    destruct (xlit_cases "in" [] (r ++ s0)) as [N|(u & E & _)]; [repeat constructor| |].
    + right. left. apply Num, no_ref with (1 := find_in), no_act, no_seq.
      refine (xbin_no in_op_e _ _ _ _ [gaps_e; warn_e; ELab "rv" (ERef "rvalue")] [] (num_reads w v _ Hw P F) K _). intros en. apply no_choice; [|apply no_choice; [apply no_soft|apply no_none]].
      inversion N; subst. now constructor.
    + apply key_in in E; [|keys|apply B0]. destruct E as (t1 & -> & ->). rewrite (Es ltac:(discriminate)) in *. apply Forall_app in Wr as [_ W1].
      rewrite <- app_assoc in *. destruct (word_xskip t1 s W1 O) as (s1 & B1 & K1 & Es1).
      assert (NoIn : (forall en, no (ERef "rvalue") en (t1 ++ s1)) -> no (ERef "inExpression") [] (w ++ b "in" ++ t1 ++ s)).
      { intros N. apply no_ref with (1 := find_in), no_act, no_seq. eapply nos_rd; [eapply rd_lab, (num_reads w v _ Hw P F)|].
        destruct (xgaps _ _ (bind "lv" (VAttr (num0 v)) []) (xskip_none _ (in_nogap (t1 ++ s)))) as (v1 & R1). destruct (xgaps _ _ (bind "lv" (VAttr (num0 v)) []) K1) as (v2 & R2).
        eapply nos_rd; [exact R1|]. apply nos_warn. eapply nos_rd; [eapply rd_choice with (en' := []), (rd_lit _ (b "in")); repeat constructor|]. eapply nos_rd; [exact R2|]. apply nos_warn, nos_here, no_lab, N. }
      destruct (number_cases t1 W1) as [N|(x & r1 & -> & Hx & Dx)].
      * right. left. apply Num, NoIn. intros en. apply xrvalue_no. now apply (braced_no_rv t1 s1 N B1).
      * apply Forall_app in W1 as [_ W1]. pose proof (tail_rfollow r1 s W1 Dx O) as F1. rewrite <- app_assoc in *.
        destruct (parse_float x) as [y|] eqn:Px.
        -- right. left. destruct (in_expr w v x y (r1 ++ s) Hw P Hx Px F1) as (e & R). exists (w ++ b "in" ++ x), r1, e. split; [now rewrite <- !app_assoc|]. split; [|exact R].
           apply we_in; auto. unfold fits. congruence.
        -- right. right. assert (~ fits x) by (unfold fits; congruence). split; [|now apply (in_expr_aborts w v)].
           exists (w ++ b "in"), x, r1. split; [now rewrite <- !app_assoc|]. split; [now constructor|auto].
Qed.

(** an operator *)
Lemma op_word o : word_op o -> exists k, o = boolop_word k /\ k <> BoNone /\ k <> BoUndef.
Proof.
  intros I. unfold word_op in I. enum I; [exists BoAnd|exists BoOr|exists BoXor|exists BoNand]; (split; [reflexivity|split; discriminate]).
Qed.
Lemma op_chars o : word_op o -> Forall word_char o.
Proof. intros I. unfold word_op in I. enum I; keys. Qed.
Lemma op_ne o : word_op o -> o <> [].
Proof. intros I. unfold word_op in I. enum I; discriminate. Qed.
Lemma op_cases t s : braced t s -> (forall en, no boolop_e en (t ++ s)) \/ exists o u, t = o ++ u /\ word_op o.
Proof.
  intros (W & O & _).
  destruct (xlit_cases "and" [] (t ++ s)) as [N1|(u & E & _)]; [repeat constructor| |apply key_in in E as (t0 & -> & _); [|keys|exact O]; right; exists (b "and"), t0; split; [reflexivity|cbv; auto 10]].
  destruct (xlit_cases "or" [] (t ++ s)) as [N2|(u & E & _)]; [repeat constructor| |apply key_in in E as (t0 & -> & _); [|keys|exact O]; right; exists (b "or"), t0; split; [reflexivity|cbv; auto 10]].
  destruct (xlit_cases "xor" [] (t ++ s)) as [N3|(u & E & _)]; [repeat constructor| |apply key_in in E as (t0 & -> & _); [|keys|exact O]; right; exists (b "xor"), t0; split; [reflexivity|cbv; auto 10]].
  destruct (xlit_cases "nand" [] (t ++ s)) as [N4|(u & E & _)]; [repeat constructor| |apply key_in in E as (t0 & -> & _); [|keys|exact O]; right; exists (b "nand"), t0; split; [reflexivity|cbv; auto 10]].
  left. intros en. apply no_act. repeat (apply no_choice; [assumption|]). apply no_choice; [apply no_soft|apply no_none].
Qed.
Lemma op_nogap o u : word_op o -> nogap (o ++ u).
Proof. intros H. pose proof (op_chars o H) as W. destruct o as [|c o]; [now elim (op_ne _ H)|]. apply nogap_plain, word_is_plain. now inversion W. Qed.
(** an operator and an expression *)
Lemma more_reads o i j s e : word_op o -> xskip i j -> rd (ERef "expression") [] j (VExpr e) [] s -> exists e' en', rd more_expr_e [] (o ++ i) (VExpr e') en' s.
Proof.
  intros H K R. destruct (op_word o H) as (k & -> & H1 & H2). destruct (xgaps _ _ [] (xskip_none _ (op_nogap _ i H))) as (v1 & R1).
  destruct (xgaps _ _ (bind "bo" (VBoolOp (BoolOp k zero_pos)) []) K) as (v2 & R2). eexists _, _. eapply rd_act.
  - eapply rds_cons; [exact R1|]. apply rds_warn. eapply rds_cons; [eapply rd_lab, xboolop_reads; assumption|]. eapply rds_cons; [exact R2|]. apply rds_warn.
    eapply rds_cons; [eapply rd_lab, R|apply rds_nil].
  - intros t. cbn [run_action]. reflexivity.
Qed.
Lemma more_aborts o i j : word_op o -> xskip i j -> ab (ERef "expression") j -> ab more_expr_e (o ++ i).
Proof.
  intros H K R. destruct (op_word o H) as (k & Eo & H1 & H2). apply ab_act, ab_seq.
  eapply abs_rd; [intros en; destruct (xgaps _ _ en (xskip_none _ (op_nogap _ i H))) as (v1 & R1); eauto|]. apply abs_warn. rewrite Eo.
  eapply abs_rd; [intros en; eexists _, _; eapply rd_lab, xboolop_reads; assumption|].
  eapply abs_rd; [intros en; destruct (xgaps _ _ en K) as (v1 & R1); eauto|]. apply abs_warn. now apply abs_here, ab_lab.
Qed.
Lemma more_no o i j : word_op o -> xskip i j -> no (ERef "expression") [] j -> no more_expr_e [] (o ++ i).
Proof.
  intros H K R. destruct (op_word o H) as (k & Eo & H1 & H2). destruct (xgaps _ _ [] (xskip_none _ (op_nogap _ i H))) as (v1 & R1).
  destruct (xgaps _ _ (bind "bo" (VBoolOp (BoolOp k zero_pos)) []) K) as (v2 & R2). apply no_act, no_seq. eapply nos_rd; [exact R1|]. apply nos_warn. rewrite Eo.
  eapply nos_rd; [eapply rd_lab, xboolop_reads; assumption|]. eapply nos_rd; [exact R2|]. apply nos_warn, nos_here, no_lab, R.
Qed.
Lemma big_more e o u : word_expr e -> word_op o -> too_big u -> too_big (e ++ o ++ u).
Proof. intros He Ho (v & w & r & -> & L & H). exists (e ++ o ++ v), w, r. split; [now rewrite <- !app_assoc|]. split; [now apply wl_more|exact H]. Qed.
Lemma more_cases t s : Forall word_char t -> opening s ->
  (abt more_expr_e (t ++ s) /\ exists o u, t = o ++ u /\ word_op o /\ too_big u) \/
  exists l t', rdt more_expr_e (t ++ s) (map VExpr l) (t' ++ s) /\ Forall word_char t' /\ (t' = [] -> t = [] \/ exists o u, t = o ++ u /\ word_op o /\ word_cond u).
Proof.
  remember (List.length t) as n eqn:En. revert t En. induction n as [n IH] using lt_wf_ind. intros t En W O.
  assert (Stop : no more_expr_e [] (t ++ s) -> exists l t', rdt more_expr_e (t ++ s) (map VExpr l) (t' ++ s) /\ Forall word_char t' /\ (t' = [] -> t = [] \/ exists o u, t = o ++ u /\ word_op o /\ word_cond u)).
  { intros N. exists [], t. split; [now apply rdt_stop|]. auto. }
  destruct (word_xskip t s W O) as (s0 & B & K & Es). destruct (op_cases t s0 B) as [N|(o & u & -> & Ho)].
  - right. apply Stop. apply no_act, no_seq. destruct (xgaps _ _ [] K) as (v & R). eapply nos_rd; [exact R|]. apply nos_warn, nos_here, no_lab, N.
  - clear B K Es s0. apply Forall_app in W as [_ W]. rewrite <- app_assoc in *. destruct (word_xskip u s W O) as (s0 & B & K & Es).
    destruct (expr_cases u s0 B) as [N|[(e & r & x & -> & He & R)|[Big A]]].
    + right. apply Stop. now apply (more_no o _ _ Ho K).
    + assert (Ne : e <> []). { destruct He as [w Hw _|w z Hw _ _ _]; intros E; [now apply (word_number_ne w)|]. apply (word_number_ne w Hw). now destruct w. }
      rewrite Es in * by (destruct e; [congruence|discriminate]). destruct (more_reads o _ _ _ _ Ho K R) as (e' & en' & M).
      apply Forall_app in W as [_ W]. destruct (IH (List.length r)) with (t := r) as [[A (o1 & u1 & -> & Ho1 & Big)]|(l & t' & R' & W' & E')]; auto.
      { subst n. rewrite !app_length. destruct e; [congruence|]. cbn [List.length]. lia. }
      * left. split; [eapply abt_later; eauto|]. exists o, (e ++ o1 ++ u1). split; [reflexivity|]. split; [exact Ho|now apply big_more].
      * right. exists (e' :: l), t'. split; [eapply rdt_more; eauto|]. split; [exact W'|]. intros Et. right. exists o, (e ++ r). split; [reflexivity|]. split; [exact Ho|].
        destruct (E' Et) as [-> | (o1 & u1 & -> & Ho1 & C)]; [rewrite app_nil_r; now constructor|now apply wc_more].
    + left. split; [apply abt_here; eapply more_aborts; eauto|]. exists o, u. auto.
Qed.
Lemma cond_loop l : exprs_loop (map VExpr l) = inl l.
Proof. induction l as [|x l IH]; [reflexivity|]. cbn [map exprs_loop]. now rewrite IH. Qed.
Lemma cond_cases t s : braced t s ->
  no (ERef "condition") [] (t ++ s) \/
  (exists c r, Forall word_char r /\ rd (ERef "condition") [] (t ++ s) (VCond c) [] (r ++ s) /\ (r = [] -> word_cond t)) \/
  (too_big t /\ ab (ERef "condition") (t ++ s)).
Proof.
  intros B. pose proof B as (W & O & _). destruct (expr_cases t s B) as [N|[(e & r & x & -> & He & R)|[Big A]]].
  - left. apply no_ref with (1 := find_condition), no_act, no_seq, nos_here, no_lab, N.
  - apply Forall_app in W as [_ W]. destruct (more_cases r s W O) as [[A (o & u & -> & Ho & Big)]|(l & t' & R' & W' & E')].
    + right. right. split; [now apply big_more|]. eapply ab_ref; [exact find_condition|]. apply ab_act, ab_seq. eapply abs_rd; [intros en; eexists _, _; eapply rd_lab, R|]. now apply abs_here, ab_lab, ab_star.
    + right. left. exists (Cond (x :: l)), t'. split; [exact W'|]. split.
      * eapply rd_ref with (1 := find_condition). eapply rd_act; [eapply rds_cons; [eapply rd_lab, R|]; eapply rds_cons; [eapply rd_lab, rd_star, R'|apply rds_nil]|].
        intros t0. change (act_condition (VExpr x) (VList (map VExpr l)) = RVal (VCond (Cond (x :: l)))). unfold act_condition. cbn [iface_slice app exprs_loop]. now rewrite cond_loop.
      * intros Et. destruct (E' Et) as [-> | (o1 & u1 & -> & Ho1 & C)]; [rewrite app_nil_r; now constructor|now apply wc_more].
  - right. right. split; [exact Big|]. eapply ab_ref; [exact find_condition|]. now apply ab_act, ab_seq, abs_here, ab_lab.
Qed.
(** no branch starts with a word that is no condition *)
Lemma word_cond_no t s en es : Forall word_char t -> opening s -> ~ takes_cond t ->
  nos ([gaps_e; warn_e; ELab "cond" (ERef "condition"); gaps_e; warn_e; lit "{"] ++ es) en (t ++ s).
Proof.
  intros W O N. destruct (word_xskip t s W O) as (s0 & B & K & Es). destruct (xgaps _ _ en K) as (v & R). cbn [app]. eapply nos_rd; [exact R|]. apply nos_warn.
  destruct (cond_cases t s0 B) as [X|[(c & r & Wr & X & E)|[X _]]].
  - now apply nos_here, no_lab.
  - eapply nos_rd; [eapply rd_lab, X|]. destruct r as [|x r]; [elim N; left; auto|]. inversion Wr; subst.
    destruct (xgaps _ _ (bind "cond" (VCond c) en) (xskip_none ((x :: r) ++ s0) (nogap_plain x (r ++ s0) (word_is_plain x H1)))) as (v1 & R1).
    eapply nos_rd; [exact R1|]. apply nos_warn, nos_here, no_chr; [repeat constructor|]. cbn. unfold word_char, bareword_char, bareword_start in H1. lia.
  - elim N. now right.
Qed.

(** ** A word that is a condition is read as one *)
Lemma expr_exact e X : word_expr e -> xefollow X -> exists x, rd (ERef "expression") [] (e ++ X) (VExpr x) [] X.
Proof.
  intros [w Hw Fw|w z Hw Fw Hz Fz] (F & X' & K & N); unfold fits in *.
  - destruct (parse_float w) as [v|] eqn:P; [|congruence]. apply (num_expr w v X X' Hw P F K); try (intros en; apply N).
    apply no_ref with (1 := find_in), no_act, no_seq. exact (xbin_no in_op_e _ _ _ _ [gaps_e; warn_e; ELab "rv" (ERef "rvalue")] [] (num_reads w v _ Hw P F) K (fun en => proj1 (N en))).
  - destruct (parse_float w) as [v|] eqn:P; [|congruence]. destruct (parse_float z) as [y|] eqn:Pz; [|congruence]. rewrite <- !app_assoc. now apply (in_expr w v z y).
Qed.
Lemma expr_nogap e X : word_expr e -> nogap (e ++ X).
Proof. intros [w Hw Fw|w z Hw Fw Hz Fz]; rewrite <- ?app_assoc; now apply num_nogap. Qed.
Lemma op_efollow o Y : word_op o -> xefollow (o ++ Y).
Proof. intros H. destruct (op_word o H) as (k & -> & H1 & H2). apply (xefollow_op k [] Y H1 H2). constructor. Qed.
Lemma opening_efollow s : opening s -> xcfollow s.
Proof. intros (g & r & -> & G). apply xcfollow_close; [now left|exact G]. Qed.
Lemma cond_nogap t X : word_cond t -> nogap (t ++ X).
Proof. intros [e He|e o u He _ _]; rewrite <- ?app_assoc; now apply expr_nogap. Qed.
Lemma cond_exprs t s : word_cond t -> opening s -> exists x j l, rd (ERef "expression") [] (t ++ s) (VExpr x) [] j /\ rdt more_expr_e j (map VExpr l) s.
Proof.
  intros C O. pose proof (opening_efollow s O) as F. induction C as [e He|e o t He Ho C (x & j & l & R & M)].
  - destruct (expr_exact e s He (xcfollow_e _ F)) as (x & R). exists x, s, []. split; [exact R|]. destruct F as (D & s' & K & _ & N). apply rdt_stop, no_act, no_seq.
    destruct (xgaps s s' [] K) as (v & Rg). eapply nos_rd; [exact Rg|]. apply nos_warn, nos_here, no_lab, N.
  - rewrite <- !app_assoc. destruct (expr_exact e (o ++ t ++ s) He (op_efollow o _ Ho)) as (y & Ry).
    destruct (more_reads o (t ++ s) (t ++ s) j x Ho (xskip_none _ (cond_nogap t s C)) R) as (e' & en' & Rm).
    exists y, (o ++ t ++ s), (e' :: l). split; [exact Ry|]. eapply rdt_more; eauto.
Qed.
Lemma cond_exact t s en : word_cond t -> opening s -> exists c, rd (ERef "condition") en (t ++ s) (VCond c) en s.
Proof.
  intros C O. destruct (cond_exprs t s C O) as (x & j & l & R & R'). exists (Cond (x :: l)).
  eapply rd_ref with (1 := find_condition). eapply rd_act; [eapply rds_cons; [eapply rd_lab, R|]; eapply rds_cons; [eapply rd_lab, rd_star, R'|apply rds_nil]|].
  intros t0. change (act_condition (VExpr x) (VList (map VExpr l)) = RVal (VCond (Cond (x :: l)))). unfold act_condition. cbn [iface_slice app exprs_loop]. now rewrite cond_loop.
Qed.
Lemma lead_aborts u w r s : word_lead u -> word_number w -> ~ fits w -> no_digit r -> Forall word_char r -> opening s ->
  nogap (u ++ w ++ r ++ s) /\ (ab (ERef "expression") (u ++ w ++ r ++ s) \/ exists x j, rd (ERef "expression") [] (u ++ w ++ r ++ s) (VExpr x) [] j /\ abt more_expr_e j).
Proof.
  intros L Hw Fw D Wr O. pose proof (tail_rfollow r s Wr D O) as F. induction L as [|z Hz Fz|e o u He Ho L [N IH]].
  - cbn [app]. split; [now apply num_nogap|]. left. now apply num_expr_aborts.
  - rewrite <- !app_assoc. split; [now apply num_nogap|]. left. unfold fits in Fz. destruct (parse_float z) as [v|] eqn:P; [|congruence]. now apply (in_expr_aborts z v).
  - rewrite <- !app_assoc. split; [now apply expr_nogap|]. right. destruct (expr_exact e (o ++ u ++ w ++ r ++ s) He (op_efollow o _ Ho)) as (y & Ry). exists y, (o ++ u ++ w ++ r ++ s). split; [exact Ry|].
    destruct IH as [A|(x & j & R & A)]; [apply abt_here; now apply (more_aborts o _ _ Ho (xskip_none _ N))|].
    destruct (more_reads o _ _ j x Ho (xskip_none _ N) R) as (e' & en' & Rm). eapply abt_later; eauto.
Qed.
Lemma big_aborts t s : too_big t -> Forall word_char t -> opening s -> nogap (t ++ s) /\ ab (ERef "condition") (t ++ s).
Proof.
  intros (u & w & r & -> & L & Hw & Fw & D) W O. apply Forall_app in W as [_ W]. apply Forall_app in W as [_ W]. rewrite <- !app_assoc.
  destruct (lead_aborts u w r s L Hw Fw D W O) as [N H]. split; [exact N|]. eapply ab_ref; [exact find_condition|]. apply ab_act, ab_seq.
  destruct H as [A|(x & j & R & A)]; [now apply abs_here, ab_lab|]. eapply abs_rd; [intros en; eexists _, _; eapply rd_lab, R|]. now apply abs_here, ab_lab, ab_star.
Qed.

(** ** No failure after the opening brace *)
Definition nofail (e : expr) : Prop := forall en p, ~ peg true rules e en p PFail.
Definition nf (es : list expr) (s : bytes) : Prop := forall en p, pt_rest p = s -> ~ pegs true rules es en p PFail.
Lemma pegs_fail e es en p : pegs true rules (e :: es) en p PFail -> peg true rules e en p PFail \/ exists v en1 q, peg true rules e en p (POk v en1 q) /\ pegs true rules es en1 q PFail.
Proof. intros H. inversion H; subst; eauto 6. Qed.
Lemma nf_rd e es i s : (forall en, exists v en', rd e en i v en' s) -> nf es s -> nf (e :: es) i.
Proof.
  intros R H en p E F. destruct (R (bare_env en)) as (v & en' & t & -> & K). destruct (proj1 (reads_all true rules) _ _ _ _ _ _ K p en E eq_refl) as (v0 & en1 & q & D & _ & Q & _).
  apply pegs_fail in F as [F|(v1 & en2 & q1 & F1 & F2)]; [pose proof (peg_fun _ _ _ _ _ _ _ D F) as X; discriminate X|].
  pose proof (peg_fun _ _ _ _ _ _ _ D F1) as X. injection X as <- <- <-. exact (H _ _ Q F2).
Qed.
Lemma nf_warn es s : nf es s -> nf (warn_e :: es) s.
Proof. intros H. eapply nf_rd; [|exact H]. intros en. eexists _, _, []. split; [reflexivity|]. apply ok_state. Qed.
Lemma nf_ab e es s : ab e s -> nf (e :: es) s.
Proof.
  intros A en p E F. specialize (A en p E). apply pegs_fail in F as [F|(v1 & en2 & q1 & F1 & F2)]; [pose proof (peg_fun _ _ _ _ _ _ _ A F) as X; discriminate X|].
  pose proof (peg_fun _ _ _ _ _ _ _ A F1) as X. discriminate X.
Qed.
Lemma nofail_all es : Forall nofail es -> forall s, nf es s.
Proof.
  induction 1 as [|e es He H IH]; intros s en p E F; [inversion F|]. apply pegs_fail in F as [F|(v1 & en2 & q1 & F1 & F2)]; [now apply (He en p)|]. eapply IH; [reflexivity|exact F2].
Qed.
Lemma nofail_star e : nofail (EStar e).
Proof. intros en p H. inversion H. Qed.
Lemma nofail_lab l e : nofail e -> nofail (ELab l e).
Proof. intros N en p H. inversion H; subst. eapply N; eauto. Qed.
Lemma nofail_close c m : nofail (close c (fatal m)).
Proof.
  intros en p H. unfold close in H. inversion H; subst. match goal with X : peg _ _ (EChoice [_]) _ _ _ |- _ => inversion X; subst end.
  match goal with X : peg _ _ (fatal m) _ _ _ |- _ => inversion X end.
Qed.
Lemma nofail_tail : Forall nofail block_tail.
Proof. repeat constructor; try apply nofail_lab; try apply nofail_star. apply nofail_close. Qed.
Lemma act_fail a e en p : peg true rules (EAct a e) en p PFail -> peg true rules e en p PFail.
Proof. intros H. inversion H; subst; assumption. Qed.
Lemma seq_fail es en p : peg true rules (ESeq es) en p PFail -> pegs true rules es en p PFail.
Proof. intros H. inversion H; subst; assumption. Qed.
Lemma ref_fail n e en p : find_rule n rules = Some e -> peg true rules (ERef n) en p PFail -> peg true rules e [] p PFail.
Proof. intros F H. inversion H; subst; congruence. Qed.
Lemma cond_nf t s : Forall word_char t -> opening s -> takes_cond t -> nf ([gaps_e; warn_e; ELab "cond" (ERef "condition"); gaps_e; warn_e; lit "{"] ++ block_tail) (t ++ s).
Proof.
  intros W O [C|Big]; cbn [app].
  - eapply nf_rd; [intros en; destruct (xgaps _ _ en (xskip_none _ (cond_nogap t s C))) as (v & R); eauto|]. apply nf_warn.
    destruct (cond_exact t s [] C O) as (c & R). eapply nf_rd; [intros en; eexists _, _; eapply rd_lab, R|]. destruct (opening_skip s O) as (r & K).
    eapply nf_rd; [intros en; destruct (xgaps _ _ en K) as (v & Rg); eauto|]. apply nf_warn. eapply nf_rd; [intros en; eexists _, _; apply rd_chr; reflexivity|]. apply nofail_all, nofail_tail.
  - destruct (big_aborts t s Big W O) as [N A]. eapply nf_rd; [intros en; destruct (xgaps _ _ en (xskip_none _ N)) as (v & R); eauto|]. apply nf_warn, nf_ab, ab_lab, A.
Qed.
(** the name is not taken for a branch where the parser sees none *)
Lemma if_failed n s p en : name_ok n -> opening s -> pt_rest p = n ++ s -> peg true rules (ERef "ifCond") en p PFail -> ~ takes_if n.
Proof.
  intros Hn O E F (t & -> & C). assert (W : Forall word_char t).
  { destruct Hn as [[_ W]|(q & v & Hq & _ & X)]; [now apply Forall_app in W as [_ W]|]. exfalso. enum Hq; discriminate X. }
  rewrite <- app_assoc in E. apply (ref_fail _ _ _ _ find_ifCond), act_fail, seq_fail in F. revert F. change (~ pegs true rules (lit "if" :: [gaps_e; warn_e; ELab "cond" (ERef "condition"); gaps_e; warn_e; lit "{"] ++ block_tail) [] p PFail).
  revert E. generalize (@nil (string * val)). intros en0 E. revert en0 p E. change (nf (lit "if" :: [gaps_e; warn_e; ELab "cond" (ERef "condition"); gaps_e; warn_e; lit "{"] ++ block_tail) (b "if" ++ t ++ s)).
  eapply nf_rd; [intros en1; eexists _, _; apply (rd_lit _ (b "if")); repeat constructor|]. now apply cond_nf.
Qed.
Lemma else_failed n s p p' en en' : name_ok n -> opening s -> pt_rest p = n ++ s -> pt_rest p' = n ++ s ->
  peg true rules (ERef "elseIf") en p PFail -> peg true rules (ERef "elseCond") en' p' PFail -> ~ takes_else n.
Proof.
  intros Hn O E E' F F' [-> | (t & -> & C)].
  - apply (ref_fail _ _ _ _ find_elseCond), act_fail, seq_fail in F'. revert F'. enough (X : nf ([lit "else"; gaps_e; warn_e; lit "{"] ++ block_tail) (b "else" ++ s)) by exact (X _ _ E'). cbn [app].
    eapply nf_rd; [intros en1; eexists _, _; apply (rd_lit _ (b "else")); repeat constructor|]. destruct (opening_skip s O) as (r & K).
    eapply nf_rd; [intros en1; destruct (xgaps _ _ en1 K) as (v & Rg); eauto|]. apply nf_warn. eapply nf_rd; [intros en1; eexists _, _; apply rd_chr; reflexivity|]. apply nofail_all, nofail_tail.
  - assert (W : Forall word_char t).
    { destruct Hn as [[_ W]|(q & v & Hq & _ & X)]; [now apply Forall_app in W as [_ W]|]. exfalso. enum Hq; discriminate X. }
    apply (ref_fail _ _ _ _ find_elseIf), act_fail, seq_fail in F. revert F.
    enough (X : nf ([lit "else"; gaps_e; warn_e; lit "if"] ++ [gaps_e; warn_e; ELab "cond" (ERef "condition"); gaps_e; warn_e; lit "{"] ++ block_tail) (b "else" ++ b "if" ++ t ++ s)) by exact (X _ _ E). cbn [app].
    eapply nf_rd; [intros en1; eexists _, _; apply (rd_lit _ (b "else")); repeat constructor|].
    eapply nf_rd; [intros en1; destruct (xgaps _ _ en1 (xskip_none (b "if" ++ t ++ s) ltac:(apply nogap_plain; split; [reflexivity|differ]))) as (v & Rg); eauto|]. apply nf_warn.
    eapply nf_rd; [intros en1; eexists _, _; apply (rd_lit _ (b "if")); repeat constructor|]. now apply cond_nf.
Qed.

(** ** The same, before the gap in front of the name *)
Lemma name_nogap n s : name_ok n -> nogap (n ++ s).
Proof.
  intros [[N W]|(q & v & Hq & _ & ->)].
  - destruct n as [|c n]; [congruence|]. inversion W; subst. now apply nogap_plain, word_is_plain.
  - apply nogap_plain. split; enum Hq; try reflexivity; differ.
Qed.
Lemma fail_rd e es i s en p : (forall en, exists v en', rd e en i v en' s) -> pt_rest p = i -> pegs true rules (e :: es) en p PFail ->
  exists en1 q, pt_rest q = s /\ pegs true rules es en1 q PFail.
Proof.
  intros R E F. destruct (R (bare_env en)) as (v & en' & t & -> & K). destruct (proj1 (reads_all true rules) _ _ _ _ _ _ K p en E eq_refl) as (v0 & en1 & q & D & _ & Q & _).
  apply pegs_fail in F as [F|(v1 & en2 & q1 & F1 & F2)]; [pose proof (peg_fun _ _ _ _ _ _ _ D F) as X; discriminate X|].
  pose proof (peg_fun _ _ _ _ _ _ _ D F1) as X. injection X as <- <- <-. eauto.
Qed.
Lemma lab_fail l e en p : peg true rules (ELab l e) en p PFail -> peg true rules e [] p PFail.
Proof. intros H. inversion H; subst; assumption. Qed.
Lemma nofail_opt e : nofail (EOpt e).
Proof. intros en p H. inversion H. Qed.
Lemma branch_failed t n s p en : gap_run t (n ++ s) -> name_ok n -> opening s -> pt_rest p = t ++ n ++ s -> peg true rules (ERef "branch") en p PFail -> ~ takes_if n.
Proof.
  intros G Hn O E F. apply (ref_fail _ _ _ _ find_branch), act_fail, seq_fail in F. destruct (gap_xskip t _ G (name_nogap n s Hn)) as (v & R & _).
  eapply fail_rd in F as (en1 & q & Q & F); [|intros en0; eexists _, _; eapply rd_lab, R|exact E].
  apply pegs_fail in F as [F|(v1 & en2 & q1 & _ & F)]; [now apply lab_fail, (if_failed n s) in F|]. exfalso. revert F. apply (nofail_all [_; _]) with (s := pt_rest q1); [|reflexivity].
  repeat constructor; apply nofail_lab; [apply nofail_star|apply nofail_opt].
Qed.
Lemma no_else_failed t n s p : gap_run t (n ++ s) -> name_ok n -> opening s -> pt_rest p = t ++ n ++ s ->
  peg true rules more_elseif_e [] p PFail -> peg true rules else_e [] p PFail -> ~ takes_else n.
Proof.
  intros G Hn O E F F'. apply act_fail, seq_fail in F, F'. destruct (gap_xskip t _ G (name_nogap n s Hn)) as (v & R & _).
  eapply fail_rd in F as (en1 & q & Q & F); [|intros en0; eexists _, _; eapply rd_lab, R|exact E].
  eapply fail_rd in F' as (en2 & q' & Q' & F'); [|intros en0; eexists _, _; eapply rd_lab, R|exact E].
  apply pegs_fail in F as [F|(v1 & en3 & q1 & _ & F)]; [|inversion F]. apply pegs_fail in F' as [F'|(v1 & en3 & q1 & _ & F')]; [|inversion F'].
  apply lab_fail in F. apply lab_fail in F'. exact (else_failed n s q q' _ _ Hn O Q Q' F F').
Qed.
