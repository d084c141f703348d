(** Values, attributes and plugins as the printer writes them, read back. *)
From Coq Require Import List NArith Bool String Arith Lia.
From Verif Require Import Bytes Utf8 F64 Ast Peg Actions Engine AstPrint AstInd EscapeFacts QuoteFacts SimpleFacts PosFacts Matches PegSem LexFacts Tree Rules Bare Reads Lines NumPrint Layout ReadLex ReadGap ReadCom.
Import ListNotations.

(** ** The tree that is read back *)
(** comments before the first of several things, or before a later one: there a
    blank line is noted *)
Definition rc (first : bool) (c : cblock) : cblock := if first then norm c else map_first set_before (norm c).
Definition firsts {A B} (f : bool -> A -> B) (l : list A) : list B :=
  match l with [] => [] | x :: l' => f true x :: map (f false) l' end.
Fixpoint re_attr (first : bool) (a : attr) : attr :=
  match a with
  | AtNil => AtNil
  | AtStr s => AtStr (StrAttr zero_pos (sa_name s) (sa_val s) (sa_type s) (rc first (sa_com s)))
  | AtNum n => AtNum (NumAttr zero_pos (na_name n) (na_val n) (rc first (na_com n)))
  | AtArr _ n l c f => AtArr zero_pos n (firsts re_attr l) (rc first c) (norm f)
  | AtHash _ n l c f => AtHash zero_pos n (firsts re_hentry l) (rc first c) (norm f)
  | AtPlug _ n v c => AtPlug zero_pos n (re_plugin v) (rc first c)
  end
with re_hentry (first : bool) (e : hentry) : hentry :=
  match e with HEntry _ k v com => HEntry zero_pos (bare_key k) (re_attr true v) (rc first com) end
with re_plugin (x : plugin) : plugin :=
  match x with Plugin _ n l c f => Plugin zero_pos n (firsts re_attr l) (norm c) (norm f) end.
(** the value alone: no name, no comments *)
Definition re_value (a : attr) : val :=
  match a with
  | AtNil => VNil
  | AtStr s => VAttr (AtStr (StrAttr zero_pos [] (sa_val s) (sa_type s) []))
  | AtNum n => VAttr (AtNum (NumAttr zero_pos [] (na_val n) []))
  | AtArr _ _ l _ f => VAttr (AtArr zero_pos [] (firsts re_attr l) [] (norm f))
  | AtHash _ _ l _ f => VAttr (AtHash zero_pos [] (firsts re_hentry l) [] (norm f))
  | AtPlug _ _ v _ => VPlugin (re_plugin v)
  end.

(** ** Gaps, packaged *)
Definition gap_to (i : bytes) (com : cblock) (s : bytes) : Prop := exists v, (forall en, rd gap_e en i v en s) /\ says v com.
Definition skip_to (i s : bytes) : Prop := exists v, forall en, rd gap_e en i v en s.
Lemma gap_skip i com s : gap_to i com s -> skip_to i s.
Proof. intros (v & R & _). now exists v. Qed.
Lemma skip_gaps i s en : skip_to i s -> exists v, rd gaps_e en i v en s.
Proof. intros (v & R). destruct (R en) as (t & E & K). exists (VText t), t. split; [exact E|]. eapply ok_act; [exact K|reflexivity]. Qed.
Lemma gap_coms k n com m s : com_ok com -> nogap s -> gap_to (repeat NL k ++ tcoms n com ++ repeat SP m ++ s) com s.
Proof. intros H G. destruct (coms_read k n com m s H G) as (v & R & S & _). exists v. auto. Qed.
Lemma gap_none s : nogap s -> gap_to s [] s.
Proof. intros G. exact (gap_coms 0 0 [] 0 s (Forall_nil _) G). Qed.
Lemma skip_none s : nogap s -> skip_to s s.
Proof. intros G. eapply gap_skip, gap_none, G. Qed.
Lemma skip_sp s : nogap s -> skip_to (SP :: s) s.
Proof. intros G. exact (gap_skip _ _ _ (gap_coms 0 0 [] 1 s (Forall_nil _) G)). Qed.
Lemma skip_nl s : nogap s -> skip_to (NL :: s) s.
Proof. intros G. exact (gap_skip _ _ _ (gap_coms 1 0 [] 0 s (Forall_nil _) G)). Qed.
Lemma norm_clear l : norm (map_last clear_after l) = norm l.
Proof.
  assert (F : forall l p, norm_from p (map_last clear_after l) = norm_from p l).
  { clear. induction l as [|c l IH]; intros p; [reflexivity|]. destruct l as [|d l]; [reflexivity|]. cbn [map_last norm_from]. f_equal. apply IH. }
  destruct l as [|c l]; [reflexivity|]. destruct l as [|d l]; [reflexivity|]. cbn [map_last norm]. f_equal. apply (F (d :: l)).
Qed.
Lemma gap_foot k n foot s : com_ok foot -> nogap s -> gap_to (repeat NL k ++ tfoot (S n) foot ++ ind n ++ s) foot s.
Proof.
  intros H G. destruct (gap_coms k (S n) (map_last clear_after foot) (n + n) s) as (v & R & S); [now apply foot_ok|exact G|].
  exists v. split; [exact R|]. unfold says in *. now rewrite norm_clear in S.
Qed.
(** a character that starts no gap *)
Definition plain (c : N) : Prop := (c < 128)%N /\ ~ In c [32; 9; 13; 10; 35]%N.
Lemma nogap_plain c s : plain c -> nogap (c :: s).
Proof.
  intros [H N]. split; [split; [exact H|]|].
  - apply class_miss. cls. cbn [In] in N. intuition.
  - cbn [In] in *. cbn. intuition.
Qed.
Ltac plain := match goal with |- plain _ => split; [lia || reflexivity|cbn; intuition (discriminate || lia)] end.
Lemma plain_close : plain 93%N /\ plain 125%N /\ plain 123%N /\ plain 61%N /\ plain 44%N /\ plain 40%N /\ plain 41%N /\ plain DQ /\ plain SQ /\ plain 91%N.
Proof. repeat split; try reflexivity; cbv; intuition discriminate. Qed.
Lemma word_is_plain c : word_char c -> plain c.
Proof. unfold word_char, bareword_char, bareword_start. intros H. split; [lia|]. cbn [In]. lia. Qed.
(** the first character of names, keys and values *)
Definition firstc (P : N -> Prop) (s : bytes) : Prop := exists c t, s = c :: t /\ P c.
Lemma firstc_app P s t : firstc P s -> firstc P (s ++ t).
Proof. intros (c & u & -> & H). exists c, (u ++ t). auto. Qed.
Lemma firstc_imp (P Q : N -> Prop) s : (forall c, P c -> Q c) -> firstc P s -> firstc Q s.
Proof. intros I (c & u & -> & H). exists c, u. auto. Qed.
Lemma firstc_nogap (P : N -> Prop) s : (forall c, P c -> plain c) -> firstc P s -> nogap s.
Proof. intros I (c & u & -> & H). apply nogap_plain. auto. Qed.
Lemma firstc_not (P : N -> Prop) cs s : (forall c, P c -> ~ In c cs) -> firstc P s -> first_not cs s.
Proof. intros I (c & u & -> & H). cbn. auto. Qed.
Definition namec (c : N) : Prop := word_char c \/ In c [DQ; SQ].
Lemma name_first n : name_ok n -> firstc namec n.
Proof.
  intros [[N W]|(q & v & Hq & Hv & ->)].
  - destruct n as [|c n]; [congruence|]. inversion W; subst. exists c, n. split; [reflexivity|now left].
  - exists q, (v ++ [q]). split; [reflexivity|now right].
Qed.
Lemma namec_plain c : namec c -> plain c.
Proof. intros [H|H]; [now apply word_is_plain|]. enum H; apply plain_close. Qed.
Lemma namec_not c : namec c -> ~ In c [123; 125; 93; 91; 44; 61]%N.
Proof. unfold namec, word_char, bareword_char, bareword_start, DQ, SQ. cbn [In]. lia. Qed.

(** ** What follows a value *)
Definition vfollow (s : bytes) : Prop := delim s /\ exists s', skip_to s s' /\ first_not [123%N] s'.

(** ** Simple values *)
Lemma rd_arrow i en es en' s : nogap i -> rds es en i en' s -> rds ([gaps_e; warn_e; lit "=>"; gaps_e; warn_e] ++ es) en (arrow ++ i) en' s.
Proof.
  intros G R. change (arrow ++ i) with (SP :: [61; 62]%N ++ SP :: i). cbn [app].
  destruct (skip_gaps (SP :: 61%N :: 62%N :: SP :: i) _ en (skip_sp _ (nogap_plain 61%N (62%N :: SP :: i) ltac:(apply plain_close)))) as (v1 & R1).
  destruct (skip_gaps (SP :: i) _ en (skip_sp i G)) as (v2 & R2).
  eapply rds_cons; [exact R1|]. apply rds_warn. eapply rds_cons; [apply (rd_lit _ [61; 62]%N); repeat constructor|]. eapply rds_cons; [exact R2|]. apply rds_warn. exact R.
Qed.
(** a value that starts with a name is no plugin if no brace follows *)
Lemma plugin_no_word w s s' en : name_ok w -> delim s -> skip_to s s' -> first_not [123%N] s' -> no plugin_e en (w ++ s).
Proof.
  intros W D K F. apply no_act, no_seq. assert (G : nogap (w ++ s)). { eapply firstc_nogap; [exact namec_plain|]. apply firstc_app. now apply name_first. }
  destruct (skip_none _ G) as (v & R). eapply nos_rd; [eapply rd_lab, (R [])|].
  destruct (name_reads w s W D) as (a & en' & R1 & _). eapply nos_rd; [eapply rd_lab, R1|].
  destruct (skip_gaps s s' (bind "name" (VAttr (AtStr a)) (bind "comment" v en)) K) as (v2 & R2). eapply nos_rd; [exact R2|].
  apply nos_warn, nos_here, no_chr; [repeat constructor|exact F].
Qed.
Lemma plugin_no_name s s' en : skip_to s s' -> first_not [DQ; SQ] s' -> stop [95; 45]%N [(65, 90); (97, 122); (48, 57)]%N false s' -> no plugin_e en s.
Proof.
  intros (v & R) H K. apply no_act, no_seq. eapply nos_rd; [eapply rd_lab, (R [])|]. apply nos_here, no_lab. now apply name_no.
Qed.
(** numbers start like a word *)
Lemma plugin_no_number t s s' en : number_text t -> delim s -> skip_to s s' -> first_not [123%N] s' -> no plugin_e en (t ++ s).
Proof.
  intros (sg & ip & fp & -> & Hs & Ni & Di & Hf) D K F.
  assert (W : word (sg ++ ip)).
  { split; [destruct sg, ip; try discriminate; congruence|]. apply Forall_app. split; [destruct Hs as [-> | ->]; repeat constructor; now right|]. eapply Forall_impl; [|exact Di]. intros c Hc. left. now right. }
  rewrite app_assoc, <- app_assoc. destruct Hf as [->|(f & -> & Hf)]; [eapply plugin_no_word; eauto; now left|].
  apply no_act, no_seq. assert (G : nogap ((sg ++ ip) ++ (46%N :: f) ++ s)). { eapply firstc_nogap; [exact namec_plain|]. apply firstc_app. apply name_first. now left. }
  destruct (skip_none _ G) as (v & R). eapply nos_rd; [eapply rd_lab, (R [])|].
  assert (R1 : rd name_e [] ((sg ++ ip) ++ (46%N :: f) ++ s) (VAttr (str0 Bareword (sg ++ ip))) [] ((46%N :: f) ++ s)).
  { eapply rd_choice. exists (sg ++ ip). split; [reflexivity|]. destruct W as [NW W]. destruct (sg ++ ip) as [|c n]; [congruence|]. eapply ok_act; [|reflexivity].
    apply ok_plus with (v := VBytes [c]) (l := map (fun c => VBytes [c]) n).
    apply (okt_chars _ _ _ _ (c :: n)); [|split; reflexivity]. eapply Forall_impl; [|exact W]. intros x Hx. now apply word_hit. }
  eapply nos_rd; [eapply rd_lab, R1|].
  destruct (skip_gaps ((46%N :: f) ++ s) _ (bind "name" (VAttr (str0 Bareword (sg ++ ip))) (bind "comment" v en)) (skip_none _ (nogap_plain 46%N (f ++ s) ltac:(split; [reflexivity|cbv; intuition discriminate])))) as (v2 & R2). eapply nos_rd; [exact R2|].
  apply nos_warn, nos_here, no_chr; [repeat constructor|cbv; intuition discriminate].
Qed.
Lemma find_value : find_rule "value" rules = Some value_e. Proof. reflexivity. Qed.
Lemma find_plugin : find_rule "plugin" rules = Some plugin_e. Proof. reflexivity. Qed.
Lemma find_array : find_rule "array" rules = Some array_e. Proof. reflexivity. Qed.
Lemma find_hash : find_rule "hash" rules = Some hash_e. Proof. reflexivity. Qed.
Lemma find_hashentries : find_rule "hashentries" rules = Some hashentries_e. Proof. reflexivity. Qed.
Lemma find_hashentry : find_rule "hashentry" rules = Some hashentry_e. Proof. reflexivity. Qed.
Lemma find_attribute : find_rule "attribute" rules = Some attribute_e. Proof. reflexivity. Qed.
Lemma find_branch : find_rule "branch" rules = Some branch_e. Proof. reflexivity. Qed.
Lemma number_first t : number_text t -> firstc (fun c => digit c \/ c = 45%N) t.
Proof.
  intros (sg & ip & fp & -> & [-> | ->] & Ni & Di & _); [|exists 45%N, (ip ++ fp); auto].
  destruct ip as [|c ip]; [congruence|]. inversion Di; subst. exists c, (ip ++ fp). auto.
Qed.
Lemma quoted_no_bare q v r en : In q [DQ; SQ] -> no bareword_e en (([q] ++ v ++ [q]) ++ r).
Proof. intros H. apply bareword_no. enum H; split; reflexivity. Qed.
Lemma str_reads s r : str_ok (sa_type s) (sa_val s) -> vfollow r -> rd value_e [] (sa_value_string s ++ r) (re_value (AtStr s)) [] r.
Proof.
  intros H (D & s' & K & F).
  assert (Q : forall q, In q [DQ; SQ] -> literal_value q (sa_val s) ->
    rd value_e [] (([q] ++ sa_val s ++ [q]) ++ r) (VAttr (str0 (if N.eqb q DQ then DoubleQuoted else SingleQuoted) (sa_val s))) [] r).
  { intros q Hq Hv. apply rd_next; [apply no_ref with (1 := find_plugin); apply plugin_no_word with (s' := s'); auto; right; exists q, (sa_val s); auto|].
    apply rd_next; [now apply quoted_no_bare|]. destruct (quoted_reads_rd q (sa_val s) r Hq Hv) as (en' & R). eapply rd_choice. rewrite <- !app_assoc. exact R. }
  unfold sa_value_string. cbn [re_value]. destruct (sa_type s); cbn [str_ok sat_string] in *; [| | |contradiction].
  - apply (Q DQ); [now left|exact H].
  - apply (Q SQ); [right; now left|exact H].
  - cbn [app]. rewrite app_nil_r. assert (W : name_ok (sa_val s)).
    { left. destruct H as (c & v & -> & _ & H1 & H2). split; [discriminate|]. constructor; [left; now left|]. eapply Forall_impl; [|exact H2]. intros d Hd. now left. }
    apply rd_next; [apply no_ref with (1 := find_plugin); apply plugin_no_word with (s' := s'); auto|]. eapply rd_choice. apply bareword_reads; [exact H|exact D].
Qed.
Lemma number_no_bare t r en : firstc (fun c => digit c \/ c = 45%N) t -> no bareword_e en (t ++ r).
Proof.
  intros (c & u & -> & H). apply bareword_no. cbn. unfold digit in H. split; [lia|]. apply class_miss. cls. lia.
Qed.
Lemma num_value_reads n r : pr_num (na_val n) -> vfollow r -> rd value_e [] (number_string (na_val n) ++ r) (re_value (AtNum n)) [] r.
Proof.
  intros H (D & s' & K & F). pose proof (number_first _ (proj1 H)) as N1.
  apply rd_next; [apply no_ref with (1 := find_plugin); apply plugin_no_number with (s' := s'); auto; apply H|].
  apply rd_next; [now apply number_no_bare|]. apply rd_next; [apply string_no; destruct N1 as (c & u & -> & N1); unfold digit, DQ, SQ in *; cbn; lia|].
  eapply rd_choice. apply number_reads; auto.
Qed.

(** ** Bodies of brackets *)
Definition Clos (C : bytes) (foot : cblock) (c : N) (s : bytes) : Prop := delim C /\ gap_to C foot (c :: s).
Definition ws_to (i : bytes) (com : cblock) (s : bytes) : Prop := exists j, (forall en, rd ws_e en i VWs en j) /\ gap_to j com s.
Lemma ws_coms k n com m s : com_ok com -> nogap s -> 0 < k -> ws_to (repeat NL k ++ tcoms n com ++ repeat SP m ++ s) com s.
Proof. intros H G K. destruct (ws_coms_read k n com m s H G K) as (v & i & R1 & R2 & S). exists i. split; [exact R1|]. exists v. auto. Qed.
Lemma ws_foot k n foot s : com_ok foot -> nogap s -> 0 < k -> ws_to (repeat NL k ++ tfoot (S n) foot ++ ind n ++ s) foot s.
Proof.
  intros H G K. destruct (ws_coms k (S n) (map_last clear_after foot) (n + n) s) as (j & R & v & R2 & S); [now apply foot_ok|exact G|exact K|].
  exists j. split; [exact R|]. exists v. split; [exact R2|]. unfold says in *. now rewrite norm_clear in S.
Qed.
Definition closer (c : N) : Prop := c = 93%N \/ c = 125%N.
Lemma closer_plain c : closer c -> plain c.
Proof. intros [-> | ->]; apply plain_close. Qed.
Lemma closer_delim c s : closer c -> delim (c :: s).
Proof. intros [-> | ->]; cbv; auto 10. Qed.
Lemma clos_follow C foot c s : closer c -> Clos C foot c s -> vfollow C.
Proof.
  intros Hc [D G]. split; [exact D|]. exists (c :: s). split; [eapply gap_skip, G|]. destruct Hc as [-> | ->]; cbv; intuition discriminate.
Qed.
Lemma body_nil n e foot c s : com_ok foot -> closer c -> Clos (tbody n [] e foot ++ c :: s) foot c s.
Proof.
  intros F Hc. pose proof (nogap_plain c s (closer_plain c Hc)) as G. split.
  - destruct foot as [|f foot]; cbn [tbody]; [destruct e; [cbn; auto|now apply closer_delim]|cbn; auto].
  - destruct foot as [|f foot]; cbn [tbody].
    + destruct e; [|now apply gap_none]. exact (gap_coms 1 0 [] (n + n) (c :: s) (Forall_nil _) G).
    + rewrite <- !app_assoc. exact (gap_foot 1 n (f :: foot) (c :: s) F G).
Qed.
Lemma body_cons n J e foot c s : com_ok foot -> closer c -> exists C, tbody n (J ++ [NL]) e foot ++ c :: s = NL :: J ++ C /\ Clos C foot c s /\ ws_to C foot (c :: s).
Proof.
  intros F Hc. pose proof (nogap_plain c s (closer_plain c Hc)) as G.
  set (k := match foot with [] => 1 | _ => 2 end). exists (repeat NL k ++ tfoot (S n) foot ++ ind n ++ c :: s).
  assert (Kp : 0 < k) by (subst k; destruct foot; lia). split; [|split; [split|]].
  - unfold tbody. destruct (J ++ [NL]) as [|x y] eqn:E; [destruct J; discriminate|]. rewrite <- E. subst k.
    destruct foot as [|f foot]; rewrite <- !app_assoc; cbn [app]; rewrite <- ?app_assoc; reflexivity.
  - subst k. destruct foot; cbn; auto.
  - now apply gap_foot.
  - now apply ws_foot.
Qed.
Lemma flat_lines {A} (f : A -> bytes) l : NL :: flat_map (fun x => f x ++ [NL]) l = flat_map (fun x => NL :: f x) l ++ [NL].
Proof. induction l as [|x l IH]; [reflexivity|]. cbn [flat_map]. rewrite <- !app_assoc. cbn [app]. rewrite <- ?app_assoc. cbn [app]. do 2 f_equal. exact IH. Qed.
Lemma elem_lines {A} (f : A -> bytes) x l : telems (map f (x :: l)) = (f x ++ flat_map (fun y => 44%N :: NL :: f y) l) ++ [NL].
Proof.
  unfold telems. cbn [map]. f_equal. revert x. induction l as [|y l IH]; intros x; cbn [map join flat_map]; [now rewrite app_nil_r|]. f_equal. cbn [app]. do 2 f_equal. apply IH.
Qed.
Lemma lines_last {A} (f : A -> bytes) x l : exists J, flat_map (fun x => f x ++ [NL]) (x :: l) = J ++ [NL] /\ NL :: J = flat_map (fun x => NL :: f x) (x :: l).
Proof.
  pose proof (flat_lines f (x :: l)) as E. exists (f x ++ flat_map (fun x => NL :: f x) l). split; [|reflexivity].
  cbn [flat_map app] in E. apply (f_equal (@tl N)) in E. exact E.
Qed.

(** ** The statement for values *)
Definition Vreads (a : attr) : Prop := forall nm, pr_attr nm a -> forall n s, vfollow s -> rd value_e [] (tval n a ++ s) (re_value a) [] s.
Definition valc (c : N) : Prop := namec c \/ c = 91%N \/ c = 123%N.
Lemma valc_plain c : valc c -> plain c.
Proof. intros [H|[-> | ->]]; [now apply namec_plain| |]; apply plain_close. Qed.
Lemma val_first nm a n : pr_attr nm a -> firstc valc (tval n a).
Proof.
  destruct a as [|s|v|p m l c f|p m l c f|p m v c]; cbn [pr_attr tval]; intros H.
  - contradiction.
  - destruct H as (_ & H & _). eapply firstc_imp; [intros c X; left; exact X|]. apply name_first. unfold sa_value_string. destruct (sa_type s); cbn [str_ok sat_string] in *; [| | |contradiction].
    + right. exists DQ, (sa_val s). split; [now left|auto].
    + right. exists SQ, (sa_val s). split; [right; now left|auto].
    + left. destruct H as (c & v & -> & _ & H1 & H2). cbn [app]. rewrite app_nil_r. split; [discriminate|]. constructor; [left; now left|]. eapply Forall_impl; [|exact H2]. intros d Hd. now left.
  - destruct H as (_ & H & _). eapply firstc_imp; [|apply number_first, H]. intros c [D|D]; left; left; [left; now right|now right].
  - exists 91%N. eexists. split; [reflexivity|]. right. now left.
  - exists 123%N. eexists. split; [reflexivity|]. right. now right.
  - destruct H as (_ & _ & _ & H & _). destruct v as [vp vn vl vc vf]. cbn [tplugin]. apply firstc_app. eapply firstc_imp; [intros x X; left; exact X|]. apply name_first, H.
Qed.
Lemma val_nogap nm a n s : pr_attr nm a -> nogap (tval n a ++ s).
Proof. intros H. eapply firstc_nogap; [exact valc_plain|]. apply firstc_app. eapply val_first, H. Qed.
Lemma unnamed_value a v : pr_attr false a -> says v (attr_com a) ->
  act_attribute_comment (re_value a) v true = RVal (VAttr (re_attr false a)) /\ act_attribute_comment (re_value a) v false = RVal (VAttr (re_attr true a)).
Proof.
  intros H [S1 S2]. destruct a as [|s|n|p m l c f|p m l c f|p m x c]; cbn [pr_attr named] in H; try contradiction; cbn [re_value act_attribute_comment re_attr set_attr_com attr_com rc] in *; rewrite ?S1, ?S2.
  - destruct H as [-> _]. auto.
  - destruct H as [-> _]. auto.
  - destruct H as [-> _]. auto.
  - destruct H as [-> _]. auto.
  - destruct H as [H _]. discriminate.
Qed.

(** ** Arrays *)
Lemma elems_more n l C foot s : Forall (fun a => pr_attr false a /\ Vreads a) l -> Clos C foot 93%N s ->
  rdt more_value_e (flat_map (fun x => 44%N :: NL :: telem n x) l ++ C) (map (fun x => VAttr (re_attr false x)) l) C /\
  vfollow (flat_map (fun x => 44%N :: NL :: telem n x) l ++ C).
Proof.
  intros H K. induction H as [|x l [Hx Vx] H [IH1 IH2]].
  - split; [|now apply (clos_follow C foot 93%N s); [left|]]. apply rdt_stop. apply no_act, no_seq. destruct K as [_ G]. apply gap_skip in G.
    destruct (skip_gaps _ _ [] G) as (v & R). cbn [flat_map app]. eapply nos_rd; [exact R|]. apply nos_warn, nos_here, no_chr; [repeat constructor|cbv; intuition discriminate].
  - cbn [flat_map map]. rewrite <- app_assoc. remember (flat_map (fun x => 44%N :: NL :: telem n x) l ++ C) as T eqn:ET. clear ET. split.
    + cbn [app].
      destruct (skip_gaps (44%N :: NL :: telem n x ++ T) _ [] (skip_none _ (nogap_plain 44%N _ ltac:(apply plain_close)))) as (v1 & R1).
      destruct (gap_coms 1 n (attr_com x) (n + n) (tval n x ++ T)) as (v & R & S); [eapply elem_com_ok, Hx|eapply val_nogap, Hx|].
      assert (R2 : forall en, rd gap_e en (NL :: telem n x ++ T) v en (tval n x ++ T)). { intros en. unfold telem. rewrite <- !app_assoc. apply R. }
      eapply rdt_more; [|exact IH1]. eapply rd_act; [eapply rds_cons; [exact R1|]; apply rds_warn; eapply rds_cons; [apply rd_chr; reflexivity|];
        eapply rds_cons; [eapply rd_lab; apply R2|]; eapply rds_cons; [eapply rd_lab, rd_ref with (1 := find_value); exact (Vx false Hx n T IH2)|apply rds_nil]|].
      intros t. apply (unnamed_value x v Hx S).
    + split; [cbn; auto|]. eexists. split; [apply skip_none; apply nogap_plain, plain_close|]. cbv; intuition discriminate.
Qed.
Lemma first_not_c c cs s : ~ In c cs -> first_not cs (c :: s).
Proof. auto. Qed.
(** no value, name or key starts with a closing bracket *)
Lemma closer_no c s : closer c -> first_not [DQ; SQ] (c :: s) /\ stop [95; 45]%N [(65, 90); (97, 122); (48, 57)]%N false (c :: s) /\
  stop [95]%N [(65, 90); (97, 122)]%N false (c :: s) /\ first_not [45%N] (c :: s) /\ stop [] [(48, 57)]%N false (c :: s) /\ first_not [91; 123; 44; 105; 101]%N (c :: s).
Proof. intros [-> | ->]; repeat split; cbv; intuition discriminate. Qed.
Lemma value_no i c s en : closer c -> skip_to i (c :: s) -> nogap i -> i = c :: s -> no value_e en i.
Proof.
  intros Hc K G ->. destruct (closer_no c s Hc) as (H1 & H2 & H3 & H4 & H5 & H6).
  apply no_choice; [apply no_ref with (1 := find_plugin); eapply plugin_no_name; eauto|].
  apply no_choice; [now apply bareword_no|]. apply no_choice; [now apply string_no|]. apply no_choice; [now apply number_no|].
  apply no_choice; [apply no_ref with (1 := find_array), no_act, no_seq, nos_here; eapply first_not_lit; [|repeat constructor|exact H6]; now left|].
  apply no_choice; [apply no_ref with (1 := find_hash), no_act, no_seq, nos_here; eapply first_not_lit; [|repeat constructor|exact H6]; right; now left|].
  apply no_choice; [apply no_soft|apply no_none].
Qed.
Lemma close_reads c w e en s : (c < 128)%N -> rd (EChoice [ELit w [c]; e]) en (c :: s) (VBytes [c]) en s.
Proof. intros H. eapply rd_choice. now apply (rd_chr w c []). Qed.
Lemma attributes_ok x l : forall v, act_attribute_comment x v false = RVal (VAttr l) ->
  forall f rest, act_attributes x (VList (map (fun y => VAttr (f y)) rest)) v = RVal (VAttrs (l :: map (f : attr -> attr) rest)).
Proof.
  intros v E f rest. unfold act_attributes. rewrite E. cbn [iface_slice app attributes_loop].
  replace (attributes_loop (map (fun y => VAttr (f y)) rest)) with (inl (B := val) (map f rest)); [reflexivity|]. induction rest as [|y r IH]; [reflexivity|]. cbn [map attributes_loop]. now rewrite <- IH.
Qed.
Lemma array_reads l foot p m c n s : Forall (fun a => pr_attr false a /\ Vreads a) l -> com_ok foot ->
  exists en', rd array_e [] (tval n (AtArr p m l c foot) ++ s) (re_value (AtArr p m l c foot)) en' s.
Proof.
  intros H F. cbn [tval re_value]. change (map (fun x => tcoms (S n) (attr_com x) ++ ind (S n) ++ tval (S n) x) l) with (map (telem (S n)) l).
  rewrite <- !app_assoc. change (b "]" ++ s) with (93%N :: s). change (b "[") with [91%N]. cbn [app].
  destruct H as [|x l [Hx Vx] H].
  - cbn [map telems]. pose proof (body_nil n false foot 93%N s F (or_introl eq_refl)) as [D (v & R & S1 & S2)].
    eexists. eapply rd_act.
    + eapply rds_cons; [apply rd_chr; reflexivity|]. eapply rds_cons; [eapply rd_lab, rd_opt_none|].
      * apply no_act, no_seq. eapply nos_rd; [eapply rd_lab, R|]. apply nos_here, no_lab, no_ref with (1 := find_value).
        eapply value_no; [left; reflexivity|apply skip_none| |reflexivity]; apply nogap_plain, plain_close.
      * eapply rds_cons; [eapply rd_lab, R|]. eapply rds_cons; [apply close_reads; reflexivity|apply rds_nil].
    + intros t. cbn [run_action]. change (act_array VNil v = RVal (VAttr (AtArr zero_pos [] (firsts re_attr []) [] (norm foot)))). unfold act_array. now rewrite S1.
  - rewrite elem_lines. destruct (body_cons n (telem (S n) x ++ flat_map (fun y => 44%N :: NL :: telem (S n) y) l) false foot 93%N s F (or_introl eq_refl)) as (C & -> & K & _).
    rewrite <- app_assoc. destruct (elems_more (S n) l C foot s H K) as [M Fo]. destruct K as [D (v & R & S1 & S2)].
    remember (flat_map (fun x => 44%N :: NL :: telem (S n) x) l ++ C) as T eqn:ET. clear ET.
    destruct (gap_coms 1 (S n) (attr_com x) (S n + S n) (tval (S n) x ++ T)) as (v1 & R1 & Sx); [eapply elem_com_ok, Hx|eapply val_nogap, Hx|].
    assert (R2 : forall en, rd gap_e en (NL :: telem (S n) x ++ T) v1 en (tval (S n) x ++ T)). { intros en. unfold telem. rewrite <- !app_assoc. apply R1. }
    eexists. eapply rd_act.
    + eapply rds_cons; [apply rd_chr; reflexivity|]. eapply rds_cons; [eapply rd_lab, rd_opt; eapply rd_act|].
      * eapply rds_cons; [eapply rd_lab, R2|]. eapply rds_cons; [eapply rd_lab, rd_ref with (1 := find_value); exact (Vx false Hx (S n) T Fo)|].
        eapply rds_cons; [eapply rd_lab, rd_star, M|apply rds_nil].
      * intros t. exact (attributes_ok _ _ v1 (proj2 (unnamed_value x v1 Hx Sx)) (re_attr false) l).
      * eapply rds_cons; [eapply rd_lab, R|]. eapply rds_cons; [apply close_reads; reflexivity|apply rds_nil].
    + intros t. cbn [run_action].
      change (act_array (VAttrs (re_attr true x :: map (re_attr false) l)) v = RVal (VAttr (AtArr zero_pos [] (firsts re_attr (x :: l)) [] (norm foot)))). unfold act_array. now rewrite S1.
Qed.

(** ** Hashes *)
Definition Hreads (e : hentry) : Prop := Vreads (hval e).
Lemma key_reads k s : pr_key k -> delim s -> exists v en', rd (EChoice [number_e; bareword_e; string_e]) en' (hkey_string k ++ s) v en' s /\
  (match v with VAttr (AtStr x) => Some (HKStr x) | VAttr (AtNum x) => Some (HKNum x) | _ => None end) = Some (bare_key k) /\ en' = [].
Proof.
  intros H D. destruct k as [x|x]; cbn [pr_key hkey_string bare_key] in *.
  - destruct H as (E1 & H & E2). exists (VAttr (str0 (sa_type x) (sa_val x))), []. split; [|split; [|reflexivity]].
    2:{ unfold str0, bare_str. now rewrite E1, E2. }
    assert (Q : forall q, In q [DQ; SQ] -> literal_value q (sa_val x) ->
      rd (EChoice [number_e; bareword_e; string_e]) [] (([q] ++ sa_val x ++ [q]) ++ s) (VAttr (str0 (if N.eqb q DQ then DoubleQuoted else SingleQuoted) (sa_val x))) [] s).
    { intros q Hq Hv. apply rd_next; [apply number_no; enum Hq; cbv; intuition discriminate|]. apply rd_next; [now apply quoted_no_bare|].
      destruct (quoted_reads_rd q (sa_val x) s Hq Hv) as (en' & R). eapply rd_choice. rewrite <- !app_assoc. exact R. }
    unfold sa_value_string. destruct (sa_type x); cbn [str_ok sat_string] in *; [| | |contradiction].
    + apply (Q DQ); [now left|exact H].
    + apply (Q SQ); [right; now left|exact H].
    + cbn [app]. rewrite app_nil_r. apply rd_next; [|eapply rd_choice; apply bareword_reads; auto].
      destruct H as (c & v & -> & _ & H1 & _). apply number_no; cbn; unfold bareword_start in H1; [lia|]. split; [lia|]. apply class_miss. cls. lia.
  - destruct H as (E1 & H & E2). exists (VAttr (AtNum (NumAttr zero_pos [] (na_val x) []))), []. split; [|split; [|reflexivity]].
    + eapply rd_choice. apply number_reads; auto.
    + unfold bare_num. now rewrite E1, E2.
Qed.
Lemma key_first k : pr_key k -> firstc namec (hkey_string k).
Proof.
  destruct k as [x|x]; cbn [pr_key hkey_string]; intros (_ & H & _).
  - assert (F : firstc valc (tval 0 (AtStr (StrAttr zero_pos [] (sa_val x) (sa_type x) [])))) by (apply (val_first false); cbn; repeat split; [exact H|constructor]).
    destruct F as (c & t & E & V). exists c, t. split; [exact E|]. destruct V as [V|V]; [exact V|exfalso].
    unfold tval, sa_value_string in E. cbn [sa_type sa_val] in E. destruct (sa_type x); cbn [str_ok sat_string] in *; [| | |contradiction].
    + inversion E. subst c. destruct V; discriminate.
    + inversion E. subst c. destruct V; discriminate.
    + destruct H as (d & u & Eu & _ & H1 & _). rewrite Eu in E. inversion E. subst d. unfold bareword_start in H1. lia.
  - eapply firstc_imp; [|apply number_first, H]. intros c [D|D]; left; [left; now right|now right].
Qed.
Definition hcore (n : nat) (e : hentry) : bytes := match e with HEntry _ k v _ => hkey_string k ++ arrow ++ tval n v end.
Definition hcom (e : hentry) : cblock := match e with HEntry _ _ _ com => com end.
Lemma vval_unnamed v : pr_attr false v -> attr_com v = [] -> re_value v = VAttr (re_attr true v).
Proof.
  intros H C. destruct v as [|s|x|p m l c f|p m l c f|p m x c]; cbn [pr_attr named attr_com re_value re_attr] in *; try contradiction.
  1-4: destruct H as [-> _]; rewrite C; reflexivity. destruct H as [H _]. discriminate.
Qed.
Lemma hentry_reads e n i s : pr_hentry e -> Hreads e -> gap_to i (hcom e) (hcore n e ++ s) -> vfollow s -> rd (ERef "hashentry") [] i (VHEntry (re_hentry false e)) [] s.
Proof.
  intros H V (v & R & S1 & S2) F. destruct e as [p k x com]. cbn [pr_hentry hcom hcore hval Hreads] in *. destruct H as (Hk & Hc & Hx & Cx).
  rewrite <- !app_assoc in R. destruct (key_reads k (arrow ++ tval n x ++ s) Hk) as (kv & en' & Rk & Ek & ->); [cbn; auto|].
  eapply rd_ref with (1 := find_hashentry). eapply rd_act.
  - eapply rds_cons; [eapply rd_lab, R|]. eapply rds_cons; [eapply rd_lab, Rk|].
    apply (rd_arrow (tval n x ++ s) _ [ELab "value" (ERef "value")]); [eapply val_nogap, Hx|].
    eapply rds_cons; [eapply rd_lab, rd_ref with (1 := find_value); exact (V false Hx n s F)|apply rds_nil].
  - intros t. cbn [run_action]. change (act_hashentry zero_pos kv (re_value x) v = RVal (VHEntry (re_hentry false (HEntry p k x com)))). rewrite (vval_unnamed x Hx Cx).
    unfold act_hashentry. rewrite Ek, S2. reflexivity.
Qed.
Definition hline (n : nat) (e : hentry) : bytes := tcoms n (hcom e) ++ ind n ++ hcore n e.
Lemma thentry_line n e : thentry n e = hline n e ++ [NL].
Proof. destruct e as [p k x com]. unfold hline. cbn [thentry hcom hcore]. now rewrite <- !app_assoc. Qed.
Lemma hcore_nogap n e s : pr_hentry e -> nogap (hcore n e ++ s).
Proof. destruct e as [p k x com]. intros (Hk & _). eapply firstc_nogap; [exact namec_plain|]. apply firstc_app. cbn [hcore]. apply firstc_app. now apply key_first. Qed.
Lemma hcore_first n e s : pr_hentry e -> first_not [123%N] (hcore n e ++ s).
Proof. destruct e as [p k x com]. intros (Hk & _). eapply firstc_not with (P := namec); [intros c Hc I; apply (namec_not c Hc); enum I; now left|]. apply firstc_app. cbn [hcore]. apply firstc_app. now apply key_first. Qed.
Lemma hcom_ok e : pr_hentry e -> com_ok (hcom e).
Proof. destruct e. intros (_ & H & _). exact H. Qed.
Lemma hashentry_no i c s en : closer c -> skip_to i (c :: s) -> no (ERef "hashentry") en i.
Proof.
  intros Hc (v & R). destruct (closer_no c s Hc) as (H1 & H2 & H3 & H4 & H5 & H6).
  apply no_ref with (1 := find_hashentry), no_act, no_seq. eapply nos_rd; [eapply rd_lab, R|]. apply nos_here, no_lab.
  apply no_choice; [now apply number_no|]. apply no_choice; [now apply bareword_no|]. apply no_choice; [now apply string_no|apply no_none].
Qed.
Lemma entries_more n l C foot s : Forall (fun a => pr_hentry a /\ Hreads a) l -> Clos C foot 125%N s -> ws_to C foot (125%N :: s) ->
  rdt more_hashentry_e (flat_map (fun x => NL :: hline n x) l ++ C) (map (fun x => VHEntry (re_hentry false x)) l) C /\
  vfollow (flat_map (fun x => NL :: hline n x) l ++ C).
Proof.
  intros H K W. induction H as [|x l [Hx Vx] H [IH1 IH2]].
  - split; [|now apply (clos_follow C foot 125%N s); [right|]]. destruct W as (j & R & G). apply rdt_stop. apply no_act, no_seq. cbn [flat_map app].
    eapply nos_rd; [apply R|]. apply nos_here, no_lab. eapply hashentry_no; [now right|]. eapply gap_skip, G.
  - cbn [flat_map map]. rewrite <- app_assoc. remember (flat_map (fun x => NL :: hline n x) l ++ C) as T eqn:ET. clear ET.
    assert (E : (NL :: hline n x) ++ T = repeat NL 1 ++ tcoms n (hcom x) ++ repeat SP (n + n) ++ hcore n x ++ T). { unfold hline. cbn [app repeat]. now rewrite <- !app_assoc. }
    rewrite E. split.
    + destruct (ws_coms 1 n (hcom x) (n + n) (hcore n x ++ T)) as (j & R & G); [now apply hcom_ok|now apply hcore_nogap|lia|].
      eapply rdt_more; [|exact IH1]. eapply rd_act; [eapply rds_cons; [apply R|]; eapply rds_cons; [eapply rd_lab; eapply hentry_reads; eauto|apply rds_nil]|reflexivity].
    + split; [cbn; auto|]. exists (hcore n x ++ T). split; [|now apply hcore_first]. eapply gap_skip, gap_coms; [now apply hcom_ok|now apply hcore_nogap].
Qed.
Lemma norm_clear_before c : map_first clear_before (map_first set_before (norm c)) = norm c.
Proof. destruct c; reflexivity. Qed.
Lemma hash_reads l foot p m c n s : Forall (fun a => pr_hentry a /\ Hreads a) l -> com_ok foot ->
  exists en', rd hash_e [] (tval n (AtHash p m l c foot) ++ s) (re_value (AtHash p m l c foot)) en' s.
Proof.
  intros H F. cbn [tval re_value]. rewrite <- !app_assoc. change (b "}" ++ s) with (125%N :: s). change (b "{") with [123%N]. cbn [app].
  replace (flat_map (thentry (S n)) l) with (flat_map (fun x => hline (S n) x ++ [NL]) l) by (apply flat_map_ext; intros x; symmetry; apply thentry_line).
  destruct H as [|x l [Hx Vx] H].
  - cbn [flat_map]. pose proof (body_nil n false foot 125%N s F (or_intror eq_refl)) as [D (v & R & S1 & S2)].
    eexists. eapply rd_act.
    + eapply rds_cons; [apply rd_chr; reflexivity|]. eapply rds_cons; [eapply rd_lab, rd_opt_none|].
      * apply no_ref with (1 := find_hashentries). apply no_act, no_seq, nos_here, no_lab. eapply hashentry_no; [now right|]. exists v. exact R.
      * eapply rds_cons; [eapply rd_lab, R|]. eapply rds_cons; [apply close_reads; reflexivity|apply rds_nil].
    + intros t. cbn [run_action]. change (act_hash VNil v = RVal (VAttr (AtHash zero_pos [] (firsts re_hentry []) [] (norm foot)))). unfold act_hash. now rewrite S1.
  - destruct (lines_last (hline (S n)) x l) as (J & -> & EJ). destruct (body_cons n J false foot 125%N s F (or_intror eq_refl)) as (C & -> & K & W).
    rewrite app_comm_cons, EJ. destruct (entries_more (S n) l C foot s H K W) as [M Fo]. destruct K as [D (v & R & S1 & S2)].
    cbn [flat_map]. rewrite <- app_assoc. remember (flat_map (fun x => NL :: hline (S n) x) l ++ C) as T eqn:ET. clear ET.
    assert (G1 : gap_to ((NL :: hline (S n) x) ++ T) (hcom x) (hcore (S n) x ++ T)).
    { assert (E : (NL :: hline (S n) x) ++ T = repeat NL 1 ++ tcoms (S n) (hcom x) ++ repeat SP (S n + S n) ++ hcore (S n) x ++ T) by (unfold hline; cbn [app repeat]; now rewrite <- !app_assoc).
      rewrite E. apply gap_coms; [now apply hcom_ok|now apply hcore_nogap]. }
    eexists. eapply rd_act.
    + eapply rds_cons; [apply rd_chr; reflexivity|]. eapply rds_cons; [eapply rd_lab, rd_opt, rd_ref with (1 := find_hashentries); eapply rd_act with (v := VHEntries (re_hentry true x :: map (re_hentry false) l))|].
      * eapply rds_cons; [eapply rd_lab; eapply hentry_reads; eauto|]. eapply rds_cons; [eapply rd_lab, rd_star, M|apply rds_nil].
      * intros t. cbn [run_action]. destruct x as [xp xk xv xc].
        change (act_hashentries (VHEntry (re_hentry false (HEntry xp xk xv xc))) (VList (map (fun x => VHEntry (re_hentry false x)) l)) = RVal (VHEntries (re_hentry true (HEntry xp xk xv xc) :: map (re_hentry false) l))).
        unfold act_hashentries. cbn [re_hentry iface_slice rc]. rewrite norm_clear_before.
        replace (hentries_loop (map (fun x => VHEntry (re_hentry false x)) l)) with (Some (map (re_hentry false) l)); [reflexivity|]. clear. induction l as [|y r IH]; [reflexivity|]. cbn [map hentries_loop]. now rewrite <- IH.
      * eapply rds_cons; [eapply rd_lab, R|]. eapply rds_cons; [apply close_reads; reflexivity|apply rds_nil].
    + intros t. cbn [run_action].
      change (act_hash (VHEntries (re_hentry true x :: map (re_hentry false) l)) v = RVal (VAttr (AtHash zero_pos [] (firsts re_hentry (x :: l)) [] (norm foot)))). unfold act_hash. now rewrite S1.
Qed.

(** ** Attributes and plugins *)
Definition re_bare_attr (a : attr) : attr := set_attr_com (re_attr true a) [].
Lemma attribute_reads a n s : pr_attr true a -> Vreads a -> vfollow s ->
  rd (ERef "attribute") [] (attr_name a ++ arrow ++ tval n a ++ s) (VAttr (re_bare_attr a)) [] s.
Proof.
  intros H V F. destruct (name_reads (attr_name a) (arrow ++ tval n a ++ s)) as (x & en' & R & Ex & Px); [apply (attr_name_ok a H)|cbn; auto|].
  eapply rd_ref with (1 := find_attribute). eapply rd_act.
  - eapply rds_cons; [eapply rd_lab, R|]. apply (rd_arrow (tval n a ++ s) _ [ELab "value" (ERef "value")]); [eapply val_nogap, H|].
    eapply rds_cons; [eapply rd_lab, rd_ref with (1 := find_value); exact (V true H n s F)|apply rds_nil].
  - intros t. cbn [run_action]. change (act_attribute zero_pos (VAttr (AtStr x)) (re_value a) = RVal (VAttr (re_bare_attr a))).
    unfold act_attribute. rewrite Ex. destruct a; cbn [pr_attr] in H; try contradiction; reflexivity.
Qed.
Lemma bare_com a v : pr_attr true a -> says v (attr_com a) ->
  act_attribute_comment (VAttr (re_bare_attr a)) v true = RVal (VAttr (re_attr false a)) /\
  act_attribute_comment (VAttr (re_bare_attr a)) v false = RVal (VAttr (re_attr true a)).
Proof.
  intros H [S1 S2]. unfold act_attribute_comment. rewrite S1, S2. destruct a; cbn [pr_attr] in H; try contradiction; split; reflexivity.
Qed.
Definition acore (n : nat) (a : attr) : bytes := attr_name a ++ arrow ++ tval n a.
Definition aline (n : nat) (a : attr) : bytes := tcoms n (attr_com a) ++ ind n ++ acore n a.
Lemma tattr_line n a : tattr n a = aline n a ++ [NL].
Proof. unfold tattr, aline, acore. now rewrite <- !app_assoc. Qed.
Lemma acore_first n a s : pr_attr true a -> firstc namec (acore n a ++ s).
Proof. intros H. apply firstc_app, firstc_app, name_first. now apply (attr_name_ok a). Qed.
Lemma aline_gap n a T : (NL :: aline n a) ++ T = repeat NL 1 ++ tcoms n (attr_com a) ++ repeat SP (n + n) ++ acore n a ++ T.
Proof. unfold aline. cbn [app repeat]. now rewrite <- !app_assoc. Qed.
Lemma attribute_no c s en : closer c -> no (ERef "attribute") en (c :: s).
Proof.
  intros Hc. destruct (closer_no c s Hc) as (H1 & H2 & _). apply no_ref with (1 := find_attribute), no_act, no_seq, nos_here, no_lab. now apply name_no.
Qed.
Lemma attrs_more n l C foot s : Forall (fun a => pr_attr true a /\ Vreads a) l -> Clos C foot 125%N s -> ws_to C foot (125%N :: s) ->
  rdt more_attr_e (flat_map (fun x => NL :: aline n x) l ++ C) (map (fun x => VAttr (re_attr false x)) l) C /\
  vfollow (flat_map (fun x => NL :: aline n x) l ++ C).
Proof.
  intros H K W. induction H as [|x l [Hx Vx] H [IH1 IH2]].
  - split; [|now apply (clos_follow C foot 125%N s); [right|]]. destruct W as (j & R & (v & G & _)). apply rdt_stop. apply no_act, no_seq. cbn [flat_map app].
    eapply nos_rd; [apply R|]. eapply nos_rd; [eapply rd_lab, G|]. apply nos_here, no_lab, attribute_no. now right.
  - cbn [flat_map map]. rewrite <- app_assoc. remember (flat_map (fun x => NL :: aline n x) l ++ C) as T eqn:ET. clear ET. rewrite aline_gap.
    assert (G1 : nogap (acore n x ++ T)) by (eapply firstc_nogap; [exact namec_plain|now apply acore_first]). split.
    + destruct (ws_coms 1 n (attr_com x) (n + n) (acore n x ++ T)) as (j & R & (v & G & S)); [now apply attr_name_ok|exact G1|lia|].
      eapply rdt_more; [|exact IH1]. unfold acore in G. rewrite <- !app_assoc in G.
      eapply rd_act; [eapply rds_cons; [apply R|]; eapply rds_cons; [eapply rd_lab, G|]; eapply rds_cons; [eapply rd_lab, attribute_reads; eauto|apply rds_nil]|].
      intros t. apply (bare_com x v Hx S).
    + split; [cbn; auto|]. exists (acore n x ++ T). split; [eapply gap_skip, gap_coms; [now apply attr_name_ok|exact G1]|].
      eapply firstc_not with (P := namec); [intros c Hc I; apply (namec_not c Hc); enum I; now left|]. now apply acore_first.
Qed.
Definition set_plugin_com (p : plugin) (c : cblock) : plugin := match p with Plugin ps n l _ f => Plugin ps n l c f end.
Definition plugin_com (p : plugin) : cblock := match p with Plugin _ _ _ c _ => c end.
Lemma tplugin_first n p : pr_plugin p -> firstc namec (tplugin n p).
Proof. destruct p as [pp pn pl pc pf]. intros (H & _). cbn [tplugin]. apply firstc_app. now apply name_first. Qed.
Lemma plugin_reads p n i com s : pr_plugin p -> Forall Vreads (pattrs p) -> gap_to i com (tplugin n p ++ s) ->
  rd (ERef "plugin") [] i (VPlugin (set_plugin_com (re_plugin p) (norm com))) [] s.
Proof.
  intros H V (v0 & R0 & S0 & _). destruct p as [pp pn l pc foot]. destruct H as (Hn & _ & F & Hl). cbn [pattrs] in V. cbn [tplugin] in R0.
  replace (flat_map (fun x => tcoms (S n) (attr_com x) ++ ind (S n) ++ attr_name x ++ arrow ++ tval (S n) x ++ [NL]) l) with (flat_map (fun x => aline (S n) x ++ [NL]) l) in R0
    by (apply flat_map_ext; intros x; symmetry; apply tattr_line).
  assert (H : Forall (fun a => pr_attr true a /\ Vreads a) l). { apply All_F in Hl. rewrite Forall_forall in *. auto. }
  clear V Hl. rewrite <- !app_assoc in R0. change (b "}" ++ s) with (125%N :: s) in R0. change (b " {") with [SP; 123%N] in R0. cbn [app] in R0.
  match type of R0 with forall en, rd _ _ _ _ _ (_ ++ _ :: _ :: ?t) => remember t as T eqn:ET end.
  destruct (name_reads pn (SP :: 123%N :: T)) as (x & en' & R & Ex & Px); [exact Hn|cbn; auto|].
  assert (B : forall en, exists en', rds [ELab "attributes" (EOpt attrs_e); ELab "footerComment" gap_e; close "}" (fatal "expect closing curly bracket")] en T en' s /\
    lookup "attributes" en' = (match l with [] => VNil | _ => VAttrs (firsts re_attr l) end) /\ comment_block (lookup "footerComment" en') false false = norm foot /\
    lookup "name" en' = lookup "name" en /\ lookup "comment" en' = lookup "comment" en).
  { subst T. clear R R0. intros en. destruct H as [|a l [Ha Va] H].
    - cbn [flat_map]. pose proof (body_nil n false foot 125%N s F (or_intror eq_refl)) as [D (v & R & S1 & S2)].
      eexists. split; [|split; [|split; [|split]]].
      + eapply rds_cons; [eapply rd_lab, rd_opt_none|].
        * apply no_act, no_seq. eapply nos_rd; [eapply rd_lab, R|]. apply nos_here, no_lab, attribute_no. now right.
        * eapply rds_cons; [eapply rd_lab, R|]. eapply rds_cons; [apply close_reads; reflexivity|apply rds_nil].
      + reflexivity.
      + exact S1.
      + reflexivity.
      + reflexivity.
    - destruct (lines_last (aline (S n)) a l) as (J & -> & EJ). destruct (body_cons n J false foot 125%N s F (or_intror eq_refl)) as (C & -> & K & W).
      rewrite app_comm_cons, EJ. destruct (attrs_more (S n) l C foot s H K W) as [M Fo]. destruct K as [D (v & R & S1 & S2)].
      cbn [flat_map]. rewrite <- app_assoc. remember (flat_map (fun x => NL :: aline (S n) x) l ++ C) as T eqn:ET. clear ET. rewrite aline_gap.
      destruct (gap_coms 1 (S n) (attr_com a) (S n + S n) (acore (S n) a ++ T)) as (v1 & R1 & Sa); [now apply attr_name_ok|eapply firstc_nogap; [exact namec_plain|now apply acore_first]|].
      assert (R2 : forall en, rd gap_e en (repeat NL 1 ++ tcoms (S n) (attr_com a) ++ repeat SP (S n + S n) ++ acore (S n) a ++ T) v1 en (attr_name a ++ arrow ++ tval (S n) a ++ T)).
      { intros en0. specialize (R1 en0). unfold acore in *. rewrite <- !app_assoc in *. exact R1. }
      eexists. split; [|split; [|split; [|split]]].
      + eapply rds_cons; [eapply rd_lab, rd_opt; eapply rd_act with (v := VAttrs (re_attr true a :: map (re_attr false) l))|].
        * eapply rds_cons; [eapply rd_lab, R2|]. eapply rds_cons; [eapply rd_lab, attribute_reads; eauto|]. eapply rds_cons; [eapply rd_lab, rd_star, M|apply rds_nil].
        * intros t. exact (attributes_ok _ _ v1 (proj2 (bare_com a v1 Ha Sa)) (re_attr false) l).
        * eapply rds_cons; [eapply rd_lab, R|]. eapply rds_cons; [apply close_reads; reflexivity|apply rds_nil].
      + reflexivity.
      + exact S1.
      + reflexivity.
      + reflexivity. }
  clear ET. destruct (skip_gaps (SP :: 123%N :: T) _ (bind "name" (VAttr (AtStr x)) (bind "comment" v0 [])) (skip_sp (123%N :: T) (nogap_plain 123%N T ltac:(apply plain_close)))) as (v2 & R2).
  destruct (B (bind "name" (VAttr (AtStr x)) (bind "comment" v0 []))) as (en2 & RB & L1 & L2 & L3 & L4).
  eapply rd_ref with (1 := find_plugin). eapply rd_act.
  - eapply rds_cons; [eapply rd_lab, R0|]. eapply rds_cons; [eapply rd_lab, R|]. eapply rds_cons; [exact R2|]. apply rds_warn. eapply rds_cons; [apply rd_chr; reflexivity|]. exact RB.
  - intros t. cbn [run_action]. rewrite L1, L3, L4. unfold act_plugin.
    change (lookup "name" (bind "name" (VAttr (AtStr x)) (bind "comment" v0 []))) with (VAttr (AtStr x)). change (lookup "comment" (bind "name" (VAttr (AtStr x)) (bind "comment" v0 []))) with v0.
    rewrite S0, L2, Ex, Px. destruct l; reflexivity.
Qed.

(** ** All values *)
Theorem value_reads a : Vreads a.
Proof.
  induction a as [|s|v|p nm l c f IH|p nm l c f IH|p nm v c IH] using attr_ind'; intros b0 H n r Fo.
  - contradiction.
  - apply str_reads; [apply H|exact Fo].
  - apply num_value_reads; [apply H|exact Fo].
  - destruct H as (_ & _ & Hf & Hl). assert (A : Forall (fun a => pr_attr false a /\ Vreads a) l). { apply All_F in Hl. rewrite Forall_forall in *. auto. }
    destruct (array_reads l f p nm c n r A Hf) as (en' & R).
    assert (E : exists t, tval n (AtArr p nm l c f) ++ r = 91%N :: t) by (eexists; reflexivity). destruct E as (t & E). rewrite E in R |- *.
    apply rd_next; [apply no_ref with (1 := find_plugin); eapply plugin_no_name; [apply skip_none, nogap_plain, plain_close| |]; [cbv; intuition discriminate|split; reflexivity]|].
    apply rd_next; [apply bareword_no; split; reflexivity|]. apply rd_next; [apply string_no; cbv; intuition discriminate|]. apply rd_next; [apply number_no; [cbv; intuition discriminate|split; reflexivity]|].
    eapply rd_choice, rd_ref with (1 := find_array). exact R.
  - destruct H as (_ & _ & Hf & Hl). assert (A : Forall (fun a => pr_hentry a /\ Hreads a) l). { apply All_F in Hl. rewrite Forall_forall in *. unfold Hreads. auto. }
    destruct (hash_reads l f p nm c n r A Hf) as (en' & R).
    assert (E : exists t, tval n (AtHash p nm l c f) ++ r = 123%N :: t) by (eexists; reflexivity). destruct E as (t & E). rewrite E in R |- *.
    apply rd_next; [apply no_ref with (1 := find_plugin); eapply plugin_no_name; [apply skip_none, nogap_plain, plain_close| |]; [cbv; intuition discriminate|split; reflexivity]|].
    apply rd_next; [apply bareword_no; split; reflexivity|]. apply rd_next; [apply string_no; cbv; intuition discriminate|]. apply rd_next; [apply number_no; [cbv; intuition discriminate|split; reflexivity]|].
    apply rd_next; [apply no_ref with (1 := find_array), no_act, no_seq, nos_here, no_chr; [repeat constructor|cbv; intuition discriminate]|].
    eapply rd_choice, rd_ref with (1 := find_hash). exact R.
  - destruct H as (_ & _ & _ & Hp & Ev). cbn [tval re_value]. eapply rd_choice.
    assert (E : re_plugin v = set_plugin_com (re_plugin v) (norm [])). { destruct v as [vp vn vl vc vf]. subst vc. reflexivity. }
    rewrite E. eapply plugin_reads; [exact Hp|exact IH|]. apply gap_none. eapply firstc_nogap; [exact namec_plain|]. apply firstc_app. now apply tplugin_first.
Qed.
