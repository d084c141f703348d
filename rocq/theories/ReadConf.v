(** Configurations as the printer writes them, read back. *)
From Coq Require Import List NArith Bool String Arith Lia.
From Verif Require Import Bytes Utf8 F64 Ast Peg Actions Engine AstPrint AstInd EscapeFacts QuoteFacts SimpleFacts PosFacts Matches PegSem LexFacts Tree Rules Bare Reads Lines NumPrint Layout ReadLex ReadGap ReadCom ReadVal ReadCond ReadBop.
Import ListNotations.

(** ** The configuration that is read back *)
(** the first section of a file: a blank line after its comments is noted *)
Definition first_com (com : cblock) : cblock := set_last (last_after false com) (norm com).
Definition shared_com (l : list section) : cblock := match l with p0 :: _ => ps_com p0 | [] => [] end.
Definition re_secs (first : bool) (l : list section) : list section :=
  match l with
  | [] => []
  | x :: l' => re_section x (if first then first_com (shared_com l) else norm (shared_com l)) :: map (fun y => re_section y (norm (shared_com l))) l'
  end.
Definition nil_secs (l : list section) : bool := match l with [] => true | _ => false end.
Definition reread (c : config) : config :=
  Config (re_secs true (cf_input c)) (re_secs (nil_secs (cf_input c)) (cf_filter c))
    (re_secs (nil_secs (cf_input c) && nil_secs (cf_filter c)) (cf_output c)) (map_first set_before (norm (cf_foot c))) [].

(** ** The text as a list of sections *)
Definition sentry : Type := (nat * ptype * cblock * section).
Definition stext (e : sentry) : bytes := match e with (k, t, com, x) => repeat NL k ++ tcoms 0 com ++ score t x end.
Definition sok (e : sentry) : Prop := match e with (k, t, com, x) => t <> PTUndef /\ com_ok com /\ pr_section t x end.
Definition entries (t : ptype) (l : list section) : list sentry :=
  match l with [] => [] | x :: l' => (1, t, shared_com l, x) :: map (fun y => (2, t, shared_com l, y)) l' end.
Lemma sections_text t l : t <> PTUndef -> NL :: tsections (kind t) l = flat_map stext (entries t l) ++ [NL].
Proof.
  intros H. destruct l as [|x l]; [reflexivity|]. unfold tsections, entries. cbn [shared_com].
  set (com := ps_com x).
  assert (E : forall y, tsection (kind t) com y = (tcoms 0 com ++ score t y) ++ [NL]) by (intros y; unfold tsection, score; now rewrite <- !app_assoc).
  rewrite (map_ext _ (fun y => (tcoms 0 com ++ score t y) ++ [NL]) E (x :: l)), join_lines. cbn [flat_map stext repeat app]. rewrite <- !app_assoc. do 4 f_equal.
  induction l as [|y l IH]; [reflexivity|]. cbn [map flat_map stext repeat app]. do 2 f_equal. rewrite <- !app_assoc in *. do 2 f_equal. exact IH.
Qed.
Definition all_entries (c : config) : list sentry := entries PTInput (cf_input c) ++ entries PTFilter (cf_filter c) ++ entries PTOutput (cf_output c).
Lemma config_text c : NL :: tconfig c = flat_map stext (all_entries c) ++ NL :: tcoms 0 (cf_foot c).
Proof.
  assert (A : forall t l r, t <> PTUndef -> NL :: tsections (kind t) l ++ r = flat_map stext (entries t l) ++ NL :: r).
  { intros t l r H. change (NL :: tsections (kind t) l ++ r) with ((NL :: tsections (kind t) l) ++ r). rewrite (sections_text t l H), <- app_assoc. reflexivity. }
  unfold tconfig, all_entries. change (b "input") with (kind PTInput). change (b "filter") with (kind PTFilter). change (b "output") with (kind PTOutput).
  rewrite A by discriminate. rewrite A by discriminate. rewrite A by discriminate. rewrite !flat_map_app, <- !app_assoc. reflexivity.
Qed.
Lemma entries_ok t l : t <> PTUndef -> All (pr_section t) l -> Forall sok (entries t l).
Proof.
  intros N H. apply All_F in H. destruct H as [|x l Hx H]; [constructor|]. assert (C : com_ok (ps_com x)) by apply Hx. constructor; [split; [exact N|split; [exact C|exact Hx]]|].
  apply Forall_forall. intros e I. apply in_map_iff in I as (y & <- & I). rewrite Forall_forall in H. split; [exact N|split; [exact C|auto]].
Qed.

(** ** Reading the sections *)
Lemma find_config : find_rule "config" rules = Some config_e. Proof. reflexivity. Qed.
Lemma find_init : find_rule "init" rules = Some init_e. Proof. reflexivity. Qed.
Lemma score_gap t x s : t <> PTUndef -> nogap (score t x ++ s).
Proof. intros H. unfold score. rewrite <- app_assoc. now apply kind_gap. Qed.
Lemma section_no en : no (ERef "pluginSection") en [].
Proof. apply no_ref with (1 := find_section), no_act, no_seq, nos_here, no_lab. now apply ptype_no. Qed.
Definition sval (e : sentry) : val := match e with (k, t, com, x) => VSection (re_section x (norm com)) end.
Lemma sections_read es foot : Forall sok es -> com_ok foot ->
  rdt next_section_e (flat_map stext es ++ NL :: tcoms 0 foot) (map sval es) (NL :: tcoms 0 foot).
Proof.
  intros H F. induction H as [|e es He H IH].
  - cbn [flat_map app map]. apply rdt_stop, no_act, no_seq. destruct (gap_coms 1 0 foot 0 [] F) as (v & R & _); [split; exact I|]. cbn [repeat app] in R. rewrite app_nil_r in R.
    eapply nos_rd; [eapply rd_lab, (R [])|]. apply nos_here, no_lab, section_no.
  - destruct e as [[[k t] com] x]. destruct He as (N & C & P). cbn [flat_map stext map sval]. rewrite <- !app_assoc.
    destruct (gap_coms k 0 com 0 (score t x ++ flat_map stext es ++ NL :: tcoms 0 foot) C (score_gap t x _ N)) as (v & R & S1 & S2). cbn [repeat app] in R.
    eapply rdt_more; [|exact IH]. eapply rd_act; [eapply rds_cons; [eapply rd_lab, R|]; eapply rds_cons; [eapply rd_lab, (section_reads t x _ N P)|apply rds_nil]|].
    intros u. change (act_config_section (VSection (re_section x [])) v = RVal (VSection (re_section x (norm com)))). unfold act_config_section. rewrite S1. reflexivity.
Qed.
(** the comments at the start of the file *)
Lemma first_gap com s : com_ok com -> nogap s -> exists v, (forall en, rd gap_e en (tcoms 0 com ++ s) v en s) /\ comment_block v false true = first_com com.
Proof.
  intros C G. destruct com as [|c com].
  - exists (VList []). split; [|reflexivity]. intros en. exact (gap_reads [] 0 0 s en (Forall_nil _) G).
  - destruct (coms_read 0 0 (c :: com) 0 s C G) as (v & R & _ & S). exists v. split; [exact R|]. rewrite S by discriminate. rewrite orb_false_r. reflexivity.
Qed.
Lemma eof_reads en : rd eof_e en [] VNil en [].
Proof. exists []. split; [reflexivity|]. apply ok_not, no_any. Qed.
Lemma set_ps_re x c0 c1 : set_ps_com (re_section x c0) c1 = re_section x c1.
Proof. reflexivity. Qed.
Lemma loop_more t l com : forall rest i f o cm, All (pr_section t) l -> t <> PTUndef ->
  config_loop cm false (map (fun y => VSection (re_section y com)) l ++ rest) i f o =
  match t with
  | PTInput => config_loop cm false rest (i ++ map (fun y => re_section y com) l) f o
  | PTFilter => config_loop cm false rest i (f ++ map (fun y => re_section y com) l) o
  | _ => config_loop cm false rest i f (o ++ map (fun y => re_section y com) l)
  end.
Proof.
  induction l as [|y l IH]; intros rest i f o cm H N; [cbn [map app]; rewrite !app_nil_r; destruct t; congruence || reflexivity|].
  destruct H as [(E & Hy) H]. cbn [map app config_loop]. unfold re_section at 1. cbn [ps_type]. rewrite E.
  destruct t; try congruence; rewrite IH by (assumption || discriminate); unfold re_section; now rewrite <- !app_assoc.
Qed.
Definition kinds (cm : cblock) (t : ptype) (first : bool) (l : list section) : list section :=
  match l with
  | [] => []
  | x :: l' => re_section x (if first then cm else norm (shared_com l)) :: map (fun y => re_section y (norm (shared_com l))) l'
  end.
Lemma sval_entries t l : map sval (entries t l) = map (fun y => VSection (re_section y (norm (shared_com l)))) l.
Proof. destruct l as [|x l]; [reflexivity|]. cbn [entries map sval]. f_equal. rewrite map_map. reflexivity. Qed.
Lemma loop_kind t l cm first rest i f o : All (pr_section t) l -> t <> PTUndef ->
  config_loop cm first (map sval (entries t l) ++ rest) i f o =
  match t with
  | PTInput => config_loop cm (first && nil_secs l) rest (i ++ kinds cm t first l) f o
  | PTFilter => config_loop cm (first && nil_secs l) rest i (f ++ kinds cm t first l) o
  | _ => config_loop cm (first && nil_secs l) rest i f (o ++ kinds cm t first l)
  end.
Proof.
  intros H N. rewrite sval_entries. destruct l as [|x l]; [cbn [map app nil_secs kinds]; rewrite !app_nil_r, andb_true_r; destruct t; congruence || reflexivity|].
  destruct H as [(E & Hx) H]. cbn [map app config_loop nil_secs]. rewrite andb_false_r.
  assert (T : forall c0, ps_type (if first then set_ps_com (re_section x c0) cm else re_section x c0) = t) by (intros c0; destruct first; exact E).
  assert (X : (if first then set_ps_com (re_section x (norm (shared_com (x :: l)))) cm else re_section x (norm (shared_com (x :: l)))) = re_section x (if first then cm else norm (shared_com (x :: l)))) by (destruct first; reflexivity).
  rewrite T, X. destruct t; try congruence; [rewrite (loop_more PTInput l)|rewrite (loop_more PTFilter l)|rewrite (loop_more PTOutput l)]; try assumption; try discriminate; cbn [kinds]; now rewrite <- !app_assoc.
Qed.
Lemma loop_config c cm : printable c ->
  config_loop cm true (map sval (all_entries c)) [] [] [] =
  inl (kinds cm PTInput true (cf_input c), kinds cm PTFilter (nil_secs (cf_input c)) (cf_filter c), kinds cm PTOutput (nil_secs (cf_input c) && nil_secs (cf_filter c)) (cf_output c)).
Proof.
  intros (Hi & Hf & Ho & _). unfold all_entries. rewrite !map_app. rewrite (loop_kind PTInput _ cm true _ [] [] [] Hi) by discriminate.
  rewrite (loop_kind PTFilter _ cm _ _ _ [] [] Hf) by discriminate. rewrite <- (app_nil_r (map sval (entries PTOutput _))), (loop_kind PTOutput _ cm _ _ _ _ [] Ho) by discriminate. reflexivity.
Qed.
Lemma kinds_secs cm t first l : (first = true -> l <> [] -> cm = first_com (shared_com l)) -> kinds cm t first l = re_secs first l.
Proof. destruct l as [|x l]; [reflexivity|]. intros H. cbn [kinds re_secs]. destruct first; [|reflexivity]. rewrite <- H; [reflexivity|reflexivity|discriminate]. Qed.
Definition lead (es : list sentry) : cblock := match es with (_, _, com, _) :: _ => com | [] => [] end.
Lemma config_reads c : printable c -> all_entries c <> [] -> rd (ERef "config") [] (tconfig c) (VConfig (reread c)) [] [].
Proof.
  intros P N. pose proof (config_text c) as T. pose proof (loop_config c (first_com (lead (all_entries c))) P) as L.
  assert (R : kinds (first_com (lead (all_entries c))) PTInput true (cf_input c) = re_secs true (cf_input c) /\
    kinds (first_com (lead (all_entries c))) PTFilter (nil_secs (cf_input c)) (cf_filter c) = re_secs (nil_secs (cf_input c)) (cf_filter c) /\
    kinds (first_com (lead (all_entries c))) PTOutput (nil_secs (cf_input c) && nil_secs (cf_filter c)) (cf_output c) = re_secs (nil_secs (cf_input c) && nil_secs (cf_filter c)) (cf_output c)).
  { unfold all_entries. split; [|split]; apply kinds_secs; intros E Nn.
    - destruct (cf_input c); [congruence|]. reflexivity.
    - destruct (cf_input c); [|discriminate E]. destruct (cf_filter c); [congruence|]. reflexivity.
    - destruct (cf_input c); [|discriminate E]. destruct (cf_filter c); [|discriminate E]. destruct (cf_output c); [congruence|]. reflexivity. }
  destruct R as (R1 & R2 & R3). rewrite R1, R2, R3 in L. clear R1 R2 R3.
  assert (S : Forall sok (all_entries c)). { destruct P as (Hi & Hf & Ho & _). unfold all_entries. rewrite !Forall_app. repeat split; apply entries_ok; auto; discriminate. }
  assert (F : com_ok (cf_foot c)) by apply P.
  assert (K0 : exists t com x es, all_entries c = (1, t, com, x) :: es).
  { unfold all_entries in *. destruct (cf_input c); [destruct (cf_filter c); [destruct (cf_output c); [now elim N|]|]|]; cbn [entries app]; eauto. }
  destruct K0 as (t & com & x & es & E). rewrite E in *. cbn [lead] in L. inversion S as [|? ? Sx Ses]; subst. destruct Sx as (Nt & C & Px).
  cbn [flat_map stext repeat app] in T. injection T as T. rewrite T, <- !app_assoc.
  destruct (first_gap com (score t x ++ flat_map stext es ++ NL :: tcoms 0 (cf_foot c)) C (score_gap t x _ Nt)) as (v & Rv & Sv).
  destruct (gap_coms 1 0 (cf_foot c) 0 [] F) as (w & Rw & S1 & S2); [split; exact I|]. cbn [repeat app] in Rw. rewrite app_nil_r in Rw.
  eapply rd_ref with (1 := find_config). eapply rd_act.
  - eapply rds_cons; [eapply rd_lab, Rv|]. eapply rds_cons; [eapply rd_lab, (section_reads t x _ Nt Px)|]. eapply rds_cons; [eapply rd_lab, rd_star, (sections_read es _ Ses F)|].
    eapply rds_cons; [eapply rd_lab, Rw|]. eapply rds_cons; [apply eof_reads|apply rds_nil].
  - intros u. change (act_config (VSection (re_section x [])) (VList (map sval es)) v w = RVal (VConfig (reread c))).
    unfold act_config. rewrite Sv, S2. cbn [iface_slice app]. cbn [map sval config_loop app] in L. cbn [config_loop app].
    rewrite set_ps_re in L. rewrite set_ps_re.
    match goal with |- context [match ?m with inl _ => _ | inr _ => _ end] => replace m with (@inl (list section * list section * list section) emsg (re_secs true (cf_input c), re_secs (nil_secs (cf_input c)) (cf_filter c), re_secs (nil_secs (cf_input c) && nil_secs (cf_filter c)) (cf_output c))) by (symmetry; exact L) end.
    reflexivity.
Qed.
Lemma empty_reads : rd init_e [] [] (VConfig zero_config) [("conf", VConfig zero_config)]%string [].
Proof.
  destruct (gap_none []) as (v & R & _); [split; exact I|].
  eapply rd_act; [eapply rds_cons; [exists []; split; [reflexivity|constructor]|]; eapply rds_cons; [exists []; split; [reflexivity|constructor]|]; eapply rds_cons; [eapply rd_lab, rd_next|apply rds_nil]|].
  - apply no_act, no_seq, nos_here, no_lab, no_ref with (1 := find_config), no_act, no_seq. eapply nos_rd; [eapply rd_lab, (R [])|]. apply nos_here, no_lab, section_no.
  - eapply rd_choice, rd_act; [eapply rds_cons; [apply (R [])|]; eapply rds_cons; [apply eof_reads|apply rds_nil]|]. reflexivity.
  - reflexivity.
Qed.
Theorem init_reads c : printable c -> exists en, rd init_e [] (tconfig c) (VConfig (reread c)) en [].
Proof.
  intros P. destruct (all_entries c) as [|e es] eqn:E.
  - assert (Z : cf_input c = [] /\ cf_filter c = [] /\ cf_output c = []).
    { unfold all_entries in E. destruct (cf_input c), (cf_filter c), (cf_output c); try discriminate E; auto. }
    destruct Z as (Z1 & Z2 & Z3). assert (Z4 : cf_foot c = []) by (apply P; assumption).
    exists [("conf", VConfig zero_config)]%string. replace (tconfig c) with (@nil N) by (unfold tconfig; now rewrite Z1, Z2, Z3, Z4).
    replace (reread c) with zero_config by (unfold reread; now rewrite Z1, Z2, Z3, Z4). apply empty_reads.
  - pose proof (config_reads c P ltac:(congruence)) as R. eexists.
    eapply rd_act; [eapply rds_cons; [exists []; split; [reflexivity|constructor]|]; eapply rds_cons; [exists []; split; [reflexivity|constructor]|]; eapply rds_cons; [eapply rd_lab, rd_choice, rd_act; [eapply rds_cons; [eapply rd_lab, R|]; eapply rds_cons; [apply eof_reads|apply rds_nil]|reflexivity]|apply rds_nil]|].
    intros t. cbn [run_action]. reflexivity.
Qed.
