(** Reading with the remaining input explicit ([rd]); words, numbers, selectors; white
    space and comments. *)
From Coq Require Import List NArith Bool String Arith Lia.
From Verif Require Import Bytes Utf8 F64 Ast Peg Actions Engine AstPrint EscapeFacts QuoteFacts SimpleFacts PosFacts Matches PegSem LexFacts Tree Rules Bare Reads Lines NumPrint Layout ReadLex.
Import ListNotations.

Ltac cls := rewrite ?Exists_cons, ?Exists_nil; cbn [In fst snd].
Ltac enum H := cbn [In] in H; repeat (destruct H as [<- | H] || destruct H as [H]); try contradiction.
Section World.
Context {ign : bool}.
Local Notation ok := (Reads.ok ign rules).
Local Notation oks := (Reads.oks ign rules).
Local Notation okt := (Reads.okt ign rules).
Local Notation no := (Reads.no ign rules).
Local Notation nos := (Reads.nos ign rules).
(** ** The expression [e] reads from the input [i] up to [i'] *)
Definition rd (e : expr) (en : env) (i : bytes) (v : val) (en' : env) (i' : bytes) : Prop :=
  exists t, i = t ++ i' /\ ok e en t i' v en'.
Definition rds (es : list expr) (en : env) (i : bytes) (en' : env) (i' : bytes) : Prop :=
  exists t l, i = t ++ i' /\ oks es en t i' l en'.
Definition rdt (e : expr) (i : bytes) (l : list val) (i' : bytes) : Prop := exists t, i = t ++ i' /\ okt e t i' l.

Lemma ok_rd e en t s v en' : ok e en t s v en' -> rd e en (t ++ s) v en' s.
Proof. intros H. exists t. auto. Qed.
Lemma rd_lit w rs en s : Forall (fun r => r < 128)%N rs -> rd (ELit w rs) en (rs ++ s) (VBytes rs) en s.
Proof. intros H. exists rs. split; [reflexivity|now constructor]. Qed.
Lemma rd_lab l e en i v en' s : rd e [] i v en' s -> rd (ELab l e) en i v (bind l v en) s.
Proof. intros (t & -> & H). exists t. split; [reflexivity|]. eapply ok_lab. exact H. Qed.
Lemma rd_opt e en i v en' s : rd e [] i v en' s -> rd (EOpt e) en i v en s.
Proof. intros (t & -> & H). exists t. split; [reflexivity|]. eapply ok_opt. exact H. Qed.
Lemma rd_opt_none e en i : no e [] i -> rd (EOpt e) en i VNil en i.
Proof. intros H. exists []. split; [reflexivity|]. now apply ok_opt_none. Qed.
Lemma rd_ref n e en i v en' s : find_rule n rules = Some e -> rd e [] i v en' s -> rd (ERef n) en i v en s.
Proof. intros F (t & -> & H). exists t. split; [reflexivity|]. eapply ok_ref; eauto. Qed.
Lemma rd_choice e es en i v en' s : rd e [] i v en' s -> rd (EChoice (e :: es)) en i v en s.
Proof. intros (t & -> & H). exists t. split; [reflexivity|]. eapply ok_choice. exact H. Qed.
Lemma rd_next e es en i v en' s : no e [] i -> rd (EChoice es) en i v en' s -> rd (EChoice (e :: es)) en i v en' s.
Proof. intros N (t & -> & H). exists t. split; [reflexivity|]. eapply ok_next; eauto. Qed.
Lemma rd_star e en i l s : rdt e i l s -> rd (EStar e) en i (VList l) en s.
Proof. intros (t & -> & H). exists t. split; [reflexivity|]. now apply ok_star. Qed.
Lemma rd_plus e en i v l s : rdt e i (v :: l) s -> rd (EPlus e) en i (VList (v :: l)) en s.
Proof. intros (t & -> & H). exists t. split; [reflexivity|]. now constructor. Qed.
Lemma rdt_stop e i : no e [] i -> rdt e i [] i.
Proof. intros H. exists []. split; [reflexivity|now constructor]. Qed.
Lemma rdt_more e i v en' i1 l s : rd e [] i v en' i1 -> rdt e i1 l s -> rdt e i (v :: l) s.
Proof.
  intros (t & -> & H) (t2 & -> & K). exists (t ++ t2). split; [apply app_assoc|]. eapply okt_more; eauto.
Qed.
Lemma rds_nil en i : rds [] en i en i.
Proof. exists [], []. split; [reflexivity|constructor]. Qed.
Lemma rds_cons e es en i v en1 i1 en' s : rd e en i v en1 i1 -> rds es en1 i1 en' s -> rds (e :: es) en i en' s.
Proof.
  intros (t & -> & H) (t2 & l & -> & K). exists (t ++ t2), (v :: l). split; [apply app_assoc|]. eapply oks_cons; eauto.
Qed.
Lemma rds_warn es en i en' s : rds es en i en' s -> rds (warn_e :: es) en i en' s.
Proof. apply rds_cons with (v := VNil). exists []. split; [reflexivity|constructor]. Qed.
(** an action that does not look at the text *)
Lemma rd_act a es en i v en' s : rds es en i en' s ->
  (forall t, run_action ign (Some []) a en' zero_pos t = RVal v) -> rd (EAct a (ESeq es)) en i v en' s.
Proof. intros (t & l & -> & H) A. exists t. split; [reflexivity|]. eapply ok_act; [|apply A]. apply ok_seq. exact H. Qed.
Lemma rd_act1 a e en i v0 v en' s : rd e en i v0 en' s ->
  (forall t, run_action ign (Some []) a en' zero_pos t = RVal v) -> rd (EAct a e) en i v en' s.
Proof. intros (t & -> & H) A. exists t. split; [reflexivity|]. eapply ok_act; [|apply A]. exact H. Qed.
Lemma nos_rd e es en i v en1 s : rd e en i v en1 s -> nos es en1 s -> nos (e :: es) en i.
Proof. intros (t & -> & H) K. eapply nos_later; eauto. Qed.
Lemma nos_warn es en i : nos es en i -> nos (warn_e :: es) en i.
Proof. apply nos_rd with (v := VNil). exists []. split; [reflexivity|constructor]. Qed.
Lemma rd_eq e en i i2 v en' s : rd e en i v en' s -> i2 = i -> rd e en i2 v en' s.
Proof. now intros H ->. Qed.
(** a single character *)
Lemma rd_chr w c en s : (c < 128)%N -> rd (ELit w [c]) en (c :: s) (VBytes [c]) en s.
Proof. intros H. apply (rd_lit w [c]). repeat constructor. exact H. Qed.
Lemma no_chr w c rs en s : Forall (fun r => r < 128)%N (c :: rs) -> first_not [c] s -> no (ELit w (c :: rs)) en s.
Proof. intros A H. apply first_not_lit with (cs := [c]); [now left|exact A|exact H]. Qed.

(** ** Characters *)
Lemma class_spec cs rs c : class_match cs rs false c = true <-> In c cs \/ Exists (fun r => fst r <= c <= snd r)%N rs.
Proof.
  unfold class_match. rewrite xorb_false_r, orb_true_iff, !existsb_exists, Exists_exists. split.
  - intros [(x & I & E)|((x & y) & I & E)]; [left; apply N.eqb_eq in E; now subst|right]. exists (x, y). split; [exact I|]. apply andb_true_iff in E as [E1 E2]. apply N.leb_le in E1, E2. cbn in *. lia.
  - intros [I|((x & y) & I & E)]; [left; exists c; split; [exact I|apply N.eqb_refl]|right]. exists (x, y). split; [exact I|]. apply andb_true_iff. split; apply N.leb_le; cbn in *; lia.
Qed.
Lemma class_miss cs rs c : ~ (In c cs \/ Exists (fun r => fst r <= c <= snd r)%N rs) -> class_match cs rs false c = false.
Proof. intros H. destruct (class_match cs rs false c) eqn:E; [|reflexivity]. now apply class_spec in E. Qed.
Lemma word_hit c : word_char c -> (c < 128)%N /\ class_match [95; 45]%N [(65, 90); (97, 122); (48, 57)]%N false c = true.
Proof. unfold word_char, bareword_char, bareword_start. intros H. split; [lia|]. apply class_spec. cls. lia. Qed.
Lemma bare_hit c : bareword_char c -> (c < 128)%N /\ class_match [95]%N [(65, 90); (97, 122); (48, 57)]%N false c = true.
Proof. unfold bareword_char, bareword_start. intros H. split; [lia|]. apply class_spec. cls. lia. Qed.
Lemma start_hit c : bareword_start c -> (c < 128)%N /\ class_match [95]%N [(65, 90); (97, 122)]%N false c = true.
Proof. unfold bareword_start. intros H. split; [lia|]. apply class_spec. cls. lia. Qed.
Lemma digit_hit c : digit c -> (c < 128)%N /\ class_match [] [(48, 57)]%N false c = true.
Proof. unfold digit. intros H. split; [lia|]. apply class_spec. cls. lia. Qed.
(** what may follow a token *)
Definition delims : list N := [32; 10; 44; 93; 125; 41]%N.
Definition delim (s : bytes) : Prop := match s with [] => True | c :: _ => In c delims end.
Lemma delim_first s cs : delim s -> Forall (fun c => ~ In c delims) cs -> first_not cs s.
Proof. destruct s as [|c s]; [auto|]. cbn. intros H F I. rewrite Forall_forall in F. exact (F _ I H). Qed.
Lemma delim_stop_word s : delim s -> stop [95; 45]%N [(65, 90); (97, 122); (48, 57)]%N false s.
Proof. destruct s as [|c s]; [auto|]. intros H. enum H; split; reflexivity. Qed.
Lemma delim_stop_bare s : delim s -> stop [95]%N [(65, 90); (97, 122); (48, 57)]%N false s.
Proof. destruct s as [|c s]; [auto|]. intros H. enum H; split; reflexivity. Qed.
Lemma delim_stop_digit s : delim s -> stop [] [(48, 57)]%N false s.
Proof. destruct s as [|c s]; [auto|]. intros H. enum H; split; reflexivity. Qed.

(** ** Words *)
Lemma rdt_chars w cs rs t s : Forall (fun c => (c < 128)%N /\ class_match cs rs false c = true) t -> stop cs rs false s ->
  rdt (EClass w cs rs false) (t ++ s) (map (fun c => VBytes [c]) t) s.
Proof. intros H K. exists t. split; [reflexivity|]. now apply okt_chars. Qed.
Lemma bareword_reads_stop v s en : bareword v -> stop [95]%N [(65, 90); (97, 122); (48, 57)]%N false s -> rd bareword_e en (v ++ s) (VAttr (str0 Bareword v)) en s.
Proof.
  intros (c & u & -> & N & C & U) D. destruct u as [|d u]; [congruence|]. exists (c :: d :: u). split; [reflexivity|]. eapply ok_act; [|reflexivity]. apply ok_seq.
  change (c :: d :: u) with ([c] ++ d :: u). apply start_hit in C as [C1 C2]. eapply oks_cons; [apply ok_chr; [exact C1|exact C2]|]. apply oks_one.
  apply ok_plus with (v := VBytes [d]) (l := map (fun c => VBytes [c]) u).
  apply (okt_chars _ _ _ _ (d :: u)); [|exact D]. eapply Forall_impl; [|exact U]. intros x Hx. now apply bare_hit.
Qed.
Lemma bareword_reads v s en : bareword v -> delim s -> rd bareword_e en (v ++ s) (VAttr (str0 Bareword v)) en s.
Proof. intros H D. apply bareword_reads_stop; [exact H|now apply delim_stop_bare]. Qed.
Lemma bareword_no s en : stop [95]%N [(65, 90); (97, 122)]%N false s -> no bareword_e en s.
Proof. intros H. apply no_act, no_seq, nos_here, no_stop, H. Qed.
Definition name_attr (n : bytes) : option strattr :=
  match n with
  | [] => None
  | c :: t => if N.eqb c DQ then Some (StrAttr zero_pos [] (removelast t) DoubleQuoted [])
              else if N.eqb c SQ then Some (StrAttr zero_pos [] (removelast t) SingleQuoted [])
              else Some (StrAttr zero_pos [] n Bareword [])
  end.
Lemma word_reads_stop n s : word n -> stop [95; 45]%N [(65, 90); (97, 122); (48, 57)]%N false s -> rd (EAct (AString Bareword) (EPlus word_class)) [] (n ++ s) (VAttr (str0 Bareword n)) [] s.
Proof.
  intros [N W] D. exists n. split; [reflexivity|]. destruct n as [|c n]; [congruence|]. eapply ok_act; [|reflexivity].
  apply ok_plus with (v := VBytes [c]) (l := map (fun c => VBytes [c]) n).
  apply (okt_chars _ _ _ _ (c :: n)); [|exact D]. eapply Forall_impl; [|exact W]. intros x Hx. now apply word_hit.
Qed.
Lemma word_no s en : stop [95; 45]%N [(65, 90); (97, 122); (48, 57)]%N false s -> no (EAct (AString Bareword) (EPlus word_class)) en s.
Proof. intros H. apply no_act, no_plus, no_stop, H. Qed.
Lemma quoted_reads_rd q v s : In q [DQ; SQ] -> literal_value q v ->
  exists en', rd string_e [] ([q] ++ v ++ [q] ++ s) (VAttr (str0 (if N.eqb q DQ then DoubleQuoted else SingleQuoted) v)) en' s.
Proof.
  intros Hq Hv. destruct Hq as [<- | [<- | []]]; eexists.
  - exists ([DQ] ++ v ++ [DQ]); (split; [now rewrite <- !app_assoc|now apply double_reads]).
  - exists ([SQ] ++ v ++ [SQ]); (split; [now rewrite <- !app_assoc|now apply single_reads]).
Qed.
Lemma name_reads_stop n s : name_ok n -> stop [95; 45]%N [(65, 90); (97, 122); (48, 57)]%N false s -> exists a en', rd name_e [] (n ++ s) (VAttr (AtStr a)) en' s /\ sa_value_string a = n /\ sa_pos a = zero_pos.
Proof.
  intros [W|(q & v & Hq & Hv & ->)] D.
  - exists (StrAttr zero_pos [] n Bareword []), []. split; [eapply rd_choice, word_reads_stop; auto|]. unfold sa_value_string. cbn. now rewrite app_nil_r.
  - destruct (quoted_reads_rd q v s Hq Hv) as (en' & R). exists (StrAttr zero_pos [] v (if N.eqb q DQ then DoubleQuoted else SingleQuoted) []), [].
    split; [|enum Hq; split; reflexivity]. apply rd_next.
    + apply word_no. enum Hq; split; reflexivity.
    + eapply rd_choice. rewrite <- !app_assoc. eapply rd_act1; [eapply rd_lab; exact R|reflexivity].
Qed.
Lemma name_reads n s : name_ok n -> delim s -> exists a en', rd name_e [] (n ++ s) (VAttr (AtStr a)) en' s /\ sa_value_string a = n /\ sa_pos a = zero_pos.
Proof. intros H D. apply name_reads_stop; [exact H|now apply delim_stop_word]. Qed.
Lemma name_no s en : first_not [DQ; SQ] s -> stop [95; 45]%N [(65, 90); (97, 122); (48, 57)]%N false s -> no name_e en s.
Proof. intros H K. apply no_choice; [now apply word_no|]. apply no_choice; [|apply no_none]. apply no_act, no_lab. now apply string_no. Qed.

(** ** Numbers *)
Lemma number_text_stop t s en : number_text t -> stop [] [(48, 57)]%N false s -> first_not [46%N] s -> exists v, rd number_text_e en (t ++ s) v en s.
Proof.
  intros (sg & ip & fp & -> & Hs & Ni & Di & Hf) D D2.
  assert (F : rds [EOpt (ESeq [lit "."; EStar digit_e])] en (fp ++ s) en s).
  { destruct Hf as [->|(f & -> & Hf)]; (eapply rds_cons; [|apply rds_nil]).
    - apply rd_opt_none. apply no_seq, nos_here. apply no_chr; [repeat constructor|exact D2].
    - apply rd_opt with (v := VList [VBytes [46%N]; VList (map (fun c => VBytes [c]) f)]) (en' := []). cbn [app].
      exists (46%N :: f). split; [reflexivity|]. apply ok_seq. change (46%N :: f) with ([46%N] ++ f). eapply oks_cons; [apply ok_lit; repeat constructor|]. apply oks_one. apply ok_star.
      apply okt_chars; [|exact D]. eapply Forall_impl; [|exact Hf]. intros x Hx. now apply digit_hit. }
  assert (I : rds [EPlus digit_e; EOpt (ESeq [lit "."; EStar digit_e])] en (ip ++ fp ++ s) en s).
  { destruct ip as [|c ip]; [congruence|]. eapply rds_cons; [|exact F]. eapply rd_plus. apply (rdt_chars _ _ _ (c :: ip)).
    - eapply Forall_impl; [|exact Di]. intros x Hx. now apply digit_hit.
    - destruct Hf as [->|(f & -> & Hf)]; [exact D|]. split; reflexivity. }
  enough (A : rds [EOpt (lit "-"); EPlus digit_e; EOpt (ESeq [lit "."; EStar digit_e])] en ((sg ++ ip ++ fp) ++ s) en s).
  { destruct A as (t & l & E & A). rewrite E. exists (VList l), t. split; [reflexivity|]. now apply ok_seq. }
  rewrite <- !app_assoc. destruct Hs as [-> | ->].
  - eapply rds_cons; [apply rd_opt_none|exact I]. apply no_chr; [repeat constructor|]. destruct ip as [|c ip]; [congruence|]. inversion Di; subst. unfold digit in *. cbn. lia.
  - eapply rds_cons; [eapply rd_opt; apply (rd_chr _ _ []); reflexivity|exact I].
Qed.
Lemma number_text_reads t s en : number_text t -> delim s -> exists v, rd number_text_e en (t ++ s) v en s.
Proof. intros H D. apply number_text_stop; [exact H|now apply delim_stop_digit|]. apply delim_first; [exact D|]. repeat constructor. cbv. intuition discriminate. Qed.
Lemma number_stop t v s en : number_text t -> parse_float t = Some v -> stop [] [(48, 57)]%N false s -> first_not [46%N] s ->
  rd number_e en (t ++ s) (VAttr (AtNum (NumAttr zero_pos [] v []))) en s.
Proof.
  intros T P D D2. destruct (number_text_stop t s en T D D2) as (w & u & E & H). apply app_inv_tail in E. subst u. exists t. split; [reflexivity|].
  eapply ok_act; [exact H|]. cbn [run_action]. unfold act_number. now rewrite P.
Qed.
Lemma number_reads v s en : pr_num v -> delim s -> rd number_e en (number_string v ++ s) (VAttr (AtNum (NumAttr zero_pos [] v []))) en s.
Proof.
  intros [T P] D. destruct (number_text_reads _ s en T D) as (w & t & E & H). apply app_inv_tail in E. subst t. exists (number_string v). split; [reflexivity|].
  eapply ok_act; [exact H|]. cbn [run_action]. unfold act_number. now rewrite P.
Qed.
Lemma number_no s en : first_not [45%N] s -> stop [] [(48, 57)]%N false s -> no number_e en s.
Proof.
  intros H K. apply no_act, no_seq. eapply nos_rd; [apply rd_opt_none, no_chr; [repeat constructor|exact H]|]. apply nos_here, no_plus, no_stop, K.
Qed.

(** ** Selectors *)
Definition bare_selel (e : selel) : selel := SelEl zero_pos (se_name e).
Lemma selel_reads e s : selel_ok e -> exists en', rd selel_e [] (selel_string e ++ s) (VSelEl (bare_selel e)) en' s.
Proof.
  intros [N F]. exists []. unfold selel_string. exists ([91%N] ++ se_name e ++ [93%N]).
  split; [cbn; now rewrite <- !app_assoc|].
  destruct (okt_runes (ign := ign) "[^][,]" [93; 91; 44]%N 93%N (se_name e) s) as (l & K & Nl).
  { repeat constructor. } { now left. } { eapply Forall_impl; [|exact F]. cbn. intros a Ha X. apply Ha. intuition. }
  destruct l as [|v l]; [now specialize (Nl N)|].
  eapply ok_act; [|cbn [run_action]; unfold act_selector_element; rewrite inner_app; reflexivity].
  apply ok_seq. eapply oks_cons; [apply ok_lit; repeat constructor|]. eapply oks_cons; [|apply oks_one; eapply ok_choice, ok_lit; repeat constructor].
  apply ok_plus. exact K.
Qed.
Lemma selel_no s en : first_not [91%N] s -> no selel_e en s.
Proof. intros H. apply no_act, no_seq, nos_here. now apply no_chr; [repeat constructor|]. Qed.
Lemma selector_reads x s en : sel_ok x -> first_not [91%N] s -> exists en', rd selector_e en (selector_string x ++ s) (VSel (bare_sel x)) en' s.
Proof.
  intros [N F] S. destruct x as [p els]. cbn in N, F. apply All_Forall in F. unfold selector_string. cbn [sel_els].
  enough (A : rdt selel_e (flat_map selel_string els ++ s) (map (fun e => VSelEl (bare_selel e)) els) s).
  { destruct els as [|e els]; [congruence|]. eexists. eapply rd_act1; [eapply rd_lab, rd_plus; exact A|]. intros t.
    assert (B : forall l, all_some (fun v => match v with VSelEl s => Some s | _ => None end) (map (fun e => VSelEl (bare_selel e)) l) = Some (map bare_selel l)).
    { induction l as [|a l IH]; [reflexivity|]. cbn [map all_some]. now rewrite IH. }
    exact (f_equal (fun o => match o with Some l => RVal (VSel (Sel zero_pos l)) | None => _ end) (B (e :: els))). }
  clear N. induction F as [|e els He F IH]; [apply rdt_stop; now apply selel_no|]. cbn [flat_map map]. rewrite <- app_assoc.
  destruct (selel_reads e (flat_map selel_string els ++ s) He) as (en' & R). eapply rdt_more; [exact R|exact IH].
Qed.
Lemma selector_no s en : first_not [91%N] s -> no selector_e en s.
Proof. intros H. apply no_act, no_lab, no_plus. now apply selel_no. Qed.
End World.
