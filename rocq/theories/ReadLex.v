(** What the lexical rules of the grammar read: strings, names, numbers, selectors,
    regular expressions, white space and comments. *)
From Coq Require Import List NArith Bool String Arith Lia.
From Verif Require Import Bytes Utf8 F64 Ast Peg Actions Engine AstPrint EscapeFacts QuoteFacts PosFacts Matches PegSem LexFacts Tree Rules Bare Reads Lines.
Import ListNotations.

(** Everything here holds with and without the option IgnoreComments. *)
Section World.
Context {ign : bool}.
Local Notation ok := (Reads.ok ign rules).
Local Notation oks := (Reads.oks ign rules).
Local Notation okt := (Reads.okt ign rules).
Local Notation no := (Reads.no ign rules).
Local Notation nos := (Reads.nos ign rules).

(** ** Runes *)
Lemma decode_head t c s : t <> [] -> (c < 128)%N -> exists t1 t2, t = t1 ++ t2 /\ t1 <> [] /\
  snd (decode_rune (t1 ++ t2 ++ c :: s)) = List.length t1 /\
  ((exists x, t1 = [x] /\ (x < 128)%N /\ fst (decode_rune (t1 ++ t2 ++ c :: s)) = x) \/
   (Forall (fun x => 128 <= x)%N t1 /\ (128 <= fst (decode_rune (t1 ++ t2 ++ c :: s)))%N)).
Proof.
  intros N C. set (i := t ++ c :: s). assert (Ni : i <> []) by (destruct t; [congruence|discriminate]).
  pose proof (decode_width i Ni) as W. set (n := snd (decode_rune i)) in *.
  assert (D : decode_rune (firstn n i) = decode_rune i) by (apply decode_firstn; fold n; lia).
  assert (L : List.length (firstn n i) = n) by (rewrite firstn_length; lia).
  assert (Nf : firstn n i <> []) by (intros E; rewrite E in L; cbn in L; lia).
  assert (Le : n <= List.length t).
  { destruct (le_lt_dec n (List.length t)) as [H|H]; [exact H|exfalso].
    destruct (rune_bytes (firstn n i) Nf) as [(x & E & _)|[F _]]; [rewrite D; fold n; now rewrite L| |].
    - rewrite E in L. cbn in L. destruct t; [congruence|]. cbn in H. lia.
    - rewrite Forall_forall in F. assert (I : In c (firstn n i)).
      { unfold i. replace n with (List.length t + S (n - S (List.length t))) by lia. rewrite firstn_app_2. cbn [firstn]. apply in_or_app. right. now left. }
      specialize (F _ I). cbn in F. lia. }
  exists (firstn n t), (skipn n t). rewrite app_assoc, firstn_skipn. fold i.
  assert (E1 : firstn n i = firstn n t). { unfold i. rewrite firstn_app. replace (n - List.length t) with 0 by lia. cbn [firstn]. apply app_nil_r. }
  rewrite E1 in *. split; [reflexivity|]. split; [exact Nf|]. split; [now rewrite L|].
  destruct (rune_bytes (firstn n t) Nf) as [(x & E & X1 & X2)|[F1 F2]]; [rewrite D; fold n; now rewrite L|left; exists x; rewrite <- D; auto|right; rewrite <- D; auto].
Qed.

(** ** Classes *)
Lemma ok_chr w cs rs inv en c s : (c < 128)%N -> class_match cs rs inv c = true -> ok (EClass w cs rs inv) en [c] s (VBytes [c]) en.
Proof. intros H C. apply ok_class; [discriminate|cbn [app]; now rewrite (ascii_rune _ _ H)|cbn [app]; now rewrite (ascii_rune _ _ H)]. Qed.
(** the text does not go on with a character of the class *)
Definition stop (cs : list N) (rs : list (N * N)) (inv : bool) (s : bytes) : Prop :=
  match s with [] => True | c :: _ => (c < 128)%N /\ class_match cs rs inv c = false end.
Lemma no_stop w cs rs inv en s : stop cs rs inv s -> no (EClass w cs rs inv) en s.
Proof. intros H. apply no_class. destruct s as [|c s]; [now left|right]. destruct H as [H K]. now rewrite (ascii_rune _ _ H). Qed.
Lemma okt_chars w cs rs inv t s : Forall (fun c => (c < 128)%N /\ class_match cs rs inv c = true) t -> stop cs rs inv s ->
  okt (EClass w cs rs inv) t s (map (fun c => VBytes [c]) t).
Proof.
  induction 1 as [|c t [H1 H2] H IH]; intros K; [apply okt_stop; now apply no_stop|].
  change (c :: t) with ([c] ++ t). eapply okt_more; [now apply ok_chr|]. cbn [app map]. auto.
Qed.
(** a negated class takes whole runes *)
Lemma class_negated cs x : In x cs <-> class_match cs [] true x = false.
Proof.
  unfold class_match. cbn [existsb]. rewrite orb_false_r. split.
  - intros H. replace (existsb (N.eqb x) cs) with true; [reflexivity|]. symmetry. apply existsb_exists. exists x. split; [exact H|apply N.eqb_refl].
  - intros H. destruct (existsb (N.eqb x) cs) eqn:E; [|discriminate]. apply existsb_exists in E as (y & I & E). apply N.eqb_eq in E. now subst.
Qed.
Lemma class_negated_in cs x : ~ In x cs -> class_match cs [] true x = true.
Proof. intros H. destruct (class_match cs [] true x) eqn:E; [reflexivity|]. now apply class_negated in E. Qed.
Lemma okt_runes w cs c t s : Forall (fun x => x < 128)%N cs -> In c cs -> Forall (fun x => ~ In x cs) t -> 
  exists l, okt (EClass w cs [] true) t (c :: s) l /\ (t <> [] -> l <> []).
Proof.
  intros A I. assert (C : (c < 128)%N) by (rewrite Forall_forall in A; auto). remember (List.length t) as n eqn:En. revert t En.
  induction n as [n IH] using lt_wf_ind. intros t En F. destruct t as [|x t].
  - exists []. split; [|congruence]. apply okt_stop, no_stop. split; [exact C|now apply class_negated].
  - destruct (decode_head (x :: t) c s) as (t1 & t2 & E & N1 & D & X); [discriminate|exact C|].
    rewrite E in *. apply Forall_app in F as [F1 F2].
    destruct (IH (List.length t2)) with (t := t2) as (l & K & _); [subst n; rewrite app_length; destruct t1; [congruence|cbn; lia]|reflexivity|exact F2|].
    exists (VBytes t1 :: l). split; [|discriminate]. eapply okt_more; [|exact K]. apply ok_class; [exact N1|exact D|]. apply class_negated_in.
    destruct X as [(y & -> & Y1 & ->)|[Y1 Y2]]; [now inversion F1|]. intros J. rewrite Forall_forall in A. specialize (A _ J). lia.
Qed.

(** ** Quoted texts *)
Lemma lbody_skip q t u : (q < 128)%N -> Forall (fun x => 128 <= x)%N t -> lbody q (t ++ u) -> lbody q u.
Proof.
  intros Hq H. induction H as [|x t Hx H IH]; [auto|]. cbn [app]. intros K. inversion K as [|v K1 E|c v N B K1 E].
  - exfalso. subst x. unfold BSL in *. lia.
  - auto.
Qed.
Lemma lit_no_first (c : N) (rs s : bytes) : match s with [] => True | x :: _ => x <> c end -> forall t, s <> (c :: rs) ++ t.
Proof. intros H t ->. cbn in H. congruence. Qed.
Lemma okt_body we wq q v s : (q < 128)%N -> q <> BSL -> lbody q v ->
  exists l, okt (EChoice [ELit we [92%N; q]; ESeq [ENot (ELit wq [q]); EAny]]) v (q :: s) l.
Proof.
  intros Hq Hb. remember (List.length v) as n eqn:En. revert v En. induction n as [n IH] using lt_wf_ind. intros v En K.
  assert (Asc : Forall (fun r => r < 128)%N [92%N; q]) by (repeat constructor; lia).
  assert (Asq : Forall (fun r => r < 128)%N [q]) by (repeat constructor; lia).
  destruct K as [|v K|c v Nq Bq K].
  - exists []. apply okt_stop. apply no_choice; [apply no_lit; [exact Asc|apply lit_no_first; exact Hb]|]. apply no_choice; [|apply no_none].
    apply no_seq, nos_here. apply (no_not ign rules (ELit wq [q]) [] [q] s (VBytes [q]) []). now apply ok_lit.
  - destruct (IH (List.length v)) with (v := v) as (l & H); [subst n; cbn; lia|reflexivity|exact K|].
    exists (VBytes [92%N; q] :: l). eapply okt_more; [|exact H]. apply ok_choice with (en' := []). now apply ok_lit.
  - destruct (decode_head ([c] ++ v) q s) as (t1 & t2 & E & N1 & D & X); [discriminate|exact Hq|].
    assert (K2 : lbody q t2).
    { destruct X as [(y & -> & _)|[F _]]; [cbn in E; now inversion E; subst|]. eapply lbody_skip; [exact Hq|exact F|]. rewrite <- E. now constructor. }
    destruct (IH (List.length t2)) with (v := t2) as (l & H); [|reflexivity|exact K2|].
    { subst n. rewrite E, app_length. destruct t1; [congruence|cbn; lia]. }
    rewrite E. exists (VList [VNil; VBytes t1] :: l). eapply okt_more; [|exact H].
    assert (H1 : forall u, t1 ++ t2 ++ q :: s <> q :: u). { intros u Eu. rewrite app_assoc, <- E in Eu. cbn in Eu. congruence. }
    apply ok_next.
    + apply no_lit; [exact Asc|]. intros u Eu. rewrite app_assoc, <- E in Eu. cbn [app] in Eu. inversion Eu as [[E1 E2]]. subst c.
      destruct (Bq eq_refl) as (d & v' & -> & Hd). cbn in E2. congruence.
    + eapply ok_choice. apply ok_seq. change t1 with ([] ++ t1) at 1. eapply oks_cons.
      * apply ok_not. apply no_lit; [exact Asq|]. exact H1.
      * rewrite <- (app_nil_r t1) at 1. eapply oks_cons; [|apply oks_nil]. cbn [app]. apply ok_any; [exact N1|exact D].
Qed.
Lemma inner_app q r (v : bytes) : inner ([q] ++ v ++ [r]) = Some v.
Proof.
  cbn [app inner]. destruct (v ++ [r]) eqn:E; [destruct v; discriminate|]. rewrite <- E. now rewrite removelast_last.
Qed.
Lemma oks_one e en t s v en' : ok e en t s v en' -> oks [e] en t s [v] en'.
Proof. intros H. rewrite <- (app_nil_r t). eapply oks_cons; [cbn [app]; exact H|constructor]. Qed.
Lemma quoted_reads a wq we f q v s en : (q < 128)%N -> q <> BSL -> literal_value q v ->
  forall x, run_action ign (Some []) a en zero_pos ([q] ++ v ++ [q]) = RVal x ->
  ok (EAct a (ESeq [ELit wq [q]; quoted_body (ELit we [92%N; q]) (ELit wq [q]); EChoice [ELit wq [q]; f]])) en ([q] ++ v ++ [q]) s x en.
Proof.
  intros Hq Hb L x Hx. assert (Asq : Forall (fun r => r < 128)%N [q]) by (repeat constructor; lia).
  destruct (okt_body we wq q v s Hq Hb (literal_lbody q v Hb L)) as (l & K).
  eapply ok_act; [|exact Hx]. apply ok_seq. eapply oks_cons; [now apply ok_lit|]. eapply oks_cons; [apply ok_star; cbn [app]; exact K|].
  apply oks_one. eapply ok_choice. now apply ok_lit.
Qed.
Definition str0 (t : sat) (v : bytes) : attr := AtStr (StrAttr zero_pos [] v t []).
Lemma double_reads v s en : literal_value DQ v -> ok string_e en ([DQ] ++ v ++ [DQ]) s (VAttr (str0 DoubleQuoted v)) (bind "str" (VAttr (str0 DoubleQuoted v)) en).
Proof.
  intros L. eapply ok_act; [|reflexivity]. eapply ok_lab. eapply ok_choice. eapply ok_act; [|cbn [run_action]; unfold act_string; rewrite inner_app; reflexivity].
  eapply ok_lab. eapply (quoted_reads AEnclosedValue); [reflexivity|discriminate|exact L|]. cbn [run_action]. now rewrite inner_app.
Qed.
Lemma single_reads v s en : literal_value SQ v -> ok string_e en ([SQ] ++ v ++ [SQ]) s (VAttr (str0 SingleQuoted v)) (bind "str" (VAttr (str0 SingleQuoted v)) en).
Proof.
  intros L. eapply ok_act; [|reflexivity]. eapply ok_lab. apply ok_next.
  - apply no_act, no_lab, no_act, no_seq, nos_here, no_lit; [repeat constructor|]. apply lit_no_first. discriminate.
  - eapply ok_choice. eapply ok_act; [|cbn [run_action]; unfold act_string; rewrite inner_app; reflexivity].
    eapply ok_lab. eapply (quoted_reads AEnclosedValue); [reflexivity|discriminate|exact L|]. cbn [run_action]. now rewrite inner_app.
Qed.
Lemma regexp_reads v s en : literal_value SLASH v -> ok regexp_e en ([SLASH] ++ v ++ [SLASH]) s (VRe (Regexp zero_pos v)) en.
Proof.
  intros L. apply (quoted_reads ARegexp); [reflexivity|discriminate|exact L|]. cbn [run_action]. unfold act_regexp. now rewrite inner_app.
Qed.
(** the first character of the input, for failures *)
Definition first_not (cs : list N) (s : bytes) : Prop := match s with [] => True | c :: _ => ~ In c cs end.
Lemma first_not_lit cs c rs w en s : In c cs -> Forall (fun r => r < 128)%N (c :: rs) -> first_not cs s -> no (ELit w (c :: rs)) en s.
Proof. intros I A H. apply no_lit; [exact A|]. apply lit_no_first. destruct s; [exact Logic.I|]. intros ->. now apply H. Qed.
Lemma string_no s en : first_not [DQ; SQ] s -> no string_e en s.
Proof.
  intros H. apply no_act, no_lab. apply no_choice; [|apply no_choice; [|apply no_none]]; apply no_act, no_lab, no_act, no_seq, nos_here;
    (eapply first_not_lit; [|repeat constructor|exact H]); cbn; auto.
Qed.
Lemma regexp_no s en : first_not [SLASH] s -> no regexp_e en s.
Proof. intros H. apply no_act, no_seq, nos_here. eapply first_not_lit; [|repeat constructor|exact H]. now left. Qed.
End World.

(** In the files that follow, unless they say otherwise: comments are kept. *)
Notation ok := (Reads.ok false rules).
Notation oks := (Reads.oks false rules).
Notation okt := (Reads.okt false rules).
Notation no := (Reads.no false rules).
Notation nos := (Reads.nos false rules).
