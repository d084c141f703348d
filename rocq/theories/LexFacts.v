(** The texts matched by the lexical rules of the grammar. *)
From Coq Require Import List NArith Bool String Arith Lia.
From Verif Require Import Bytes Utf8 F64 Ast Peg Actions Engine Parser GrammarGen QuoteFacts PosFacts Run EngineFacts Matches.
Import ListNotations.

(** ** Specifications *)

(** Comments and white space: white space characters, and a hash sign followed
    by anything up to a line break or the end. *)
Definition ws_char (c : N) : Prop := In c [32; 9; 13; 10]%N.
Definition no_break (t : bytes) : Prop := Forall (fun c => c <> 13%N /\ c <> 10%N) t.
Inductive gap_text : bytes -> Prop :=
| gap_nil : gap_text []
| gap_ws c t : ws_char c -> gap_text t -> gap_text (c :: t)
| gap_com body t : no_break body -> (t = [] \/ exists c t', t = c :: t' /\ (c = 13 \/ c = 10)%N) -> gap_text t ->
    gap_text (HASH :: body ++ t).

(** ** Runes *)
Lemma rune_bytes t : t <> [] -> snd (decode_rune t) = List.length t ->
  (exists c, t = [c] /\ (c < 128)%N /\ fst (decode_rune t) = c) \/
  (Forall (fun c => 128 <= c)%N t /\ (128 <= fst (decode_rune t))%N).
Proof.
  destruct t as [|c0 t]; [congruence|]. intros _ L. destruct (N.ltb_spec c0 128) as [H|H].
  - left. exists c0. revert L. cbn [decode_rune]. rewrite (proj2 (N.ltb_lt _ _) H). cbn. destruct t; [auto|discriminate].
  - right. revert L. cbn [decode_rune]. rewrite (proj2 (N.ltb_ge _ _) H). unfold RuneError, cont, in_range.
    repeat match goal with
    | |- context [if ?x then _ else _] => let E := fresh "E" in destruct x eqn:E
    | |- context [match ?l with [] => _ | _ :: _ => _ end] => is_var l; destruct l
    end; cbn [fst snd List.length]; intros L; try discriminate L;
    rewrite ?andb_true_iff, ?N.leb_le in *;
    repeat match goal with H : context [if ?x then _ else _] |- _ => destruct x eqn:? end;
    rewrite ?N.eqb_eq, ?N.eqb_neq in *; try (destruct t; [|discriminate L]);
    (split; [repeat apply Forall_cons; try apply Forall_nil; lia|lia]).
Qed.

(** ** White space and comments *)
Lemma gap_hash body u : no_break body -> gap_text u -> gap_text (HASH :: body ++ u).
Proof.
  intros B G. revert body B. induction G as [|c t Hc G IH|bd t Hb Ht G IH]; intros body B.
  - apply gap_com; [exact B|now left|constructor].
  - destruct (N.eq_dec c 13) as [->|H1]; [|destruct (N.eq_dec c 10) as [->|H2]].
    1,2: apply gap_com; [exact B|right; eauto|now apply gap_ws].
    replace (body ++ c :: t) with ((body ++ [c]) ++ t) by now rewrite <- app_assoc.
    apply IH. apply Forall_app. split; [exact B|]. constructor; auto.
  - replace (body ++ HASH :: bd ++ t) with ((body ++ HASH :: bd) ++ t) by now rewrite <- app_assoc.
    apply gap_com; auto. apply Forall_app. split; [exact B|]. constructor; [now compute|exact Hb].
Qed.
Lemma gap_app t u : gap_text t -> gap_text u -> gap_text (t ++ u).
Proof.
  intros H U. induction H as [|c t Hc G IH|bd t Hb Ht G IH]; cbn; [exact U|now apply gap_ws|].
  rewrite <- app_assoc. now apply gap_hash.
Qed.

Lemma all_forall g e l : matches_all g e l -> Forall (matches g e) l.
Proof.
  intros H. remember e as e0 eqn:E. revert E. induction H; intros E; constructor; auto.
Qed.
(** Inversions *)
Lemma mi_act g a e t : matches g (EAct a e) t -> matches g e t.
Proof. inversion 1; auto. Qed.
Lemma mi_lab g a e t : matches g (ELab a e) t -> matches g e t.
Proof. inversion 1; auto. Qed.
Lemma mi_opt g e t : matches g (EOpt e) t -> matches g e t \/ t = [].
Proof. inversion 1; auto. Qed.
Lemma mi_not g e t : matches g (ENot e) t -> t = [].
Proof. inversion 1; auto. Qed.
Lemma mi_choice g l t : matches g (EChoice l) t -> exists e, In e l /\ matches g e t.
Proof. inversion 1; eauto. Qed.
Lemma mi_choice1 g e l t : matches g (EChoice (e :: l)) t -> matches g e t \/ matches g (EChoice l) t.
Proof. intros H. apply mi_choice in H as (x & [->|I] & H); [now left|right; econstructor; eauto]. Qed.
Lemma mi_choice0 g t : matches g (EChoice []) t -> False.
Proof. intros H. apply mi_choice in H as (x & [] & H). Qed.
Lemma mi_seq g e l t : matches g (ESeq (e :: l)) t -> exists t1 t2, t = t1 ++ t2 /\ matches g e t1 /\ matches g (ESeq l) t2 /\ guard e t.
Proof. intros H. inversion H as [| | | | | | | | | |? ? H1| | | | ]; subst. inversion H1; subst. eexists _, _. split; [reflexivity|]. split; [eassumption|]. split; [now constructor|assumption]. Qed.
Lemma mi_nil g t : matches g (ESeq []) t -> t = [].
Proof. intros H. inversion H as [| | | | | | | | | |? ? H1| | | | ]; subst. now inversion H1. Qed.
Lemma mi_plus g e t : matches g (EPlus e) t -> exists l, l <> [] /\ Forall (matches g e) l /\ t = List.concat l.
Proof. inversion 1; subst. eauto using all_forall. Qed.
Lemma mi_star g e t : matches g (EStar e) t -> exists l, Forall (matches g e) l /\ t = List.concat l.
Proof. inversion 1; subst. eauto using all_forall. Qed.
Lemma mi_soft g m t : matches g (EAndCode (PPushError m)) t -> False.
Proof. inversion 1. Qed.
Lemma mi_fatal g m t : matches g (EAndCode (PFatalError m)) t -> False.
Proof. inversion 1. Qed.
Lemma mi_ref g n e t : matches g (ERef n) t -> find_rule n g = Some e -> matches g e t.
Proof. inversion 1; subst. congruence. Qed.
Lemma lit_ascii rs t : Forall (fun r => r < 128)%N rs -> lit_text rs t -> t = rs.
Proof.
  intros F H. induction H as [|r rs u t Hu D H IH]; [reflexivity|]. inversion F as [|? ? F1 F2]; subst. rewrite IH; auto.
  destruct (rune_bytes u Hu) as [(c & -> & _ & E)|[_ E]]; [now rewrite D|rewrite D in E; cbn in E; now subst|rewrite D in E; cbn in E; lia].
Qed.
Lemma class_ascii g w cs rs t : matches g (EClass w cs rs false) t ->
  Forall (fun c => c < 128)%N cs -> Forall (fun x => snd x < 128)%N rs ->
  exists c, t = [c] /\ class_match cs rs false c = true.
Proof.
  intros H Hc Hr. inversion H as [| | | | | | |? ? ? ? ? Ht L C| | | | | | | ]; subst.
  destruct (rune_bytes t Ht L) as [(c & -> & _ & E)|[_ E]]; [rewrite E in C; eauto|].
  exfalso. revert C. unfold class_match. generalize (fst (decode_rune t)) E. intros n Hn.
  intros C. rewrite xorb_false_r in C. apply orb_true_iff in C as [K|K]; apply existsb_exists in K as (x & I & K).
  - rewrite Forall_forall in Hc. specialize (Hc _ I). rewrite N.eqb_eq in K. lia.
  - rewrite Forall_forall in Hr. specialize (Hr _ I). cbn in Hr. rewrite andb_true_iff, !N.leb_le in K. lia.
Qed.
Lemma mi_lit g w rs t : matches g (ELit w rs) t -> Forall (fun r => r < 128)%N rs -> t = rs.
Proof. intros H F. inversion H; subst. now apply lit_ascii. Qed.
(** A negated class: no byte of the rune is among the excluded ones *)
Lemma class_not g w cs t : matches g (EClass w cs [] true) t -> Forall (fun c => c < 128)%N cs ->
  Forall (fun c => ~ In c cs) t.
Proof.
  intros H Hc. inversion H as [| | | | | | |? ? ? ? ? Ht L C| | | | | | | ]; subst.
  destruct (rune_bytes t Ht L) as [(c & -> & _ & E)|[F E]].
  - rewrite E in C. constructor; [|constructor]. intros I. revert C. unfold class_match.
    replace (existsb (N.eqb c) cs) with true; [intros K; discriminate K|]. symmetry. apply existsb_exists. exists c. split; [exact I|apply N.eqb_refl].
  - eapply Forall_impl; [|exact F]. cbn. intros c Hcc I. rewrite Forall_forall in Hc. specialize (Hc _ I). lia.
Qed.
(** [_] *)
Definition gap_e : expr :=
  EStar (EChoice
    [EAct AComment (EPlus (ESeq
       [EOpt (EAct AWhitespace (EPlus (EClass "[ \t\r\n]" [32; 9; 13; 10]%N [] false)));
        ELit """#""" [35%N]; EStar (EClass "[^\r\n]" [13; 10]%N [] true); EOpt (ELit """\r""" [13%N]);
        EChoice [ELit """\n""" [10%N]; ENot EAny]]));
     EAct AWhitespace (EPlus (EClass "[ \t\r\n]" [32; 9; 13; 10]%N [] false))]).

Lemma concat_gap l : Forall gap_text l -> gap_text (List.concat l).
Proof. induction 1; cbn; [constructor|now apply gap_app]. Qed.
Lemma ws_class_match g w t : matches g (EClass w [32; 9; 13; 10]%N [] false) t -> exists c, t = [c] /\ ws_char c.
Proof.
  intros H. apply class_ascii in H as (c & -> & C); [|repeat constructor|constructor]. exists c. split; [reflexivity|].
  unfold class_match in C. rewrite xorb_false_r, orb_false_r in C. apply existsb_exists in C as (x & I & C). apply N.eqb_eq in C. now subst.
Qed.
Lemma ws_matches g w t : matches g (EPlus (EClass w [32; 9; 13; 10]%N [] false)) t -> gap_text t.
Proof.
  intros H. apply mi_plus in H as (l & _ & H & ->). apply concat_gap. eapply Forall_impl; [|exact H].
  intros x Hx. apply ws_class_match in Hx as (c & -> & C). first [apply gap_ws; [exact C|constructor]|constructor; [exact C|constructor]].
Qed.
Lemma not_break_matches g w t : matches g (EStar (EClass w [13; 10]%N [] true)) t -> no_break t.
Proof.
  intros H. apply mi_star in H as (l & H & ->). unfold no_break. apply Forall_concat. eapply Forall_impl; [|exact H].
  intros x Hx. apply class_not in Hx; [|repeat constructor]. eapply Forall_impl; [|exact Hx]. cbn. intros c Hc. split; intros ->; apply Hc; auto.
Qed.
(** One line of a comment *)
Lemma comment_line_matches g w1 w2 w3 w4 w5 t :
  matches g (ESeq [EOpt (EAct AWhitespace (EPlus (EClass w1 [32; 9; 13; 10]%N [] false)));
        ELit w2 [35%N]; EStar (EClass w3 [13; 10]%N [] true); EOpt (ELit w4 [13%N]);
        EChoice [ELit w5 [10%N]; ENot EAny]]) t ->
  exists t1 t2 t3, t = t1 ++ HASH :: t2 ++ t3 /\ Forall ws_char t1 /\ no_break t2 /\ In t3 [[]; [13]; [10]; [13; 10]]%N.
Proof.
  intros H. apply mi_seq in H as (t1 & t2 & -> & H1 & H & _). apply mi_seq in H as (t3 & t4 & -> & H2 & H & _).
  apply mi_seq in H as (t5 & t6 & -> & H3 & H & _). apply mi_seq in H as (t7 & t8 & -> & H4 & H & _).
  apply mi_seq in H as (t9 & t10 & -> & H5 & H & _). apply mi_nil in H. subst t10.
  apply mi_lit in H2; [|repeat constructor]. subst t3. apply not_break_matches in H3.
  exists t1, t5, (t7 ++ t9). split; [now rewrite app_nil_r|]. split; [|split; [exact H3|]].
  - apply mi_opt in H1 as [H1| ->]; [|constructor]. apply mi_act in H1. apply mi_plus in H1 as (l & _ & H1 & ->). apply Forall_concat.
    eapply Forall_impl; [|exact H1]. intros x Hx. apply ws_class_match in Hx as (c & -> & C). first [apply gap_ws; [exact C|constructor]|constructor; [exact C|constructor]].
  - assert (E7 : t7 = [] \/ t7 = [13%N]). { apply mi_opt in H4 as [H4| ->]; [right|now left]. apply mi_lit in H4; [exact H4|repeat constructor]. }
    assert (E9 : t9 = [] \/ t9 = [10%N]).
    { apply mi_choice1 in H5 as [H5|H5]; [right; apply mi_lit in H5; [exact H5|repeat constructor]|left].
      apply mi_choice1 in H5 as [H5|H5]; [now apply mi_not in H5|now apply mi_choice0 in H5]. }
    destruct E7 as [->| ->], E9 as [->| ->]; cbn; auto.
Qed.
Lemma ws_gap t : Forall ws_char t -> gap_text t.
Proof. induction 1; constructor; auto. Qed.
Lemma gap_matches g t : matches g gap_e t -> gap_text t.
Proof.
  intros H. apply mi_star in H as (l & H & ->). apply concat_gap. eapply Forall_impl; [|exact H]. clear l H. intros t H.
  apply mi_choice1 in H as [H|H].
  - apply mi_act, mi_plus in H as (l & _ & H & ->). apply concat_gap. eapply Forall_impl; [|exact H]. clear l H. intros t H.
    apply comment_line_matches in H as (t1 & t2 & t3 & -> & W & N & E). apply gap_app; [now apply ws_gap|]. apply gap_hash; [exact N|].
    apply ws_gap. cbn in E. destruct E as [<-|[<-|[<-|[<-|[]]]]]; repeat constructor; now compute; auto.
  - apply mi_choice1 in H as [H|H]; [|now apply mi_choice0 in H]. apply mi_act in H. now apply ws_matches in H.
Qed.
