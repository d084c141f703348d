(** On texts without number signs, opening parentheses and nested brackets, the edited
    grammar and grammar.treetop are the same. *)
From Coq Require Import List NArith Bool String Arith Lia.
From Verif Require Import Bytes Utf8 Treetop TreetopGen TtMap TtLaws TtRules.
Import ListNotations.
Open Scope string_scope.

(** An opening bracket after another one, with no closing bracket and no comma between *)
Definition nested (s : list N) : Prop := exists t x y u, s = (t ++ 91 :: x ++ 91 :: y ++ 93 :: u)%N%list /\
  ~ In 93%N x /\ ~ In 44%N x /\ ~ In 93%N y /\ ~ In 44%N y.
Definition simple (s : list N) : Prop := ~ In 35%N s /\ ~ In 40%N s /\ ~ nested s.
Lemma simple_app t s : simple (t ++ s) -> simple s.
Proof.
  intros (A & B & C). repeat split.
  - intros X. apply A, in_or_app. now right.
  - intros X. apply B, in_or_app. now right.
  - intros (t0 & x & y & u & -> & D). apply C. exists (t ++ t0)%list, x, y, u. now rewrite app_assoc.
Qed.

(** ** Results exist *)
Section Total.
  Variable G : list (string * tx).
  Definition total (e : tx) : Prop := forall s, exists o, tm G e s o.
  Definition eats (e : tx) : Prop := forall s r, tm G e s (Some r) -> (List.length r < List.length s)%nat.
  Lemma tot_lit t : total (TLit t).
  Proof.
    intros s. destruct (cut t s) as [r|] eqn:E; [apply cut_some in E as ->; eexists; constructor|].
    exists None. constructor. intros r ->. rewrite cut_app in E. discriminate.
  Qed.
  Lemma tot_class i cs rs : total (TClass i cs rs).
  Proof. intros [|c s]; [eexists; constructor|]. destruct (in_class i cs rs c) eqn:E; eexists; now constructor. Qed.
  Lemma tot_any : total TAny.
  Proof. intros [|c s]; eexists; constructor. Qed.
  Lemma tot_seq l : Forall total l -> total (TSeq l).
  Proof.
    induction 1 as [|e l He Hl IH]; intros s; [eexists; constructor|]. destruct (He s) as [[r|] H]; [|eexists; apply tm_seq_no; exact H].
    destruct (IH r) as [o K]. exists o. eapply tm_seq; eauto.
  Qed.
  Lemma tot_alt l : Forall total l -> total (TAlt l).
  Proof.
    induction 1 as [|e l He Hl IH]; intros s; [eexists; constructor|]. destruct (He s) as [[r|] H]; [eexists; apply tm_alt; exact H|].
    destruct (IH s) as [o K]. exists o. apply tm_alt_next; auto.
  Qed.
  Lemma tot_star e : total e -> eats e -> total (TStar e).
  Proof.
    intros H K s. remember (List.length s) as n eqn:E. revert s E. induction n as [n IH] using (well_founded_induction lt_wf). intros s ->.
    destruct (H s) as [[r|] A]; [|eexists; apply tm_star_end; exact A]. destruct (IH _ (K _ _ A) r eq_refl) as [o B]. exists o. eapply tm_star; eauto.
  Qed.
  Lemma tot_plus e : total e -> eats e -> total (TPlus e).
  Proof.
    intros H K s. destruct (H s) as [[r|] A]; [|eexists; apply tm_plus_no; exact A]. destruct (tot_star e H K r) as [o B]. exists o. eapply tm_plus; eauto.
  Qed.
  Lemma tot_opt e : total e -> total (TOpt e).
  Proof. intros H s. destruct (H s) as [[r|] A]; eexists; [apply tm_opt|apply tm_opt_none]; eauto. Qed.
  Lemma tot_not e : total e -> total (TNot e).
  Proof. intros H s. destruct (H s) as [[r|] A]; eexists; [eapply tm_not|apply tm_not_none]; eauto. Qed.
  Lemma tot_ref n e : rule_of n G = Some e -> total e -> total (TRef n).
  Proof. intros R H s. destruct (H s) as [o A]. exists o. eapply tm_ref; eauto. Qed.
  Lemma shorter e s r : tm G e s (Some r) -> (List.length r <= List.length s)%nat.
  Proof. intros H. apply tm_suffix in H as [t ->]. rewrite app_length. lia. Qed.
  Lemma eats_class i cs rs : eats (TClass i cs rs).
  Proof. intros s r H. inversion H; subst. cbn. lia. Qed.
  Lemma eats_any : eats TAny.
  Proof. intros s r H. inversion H; subst. cbn. lia. Qed.
  Lemma eats_lit c t : eats (TLit (c :: t)).
  Proof. intros s r H. inversion H; subst. cbn. rewrite app_length. lia. Qed.
  Lemma eats_seq e l : eats e -> eats (TSeq (e :: l)).
  Proof. intros K s r H. inversion H; subst. match goal with A : tm G e _ (Some _), B : tm G (TSeq l) _ _ |- _ => apply K in A; apply shorter in B end. lia. Qed.
  Lemma eats_next e l : eats (TSeq l) -> eats (TSeq (e :: l)).
  Proof. intros K s r H. inversion H; subst. match goal with A : tm G e _ (Some _), B : tm G (TSeq l) _ _ |- _ => apply K in B; apply shorter in A end. lia. Qed.
  Lemma eats_alt l : Forall eats l -> eats (TAlt l).
  Proof. induction 1 as [|e l He Hl IH]; intros s r H; inversion H; subst; eauto. Qed.
  Lemma eats_plus e : eats e -> eats (TPlus e).
  Proof. intros K s r H. inversion H; subst. match goal with A : tm G e _ (Some _), B : tm G (TStar e) _ _ |- _ => apply K in A; apply shorter in B end. lia. Qed.
  Lemma eats_ref n e : rule_of n G = Some e -> eats e -> eats (TRef n).
  Proof. intros R K s r H. inversion H; subst. apply K. congruence. Qed.
End Total.
Ltac eat := match goal with
  | |- eats _ (TClass _ _ _) => apply eats_class
  | |- eats _ TAny => apply eats_any
  | |- eats _ (TLit (_ :: _)) => apply eats_lit
  | |- eats _ (TSeq (_ :: _)) => first [apply eats_seq; eat | apply eats_next; eat]
  | |- eats _ (TAlt _) => apply eats_alt; repeat (apply Forall_cons; [eat|]); apply Forall_nil
  | |- eats _ (TPlus _) => apply eats_plus; eat
  | |- eats _ (TRef _) => eapply eats_ref; [reflexivity|eat]
  end.
Ltac tot := match goal with
  | |- total _ (TLit _) => apply tot_lit
  | |- total _ (TClass _ _ _) => apply tot_class
  | |- total _ TAny => apply tot_any
  | |- total _ (TSeq _) => apply tot_seq; repeat (apply Forall_cons; [tot|]); apply Forall_nil
  | |- total _ (TAlt _) => apply tot_alt; repeat (apply Forall_cons; [tot|]); apply Forall_nil
  | |- total _ (TStar _) => apply tot_star; [tot|eat]
  | |- total _ (TPlus _) => apply tot_plus; [tot|eat]
  | |- total _ (TOpt _) => apply tot_opt; tot
  | |- total _ (TNot _) => apply tot_not; tot
  | |- total _ (TRef _) => eapply tot_ref; [reflexivity|tot]
  end.
Lemma gap_tot_t : total treetop_grammar (TRef "_"). Proof. tot. Qed.
Lemma word_tot_t : total treetop_grammar (TRef "method"). Proof. tot. Qed.

Lemma seq_some G e l s r : tm G (TSeq (e :: l)) s (Some r) -> exists s1, tm G e s (Some s1) /\ tm G (TSeq l) s1 (Some r).
Proof. intros H. inversion H; subst. eauto. Qed.
Lemma ref_to G n e s o : rule_of n G = Some e -> tm G (TRef n) s o -> tm G e s o.
Proof. intros R H. inversion H; subst. congruence. Qed.

(** ** No method calls *)
Lemma method_fails s : ~ In 40%N s -> tm treetop_grammar (TRef "method_call") s None.
Proof.
  intros H. eapply tm_ref; [reflexivity|]. destruct (word_tot_t s) as [[r|] A]; [|now apply tm_seq_no]. eapply tm_seq; [exact A|].
  destruct (gap_tot_t r) as [[r2|] C]; [|now apply tm_seq_no]. eapply tm_seq; [exact C|].
  apply tm_seq_no. apply tm_lit_no. intros r3 ->. apply H. apply tm_suffix in A as [t ->], C as [t2 ->]. apply in_or_app. right. apply in_or_app. right. now left.
Qed.
Lemma method_never s r : ~ In 40%N s -> tm edited (TRef "method_call") s (Some r) -> False.
Proof.
  intros H K. eapply ref_to in K; [|reflexivity]. apply seq_some in K as (s1 & A & K). apply seq_some in K as (s2 & C & K).
  apply seq_some in K as (s3 & D & _). inversion D; subst. apply tm_suffix in A as [t ->], C as [t2 ->].
  apply H. apply in_or_app. right. apply in_or_app. right. now left.
Qed.

(** ** No brackets in brackets *)
Lemma star_class_split G cs s r : tm G (TStar (TClass true cs [])) s (Some r) -> exists x, s = (x ++ r)%list /\ Forall (fun c => ~ In c cs) x.
Proof.
  intros H. remember (TStar (TClass true cs [])) as e eqn:E. remember (Some r) as o eqn:O. revert E O. induction H; intros E O; try discriminate E; inversion E; inversion O; subst.
  - destruct (IHtm2 eq_refl eq_refl) as (x & -> & F). inversion H; subst. exists (c :: x). split; [reflexivity|]. constructor; [|exact F].
    intros Hc. match goal with X : in_class _ _ _ _ = true |- _ => unfold in_class in X; cbn in X; rewrite orb_false_r in X; apply negb_true_iff in X end.
    assert (existsb (N.eqb c) cs = true) by (apply existsb_exists; exists c; split; [exact Hc|apply N.eqb_refl]). congruence.
  - exists []. split; [reflexivity|constructor].
Qed.

Lemma plus_class_split G cs s r : tm G (TPlus (TClass true cs [])) s (Some r) -> exists x, s = (x ++ r)%list /\ Forall (fun c => ~ In c cs) x.
Proof.
  intros H. inversion H; subst. assert (K : tm G (TStar (TClass true cs [])) s (Some r)) by (eapply tm_star; eauto). exact (star_class_split _ _ _ _ K).
Qed.
Lemma star_class_run G cs x : Forall (fun c => ~ In c cs) x -> forall r, (match r with [] => True | c :: _ => In c cs end) ->
  tm G (TStar (TClass true cs [])) (x ++ r) (Some r).
Proof.
  assert (K : forall c, in_class true cs [] c = negb (existsb (N.eqb c) cs)) by (intros c; unfold in_class; cbn; now rewrite orb_false_r).
  induction 1 as [|c x Hc Hx IH]; intros r Hr.
  - apply tm_star_end. destruct r as [|c r]; constructor. rewrite K. apply negb_false_iff, existsb_exists. exists c. split; [exact Hr|apply N.eqb_refl].
  - eapply tm_star; [constructor|apply IH; exact Hr]. rewrite K. apply negb_true_iff, not_true_is_false. intros E. apply existsb_exists in E as (d & Hd & E). apply N.eqb_eq in E. subst. auto.
Qed.
Definition elem (cs : list N) : tx := TSeq [TLit [91]%N; TPlus (TClass true cs []); TLit [93]%N].
Definition stop (cs r : list N) : Prop := match r with [] => True | c :: _ => In c cs end.
Lemma span cs s : exists x r, s = (x ++ r)%list /\ Forall (fun c => ~ In c cs) x /\ stop cs r.
Proof.
  induction s as [|c s (x & r & -> & A & B)]; [exists [], []; repeat split; constructor|].
  destruct (in_dec N.eq_dec c cs) as [Hc|Hc]; [exists [], (c :: x ++ r)%list; repeat split; auto|].
  exists (c :: x), r. repeat split; auto.
Qed.
Lemma elem_run G cs x r : In 93%N cs -> Forall (fun c => ~ In c cs) x -> stop cs r ->
  tm G (elem cs) (91 :: x ++ r)%N (match x, r with _ :: _, 93%N :: r' => Some r' | _, _ => None end).
Proof.
  intros H9 Hx Hr. eapply tm_seq; [apply (tm_lit _ [91%N])|]. cbn [app].
  destruct x as [|c x].
  - apply tm_seq_no, tm_plus_no. cbn [app]. destruct r as [|c r]; constructor. cbn in Hr. unfold in_class. cbn. rewrite orb_false_r. apply negb_false_iff, existsb_exists. exists c. split; [exact Hr|apply N.eqb_refl].
  - pose proof (star_class_run G cs _ Hx r Hr) as K. eapply tm_seq.
    + inversion K; subst; [|exfalso]. { eapply tm_plus; eauto. }
      match goal with X : _ = r |- _ => apply (f_equal (@List.length N)) in X; cbn in X; rewrite app_length in X end. lia.
    + destruct r as [|c' r]; [apply tm_seq_no, tm_lit_no; intros r X; discriminate X|].
      destruct (N.eq_dec c' 93) as [->|Hc]; [eapply tm_seq; [apply (tm_lit _ [93%N])|apply tm_seq_end]|].
      assert (E : (match c' with 93%N => Some r | _ => None end) = None).
      { destruct c' as [|p]; [reflexivity|]. repeat (try reflexivity; destruct p as [p|p|]). exfalso; apply Hc; reflexivity. }
      replace (match c' with 93%N => Some r | _ => None end) with (@None (list N)) by now rewrite E.
      apply tm_seq_no, tm_lit_no. intros r0 X. inversion X; subst. now apply Hc.
Qed.
(** the two kinds of selector elements, where no bracket is in a bracket *)
Lemma elem_same G s : ~ nested s -> exists o, tm G (elem [93; 91; 44]%N) s o /\ tm G (elem [93; 44]%N) s o.
Proof.
  intros Hn. destruct s as [|c s]; [exists None; split; apply tm_seq_no, tm_lit_no; intros r X; discriminate X|].
  destruct (N.eq_dec c 91) as [->|Hc]; [|exists None; split; apply tm_seq_no, tm_lit_no; intros r X; inversion X; now apply Hc].
  destruct (span [93; 91; 44]%N s) as (x & r & -> & A & B).
  assert (A2 : Forall (fun c => ~ In c [93; 44]%N) x).
  { eapply Forall_impl; [|exact A]. cbn. intros a X Y. apply X. tauto. }
  destruct (match r with 91%N :: _ => true | _ => false end) eqn:E.
  - destruct r as [|c r]; [discriminate|]. assert (c = 91%N) as -> by (destruct c as [|p]; [discriminate|]; repeat (try discriminate E; destruct p as [p|p|]); reflexivity). clear E.
    exists None. split.
    + pose proof (elem_run G [93; 91; 44]%N x (91%N :: r) ltac:(cbn; tauto) A B) as K. destruct x; exact K.
    + destruct (span [93; 44]%N r) as (y & u & -> & C & D).
      assert (C2 : Forall (fun c => ~ In c [93; 44]%N) (x ++ 91%N :: y)) by (apply Forall_app; split; [exact A2|constructor; [cbn; intros [X|[X|[]]]; discriminate X|exact C]]).
      pose proof (elem_run G [93; 44]%N (x ++ 91%N :: y) u ltac:(cbn; tauto) C2 D) as K. rewrite <- app_assoc in K. cbn [app] in K.
      destruct u as [|c u].
      { destruct (x ++ 91%N :: y)%list in K; exact K. }
      cbn in D. destruct D as [<-|[<-|[]]]; [|destruct (x ++ 91%N :: y)%list in K; exact K].
      exfalso. apply Hn. exists [], x, y, u. split; [reflexivity|]. rewrite Forall_forall in A2, C.
      split; [intros X; apply (A2 _ X); now left|]. split; [intros X; apply (A2 _ X); right; now left|].
      split; [intros X; apply (C _ X); now left|intros X; apply (C _ X); right; now left].
  - eexists. split; [apply (elem_run G [93; 91; 44]%N x r); [cbn; tauto|exact A|exact B]|].
    apply (elem_run G [93; 44]%N x r); [cbn; tauto|exact A2|]. destruct r as [|c r]; [exact I|]. cbn in B. destruct B as [<-|[<-|[<-|[]]]]; [now left|discriminate E|right; now left].
Qed.

(** ** No comments *)
Lemma with_other n k e g : n <> k -> rule_of n (with_rule k e g) = rule_of n g.
Proof.
  intros H. induction g as [|[m x] g IH]; [reflexivity|]. cbn. destruct (String.eqb_spec m k) as [->|Hm]; cbn.
  - destruct (String.eqb_spec k n) as [->|]; [now elim H|exact IH].
  - destruct (String.eqb m n); [reflexivity|exact IH].
Qed.
Lemma no_comment G stop s : total G (TRef "whitespace") -> ~ In 35%N s -> tm G (TPlus (comment_line stop)) s None.
Proof.
  intros T H. apply tm_plus_no. destruct (tot_opt G _ T s) as [[r|] A].
  - eapply tm_seq; [exact A|]. apply tm_seq_no, tm_lit_no. intros r0 ->. apply H. apply tm_suffix in A as [t ->]. apply in_or_app. right. now left.
  - inversion A.
Qed.
Lemma white_tot G : rule_of "whitespace" G = Some ws_x -> total G (TRef "whitespace").
Proof. intros R. eapply tot_ref; [exact R|]. unfold ws_x. tot. Qed.
Lemma white_once G s r : rule_of "whitespace" G = Some ws_x -> tm G (TRef "whitespace") s (Some r) -> tm G (TRef "whitespace") r None.
Proof.
  intros R H. eapply tm_ref; [exact R|]. eapply ref_to in H; [|exact R]. inversion H; subst. apply tm_plus_no.
  match goal with X : tm _ (TStar _) _ _ |- _ => apply star_stop in X; inversion X; subst end; [|assumption].
  match goal with X : tm _ (TClass _ _ _) _ _ |- _ => inversion X; subst end.
  match goal with X : tm _ (TStar _) ?l (Some (?c :: ?l)) |- _ => apply shorter in X; cbn in X end. exfalso. lia.
Qed.
Lemma no_gap G st s r : rule_of "whitespace" G = Some ws_x -> rule_of "comment" G = Some (TPlus (comment_line st)) -> rule_of "_" G = Some (TStar gap_item) ->
  ~ In 35%N r -> tm G (TRef "whitespace") s (Some r) -> tm G (TRef "_") r (Some r).
Proof.
  intros R1 R2 R3 H K. eapply tm_ref; [exact R3|]. apply tm_star_end. unfold gap_item. apply tm_alt_next; [|apply tm_alt_next; [eapply white_once; eauto|constructor]].
  eapply tm_ref; [exact R2|]. apply no_comment; [now apply white_tot|exact H].
Qed.
Lemma star_iff G (good : list N -> Prop) e e' : (forall t s, good (t ++ s)%list -> good s) -> (forall s o, good s -> tm G e s o -> tm G e' s o) ->
  forall s o, good s -> tm G (TStar e) s o -> tm G (TStar e') s o.
Proof. intros A B s o Hs H. exact (TtLaws.le_star G good A (fun _ => True) e e' (fun s o Hg _ => B s o Hg) s o Hs I H). Qed.
Lemma entries_same G st s o : rule_of "whitespace" G = Some ws_x -> rule_of "comment" G = Some (TPlus (comment_line st)) -> rule_of "_" G = Some (TStar gap_item) ->
  ~ In 35%N s ->
  (tm G (TSeq [TRef "whitespace"; TRef "_"; TRef "hashentry"]) s o <-> tm G (TSeq [TRef "whitespace"; TRef "hashentry"]) s o).
Proof.
  intros R1 R2 R3 H. assert (K : forall r, tm G (TRef "whitespace") s (Some r) -> tm G (TRef "_") r (Some r)).
  { intros r X. eapply no_gap; eauto. intros Y. apply H. apply tm_suffix in X as [t ->]. apply in_or_app. now right. }
  split; intros X; inversion X; subst; try (now apply tm_seq_no).
  - match goal with A : tm _ (TRef "whitespace") _ _, Y : tm _ (TSeq (TRef "_" :: _)) _ _ |- _ => pose proof (K _ A) as Z; inversion Y; subst end.
    + match goal with A : tm _ (TRef "_") _ (Some _), Z : tm _ (TRef "_") _ (Some _) |- _ => pose proof (tm_fun _ _ _ _ A _ Z) as E; inversion E; subst end. eapply tm_seq; eauto.
    + match goal with A : tm _ (TRef "_") _ None, Z : tm _ (TRef "_") _ (Some _) |- _ => pose proof (tm_fun _ _ _ _ A _ Z) as E; inversion E end.
  - match goal with A : tm _ (TRef "whitespace") _ _ |- _ => pose proof (K _ A) as Z end. eapply tm_seq; [eassumption|]. eapply tm_seq; eauto.
Qed.
Lemma no35_app t s : ~ In 35%N (t ++ s) -> ~ In 35%N s.
Proof. intros A X. apply A, in_or_app. now right. Qed.
Lemma hash_same G st s o : rule_of "whitespace" G = Some ws_x -> rule_of "comment" G = Some (TPlus (comment_line st)) -> rule_of "_" G = Some (TStar gap_item) ->
  ~ In 35%N s ->
  (tm G (TSeq [TRef "hashentry"; TStar (TSeq [TRef "whitespace"; TRef "_"; TRef "hashentry"])]) s o <-> tm G (TSeq [TRef "hashentry"; TStar (TSeq [TRef "whitespace"; TRef "hashentry"])]) s o).
Proof.
  intros R1 R2 R3 H. 
  assert (K : forall e e', (forall s o, ~ In 35%N s -> tm G e s o -> tm G e' s o) -> tm G (TSeq [TRef "hashentry"; TStar e]) s o -> tm G (TSeq [TRef "hashentry"; TStar e']) s o).
  { intros e e' Le X. inversion X; subst; [|now apply tm_seq_no]. eapply tm_seq; [eassumption|].
    match goal with A : tm _ (TRef "hashentry") _ _ |- _ => apply tm_suffix in A as [t ->] end.
    match goal with A : tm _ (TSeq [TStar _]) _ _ |- _ => inversion A; subst; [|apply tm_seq_no; exfalso; eapply star_some; eauto] end.
    eapply tm_seq; [|eassumption]. eapply star_iff; [exact no35_app|exact Le| |eassumption]. now apply no35_app in H. }
  split; apply K; intros; eapply entries_same; eauto.
Qed.

(** ** The two grammars *)
Lemma edited_other n : n <> "rvalue" -> n <> "selector_element" -> n <> "hashentries" -> n <> "comment" -> rule_of n edited = rule_of n treetop_grammar.
Proof. intros. unfold edited. now rewrite !with_other. Qed.
Ltac names n := destruct (string_dec n "rvalue") as [->|?]; [|destruct (string_dec n "selector_element") as [->|?]; [|destruct (string_dec n "hashentries") as [->|?]; [|destruct (string_dec n "comment") as [->|?]]]].
Theorem edited_treetop e s o : simple s -> tm edited e s o -> tm treetop_grammar e s o.
Proof.
  intros Hs H. revert Hs. apply (tm_tm edited treetop_grammar simple simple_app); [|exact H].
  clear. intros n e R s o (H1 & H2 & H3) H. names n; [..|rewrite edited_other in R by assumption; eapply tm_ref; eauto]; inversion R; subst; clear R; eapply tm_ref; try reflexivity.
  - do 4 (match goal with X : tm _ (TAlt (_ :: _)) _ _ |- _ => inversion X; subst; clear X end; [apply tm_alt; assumption|apply tm_alt_next; [assumption|]]).
    apply tm_alt_next; [now apply method_fails|assumption].
  - destruct (elem_same treetop_grammar s H3) as (o' & A & B). now rewrite (tm_fun _ _ _ _ H _ A).
  - apply (hash_same treetop_grammar (TLit [10]%N) s o); auto.
  - rewrite (tm_fun _ _ _ _ H None); [|apply no_comment; [apply white_tot; reflexivity|exact H1]].
    apply (no_comment treetop_grammar (TLit [10]%N)); [apply white_tot; reflexivity|exact H1].
Qed.
Theorem treetop_edited e s o : simple s -> tm treetop_grammar e s o -> tm edited e s o.
Proof.
  intros Hs H. revert Hs. apply (tm_tm treetop_grammar edited simple simple_app); [|exact H].
  clear. intros n e R s o (H1 & H2 & H3) H. names n; [..|rewrite <- edited_other in R by assumption; eapply tm_ref; eauto]; inversion R; subst; clear R; eapply tm_ref; try reflexivity.
  - do 4 (match goal with X : tm _ (TAlt (_ :: _)) _ _ |- _ => inversion X; subst; clear X end; [apply tm_alt; assumption|apply tm_alt_next; [assumption|]]).
    match goal with X : tm _ (TAlt (_ :: _)) _ _ |- _ => inversion X; subst; clear X end; [exfalso; eapply method_never; eassumption|assumption].
  - destruct (elem_same edited s H3) as (o' & A & B). now rewrite (tm_fun _ _ _ _ H _ B).
  - apply (hash_same edited (TAlt [TLit [10]%N; TNot TAny]) s o); auto.
  - rewrite (tm_fun _ _ _ _ H None); [|apply (no_comment edited (TLit [10]%N)); [apply white_tot; reflexivity|exact H1]].
    apply no_comment; [apply white_tot; reflexivity|exact H1].
Qed.

(** ** With comments *)
(** Every number sign has a line feed after it, for instance because the text ends in one. *)
Definition closed (s : list N) : Prop := forall t u, s = (t ++ 35%N :: u)%list -> In 10%N u.
Lemma closed_app t s : closed (t ++ s) -> closed s.
Proof. intros H a c ->. apply (H (t ++ a)%list c). now rewrite app_assoc. Qed.
Lemma closed_ends s : closed (s ++ [10%N]).
Proof.
  intros t u E. destruct u as [|x u] using rev_ind.
  - apply app_inj_tail in E as [_ E]. discriminate E.
  - rewrite app_comm_cons, app_assoc in E. apply app_inj_tail in E as [_ <-]. apply in_or_app. right. now left.
Qed.
Definition line_rest (stop : tx) : list tx := [TStar (TClass true [13; 10]%N []); TOpt (TLit [13]%N); stop].
Lemma line_rest_same G s o : In 10%N s ->
  (tm G (TSeq (line_rest (TAlt [TLit [10]%N; TNot TAny]))) s o <-> tm G (TSeq (line_rest (TLit [10]%N))) s o).
Proof.
  intros Hn.
  assert (Hr : forall r, tm G (TStar (TClass true [13; 10]%N [])) s (Some r) -> In 10%N r).
  { intros r H. apply star_class_split in H as (x & -> & F). apply in_app_iff in Hn as [Hn|Hn]; [|exact Hn]. rewrite Forall_forall in F. exfalso. apply (F _ Hn). right. now left. }
  assert (Hq : forall r q, tm G (TStar (TClass true [13; 10]%N [])) s (Some r) -> tm G (TOpt (TLit [13]%N)) r (Some q) -> In 10%N q).
  { intros r q A B. apply Hr in A. inversion B; subst; [|exact A]. match goal with K : tm _ (TLit _) _ _ |- _ => inversion K; subst end. destruct A as [A|A]; [discriminate A|exact A]. }
  assert (Hs : forall q o, In 10%N q -> (tm G (TSeq [TAlt [TLit [10]%N; TNot TAny]]) q o <-> tm G (TSeq [TLit [10]%N]) q o)).
  { clear. intros q o Hq. assert (Na : tm G (TNot TAny) q None) by (destruct q as [|c q]; [destruct Hq|eapply tm_not; constructor]).
    split; intros H; inversion H; subst.
    - eapply tm_seq; [|eassumption]. match goal with K : tm _ (TAlt _) _ _ |- _ => inversion K; subst end; [assumption|].
      match goal with K : tm _ (TAlt [TNot TAny]) _ _ |- _ => inversion K; subst end; [|match goal with K : tm _ (TAlt []) _ _ |- _ => inversion K end].
      match goal with K : tm _ (TNot TAny) _ (Some _) |- _ => pose proof (tm_fun _ _ _ _ K _ Na) as Z; discriminate Z end.
    - apply tm_seq_no. match goal with K : tm _ (TAlt _) _ _ |- _ => inversion K; subst end. assumption.
    - eapply tm_seq; [apply tm_alt; eassumption|eassumption].
    - apply tm_seq_no. apply tm_alt_next; [assumption|]. apply tm_alt_next; [exact Na|constructor]. }
  unfold line_rest. split; intros H; (inversion H; subst; [|exfalso; eapply star_some; eauto]; eapply tm_seq; [eassumption|];
    match goal with K : tm _ (TSeq (TOpt _ :: _)) _ _ |- _ => inversion K; subst end; [|match goal with K : tm _ (TOpt _) _ None |- _ => inversion K end];
    eapply tm_seq; [eassumption|]; eapply Hs; eauto).
Qed.
Lemma line_same G s o : closed s -> (tm G (comment_line (TAlt [TLit [10]%N; TNot TAny])) s o <-> tm G (comment_line (TLit [10]%N)) s o).
Proof.
  intros Hc. unfold comment_line.
  assert (K : forall x y, (forall s o, In 10%N s -> tm G (TSeq (line_rest x)) s o -> tm G (TSeq (line_rest y)) s o) ->
    tm G (TSeq (TOpt (TRef "whitespace") :: TLit [35]%N :: line_rest x)) s o -> tm G (TSeq (TOpt (TRef "whitespace") :: TLit [35]%N :: line_rest y)) s o).
  { intros x y Le H. inversion H; subst; [|now apply tm_seq_no]. eapply tm_seq; [eassumption|].
    match goal with A : tm _ (TSeq (TLit _ :: _)) _ _ |- _ => inversion A; subst; [|now apply tm_seq_no] end. eapply tm_seq; [eassumption|].
    apply Le; [|assumption]. match goal with A : tm _ (TLit [35%N]) _ _ |- _ => inversion A; subst end.
    match goal with A : tm _ (TOpt _) _ (Some _) |- _ => apply tm_suffix in A as [t ->] end. eapply Hc. reflexivity. }
  split; apply K; intros; now apply line_rest_same.
Qed.
Lemma comment_same G s o : closed s -> (tm G (TPlus (comment_line (TAlt [TLit [10]%N; TNot TAny]))) s o <-> tm G (TPlus (comment_line (TLit [10]%N))) s o).
Proof.
  intros Hc. split; intros H.
  - exact (TtLaws.le_plus G closed closed_app (fun _ => True) _ _ (fun s o Hg _ X => proj1 (line_same G s o Hg) X) s o Hc I H).
  - exact (TtLaws.le_plus G closed closed_app (fun _ => True) _ _ (fun s o Hg _ X => proj2 (line_same G s o Hg) X) s o Hc I H).
Qed.

(** grammar.treetop with comments between hash entries *)
Definition with_entry_comments : list (string * tx) :=
  with_rule "hashentries" (TSeq [TRef "hashentry"; TStar (TSeq [TRef "whitespace"; TRef "_"; TRef "hashentry"])]) treetop_grammar.
Definition simple_closed (s : list N) : Prop := closed s /\ ~ In 40%N s /\ ~ nested s.
Lemma simple_closed_app t s : simple_closed (t ++ s) -> simple_closed s.
Proof.
  intros (A & B & C). split; [now apply closed_app in A|]. split.
  - intros X. apply B, in_or_app. now right.
  - intros (t0 & x & y & u & -> & D). apply C. exists (t ++ t0)%list, x, y, u. now rewrite app_assoc.
Qed.
Lemma gap_tot_c : total with_entry_comments (TRef "_"). Proof. tot. Qed.
Lemma word_tot_c : total with_entry_comments (TRef "method"). Proof. tot. Qed.
Lemma method_fails_c s : ~ In 40%N s -> tm with_entry_comments (TRef "method_call") s None.
Proof.
  intros H. eapply tm_ref; [reflexivity|]. destruct (word_tot_c s) as [[r|] A]; [|now apply tm_seq_no]. eapply tm_seq; [exact A|].
  destruct (gap_tot_c r) as [[r2|] C]; [|now apply tm_seq_no]. eapply tm_seq; [exact C|].
  apply tm_seq_no. apply tm_lit_no. intros r3 ->. apply H. apply tm_suffix in A as [t ->], C as [t2 ->]. apply in_or_app. right. apply in_or_app. right. now left.
Qed.
Lemma edited_other_c n : n <> "rvalue" -> n <> "selector_element" -> n <> "comment" -> rule_of n edited = rule_of n with_entry_comments.
Proof.
  intros. destruct (string_dec n "hashentries") as [->|Hn]; [reflexivity|]. unfold with_entry_comments. rewrite with_other by assumption. now apply edited_other.
Qed.
Theorem edited_commented e s o : simple_closed s -> tm edited e s o -> tm with_entry_comments e s o.
Proof.
  intros Hs H. revert Hs. apply (tm_tm edited with_entry_comments simple_closed simple_closed_app); [|exact H].
  clear. intros n e R s o (H1 & H2 & H3) H.
  destruct (string_dec n "rvalue") as [->|?]; [|destruct (string_dec n "selector_element") as [->|?]; [|destruct (string_dec n "comment") as [->|?]]];
    [..|rewrite edited_other_c in R by assumption; eapply tm_ref; eauto]; inversion R; subst; clear R; eapply tm_ref; try reflexivity.
  - do 4 (match goal with X : tm _ (TAlt (_ :: _)) _ _ |- _ => inversion X; subst; clear X end; [apply tm_alt; assumption|apply tm_alt_next; [assumption|]]).
    apply tm_alt_next; [now apply method_fails_c|assumption].
  - destruct (elem_same with_entry_comments s H3) as (o' & A & B). now rewrite (tm_fun _ _ _ _ H _ A).
  - now apply (comment_same with_entry_comments s o H1).
Qed.
Theorem commented_edited e s o : simple_closed s -> tm with_entry_comments e s o -> tm edited e s o.
Proof.
  intros Hs H. revert Hs. apply (tm_tm with_entry_comments edited simple_closed simple_closed_app); [|exact H].
  clear. intros n e R s o (H1 & H2 & H3) H.
  destruct (string_dec n "rvalue") as [->|?]; [|destruct (string_dec n "selector_element") as [->|?]; [|destruct (string_dec n "comment") as [->|?]]];
    [..|rewrite <- edited_other_c in R by assumption; eapply tm_ref; eauto]; inversion R; subst; clear R; eapply tm_ref; try reflexivity.
  - do 4 (match goal with X : tm _ (TAlt (_ :: _)) _ _ |- _ => inversion X; subst; clear X end; [apply tm_alt; assumption|apply tm_alt_next; [assumption|]]).
    match goal with X : tm _ (TAlt (_ :: _)) _ _ |- _ => inversion X; subst; clear X end; [exfalso; eapply method_never; eassumption|assumption].
  - destruct (elem_same edited s H3) as (o' & A & B). now rewrite (tm_fun _ _ _ _ H _ B).
  - now apply (comment_same edited s o H1).
Qed.
