(** Texts that differ only in blank lines ([Bl]), and the proof that changing the
    blank-line flags of comments changes the printed text only so. *)
From Coq Require Import List NArith Bool String Arith Lia.
From Verif Require Import Bytes Utf8 F64 Ast Actions AstPrint AstInd QuoteFacts Utf8Facts EscapeFacts LexFacts Tree Lines Layout Bare ReadCom ReadVal ReadCond ReadBop ReadConf Comments.
Import ListNotations.

(** from the start of a line ([LS]) a line break may be left out on either side *)
Definition le (p q : place) : Prop := p = q \/ q = IL.
Inductive Bl : place -> bytes -> bytes -> place -> Prop :=
| bl_nil p q : le p q -> Bl p [] [] q
| bl_in p c s s' q : c <> NL -> Bl IL s s' q -> Bl p (c :: s) (c :: s') q
| bl_nl p s s' q : Bl LS s s' q -> Bl p (NL :: s) (NL :: s') q
| bl_left s s' q : Bl LS s s' q -> Bl LS (NL :: s) s' q
| bl_right s s' q : Bl LS s s' q -> Bl LS s (NL :: s') q.
Lemma bl_weak p s s' q : Bl p s s' q -> forall p', le p' p -> Bl p' s s' q.
Proof.
  induction 1 as [p q L|p c s s' q C H IH|p s s' q H IH|s s' q H IH|s s' q H IH]; intros p' [-> | E].
  - now constructor.
  - subst p. destruct L as [<- | ->]; constructor; now right.
  - now constructor.
  - now constructor.
  - now constructor.
  - now constructor.
  - now constructor.
  - discriminate E.
  - now constructor.
  - discriminate E.
Qed.
Lemma bl_app p s s' q t t' r : Bl p s s' q -> Bl q t t' r -> Bl p (s ++ t) (s' ++ t') r.
Proof. intros H K. induction H; cbn [app]; try (constructor; auto; fail). exact (bl_weak _ _ _ _ K _ H). Qed.
Lemma bl_same p t : Bl p t t IL.
Proof. revert p. induction t as [|c t IH]; intros p; [constructor; now right|]. destruct (N.eq_dec c NL) as [-> | N]; [apply bl_nl|apply bl_in]; auto. Qed.
Lemma bl_line p t : Bl p (t ++ [NL]) (t ++ [NL]) LS.
Proof. eapply bl_app; [apply bl_same|]. apply bl_nl, bl_nil. now left. Qed.
Lemma bl_tok t s s' p q : Bl IL s s' q -> Bl p (t ++ s) (t ++ s') q.
Proof. intros H. eapply bl_app; [apply bl_same|exact H]. Qed.
Lemma bl_break s s' p q : Bl LS s s' q -> Bl p (NL :: s) (NL :: s') q.
Proof. apply bl_nl. Qed.
Lemma bl_sym p s s' q : Bl p s s' q -> Bl p s' s q.
Proof. induction 1; [apply bl_nil|apply bl_in|apply bl_nl|apply bl_right|apply bl_left]; auto. Qed.
Lemma bl_lefts k s s' q : Bl LS s s' q -> Bl LS (repeat NL k ++ s) s' q.
Proof. intros H. induction k; [exact H|]. cbn [repeat app]. now apply bl_left. Qed.
Lemma bl_rights k s s' q : Bl LS s s' q -> Bl LS s (repeat NL k ++ s') q.
Proof. intros H. induction k; [exact H|]. cbn [repeat app]. now apply bl_right. Qed.
Lemma bl_flat {A} (f f' : A -> bytes) l : Forall (fun x => Bl LS (f x) (f' x) LS) l -> Bl LS (flat_map f l) (flat_map f' l) LS.
Proof. induction 1; cbn [flat_map]; [constructor; now left|]. eapply bl_app; eassumption. Qed.
(** *** Lines *)
(** the lines of a text that are not empty *)
Definition nonblank (s : bytes) : list bytes := filter (fun l => negb (beqb l [])) (split NL s).
Lemma split_cons c s : c <> NL -> split NL (c :: s) = match split NL s with x :: r => (c :: x) :: r | [] => [[c]] end.
Proof. intros H. cbn [split]. destruct (N.eqb_spec c NL); [congruence|]. reflexivity. Qed.
Lemma split_ne s : split NL s <> [].
Proof. destruct s as [|c s]; [discriminate|]. cbn [split]. destruct (c =? NL)%N; [discriminate|]. destruct (split NL s); discriminate. Qed.
Lemma bl_lines p s s' q : Bl p s s' q ->
  match p with
  | LS => nonblank s = nonblank s'
  | IL => match split NL s, split NL s' with
          | x :: r, x' :: r' => x = x' /\ filter (fun l => negb (beqb l [])) r = filter (fun l => negb (beqb l [])) r'
          | _, _ => False
          end
  end.
Proof.
  assert (NLS : forall s, split NL (NL :: s) = [] :: split NL s) by (intros; reflexivity).
  induction 1 as [p q L|p c s s' q C H IH|p s s' q H IH|s s' q H IH|s s' q H IH].
  - destruct p; [reflexivity|]. split; reflexivity.
  - cbn iota in IH. unfold nonblank. rewrite !split_cons by exact C. destruct (split NL s) as [|x r] eqn:E; [now elim (split_ne s)|]. destruct (split NL s') as [|x' r'] eqn:E'; [now elim (split_ne s')|].
    destruct IH as [-> IH]. destruct p; [cbn [filter beqb negb]; now rewrite IH|auto].
  - unfold nonblank in *. rewrite !NLS. destruct p; [exact IH|]. split; [reflexivity|exact IH].
  - unfold nonblank in *. rewrite NLS. exact IH.
  - unfold nonblank in *. rewrite NLS. exact IH.
Qed.
Lemma bl_filter (P : N -> bool) p s s' q : P NL = false -> Bl p s s' q -> filter P s = filter P s'.
Proof. intros E. induction 1; cbn [filter]; rewrite ?E; auto. destruct (P c); [f_equal|]; auto. Qed.
(** *** Encoding *)
Lemma encode_nl r x y : utf8_encode r = x ++ NL :: y -> x = [] /\ y = [].
Proof.
  unfold utf8_encode. destruct (r <? 128)%N.
  - destruct x as [|c x]; [now injection 1|]. intros E. apply (f_equal (@List.length N)) in E. rewrite app_length in E. cbn in E. lia.
  - intros E. exfalso. assert (I : In NL (x ++ NL :: y)) by (apply in_or_app; right; now left). rewrite <- E in I. unfold NL in I.
    destruct (r <? 2048)%N; [|destruct (r <? 65536)%N]; cbn [In] in I; repeat (destruct I as [I|I]; [lia|]); exact I.
Qed.
Lemma utf8_split a b : utf8_text (a ++ NL :: b) <-> utf8_text a /\ utf8_text b.
Proof.
  split.
  - intros (rs & H & E). revert a E. induction H as [|r rs Hr H IH]; intros a E; [destruct a; discriminate E|]. cbn [map List.concat] in E.
    assert (U : utf8_text (List.concat (map utf8_encode rs))) by (exists rs; auto).
    apply app_eq_app in E as (l & [[E1 E2]|[E1 E2]]).
    + subst a. destruct (IH _ (eq_sym E2)) as [K1 K2]. split; [|exact K2]. now apply utf8_cons.
    + destruct l as [|c l].
      * cbn [app] in E2. rewrite app_nil_r in E1. subst a. destruct (IH [] E2) as [_ K]. split; [|exact K]. rewrite <- (app_nil_r (utf8_encode r)). apply utf8_cons; [exact Hr|apply utf8_nil].
      * injection E2 as <- E2. apply encode_nl in E1 as [-> ->]. cbn [app] in E2. subst b. split; [apply utf8_nil|exact U].
  - intros [(rs & H & ->) (ts & K & ->)]. exists (rs ++ NL :: ts). split.
    + apply Forall_app. split; [exact H|]. constructor; [left; unfold NL; lia|exact K].
    + rewrite map_app, concat_app. reflexivity.
Qed.
Lemma bl_utf8 p s s' q : Bl p s s' q -> match p with LS => utf8_text s <-> utf8_text s' | IL => forall x, utf8_text (x ++ s) <-> utf8_text (x ++ s') end.
Proof.
  induction 1 as [p q L|p c s s' q C H IH|p s s' q H IH|s s' q H IH|s s' q H IH].
  - destruct p; tauto.
  - cbn iota in IH. destruct p; [exact (IH [c])|]. intros x. specialize (IH (x ++ [c])). now rewrite <- !app_assoc in IH.
  - assert (K : forall x, utf8_text (x ++ NL :: s) <-> utf8_text (x ++ NL :: s')) by (intros x; rewrite !utf8_split; cbn in IH; tauto).
    destruct p; [exact (K [])|exact K].
  - cbn iota in IH. rewrite (utf8_split [] s). pose proof utf8_nil. tauto.
  - cbn iota in IH. rewrite (utf8_split [] s'). pose proof utf8_nil. tauto.
Qed.
(** ** Comments *)
Lemma bl_end p : Bl p [] [] IL. Proof. apply bl_nil. now right. Qed.
Lemma bl_one n c c' : c_text c = c_text c' -> Bl LS (tcomment n c) (tcomment n c') LS.
Proof.
  intros E. unfold tcomment. rewrite E.
  assert (B : forall x y : bool, Bl LS (if x then [NL] else []) (if y then [NL] else []) LS).
  { assert (Z : Bl LS [] [] LS) by (apply bl_nil; now left). intros [] []; [now apply bl_nl|now apply bl_left|now apply bl_right|exact Z]. }
  eapply bl_app; [apply B|]. eapply bl_app; [|apply B]. rewrite !app_assoc. apply bl_line.
Qed.
Lemma bl_coms n c : forall c', map c_text c = map c_text c' -> Bl LS (tcoms n c) (tcoms n c') LS.
Proof.
  induction c as [|x c IH]; intros [|x' c'] E; try discriminate E; [apply bl_nil; now left|]. injection E as E1 E2. unfold tcoms. cbn [flat_map].
  eapply bl_app; [now apply bl_one|now apply IH].
Qed.
Lemma clear_texts l : map c_text (map_last clear_after l) = map c_text l.
Proof. induction l as [|x [|y l] IH]; [reflexivity|reflexivity|]. change (map_last clear_after (x :: y :: l)) with (x :: map_last clear_after (y :: l)). cbn [map]. f_equal. exact IH. Qed.
Lemma bl_foot n c c' : map c_text c = map c_text c' -> Bl LS (tfoot n c) (tfoot n c') LS.
Proof. intros E. apply bl_coms. now rewrite !clear_texts. Qed.
Lemma texts_nil c c' : map c_text c = map c_text c' -> c = [] <-> c' = [].
Proof. destruct c, c'; try discriminate; intros _; split; congruence. Qed.
Lemma bl_body p n I I' e foot foot' : (I = [] <-> I' = []) -> Bl LS I I' LS -> map c_text foot = map c_text foot' -> Bl p (tbody n I e foot) (tbody n I' e foot') IL.
Proof.
  intros Z HI HF. pose proof (texts_nil _ _ HF) as Zf.
  assert (D : forall m m', Bl LS m m' LS -> Bl p ([NL] ++ I ++ m ++ tfoot (S n) foot ++ ind n) ([NL] ++ I' ++ m' ++ tfoot (S n) foot' ++ ind n) IL).
  { intros m m' M. apply bl_nl. eapply bl_app; [exact HI|]. eapply bl_app; [exact M|]. eapply bl_app; [now apply bl_foot|]. apply bl_same. }
  destruct I as [|i I], I' as [|i' I']; try (exfalso; now (discriminate (proj1 Z eq_refl) || discriminate (proj2 Z eq_refl))).
  - destruct foot as [|c foot], foot' as [|c' foot']; try discriminate HF; [apply bl_same|]. apply (D [] []). apply bl_nil; now left.
  - destruct foot as [|c foot], foot' as [|c' foot']; try discriminate HF; cbn [tbody]; [apply (D [] []); apply bl_nil; now left|apply (D [NL] [NL])]. apply bl_nl, bl_nil. now left.
Qed.
Lemma bl_intro p n c c' : map c_text c = map c_text c' -> Bl p (tintro n c) (tintro n c') IL.
Proof.
  intros E. destruct c as [|x c], c' as [|x' c']; try discriminate E; [apply bl_same|]. unfold tintro. apply bl_nl. eapply bl_app; [now apply bl_coms|apply bl_same].
Qed.

(** ** Lists *)
Lemma bl_flat2 {A} (h : A -> bytes) l l' : Forall2 (fun x x' => Bl LS (h x) (h x') LS) l l' -> Bl LS (flat_map h l) (flat_map h l') LS.
Proof. induction 1; cbn [flat_map]; [apply bl_nil; now left|]. eapply bl_app; eassumption. Qed.
Lemma bl_elems ts ts' : Forall2 (fun t t' => Bl LS t t' IL) ts ts' -> Bl LS (telems ts) (telems ts') LS.
Proof.
  intros H. destruct H as [|t t' ts ts' Ht H]; [apply bl_nil; now left|]. unfold telems. eapply bl_app; [|apply bl_nl, bl_nil; now left].
  revert t t' Ht. induction H as [|u u' ts ts' Hu H IH]; intros t t' Ht; [exact Ht|].
  change (Bl LS (t ++ [44%N; NL] ++ join [44%N; NL] (u :: ts)) (t' ++ [44%N; NL] ++ join [44%N; NL] (u' :: ts')) IL).
  eapply bl_app; [exact Ht|]. apply bl_in; [discriminate|]. apply bl_nl. now apply IH.
Qed.
Lemma bl_lines2 ts ts' : Forall2 (fun t t' => Bl LS t t' IL) ts ts' -> Bl LS (join [NL] (map (fun t => t ++ [NL]) ts)) (join [NL] (map (fun t => t ++ [NL]) ts')) LS.
Proof.
  intros H. destruct H as [|t t' ts ts' Ht H]; [apply bl_nil; now left|].
  assert (L : forall t t', Bl LS t t' IL -> Bl LS (t ++ [NL]) (t' ++ [NL]) LS) by (intros x x' X; eapply bl_app; [exact X|]; apply bl_nl, bl_nil; now left).
  revert t t' Ht. induction H as [|u u' ts ts' Hu H IH]; intros t t' Ht; [now apply L|].
  change (Bl LS ((t ++ [NL]) ++ [NL] ++ join [NL] (map (fun t => t ++ [NL]) (u :: ts))) ((t' ++ [NL]) ++ [NL] ++ join [NL] (map (fun t => t ++ [NL]) (u' :: ts'))) LS).
  eapply bl_app; [now apply L|]. apply bl_nl. now apply IH.
Qed.
Lemma F2_impl {A B} (R S : A -> B -> Prop) l l' : (forall x y, R x y -> S x y) -> Forall2 R l l' -> Forall2 S l l'.
Proof. intros H. induction 1; constructor; auto. Qed.
Lemma g_list_F2 {A} (R : A -> A -> Prop) (h : spot -> A -> A) l : Forall (fun x => forall k, R x (h k x)) l -> Forall2 R l (g_list h l).
Proof. intros H. destruct H as [|x l Hx H]; constructor; [apply Hx|]. induction H; constructor; auto. Qed.
Lemma map_F2 {A} (R : A -> A -> Prop) (h : A -> A) l : Forall (fun x => R x (h x)) l -> Forall2 R l (map h l).
Proof. induction 1; constructor; auto. Qed.
Lemma F2_map {A B} (R : B -> B -> Prop) (h : A -> B) l l' : Forall2 (fun x x' => R (h x) (h x')) l l' -> Forall2 R (map h l) (map h l').
Proof. induction 1; constructor; auto. Qed.
Lemma flat_nil {A} (h : A -> bytes) l l' : (forall x, h x <> []) -> List.length l = List.length l' -> flat_map h l = [] <-> flat_map h l' = [].
Proof.
  intros H E. assert (Z : forall l, flat_map h l = [] <-> l = []). { intros [|x m]; [tauto|]. cbn [flat_map]. split; [|discriminate]. intros K. apply app_eq_nil in K as [K _]. now elim (H x). }
  rewrite !Z. destruct l, l'; try discriminate E; split; congruence.
Qed.
Lemma elems_nil ts ts' : List.length ts = List.length ts' -> telems ts = [] <-> telems ts' = [].
Proof.
  assert (Z : forall l, telems l = [] <-> l = []). { intros [|x m]; [tauto|]. unfold telems. split; [|discriminate]. intros K. now apply app_eq_nil in K as [_ K]. }
  rewrite !Z. destruct ts, ts'; try discriminate; intros _; split; congruence.
Qed.
Lemma lines_nil ts ts' : List.length ts = List.length ts' -> join [NL] (map (fun t => t ++ [NL]) ts) = [] <-> join [NL] (map (fun t => t ++ [NL]) ts') = [].
Proof.
  assert (Z : forall l, join [NL] (map (fun t => t ++ [NL]) l) = [] <-> l = []).
  { intros [|x [|y m]]; [tauto| |]; (split; [|discriminate]); intros K; [now apply app_eq_nil in K as [_ K]|].
    change (((x ++ [NL]) ++ [NL] ++ join [NL] (map (fun t => t ++ [NL]) (y :: m))) = []) in K. apply app_eq_nil in K as [_ K]. discriminate K. }
  rewrite !Z. destruct ts, ts'; try discriminate; intros _; split; congruence.
Qed.
Lemma g_list_len {A B} (h : spot -> A -> B) l : List.length (g_list h l) = List.length l.
Proof. destruct l; [reflexivity|]. cbn. now rewrite map_length. Qed.

(** ** Trees *)
Section Tree.
  Variable f : spot -> cblock -> cblock.
  Hypothesis Hf : forall k c, map c_text (f k c) = map c_text c.
  Lemma g_attr_name k a : attr_name (g_attr f k a) = attr_name a. Proof. destruct a; reflexivity. Qed.
  Lemma g_attr_com k a : map c_text (attr_com (g_attr f k a)) = map c_text (attr_com a). Proof. destruct a; try apply Hf. reflexivity. Qed.
  Lemma g_key_string x : hkey_string (g_key f x) = hkey_string x. Proof. destruct x; reflexivity. Qed.
  Lemma bl_attrs n l l' : Forall2 (fun x x' => attr_name x = attr_name x' /\ map c_text (attr_com x) = map c_text (attr_com x') /\ forall p n, Bl p (tval n x) (tval n x') IL) l l' ->
    Bl LS (flat_map (tattr n) l) (flat_map (tattr n) l') LS.
  Proof.
    intros H. apply bl_flat2. eapply F2_impl; [|exact H]. intros x x' (E1 & E2 & E3). unfold tattr. eapply bl_app; [now apply bl_coms|]. rewrite E1. do 3 apply bl_tok. eapply bl_app; [apply E3|]. apply bl_nl, bl_nil. now left.
  Qed.
  Lemma bl_val a : forall k p n, Bl p (tval n a) (tval n (g_attr f k a)) IL.
  Proof.
    induction a as [|s|v|ap nm l c ft IH|ap nm l c ft IH|ap nm v c IH] using attr_ind'; intros k p n; cbn [g_attr tval]; try apply bl_same.
    - apply bl_tok. eapply bl_app; [|apply bl_same]. apply bl_body; [| |now rewrite Hf].
      + apply elems_nil. now rewrite !map_length, g_list_len.
      + apply bl_elems, F2_map, g_list_F2. eapply Forall_impl; [|exact IH]. intros x K j. eapply bl_app; [apply bl_coms; now rewrite g_attr_com|]. apply bl_tok. apply K.
    - apply bl_tok. eapply bl_app; [|apply bl_same]. apply bl_body; [| |now rewrite Hf].
      + apply flat_nil; [|now rewrite g_list_len]. intros [hp x v com]. cbn [thentry]. intros E. repeat (apply app_eq_nil in E as [_ E]). discriminate E.
      + apply bl_flat2, g_list_F2. eapply Forall_impl; [|exact IH]. intros [hp x v com] K j. cbn [hval thentry g_hentry] in *. eapply bl_app; [apply bl_coms; now rewrite Hf|].
        rewrite g_key_string. do 3 apply bl_tok. eapply bl_app; [apply K|]. apply bl_nl, bl_nil. now left.
    - destruct v as [vp vn vl vc vf]. cbn [tplugin g_plugin pattrs] in *. do 2 apply bl_tok. eapply bl_app; [|apply bl_same]. apply bl_body; [| |now rewrite Hf].
      + apply flat_nil; [|now rewrite g_list_len]. intros x E. repeat (apply app_eq_nil in E as [_ E]). discriminate E.
      + apply bl_attrs, g_list_F2. eapply Forall_impl; [|exact IH]. intros x K j. rewrite g_attr_name, g_attr_com. auto.
  Qed.
  Lemma bl_plugin x p n : Bl p (tplugin n x) (tplugin n (g_plugin f x)) IL.
  Proof. exact (bl_val (AtPlug zero_pos [] x []) First p n). Qed.
  Lemma sel_string_bare s : selector_string (bare_sel s) = selector_string s.
  Proof. unfold selector_string, bare_sel. cbn [sel_els]. induction (sel_els s) as [|x l IH]; [reflexivity|]. cbn [map flat_map]. now rewrite IH. Qed.
  Lemma bl_rvalue r p n : Bl p (trvalue n r) (trvalue n (g_rvalue f r)) IL.
  Proof.
    destruct r; cbn [g_rvalue trvalue]; try apply bl_same; [rewrite sel_string_bare; apply bl_same|].
    exact (bl_val (AtArr p0 name l com foot) First p n).
  Qed.
  Lemma strorre_g r : strorre_string (g_strorre f r) = strorre_string r.
  Proof. destruct r; reflexivity. Qed.
  Lemma bl_cexpr e : forall p n, Bl p (tcexpr n e) (tcexpr n (g_cexpr f e)) IL.
  Proof.
    assert (C : forall l, Forall (fun e => forall p n, Bl p (tcexpr n e) (tcexpr n (g_cexpr f e)) IL) l -> forall p n, Bl p (tcond n (Cond l)) (tcond n (Cond (map (g_cexpr f) l))) IL).
    { intros l H p n. cbn [tcond]. revert p. induction H as [|x l Hx H IH]; intros p; [apply bl_end|]. cbn [flat_map map]. eapply bl_app; [apply Hx|apply IH]. }
    induction e as [|q bo c IH|q bo c IH|q bo s|q bo l r|q bo l r|q bo r|q bo l o r|q bo l o r] using cexpr_ind'; intros p n; cbn [tcexpr g_cexpr]; try apply bl_same;
      try (apply bl_tok; first [rewrite sel_string_bare; apply bl_same|eapply bl_app; [apply bl_rvalue|]|apply bl_rvalue]; rewrite ?strorre_g; repeat (first [apply bl_rvalue|apply bl_tok|apply bl_same]); fail).
    - destruct c as [l]. cbn [exprs g_cond] in *. do 2 apply bl_tok. eapply bl_app; [exact (C l IH IL n)|apply bl_same].
    - destruct c as [l]. cbn [exprs g_cond] in *. do 2 apply bl_tok. eapply bl_app; [exact (C l IH IL n)|apply bl_same].
  Qed.
  Lemma bl_cond c p n : Bl p (tcond n c) (tcond n (g_cond f c)) IL.
  Proof. destruct c as [l]. cbn [tcond g_cond]. revert p. induction l as [|x l IH]; intros p; [apply bl_end|]. cbn [flat_map map]. eapply bl_app; [apply bl_cexpr|apply IH]. Qed.
  Definition Tbl (x : bop) : Prop := forall n, Bl LS (tbop n x) (tbop n (g_bop f x)) IL.
  Lemma bl_block p n l ft ft' : Forall Tbl l -> map c_text ft = map c_text ft' ->
    Bl p (tblock n (tbops (S n) l) ft) (tblock n (tbops (S n) (map (g_bop f) l)) ft') IL.
  Proof.
    intros H E. unfold tblock. apply bl_tok. eapply bl_app; [|apply bl_same]. unfold tbops. rewrite <- !(map_map (tbop (S n)) (fun t => t ++ [NL])).
    apply bl_body; [|apply bl_lines2|exact E].
    - apply lines_nil. now rewrite !map_length.
    - apply F2_map, map_F2. eapply Forall_impl; [|exact H]. intros x K. apply K.
  Qed.
  Lemma bl_bop x : Tbl x.
  Proof.
    induction x as [|q|q|i es e IHi IHes IHe] using bop_ind'; intros n; cbn [g_bop tbop].
    - apply bl_end.
    - destruct q as [pp nm l c ft]. eapply bl_app; [apply bl_coms; cbn [g_plugin]; symmetry; apply Hf|]. apply bl_tok. exact (bl_plugin (Plugin pp nm l c ft) IL n).
    - destruct q as [pp nm l c ft]. eapply bl_app; [apply bl_coms; cbn [g_plugin]; symmetry; apply Hf|]. apply bl_tok. exact (bl_plugin (Plugin pp nm l c ft) IL n).
    - destruct i as [ip ic il icom ifo], e as [ep el ecom ef]. cbn [block eblock g_if g_else] in *.
      eapply bl_app; [apply bl_coms; now rewrite Hf|]. do 2 apply bl_tok. eapply bl_app; [apply bl_cond|]. apply bl_tok. eapply bl_app; [apply bl_block; [exact IHi|now rewrite Hf]|].
      eapply bl_app.
      + clear -IHes Hf. induction IHes as [|[q c l com ft] es H IHes IH]; [apply bl_end|]. cbn [flat_map map g_if telseif block] in *. eapply bl_app; [|exact IH].
        eapply bl_app; [apply bl_intro; now rewrite Hf|]. apply bl_tok. eapply bl_app; [apply bl_cond|]. apply bl_tok. apply bl_block; [exact H|now rewrite Hf].
      + assert (D : Bl IL (tintro n ecom ++ b "else " ++ tblock n (tbops (S n) el) ef) (tintro n (f First ecom) ++ b "else " ++ tblock n (tbops (S n) (map (g_bop f) el)) (f First ef)) IL).
        { eapply bl_app; [apply bl_intro; now rewrite Hf|]. apply bl_tok. apply bl_block; [exact IHe|now rewrite Hf]. }
        pose proof (Hf First ecom) as Z1. pose proof (Hf First ef) as Z2.
        destruct el as [|y el]; [|exact D]. destruct ecom as [|y ecom]; [apply map_eq_nil in Z1; rewrite Z1 in *|destruct (f First (y :: ecom)); [discriminate Z1|exact D]].
        destruct ef as [|y ef]; [apply map_eq_nil in Z2; rewrite Z2 in *; apply bl_end|destruct (f First (y :: ef)); [discriminate Z2|exact D]].
  Qed.
  Lemma bl_section kind com com' s s' : map c_text com = map c_text com' -> ps_bops s' = map (g_bop f) (ps_bops s) -> map c_text (ps_foot s) = map c_text (ps_foot s') ->
    Bl LS (tsection kind com s) (tsection kind com' s') LS.
  Proof.
    intros E Eb Ef. unfold tsection. eapply bl_app; [now apply bl_coms|]. do 2 apply bl_tok. rewrite Eb.
    assert (D : Bl IL (tbody 0 (tbops 1 (ps_bops s)) false (ps_foot s)) (tbody 0 (tbops 1 (map (g_bop f) (ps_bops s))) false (ps_foot s')) IL).
    { unfold tbops. rewrite <- !(map_map (tbop 1) (fun t => t ++ [NL])). apply bl_body; [|apply bl_lines2|exact Ef].
      - apply lines_nil. now rewrite !map_length.
      - apply F2_map, map_F2, Forall_forall. intros x _. apply bl_bop. }
    eapply bl_app; [exact D|]. apply bl_tok. apply bl_nl, bl_nil. now left.
  Qed.
  (** sections read back: the same items, and footers and comments of the same texts *)
  Definition like_section (s s' : section) : Prop := ps_bops s' = map (g_bop f) (ps_bops s) /\ map c_text (ps_foot s) = map c_text (ps_foot s').
  Lemma bl_sections kind l l' : Forall2 like_section l l' -> map c_text (shared_com l) = map c_text (shared_com l') -> Bl LS (tsections kind l) (tsections kind l') LS.
  Proof.
    intros H E. unfold tsections. fold (shared_com l). fold (shared_com l'). revert E. generalize (shared_com l), (shared_com l'). intros com com' E.
    destruct H as [|s s' l l' Hs H]; [apply bl_nil; now left|]. revert s s' Hs. induction H as [|u u' l l' Hu H IH]; intros s s' [K1 K2]; [now apply bl_section|].
    change (Bl LS (tsection kind com s ++ [NL] ++ join [NL] (map (tsection kind com) (u :: l))) (tsection kind com' s' ++ [NL] ++ join [NL] (map (tsection kind com') (u' :: l'))) LS).
    eapply bl_app; [now apply bl_section|]. apply bl_nl. now apply IH.
  Qed.
  Lemma bl_config c c' :
    Forall2 like_section (cf_input c) (cf_input c') -> Forall2 like_section (cf_filter c) (cf_filter c') -> Forall2 like_section (cf_output c) (cf_output c') ->
    map c_text (shared_com (cf_input c)) = map c_text (shared_com (cf_input c')) -> map c_text (shared_com (cf_filter c)) = map c_text (shared_com (cf_filter c')) ->
    map c_text (shared_com (cf_output c)) = map c_text (shared_com (cf_output c')) -> map c_text (cf_foot c) = map c_text (cf_foot c') -> Bl LS (tconfig c) (tconfig c') LS.
  Proof.
    intros. unfold tconfig. eapply bl_app; [now apply bl_sections|]. eapply bl_app; [now apply bl_sections|]. eapply bl_app; [now apply bl_sections|]. now apply bl_coms.
  Qed.
End Tree.
