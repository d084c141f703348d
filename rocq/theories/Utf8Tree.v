(** The texts of a tree ([texts_config]: names, values, comments, selectors, regular
    expressions).  Results: the texts of a tree read from valid UTF-8 are valid UTF-8, and
    so is the printed form of a printable tree with such texts. *)
From Coq Require Import List NArith ZArith Bool String Arith Lia.
From Verif Require Import Bytes Utf8 F64 Ast Peg GrammarGen Actions Engine Parser AstPrint AstInd QuoteFacts PosFacts Run EngineFacts Termination Matches
  RunInv Utf8Facts InputFacts ParseFacts LexFacts EscapeFacts Tree Lines Layout Rules Blank Printable.
Import ListNotations.

(** ** Texts *)
Definition com_texts (l : cblock) : list bytes := map c_text l.
Definition str_texts (s : strattr) : list bytes := sa_name s :: sa_val s :: com_texts (sa_com s).
Definition num_texts (n : numattr) : list bytes := na_name n :: com_texts (na_com n).
Definition key_texts (k : hkey) : list bytes := match k with HKStr s => str_texts s | HKNum n => num_texts n end.
Fixpoint attr_texts (a : attr) : list bytes :=
  match a with
  | AtNil => []
  | AtStr s => str_texts s
  | AtNum n => num_texts n
  | AtArr _ n l c f => n :: flat_map attr_texts l ++ com_texts c ++ com_texts f
  | AtHash _ n l c f => n :: flat_map hentry_texts l ++ com_texts c ++ com_texts f
  | AtPlug _ n v c => n :: plugin_texts v ++ com_texts c
  end
with hentry_texts (e : hentry) : list bytes := match e with HEntry _ k v c => key_texts k ++ attr_texts v ++ com_texts c end
with plugin_texts (x : plugin) : list bytes := match x with Plugin _ n l c f => n :: flat_map attr_texts l ++ com_texts c ++ com_texts f end.
Definition sel_texts (s : selector) : list bytes := map se_name (sel_els s).
Definition rvalue_texts (r : rvalue) : list bytes :=
  match r with
  | RVNil => []
  | RVStr s => str_texts s
  | RVNum n => num_texts n
  | RVSel s => sel_texts s
  | RVArr _ n l c f => n :: flat_map attr_texts l ++ com_texts c ++ com_texts f
  | RVRe r => [re_text r]
  end.
Definition strorre_texts (r : strorre) : list bytes := match r with SRNil => [] | SRStr s => str_texts s | SRRe r => [re_text r] end.
Fixpoint cexpr_texts (e : cexpr) : list bytes :=
  match e with
  | ExNil => []
  | ExCond _ _ c | ExNeg _ _ c => cond_texts c
  | ExNegSel _ _ s => sel_texts s
  | ExIn _ _ l r | ExNotIn _ _ l r | ExCmp _ _ l _ r => rvalue_texts l ++ rvalue_texts r
  | ExRv _ _ r => rvalue_texts r
  | ExRe _ _ l _ r => rvalue_texts l ++ strorre_texts r
  end
with cond_texts (c : condition) : list bytes := match c with Cond l => flat_map cexpr_texts l end.
Fixpoint bop_texts (x : bop) : list bytes :=
  match x with
  | BNil => []
  | BPlugin p | BPluginPtr p => plugin_texts p
  | BBranch i es e => if_texts i ++ flat_map if_texts es ++ else_texts e
  end
with if_texts (x : ifblock) : list bytes := match x with IfB _ c l com foot => cond_texts c ++ flat_map bop_texts l ++ com_texts com ++ com_texts foot end
with else_texts (x : elseblock) : list bytes := match x with ElB _ l com foot => flat_map bop_texts l ++ com_texts com ++ com_texts foot end.
Definition section_texts (s : section) : list bytes := flat_map bop_texts (ps_bops s) ++ com_texts (ps_com s) ++ com_texts (ps_foot s).
Definition texts_config (c : config) : list bytes := flat_map section_texts (sections c) ++ com_texts (cf_foot c).

(** the texts of a value of the parser; what a matcher returns does not count *)
Fixpoint texts (v : val) : list bytes :=
  match v with
  | VNil | VBytes _ | VWs | VPType _ | VBoolOp _ | VCmpOp _ | VReOp _ => []
  | VList l => flat_map texts l
  | VText t => [t]
  | VComments l => com_texts l
  | VAttr a => attr_texts a
  | VAttrs l => flat_map attr_texts l
  | VHEntry e => hentry_texts e
  | VHEntries l => flat_map hentry_texts l
  | VPlugin p => plugin_texts p
  | VBranch i es e => if_texts i ++ flat_map if_texts es ++ else_texts e
  | VIf x | VElseIf x => if_texts x
  | VElse x => else_texts x
  | VCond c => cond_texts c
  | VExpr e => cexpr_texts e
  | VSel s => sel_texts s
  | VSelEl s => [se_name s]
  | VRe r => [re_text r]
  | VSection s => section_texts s
  | VConfig c => texts_config c
  end.
Definition U (l : list bytes) : Prop := Forall utf8_text l.
Lemma U_nil : U []. Proof. constructor. Qed.
Lemma U_cons t l : U (t :: l) <-> utf8_text t /\ U l. Proof. apply Forall_cons_iff. Qed.
Lemma U_app l l' : U (l ++ l') <-> U l /\ U l'. Proof. apply Forall_app. Qed.
Lemma U_flat {A} (f : A -> list bytes) l : U (flat_map f l) <-> Forall (fun x => U (f x)) l.
Proof. induction l as [|x l IH]; cbn [flat_map]; [split; constructor|]. rewrite U_app, IH, Forall_cons_iff. reflexivity. Qed.

(** ** Operations on valid UTF-8 *)
Lemma utf8_app a c : utf8_text a -> utf8_text c -> utf8_text (a ++ c).
Proof. intros (rs & H & ->) (ts & K & ->). exists (rs ++ ts). split; [now apply Forall_app|]. now rewrite map_app, concat_app. Qed.
Lemma encode_ascii c r x y : (c < 128)%N -> utf8_encode r = x ++ c :: y -> x = [] /\ y = [].
Proof.
  intros L. unfold utf8_encode. destruct (r <? 128)%N.
  - destruct x as [|d x]; [now injection 1|]. intros E. apply (f_equal (@List.length N)) in E. rewrite app_length in E. cbn in E. lia.
  - intros E. exfalso. assert (I : In c (x ++ c :: y)) by (apply in_or_app; right; now left). rewrite <- E in I.
    destruct (r <? 2048)%N; [|destruct (r <? 65536)%N]; cbn [In] in I; repeat (destruct I as [I|I]; [lia|]); exact I.
Qed.
(** an ASCII character separates *)
Lemma utf8_at c x y : (c < 128)%N -> utf8_text (x ++ c :: y) <-> utf8_text x /\ utf8_text y.
Proof.
  intros L. split.
  - intros (rs & H & E). revert x E. induction H as [|r rs Hr H IH]; intros x E; [destruct x; discriminate E|]. cbn [map List.concat] in E.
    assert (V : utf8_text (List.concat (map utf8_encode rs))) by (exists rs; auto).
    apply app_eq_app in E as (l & [[E1 E2]|[E1 E2]]).
    + subst x. destruct (IH _ (eq_sym E2)) as [K1 K2]. split; [|exact K2]. now apply utf8_cons.
    + destruct l as [|d l].
      * cbn [app] in E2. rewrite app_nil_r in E1. subst x. destruct (IH [] E2) as [_ K]. split; [|exact K]. rewrite <- (app_nil_r (utf8_encode r)). apply utf8_cons; [exact Hr|apply utf8_nil].
      * injection E2 as <- E2. apply encode_ascii in E1 as [-> ->]; [|exact L]. cbn [app] in E2. subst y. split; [apply utf8_nil|exact V].
  - intros [H K]. apply utf8_app; [exact H|]. change (c :: y) with ([c] ++ y). replace [c] with (utf8_encode c) by (unfold utf8_encode; now rewrite (proj2 (N.ltb_lt _ _) L)).
    apply utf8_cons; [left; lia|exact K].
Qed.
Lemma utf8_hd c y : (c < 128)%N -> utf8_text (c :: y) <-> utf8_text y.
Proof. intros L. rewrite (utf8_at c [] y L). pose proof utf8_nil. tauto. Qed.
Lemma utf8_tl c x : (c < 128)%N -> utf8_text (x ++ [c]) <-> utf8_text x.
Proof. intros L. rewrite (utf8_at c x [] L). pose proof utf8_nil. tauto. Qed.
Lemma utf8_ascii t : Forall (fun c => c < 128)%N t -> utf8_text t.
Proof. induction 1; [apply utf8_nil|]. now apply utf8_hd. Qed.
Lemma ascii_b t : forallb (fun c => c <? 128)%N t = true -> utf8_text t.
Proof. intros H. apply utf8_ascii, Forall_forall. rewrite forallb_forall in H. intros c I. apply N.ltb_lt. auto. Qed.
(** a valid text followed by another one *)
Lemma utf8_prefix a c : utf8_text (a ++ c) -> utf8_text c -> utf8_text a.
Proof.
  intros (rs & H & E) (ts & K & E'). revert a c E ts K E'. 
  assert (G : forall n rs a ts, List.length rs <= n -> Forall scalar rs -> Forall scalar ts -> a ++ List.concat (map utf8_encode ts) = List.concat (map utf8_encode rs) -> utf8_text a).
  { clear. induction n as [|n IH]; intros rs a ts L H K E.
    - destruct rs; [|cbn in L; lia]. cbn in E. apply app_eq_nil in E as [-> _]. apply utf8_nil.
    - destruct a as [|d a]; [apply utf8_nil|]. destruct H as [|r rs Hr H]; [discriminate E|]. cbn [map List.concat] in E.
      apply app_eq_app in E as (l & [[E1 E2]|[E1 E2]]).
      + rewrite E1. apply utf8_cons; [exact Hr|]. eapply (IH rs); [cbn in L; lia|exact H|exact K|]. now rewrite <- E2.
      + (* the encoding of r ends inside the second text *)
        destruct l as [|e l].
        { rewrite app_nil_r in E1. rewrite <- E1, <- (app_nil_r (utf8_encode r)). apply utf8_cons; [exact Hr|apply utf8_nil]. }
        exfalso. destruct K as [|t ts Kt K]; [discriminate E2|]. cbn [map List.concat] in E2.
        (* the byte e continues an encoding and starts one *)
        assert (A : (128 <= e < 192)%N).
        { revert E1. clear. unfold utf8_encode. destruct (r <? 128)%N eqn:R.
          - intros E. apply (f_equal (@List.length N)) in E. cbn in E. rewrite app_length in E. cbn in E. lia.
          - intros E. assert (I : In e (List.tl ((d :: a) ++ e :: l))) by (cbn; apply in_or_app; right; now left). rewrite <- E in I.
            assert (M : forall x, (128 <= 128 + x mod 64 < 192)%N) by (intros x; pose proof (N.mod_lt x 64 ltac:(lia)); lia).
            destruct (r <? 2048)%N; [|destruct (r <? 65536)%N]; cbn [List.tl In] in I; repeat (destruct I as [<- | I]; [apply M|]); destruct I. }
        assert (B : forall l', utf8_encode t = e :: l' -> ~ (128 <= e < 192)%N).
        { revert Kt. clear. intros Kt l'. assert (S : (t <= 1114111)%N) by (destruct Kt; lia). unfold utf8_encode. destruct (t <? 128)%N eqn:R; [apply N.ltb_lt in R; injection 1; lia|].
          destruct (t <? 2048)%N eqn:R2; [|destruct (t <? 65536)%N eqn:R3]; intros E [E1 E2]; assert (Eh : forall x y, x :: y = e :: l' -> x = e) by congruence; apply Eh in E; lia. }
        destruct (utf8_encode t) as [|x y] eqn:Et; [now apply encode_nonempty in Et|]. injection E2 as <- _. exact (B y eq_refl A). }
  intros a c E ts K E'. subst c. eapply (G (List.length rs)); [reflexivity|exact H|exact K|exact E].
Qed.

(** ** Texts between two ASCII characters *)
Definition asciis (rs : list N) : bool := match rs with [] => false | _ => forallb (fun c => c <? 128)%N rs end.
Fixpoint first_ascii (e : expr) : bool :=
  match e with
  | EAct _ e | ELab _ e => first_ascii e
  | ELit _ rs => asciis rs
  | ESeq (e :: _) => first_ascii e
  | _ => false
  end.
Fixpoint last_ascii (e : expr) : bool :=
  match e with
  | EAct _ e | ELab _ e => last_ascii e
  | ELit _ rs => asciis rs
  | EAndCode (PPushError _) | EAndCode (PFatalError _) => true
  | EChoice l => forallb last_ascii l
  | ESeq l => (fix last l := match l with [] => false | [e] => last_ascii e | _ :: l' => last l' end) l
  | _ => false
  end.
Lemma lit_asciis g w rs t : asciis rs = true -> matches g (ELit w rs) t -> t = rs /\ rs <> [] /\ Forall (fun c => c < 128)%N rs.
Proof.
  unfold asciis. intros H M. destruct rs as [|c rs]; [discriminate|].
  assert (F : Forall (fun c => c < 128)%N (c :: rs)) by (apply Forall_forall; rewrite forallb_forall in H; intros x I; apply N.ltb_lt; auto).
  split; [now apply mi_lit in M|]. split; [discriminate|exact F].
Qed.
Section ExprInd.
  Variable P : expr -> Prop.
  Hypothesis Hact : forall a e, P e -> P (EAct a e).
  Hypothesis Hlab : forall l e, P e -> P (ELab l e).
  Hypothesis Hchoice : forall l, Forall P l -> P (EChoice l).
  Hypothesis Hseq : forall l, Forall P l -> P (ESeq l).
  Hypothesis Hleaf : forall e, match e with EAct _ _ | ELab _ _ | EChoice _ | ESeq _ => True | _ => P e end.
  Fixpoint expr_ind' (e : expr) : P e :=
    let all := fix all (l : list expr) : Forall P l := match l with [] => Forall_nil _ | y :: l' => Forall_cons _ (expr_ind' y) (all l') end in
    match e as e0 return P e0 with
    | EAct a e => Hact a e (expr_ind' e)
    | ELab l e => Hlab l e (expr_ind' e)
    | EChoice l => Hchoice l (all l)
    | ESeq l => Hseq l (all l)
    | EAndCode p => Hleaf (EAndCode p)
    | EStateCode c => Hleaf (EStateCode c)
    | EAny => Hleaf EAny
    | EClass a b c d => Hleaf (EClass a b c d)
    | ELit a b => Hleaf (ELit a b)
    | ENot e => Hleaf (ENot e)
    | EPlus e => Hleaf (EPlus e)
    | EStar e => Hleaf (EStar e)
    | EOpt e => Hleaf (EOpt e)
    | ERef n => Hleaf (ERef n)
    end.
End ExprInd.
Lemma first_spec g e : forall t, first_ascii e = true -> matches g e t -> exists c y, t = c :: y /\ (c < 128)%N.
Proof.
  revert e. apply (expr_ind' (fun e => forall t, first_ascii e = true -> matches g e t -> exists c y, t = c :: y /\ (c < 128)%N)); [intros a e IH|intros l e IH|intros l IH|intros l IH|intros e].
  - intros t H M. apply mi_act in M. auto.
  - intros t H M. apply mi_lab in M. auto.
  - discriminate.
  - intros t H M. destruct IH as [|e l IH _]; [discriminate|]. apply mi_seq in M as (t1 & t2 & -> & M & _ & _). cbn [first_ascii] in H.
    destruct (IH _ H M) as (c & y & -> & L). exists c, (y ++ t2). auto.
  - destruct e; auto; try discriminate. intros t H M. apply lit_asciis in M as (-> & N & F); [|exact H]. destruct F as [|c y L F]; [congruence|]. eauto.
Qed.
Lemma last_spec g e : forall t, last_ascii e = true -> matches g e t -> exists x d, t = x ++ [d] /\ (d < 128)%N.
Proof.
  revert e. apply (expr_ind' (fun e => forall t, last_ascii e = true -> matches g e t -> exists x d, t = x ++ [d] /\ (d < 128)%N)); [intros a e IH|intros l e IH|intros l IH|intros l IH|intros e].
  - intros t H M. apply mi_act in M. auto.
  - intros t H M. apply mi_lab in M. auto.
  - intros t H M. cbn [last_ascii] in H. rewrite forallb_forall in H. rewrite Forall_forall in IH. apply mi_choice in M as (e & I & M). eauto.
  - induction IH as [|e l IHe IH K]; [discriminate|]. intros t H M. apply mi_seq in M as (t1 & t2 & -> & M & N & _). destruct l as [|e' l].
    + apply mi_nil in N. subst t2. rewrite app_nil_r. exact (IHe _ H M).
    + destruct (K t2 H N) as (x & d & -> & L). exists (t1 ++ x), d. now rewrite app_assoc.
  - destruct e; auto; try discriminate; intros t H M.
    + destruct p; try discriminate; [now apply mi_soft in M|now apply mi_fatal in M].
    + apply lit_asciis in M as (-> & N & F); [|exact H]. destruct (exists_last N) as (x & d & E). exists x, d. split; [exact E|]. rewrite E in F. apply Forall_app in F as [_ F]. now inversion F.
Qed.
Definition takes_inner (a : action) : bool :=
  match a with AString Bareword => false | AString _ | AEnclosedValue | ARegexp | ASelectorElement => true | _ => false end.
Lemma gen_inner : forallb (fun x => implb (takes_inner (fst x)) (first_ascii (snd x) && last_ascii (snd x))) (grammar_acts gen_grammar) = true.
Proof. vm_compute. reflexivity. Qed.
Lemma inner_utf8 a e t v : In (a, e) (grammar_acts gen_grammar) -> takes_inner a = true -> matches gen_grammar e t -> utf8_text t -> inner t = Some v -> utf8_text v.
Proof.
  intros I T M V E. pose proof gen_inner as G. rewrite forallb_forall in G. specialize (G _ I). cbn [fst snd] in G. rewrite T in G. cbn [implb] in G. apply andb_true_iff in G as [G1 G2].
  destruct (first_spec _ _ _ G1 M) as (c & y & -> & Lc). destruct (last_spec _ _ _ G2 M) as (x & d & E2 & Ld).
  apply utf8_hd in V; [|exact Lc]. destruct y as [|c' y]; [discriminate E|]. cbn [inner] in E. injection E as <-.
  destruct x as [|z x]; [discriminate E2|]. injection E2 as _ E2. assert (E3 : removelast (c' :: y) = x) by (rewrite E2; apply removelast_last).
  change (utf8_text (removelast (c' :: y))). rewrite E3. rewrite E2 in V. now apply utf8_tl in V.
Qed.

(** ** Comments *)
Lemma hashes_lt : (NL < 128 /\ CR < 128 /\ SP < 128 /\ HASH < 128)%N. Proof. repeat split; reflexivity. Qed.
Lemma utf8_cr t : utf8_text t -> utf8_text (replace_byte CR [] t).
Proof.
  intros (rs & H & ->). unfold replace_byte. induction H as [|r rs Hr H IH]; [apply utf8_nil|]. cbn [map List.concat]. rewrite flat_map_app.
  apply utf8_app; [|exact IH]. destruct (in_dec N.eq_dec CR (utf8_encode r)) as [I|I].
  - apply in_split in I as (x & y & E). pose proof (encode_ascii CR r x y (proj1 (proj2 hashes_lt)) E) as [-> ->]. rewrite E. apply utf8_nil.
  - assert (E : flat_map (fun c : N => if (c =? CR)%N then [] else [c]) (utf8_encode r) = utf8_encode r).
    { revert I. generalize (utf8_encode r). intros l I. induction l as [|c l IHl]; [reflexivity|]. cbn [flat_map]. destruct (N.eqb_spec c CR) as [-> | N]; [elim I; now left|].
      cbn [app]. f_equal. apply IHl. intros K. apply I. now right. }
    rewrite E, <- (app_nil_r (utf8_encode r)). apply utf8_cons; [exact Hr|apply utf8_nil].
Qed.
Lemma utf8_triml cut t : Forall (fun c => c < 128)%N cut -> utf8_text t -> utf8_text (trim_left cut t).
Proof.
  intros C. induction t as [|c t IH]; intros V; [exact V|]. cbn [trim_left]. destruct (mem c cut) eqn:M; [|exact V].
  apply IH. assert (L : (c < 128)%N). { unfold mem in M. apply existsb_exists in M as (x & I & E). apply N.eqb_eq in E. subst x. rewrite Forall_forall in C. auto. }
  now apply utf8_hd in V.
Qed.
Lemma utf8_trimr cut t : Forall (fun c => c < 128)%N cut -> utf8_text t -> utf8_text (trim_right cut t).
Proof.
  intros C. unfold trim_right. induction t as [|c t IH] using rev_ind; intros V; [exact V|]. rewrite rev_app_distr. cbn [rev app trim_left]. destruct (mem c cut) eqn:M.
  - assert (L : (c < 128)%N). { unfold mem in M. apply existsb_exists in M as (x & I & E). apply N.eqb_eq in E. subst x. rewrite Forall_forall in C. auto. }
    apply IH. now apply utf8_tl in V.
  - cbn [rev]. now rewrite rev_involutive.
Qed.
Lemma utf8_trim cut t : Forall (fun c => c < 128)%N cut -> utf8_text t -> utf8_text (trim cut t).
Proof. intros C V. unfold trim. now apply utf8_trimr, utf8_triml. Qed.
Lemma in_split_first c (t : bytes) : In c t -> exists x y, t = x ++ c :: y /\ ~ In c x.
Proof.
  induction t as [|d t IH]; intros I; [destruct I|]. destruct (N.eq_dec d c) as [-> | N]; [now exists [], t|].
  destruct I as [I|I]; [congruence|]. destruct (IH I) as (x & y & -> & K). exists (d :: x), y. split; [reflexivity|]. intros [J|J]; auto.
Qed.
Lemma utf8_lines t : utf8_text t -> U (split NL t).
Proof.
  induction t as [t IH] using (induction_ltof1 _ (@List.length N)). unfold ltof in IH. intros V.
  destruct (in_dec N.eq_dec NL t) as [I|I].
  - apply in_split_first in I as (x & y & E & N). subst t. apply utf8_at in V as [V1 V2]; [|apply hashes_lt].
    assert (S : split NL (x ++ NL :: y) = x :: split NL y).
    { clear -N. induction x as [|c x IHx]; [reflexivity|]. cbn [app]. rewrite split_cons by (intros ->; apply N; now left). rewrite IHx; [reflexivity|]. intros K. apply N. now right. }
    rewrite S. constructor; [exact V1|]. apply IH; [|exact V2]. rewrite app_length. cbn. lia.
  - assert (S : split NL t = [t]).
    { clear -I. induction t as [|c t IHt]; [reflexivity|]. rewrite split_cons by (intros ->; apply I; now left). rewrite IHt; [reflexivity|]. intros K. apply I. now right. }
    rewrite S. constructor; [exact V|constructor].
Qed.
Lemma utf8_after c t u : (c < 128)%N -> utf8_text t -> after_byte c t = Some u -> utf8_text u.
Proof.
  intros L V E. assert (X : exists x, t = x ++ c :: u).
  { revert E. clear. induction t as [|d t IH]; cbn [after_byte]; [discriminate|]. destruct (N.eqb_spec d c) as [-> | N]; [injection 1 as <-; now exists []|].
    intros E. destruct (IH E) as [x ->]. now exists (d :: x). }
  destruct X as [x ->]. now apply utf8_at in V.
Qed.
Lemma comment_lines_utf8 ls : U ls -> forall first space, U (com_texts (comment_lines first space ls)).
Proof.
  induction 1 as [|l ls V H IH]; intros first space; cbn [comment_lines]; [apply U_nil|]. destruct (after_byte HASH l) as [c|] eqn:E; [|apply IH].
  cbn [com_texts map c_text]. constructor; [|apply IH]. apply utf8_trim; [repeat constructor|]. eapply utf8_after; [|exact V|exact E]. reflexivity.
Qed.

(** ** Code blocks *)
Definition UV (v : val) : Prop := U (texts v).
Lemma UV_list l : Forall UV l <-> UV (VList l).
Proof. unfold UV. cbn [texts]. now rewrite U_flat. Qed.
Lemma iface_UV v : UV v -> Forall UV (iface_slice v).
Proof. destruct v; cbn [iface_slice]; intros H; try (constructor; [exact H|constructor]); [constructor|]. now apply UV_list. Qed.
Lemma map_first_texts f l : (forall c, c_text (f c) = c_text c) -> com_texts (map_first f l) = com_texts l.
Proof. intros H. destruct l; cbn; [reflexivity|]. now rewrite H. Qed.
Lemma map_last_texts f l : (forall c, c_text (f c) = c_text c) -> com_texts (map_last f l) = com_texts l.
Proof. intros H. induction l as [|x [|y l] IH]; [reflexivity|cbn; now rewrite H|]. change (map_last f (x :: y :: l)) with (x :: map_last f (y :: l)). cbn [com_texts map]. f_equal. exact IH. Qed.
Lemma comment_block_UV v x y : UV v -> U (com_texts (comment_block v x y)).
Proof.
  intros H. apply iface_UV in H. unfold comment_block. generalize U_nil. change (@nil bytes) with (com_texts []). generalize (@nil comment).
  induction H as [|a l Ha H IH]; intros acc K; [exact K|]. destruct a; cbn [comment_block_loop]; auto.
  - destruct y; apply IH; [now rewrite map_last_texts|exact K].
  - apply IH. unfold com_texts. rewrite map_app. apply U_app. split; [exact K|]. destruct (x && _); [|exact Ha]. change (U (com_texts (map_first set_before l0))). now rewrite map_first_texts.
Qed.
Lemma all_some_UV {B} (f : val -> option B) (g : B -> list bytes) l r :
  (forall v y, f v = Some y -> UV v -> U (g y)) -> Forall UV l -> all_some f l = Some r -> U (flat_map g r).
Proof.
  intros H K. revert r. induction K as [|v l Hv K IH]; intros r; cbn [all_some]; [injection 1 as <-; apply U_nil|].
  destruct (f v) as [y|] eqn:E; [|discriminate]. destruct (all_some f l) as [ys|]; [|discriminate]. injection 1 as <-. cbn [flat_map]. apply U_app. split; eauto.
Qed.
Lemma as_bop_UV v y : as_bop v = Some y -> UV v -> U (bop_texts y).
Proof. destruct v; try discriminate; injection 1 as <-; auto. Qed.
Lemma as_rvalue_UV v y : as_rvalue v = Some y -> UV v -> U (rvalue_texts y).
Proof. destruct v; try discriminate; [destruct a; try discriminate|..]; injection 1 as <-; auto. Qed.
Lemma as_strorre_UV v y : as_strorre v = Some y -> UV v -> U (strorre_texts y).
Proof. destruct v; try discriminate; [destruct a; try discriminate|..]; injection 1 as <-; auto. Qed.
Lemma set_com_UV a c : U (attr_texts a) -> U (com_texts c) -> U (attr_texts (set_attr_com a c)).
Proof. destruct a; cbn [set_attr_com attr_texts]; unfold str_texts, num_texts; cbn [sa_name sa_val sa_com na_name na_com]; rewrite ?U_cons, ?U_app; tauto. Qed.
Lemma bops_UV v : UV v -> U (flat_map bop_texts (branch_or_plugins v)).
Proof.
  intros H. apply iface_UV in H. unfold branch_or_plugins. destruct (all_some _ _) as [l|] eqn:E; [|apply U_nil]. eapply all_some_UV; [exact as_bop_UV|exact H|exact E].
Qed.
Lemma attributes_UV vs l : Forall UV vs -> attributes_loop vs = inl l -> U (flat_map attr_texts l).
Proof.
  intros H. revert l. induction H as [|v vs Hv H IH]; intros l; cbn [attributes_loop]; [injection 1 as <-; apply U_nil|]. destruct v; try discriminate.
  destruct (attributes_loop vs); [|discriminate]. injection 1 as <-. cbn [flat_map]. apply U_app. split; auto.
Qed.
Lemma hentries_UV vs l : Forall UV vs -> hentries_loop vs = Some l -> U (flat_map hentry_texts l).
Proof.
  intros H. revert l. induction H as [|v vs Hv H IH]; intros l; cbn [hentries_loop]; [injection 1 as <-; apply U_nil|]. destruct v; try discriminate.
  destruct (hentries_loop vs); [|discriminate]. injection 1 as <-. cbn [flat_map]. apply U_app. split; auto.
Qed.
Lemma else_ifs_UV vs l : Forall UV vs -> else_ifs_loop vs = inl l -> U (flat_map if_texts l).
Proof.
  intros H. revert l. induction H as [|v vs Hv H IH]; intros l; cbn [else_ifs_loop]; [injection 1 as <-; apply U_nil|]. destruct v; try discriminate.
  destruct (else_ifs_loop vs); [|discriminate]. injection 1 as <-. cbn [flat_map]. apply U_app. split; auto.
Qed.
Lemma exprs_UV vs l : Forall UV vs -> exprs_loop vs = inl l -> U (flat_map cexpr_texts l).
Proof.
  intros H. revert l. induction H as [|v vs Hv H IH]; intros l; cbn [exprs_loop]; [injection 1 as <-; apply U_nil|]. destruct v; try discriminate.
  destruct (exprs_loop vs); [|discriminate]. injection 1 as <-. cbn [flat_map]. apply U_app. split; auto.
Qed.
Lemma section_UV s : U (section_texts s) <-> U (flat_map bop_texts (ps_bops s)) /\ U (com_texts (ps_com s)) /\ U (com_texts (ps_foot s)).
Proof. unfold section_texts. now rewrite !U_app. Qed.
Lemma config_loop_UV com : U (com_texts com) -> forall vs first i f o i' f' o', Forall UV vs ->
  Forall (fun s => U (section_texts s)) i -> Forall (fun s => U (section_texts s)) f -> Forall (fun s => U (section_texts s)) o ->
  config_loop com first vs i f o = inl (i', f', o') ->
  Forall (fun s => U (section_texts s)) i' /\ Forall (fun s => U (section_texts s)) f' /\ Forall (fun s => U (section_texts s)) o'.
Proof.
  intros Hc vs first i f o i' f' o' H. revert first i f o. induction H as [|v vs Hv H IH]; intros first i f o Hi Hf Ho; cbn [config_loop]; [injection 1 as <- <- <-; auto|].
  destruct v; try discriminate. set (s' := if first then set_ps_com s com else s).
  assert (S : U (section_texts s')). { unfold s'. destruct first; [|exact Hv]. unfold UV in Hv. cbn [texts] in Hv. rewrite section_UV in *. cbn [set_ps_com ps_bops ps_com ps_foot]. tauto. }
  destruct (ps_type s'); try discriminate; apply IH; auto; apply Forall_app; split; auto.
Qed.
Lemma sat_utf8 t : utf8_text (sat_string t). Proof. destruct t; apply ascii_b; reflexivity. Qed.
Lemma value_string_utf8 s : utf8_text (sa_val s) -> utf8_text (sa_value_string s).
Proof. intros H. unfold sa_value_string. auto using utf8_app, sat_utf8. Qed.

Ltac fin := match goal with
  | H : RVal _ = RVal _ \/ _ |- _ => destruct H as [H|[? H]]; [injection H as <-|discriminate H]
  | H : RPanic _ = RVal _ \/ _ |- _ => destruct H as [H|[? H]]; discriminate H
  | H : conv_panic _ = RVal _ \/ _ |- _ => destruct H as [H|[? H]]; discriminate H
  | H : slice_panic = RVal _ \/ _ |- _ => destruct H as [H|[? H]]; discriminate H
  | H : RErr _ _ = RVal _ \/ _ |- _ => destruct H as [H|[? H]]; [discriminate H|injection H as <- _]
  end.
Lemma act_attribute_UV p name value v : UV name -> UV value ->
  act_attribute p name value = RVal v \/ (exists m, act_attribute p name value = RErr v m) -> UV v.
Proof.
  intros Hn Hv H. assert (Z : UV VNil) by apply U_nil. unfold act_attribute in H.
  assert (F : forall k, match name with VAttr (AtStr s) => Some (sa_value_string s) | VText t => Some t | _ => None end = Some k -> utf8_text k).
  { intros k. destruct name as [| | |x| | | |x| | | | | | | | | | | | | | | | | |]; try discriminate.
    - injection 1 as <-. now apply U_cons in Hn.
    - destruct x; try discriminate. injection 1 as <-. apply value_string_utf8. unfold UV in Hn. cbn [texts attr_texts] in Hn. unfold str_texts in Hn. rewrite !U_cons in Hn. tauto. }
  destruct (match name with VAttr _ => _ | _ => _ end) as [key|]; [|fin; exact Z]. specialize (F key eq_refl).
  destruct value as [| | | | | | |x| | | |x| | | | | | | | | | | | | |]; try (fin; exact Z).
  - unfold UV in *. cbn [texts] in Hv. destruct x; fin; try exact Z; cbn [texts attr_texts] in *; unfold str_texts, num_texts in *;
      cbn [sa_name sa_val sa_com na_name na_com com_texts map app] in *; rewrite ?U_cons, ?U_app in *; repeat split; try tauto; try apply U_nil.
  - fin. unfold UV in *. cbn [texts attr_texts com_texts map] in *. rewrite U_cons, U_app. repeat split; auto.
Qed.
Section Act.
  Variable a : action.
  Variable e : expr.
  Hypothesis Hin : In (a, e) (grammar_acts gen_grammar).
  Variable t : bytes.
  Hypothesis Hm : matches gen_grammar e t.
  Hypothesis Ht : utf8_text t.
  Variable en : env.
  Hypothesis He : forall l, UV (lookup l en).
  Lemma com_l l x y : U (com_texts (comment_block (lookup l en) x y)). Proof. apply comment_block_UV, He. Qed.

  Lemma run_action_UV ign w p v : run_action ign w a en p t = RVal v \/ (exists m, run_action ign w a en p t = RErr v m) -> UV v.
  Proof.
    intros H. assert (Z : UV VNil) by apply U_nil.
    assert (D : forall l v, lookup l en = v -> UV v) by (intros l v0 <-; apply He).
    assert (I := inner_utf8 a e t). specialize (fun x K => I x Hin K Hm Ht).
    destruct a; cbn [run_action takes_inner] in *.
    all: try (fin; unfold UV; cbn [texts]; first [apply He|apply U_nil|apply U_cons; split; [exact Ht|apply U_nil]]; fail).
    all: try (unfold act_cond_expr, act_neg_selector, act_in, act_compare, act_regexp_expr, act_rvalue, act_compare_op, act_regexp_op, act_boolean_op in H).
    - unfold act_ret_config in H. fin. unfold UV. cbn [texts texts_config sections cf_input cf_filter cf_output cf_foot].
      destruct (lookup l en) eqn:E; try apply U_nil. exact (D _ _ E).
    - unfold act_config_section in H. destruct (lookup ps en) eqn:E; fin; try apply U_nil. pose proof (D _ _ E) as K. unfold UV in *. cbn [texts] in *.
      rewrite section_UV in *. cbn [set_ps_com ps_bops ps_com ps_foot]. pose proof (com_l psComment false false). tauto.
    - unfold act_config in H. destruct (config_loop _ _ _ _ _ _) as [[[i f] o]|m] eqn:E; fin; [|apply U_nil].
      apply config_loop_UV in E as (K1 & K2 & K3); auto; [|apply com_l|apply Forall_app; split; apply iface_UV, He].
      unfold UV. cbn [texts]. unfold texts_config, sections. cbn [cf_input cf_filter cf_output cf_foot]. apply U_app. split; [|apply com_l].
      apply U_flat. rewrite !Forall_app. auto.
    - unfold act_comment in H. destruct ign; fin; [apply U_nil|]. unfold UV. cbn [texts]. apply comment_lines_utf8, utf8_lines, utf8_trim; [repeat constructor|]. now apply utf8_cr.
    - unfold act_string in H. assert (B : forall x ty, utf8_text x -> UV (VAttr (AtStr (StrAttr p [] x ty [])))).
      { intros x ty K. unfold UV. cbn [texts attr_texts]. unfold str_texts. cbn. repeat constructor; [apply utf8_nil|exact K]. }
      destruct t0; try (destruct (inner t) eqn:E); fin; apply B; auto.
    - destruct (inner t) eqn:E; fin. repeat constructor. auto.
    - unfold act_number in H. destruct (parse_float t); fin; repeat constructor; apply utf8_nil.
    - unfold act_regexp in H. destruct (inner t) eqn:E; fin. repeat constructor. auto.
    - unfold act_array in H. destruct (lookup attributes en) eqn:E; fin; unfold UV; cbn [texts attr_texts flat_map app com_texts map]; rewrite U_cons, ?U_app; split; try apply utf8_nil; try apply com_l.
      split; [exact (D _ _ E)|apply com_l].
    - eapply act_attribute_UV; [| |exact H]; apply He.
    - unfold act_attribute_comment in H. destruct (lookup attribute en) eqn:E; fin; try exact Z. apply set_com_UV; [exact (D _ _ E)|apply com_l].
    - unfold act_attributes in H.
      assert (F : UV (match act_attribute_comment (lookup attribute en) (lookup comment en) false with RVal v => v | RErr v _ => v | RPanic _ => VNil end)).
      { unfold act_attribute_comment. destruct (lookup attribute en) eqn:E; try exact Z. apply set_com_UV; [exact (D _ _ E)|apply com_l]. }
      destruct (attributes_loop _) eqn:E; fin; [|exact Z]. apply attributes_UV in E; [exact E|]. apply Forall_app. split; apply iface_UV; [exact F|apply He].
    - fin. exact Z.
    - unfold act_branch in H. destruct (else_ifs_loop _) eqn:E; [|fin; exact Z]. apply else_ifs_UV in E; [|apply iface_UV, He].
      assert (F : forall x, match lookup elseBlock en with VNil => Some zero_else | VElse x => Some x | _ => None end = Some x -> U (else_texts x)).
      { intros x. destruct (lookup elseBlock en) eqn:E2; try discriminate; injection 1 as <-; [exact Z|exact (D _ _ E2)]. }
      destruct (match lookup elseBlock en with VNil => _ | _ => _ end) as [eb|] eqn:E2; [|fin]. specialize (F _ eq_refl).
      destruct (lookup ifBlock en) as [| | | | | | | | | | | | |[]| | | | | | | | | | | |] eqn:E3; fin. pose proof (D _ _ E3) as K. unfold UV in *. cbn [texts if_texts] in *. rewrite !U_app in *. pose proof (com_l ifComment false false). tauto.
    - unfold act_bop_comment in H. destruct (lookup bop en) eqn:E; try (fin; exact Z).
      + destruct p0. fin. pose proof (D _ _ E) as K. unfold UV in *. cbn [texts plugin_texts] in *. rewrite !U_cons, !U_app in *. pose proof (com_l comment false false). tauto.
      + destruct i. fin. pose proof (D _ _ E) as K. unfold UV in *. cbn [texts if_texts] in *. rewrite !U_app in *. pose proof (com_l comment false false). tauto.
    - destruct (as_rvalue (lookup lv en)) eqn:E1; [|fin]. destruct (lookup co en); try fin. destruct (as_rvalue (lookup rv en)) eqn:E2; fin.
      apply as_rvalue_UV in E1, E2; try apply He. unfold UV. cbn [texts cexpr_texts]. now apply U_app.
    - fin. exact Z.
    - unfold act_condition in H. destruct (exprs_loop _) eqn:E; fin; [|exact Z]. apply exprs_UV in E; [exact E|]. apply Forall_app. split; apply iface_UV, He.
    - destruct (lookup cond en) eqn:E; fin. exact (D _ _ E).
    - unfold act_else_block in H. fin. unfold UV. cbn [texts else_texts com_texts map app]. apply U_app. split; [apply bops_UV, He|]. apply com_l.
    - unfold act_else_comment in H. destruct (lookup eb en) eqn:E; try fin. destruct e0. fin. pose proof (D _ _ E) as K. unfold UV in *. cbn [texts else_texts] in *. rewrite !U_app in *. pose proof (com_l ebComment false false). tauto.
    - unfold act_if_block in H. destruct (lookup cond en) eqn:E; fin. unfold UV. cbn [texts if_texts com_texts map app]. rewrite !U_app. split; [exact (D _ _ E)|]. split; [apply bops_UV, He|apply com_l].
    - unfold act_else_if_comment in H. destruct (lookup eib en) eqn:E; try fin. destruct b. fin. pose proof (D _ _ E) as K. unfold UV in *. cbn [texts if_texts] in *. rewrite !U_app in *. pose proof (com_l eibComment false false). tauto.
    - unfold act_expression in H. destruct (lookup expr en) eqn:E; try fin. destruct (lookup bo en) eqn:E2; try fin. pose proof (D _ _ E) as K. unfold UV in *. cbn [texts] in *. destruct e0; exact K.
    - unfold act_hash in H. destruct (lookup entries en) eqn:E; fin; unfold UV; cbn [texts attr_texts flat_map app com_texts map]; rewrite U_cons, ?U_app; split; try apply utf8_nil; try apply com_l.
      split; [exact (D _ _ E)|apply com_l].
    - unfold act_hashentries in H. destruct (lookup attribute en) eqn:E; try fin. destruct e0. destruct (hentries_loop _) eqn:E2; fin; [|exact Z].
      apply hentries_UV in E2; [|apply iface_UV, He]. pose proof (D _ _ E) as K. unfold UV in *. cbn [texts flat_map hentry_texts] in *. rewrite !U_app in *. rewrite map_first_texts by reflexivity. tauto.
    - unfold act_hashentry in H.
      assert (F : forall k, match lookup name en with VAttr (AtStr s) => Some (HKStr s) | VAttr (AtNum n) => Some (HKNum n) | _ => None end = Some k -> U (key_texts k)).
      { intros k. destruct (lookup name en) eqn:E; try discriminate. destruct a0; try discriminate; injection 1 as <-; exact (D _ _ E). }
      destruct (match lookup name en with VAttr _ => _ | _ => _ end); [|fin]. specialize (F _ eq_refl). destruct (lookup value en) eqn:E; fin.
      unfold UV. cbn [texts hentry_texts]. rewrite !U_app. split; [exact F|]. split; [exact (D _ _ E)|apply com_l].
    - unfold act_if_block in H. destruct (lookup cond en) eqn:E; fin. unfold UV. cbn [texts if_texts com_texts map app]. rewrite !U_app. split; [exact (D _ _ E)|]. split; [apply bops_UV, He|apply com_l].
    - destruct (as_rvalue (lookup lv en)) eqn:E1; [|fin]. destruct (as_rvalue (lookup rv en)) eqn:E2; fin.
      apply as_rvalue_UV in E1, E2; try apply He. unfold UV. cbn [texts cexpr_texts]. now apply U_app.
    - destruct (lookup cond en) eqn:E; fin. exact (D _ _ E).
    - destruct (lookup sel en) eqn:E; fin. exact (D _ _ E).
    - destruct (as_rvalue (lookup lv en)) eqn:E1; [|fin]. destruct (as_rvalue (lookup rv en)) eqn:E2; fin.
      apply as_rvalue_UV in E1, E2; try apply He. unfold UV. cbn [texts cexpr_texts]. now apply U_app.
    - unfold act_plugin in H.
      assert (F : forall l, match lookup attributes en with VNil => Some [] | VAttrs l => Some l | _ => None end = Some l -> U (flat_map attr_texts l)).
      { intros l. destruct (lookup attributes en) eqn:E; try discriminate; injection 1 as <-; [exact Z|exact (D _ _ E)]. }
      destruct (match lookup attributes en with VNil => _ | _ => _ end); [|fin]. specialize (F _ eq_refl). destruct (lookup name en) eqn:E; try fin. destruct a0; try fin.
      unfold UV. cbn [texts plugin_texts]. rewrite U_cons, !U_app. split; [|split; [exact F|split; apply com_l]].
      apply value_string_utf8. pose proof (D _ _ E) as K. unfold UV in K. cbn [texts attr_texts] in K. unfold str_texts in K. rewrite !U_cons in K. tauto.
    - unfold act_plugin_section in H. destruct (lookup pt en) eqn:E; try fin. destruct (all_some _ _) as [l|] eqn:E2; fin.
      apply (all_some_UV as_bop bop_texts _ _ as_bop_UV) in E2; [|apply iface_UV, He]. unfold UV. cbn [texts]. rewrite section_UV. cbn [ps_bops ps_com ps_foot]. split; [exact E2|]. split; [exact Z|apply com_l].
    - destruct (as_rvalue (lookup lv en)) eqn:E1; [|fin]. destruct (lookup ro en); try fin. destruct (as_strorre (lookup rv en)) eqn:E2; fin.
      apply as_rvalue_UV in E1; try apply He. apply as_strorre_UV in E2; try apply He. unfold UV. cbn [texts cexpr_texts]. now apply U_app.
    - fin. exact Z.
    - destruct (as_rvalue (lookup rv en)) eqn:E2; fin. apply as_rvalue_UV in E2; try apply He. exact E2.
    - unfold act_selector in H. destruct (all_some _ _) as [l|] eqn:E2; fin.
      apply (all_some_UV _ (fun s => [se_name s])) in E2; [|intros v y; destruct v; try discriminate; injection 1 as <-; auto|apply iface_UV, He].
      unfold UV. cbn [texts]. unfold sel_texts. cbn [sel_els]. clear -E2. induction l as [|x l IH]; [apply U_nil|]. cbn [flat_map map] in *. rewrite U_app in E2. rewrite U_cons. destruct E2 as [K1 K2]. apply U_cons in K1. tauto.
    - unfold act_selector_element in H. destruct (inner t) eqn:E; fin. repeat constructor. auto.
  Qed.
End Act.

(** ** The texts of a tree that was read *)
Theorem parse_texts opts ff data c errs ff' : k_entry (config_of opts) = "init"%string -> utf8_text data ->
  parse opts ff data = (Returned (VConfig c) errs, ff') -> Forall utf8_text (texts_config c).
Proof.
  intros He V. pose proof (parse_run opts ff data) as P. rewrite He, find_init in P. destruct P as (r & R & ->).
  destruct r as [v en s|en s|m x s|]; cbn; try discriminate.
  2: destruct (k_recover _); discriminate.
  intros E. assert (Hs : Reach data (s_pt (init_st (settings_of (config_of opts)) ff data))) by (rewrite init_st_pt; constructor).
  assert (K : UV v).
  { eapply (rule_inv _ gen_grammar data gen_lits_ok UV); [apply U_nil|intros; apply U_nil|intros l; apply UV_list| |exact find_init|exact R|exact Hs].
    clear -V. intros a e w en p q v I Hen R St M H. eapply run_action_UV; [exact I|exact M| |exact Hen|exact H].
    pose proof (reach_good _ _ V R) as G. pose proof (reach_good _ _ V (steps_reach _ _ _ R St)) as G2. destruct (steps_rest _ _ St) as [E _]. rewrite E in G. exact (utf8_prefix _ _ G G2). }
  inversion E; subst v. exact K.
Qed.

(** ** The printed form *)
Lemma flat_utf8 {A} (f : A -> bytes) l : Forall (fun x => utf8_text (f x)) l -> utf8_text (flat_map f l).
Proof. induction 1; cbn [flat_map]; [apply utf8_nil|now apply utf8_app]. Qed.
Lemma join_utf8 sep l : utf8_text sep -> Forall utf8_text l -> utf8_text (join sep l).
Proof. intros S. induction 1 as [|x l V H IH]; [apply utf8_nil|]. destruct l as [|y l]; [exact V|]. change (utf8_text (x ++ sep ++ join sep (y :: l))). auto using utf8_app. Qed.
Lemma ind_utf8 n : utf8_text (ind n).
Proof. apply utf8_ascii, Forall_forall. intros c I. apply repeat_spec in I. subst c. reflexivity. Qed.
Lemma b_utf8 s : forallb (fun c => c <? 128)%N (b s) = true -> utf8_text (b s). Proof. apply ascii_b. Qed.
Ltac lit := apply ascii_b; reflexivity.
Lemma comment_utf8 n c : utf8_text (c_text c) -> utf8_text (tcomment n c).
Proof. intros V. unfold tcomment. repeat apply utf8_app; try apply ind_utf8; try exact V; try lit; [destruct (c_before c); lit|destruct (c_after c); lit]. Qed.
Lemma coms_utf8 n l : U (com_texts l) -> utf8_text (tcoms n l).
Proof. intros V. apply flat_utf8. unfold U, com_texts in V. rewrite Forall_map in V. eapply Forall_impl; [|exact V]. intros c. apply comment_utf8. Qed.
Lemma foot_utf8 n l : U (com_texts l) -> utf8_text (tfoot n l).
Proof. intros V. apply coms_utf8. now rewrite map_last_texts. Qed.
Lemma body_utf8 n I e foot : utf8_text I -> U (com_texts foot) -> utf8_text (tbody n I e foot).
Proof.
  intros V F. assert (K : forall m, utf8_text m -> utf8_text ([NL] ++ I ++ m ++ tfoot (S n) foot ++ ind n)).
  { intros m M. repeat apply utf8_app; auto using foot_utf8, ind_utf8. lit. }
  unfold tbody. destruct I as [|c I]; [destruct foot as [|f foot]|destruct foot as [|f foot]]; try (apply K; lit).
  destruct e; [|apply utf8_nil]. apply utf8_hd; [reflexivity|apply ind_utf8].
Qed.
Lemma num_utf8 v : pr_num v -> utf8_text (number_string v).
Proof.
  intros [(sg & ip & fp & E & S & _ & D & F) _]. rewrite E.
  assert (G : forall l, Forall digit l -> utf8_text l) by (intros l G; apply utf8_ascii; eapply Forall_impl; [|exact G]; unfold digit; intros; lia).
  repeat apply utf8_app; [destruct S; subst; lit|auto|]. destruct F as [-> | (f & -> & F)]; [lit|]. apply utf8_hd; [reflexivity|auto].
Qed.
Lemma key_utf8 k : pr_key k -> U (key_texts k) -> utf8_text (hkey_string k).
Proof.
  destruct k; cbn [pr_key key_texts hkey_string]; intros P V.
  - unfold str_texts in V. rewrite !U_cons in V. now apply value_string_utf8.
  - now apply num_utf8.
Qed.
Lemma elems_utf8 l : Forall utf8_text l -> utf8_text (telems l).
Proof. intros V. unfold telems. destruct l; [lit|]. apply utf8_app; [|lit]. apply join_utf8; [lit|exact V]. Qed.
Lemma attr_head_utf8 a : U (attr_texts a) -> utf8_text (attr_name a) /\ U (com_texts (attr_com a)).
Proof. destruct a; cbn [attr_texts attr_name attr_com]; unfold str_texts, num_texts; rewrite ?U_cons, ?U_app; try tauto. intros _. split; [lit|apply U_nil]. Qed.
Lemma val_utf8 a : forall nm n, pr_attr nm a -> U (attr_texts a) -> utf8_text (tval n a).
Proof.
  assert (L : forall nm n l, Forall (fun a => forall nm n, pr_attr nm a -> U (attr_texts a) -> utf8_text (tval n a)) l -> All (pr_attr nm) l -> U (flat_map attr_texts l) ->
     Forall (fun x => utf8_text (tval n x) /\ utf8_text (attr_name x) /\ utf8_text (tcoms n (attr_com x))) l).
  { intros nm n l H P V. apply All_F in P. rewrite U_flat in V. rewrite Forall_forall in *. intros x I. destruct (attr_head_utf8 _ (V x I)). repeat split; eauto using coms_utf8. }
  induction a as [|s|v|p x l c f IH|p x l c f IH|p x v c IH] using attr_ind'; intros nm n P V; cbn [pr_attr attr_texts tval] in *.
  - lit.
  - unfold str_texts in V. rewrite !U_cons in V. now apply value_string_utf8.
  - now apply num_utf8.
  - rewrite U_cons, !U_app in V. destruct P as (_ & _ & _ & P), V as (_ & V & _ & Vf). apply (L false (S n) l IH P) in V.
    repeat apply utf8_app; try lit. apply body_utf8; [|exact Vf]. apply elems_utf8. rewrite Forall_map. eapply Forall_impl; [|exact V]. cbn beta. intros y (K1 & K2 & K3). auto using utf8_app, ind_utf8.
  - rewrite U_cons, !U_app in V. destruct P as (_ & _ & _ & P), V as (_ & V & _ & Vf).
    repeat apply utf8_app; try lit. apply body_utf8; [|exact Vf]. apply flat_utf8. apply All_F in P. rewrite U_flat in V. rewrite Forall_forall in *. intros y I. specialize (P y I). specialize (V y I). specialize (IH y I).
    destruct y as [hp k w com]. cbn [pr_hentry hentry_texts thentry hval] in *. rewrite !U_app in V. destruct P as (P1 & _ & P2 & _), V as (V1 & V2 & V3).
    repeat apply utf8_app; auto using ind_utf8, coms_utf8, key_utf8; try lit. eauto.
  - destruct P as (_ & _ & _ & P & _). rewrite U_cons, U_app in V. destruct V as (_ & V & _). destruct v as [vp vn vl vc vf]. cbn [pattrs pr_plugin plugin_texts tplugin] in *. rewrite U_cons, !U_app in V.
    destruct P as (_ & _ & _ & P), V as (V1 & V2 & _ & Vf). apply (L true (S n) vl IH P) in V2.
    repeat apply utf8_app; try lit; [exact V1|]. apply body_utf8; [|exact Vf]. apply flat_utf8. eapply Forall_impl; [|exact V2]. cbn beta. intros y (K1 & K2 & K3). repeat apply utf8_app; auto using ind_utf8; lit.
Qed.
Lemma plugin_utf8 n x : pr_plugin x -> U (plugin_texts x) -> utf8_text (tplugin n x).
Proof.
  intros P V. destruct x as [vp vn vl vc vf]. cbn [pr_plugin plugin_texts tplugin] in *. rewrite U_cons, !U_app in V. destruct P as (_ & _ & _ & P), V as (V1 & V2 & _ & Vf).
  repeat apply utf8_app; try lit; [exact V1|]. apply body_utf8; [|exact Vf]. apply flat_utf8. apply All_F in P. rewrite U_flat in V2. rewrite Forall_forall in *. intros y I.
  destruct (attr_head_utf8 _ (V2 y I)). repeat apply utf8_app; auto using ind_utf8, coms_utf8; try lit. eapply val_utf8; eauto.
Qed.
Lemma sel_utf8 s : U (sel_texts s) -> utf8_text (selector_string s).
Proof.
  unfold sel_texts, selector_string. intros V. apply flat_utf8. unfold U in V. rewrite Forall_map in V. eapply Forall_impl; [|exact V]. intros x K. repeat apply utf8_app; auto; lit.
Qed.
Lemma re_utf8 r : utf8_text (re_text r) -> utf8_text (regexp_string r).
Proof. intros V. unfold regexp_string. repeat apply utf8_app; auto; lit. Qed.
Lemma rvalue_utf8 n r : pr_rvalue r -> U (rvalue_texts r) -> utf8_text (trvalue n r).
Proof.
  destruct r as [|s|v|s|p x l c f|r]; cbn [pr_rvalue rvalue_texts trvalue]; intros P V.
  - lit.
  - unfold str_texts in V. rewrite !U_cons in V. now apply value_string_utf8.
  - now apply num_utf8.
  - now apply sel_utf8.
  - apply (val_utf8 _ false); [|exact V]. cbn [pr_attr]. unfold named, com_ok. destruct P as (-> & -> & P1 & P2 & _). repeat split; auto.
  - apply U_cons in V. now apply re_utf8.
Qed.
Lemma strorre_utf8 r : U (strorre_texts r) -> utf8_text (strorre_string r).
Proof.
  destruct r; cbn [strorre_texts strorre_string]; intros V; [lit| |apply U_cons in V; now apply re_utf8]. unfold str_texts in V. rewrite !U_cons in V. now apply value_string_utf8.
Qed.
Lemma bo_utf8 o : utf8_text (boolop_string o). Proof. destruct o; lit. Qed.
Lemma co_utf8 o : utf8_text (cmpop_string o). Proof. destruct o; lit. Qed.
Lemma ro_utf8 o : utf8_text (reop_string o). Proof. destruct o; lit. Qed.
Lemma exprs_utf8 n l : Forall (fun e => forall first, pr_cexpr first e -> U (cexpr_texts e) -> utf8_text (tcexpr n e)) l ->
  pr_cond (Cond l) -> U (cond_texts (Cond l)) -> utf8_text (tcond n (Cond l)).
Proof.
  intros H P V. cbn [tcond cond_texts] in *. rewrite U_flat in V. apply flat_utf8. destruct H as [|e l He H]; [constructor|]. destruct P as [P1 P2]. inversion_clear V as [|? ? V1 V2].
  constructor; [eauto|]. apply All_F in P2. rewrite Forall_forall in *. intros x I. eapply H; eauto.
Qed.
Lemma cexpr_utf8 n e : forall first, pr_cexpr first e -> U (cexpr_texts e) -> utf8_text (tcexpr n e).
Proof.
  induction e as [|p bo c IH|p bo c IH|p bo s|p bo l r|p bo l r|p bo r|p bo l o r|p bo l o r] using cexpr_ind'; intros first P V; cbn [pr_cexpr cexpr_texts tcexpr] in *.
  - lit.
  - destruct c as [l]. repeat apply utf8_app; try lit; try apply bo_utf8. apply exprs_utf8; tauto.
  - destruct c as [l]. repeat apply utf8_app; try lit; try apply bo_utf8. apply exprs_utf8; tauto.
  - repeat apply utf8_app; try lit; try apply bo_utf8. now apply sel_utf8.
  - apply U_app in V as [V1 V2]. repeat apply utf8_app; try lit; try apply bo_utf8; apply rvalue_utf8; tauto.
  - apply U_app in V as [V1 V2]. repeat apply utf8_app; try lit; try apply bo_utf8; apply rvalue_utf8; tauto.
  - apply utf8_app; [apply bo_utf8|apply rvalue_utf8; tauto].
  - apply U_app in V as [V1 V2]. repeat apply utf8_app; try lit; try apply bo_utf8; try apply co_utf8; apply rvalue_utf8; tauto.
  - apply U_app in V as [V1 V2]. repeat apply utf8_app; try lit; try apply bo_utf8; try apply ro_utf8; [apply rvalue_utf8; tauto|now apply strorre_utf8].
Qed.
Lemma cond_utf8 n c : pr_cond c -> U (cond_texts c) -> utf8_text (tcond n c).
Proof. destruct c as [l]. apply exprs_utf8, Forall_forall. intros e _. apply cexpr_utf8. Qed.
Lemma block_utf8 n l foot : Forall (fun x => utf8_text (tbop (S n) x)) l -> U (com_texts foot) -> utf8_text (tblock n (join [NL] (map (fun y => tbop (S n) y ++ [NL]) l)) foot).
Proof.
  intros H F. unfold tblock. repeat apply utf8_app; try lit. apply body_utf8; [|exact F]. apply join_utf8; [lit|]. rewrite Forall_map. eapply Forall_impl; [|exact H]. cbn beta. intros x K. apply utf8_app; [exact K|lit].
Qed.
Lemma intro_utf8 n c : U (com_texts c) -> utf8_text (tintro n c).
Proof. intros V. unfold tintro. destruct c as [|x c]; [lit|]. apply utf8_app; [lit|]. apply utf8_app; [now apply coms_utf8|apply ind_utf8]. Qed.
Lemma bop_utf8 x : forall n, pr_bop x -> U (bop_texts x) -> utf8_text (tbop n x).
Proof.
  induction x as [|p|p|i es e IHi IHes IHe] using bop_ind'; intros n P V.
  - lit.
  - destruct P as [P _]. cbn [bop_texts tbop] in *. pose proof (plugin_utf8 n p P V) as K. destruct p as [vp vn vl vc vf]. cbn [plugin_texts] in V. rewrite U_cons, !U_app in V. apply utf8_app; [apply coms_utf8; tauto|]. apply utf8_app; [apply ind_utf8|exact K].
  - destruct P as [P _]. cbn [bop_texts tbop] in *. pose proof (plugin_utf8 n p P V) as K. destruct p as [vp vn vl vc vf]. cbn [plugin_texts] in V. rewrite U_cons, !U_app in V. apply utf8_app; [apply coms_utf8; tauto|]. apply utf8_app; [apply ind_utf8|exact K].
  - assert (B : forall l, Forall (fun x => forall n, pr_bop x -> U (bop_texts x) -> utf8_text (tbop n x)) l -> All pr_bop l -> U (flat_map bop_texts l) -> Forall (fun x => utf8_text (tbop (S n) x)) l).
    { intros l H Q W. apply All_F in Q. rewrite U_flat in W. rewrite Forall_forall in *. auto. }
    change (U (if_texts i ++ flat_map if_texts es ++ else_texts e)) in V. rewrite !U_app in V. destruct V as (V1 & V2 & V3). change (pr_if i /\ All pr_if es /\ pr_else e) in P. destruct P as (P1 & P2 & P3).
    assert (E : utf8_text (flat_map (telseif n) es)).
    { apply flat_utf8. apply All_F in P2. rewrite U_flat in V2. rewrite Forall_forall in P2, V2, IHes. apply Forall_forall. intros [p c l com foot] I. specialize (IHes _ I). specialize (P2 _ I). specialize (V2 _ I). cbn [block pr_if if_texts telseif] in *.
      rewrite !U_app in V2. apply utf8_app; [apply intro_utf8; tauto|]. apply utf8_app; [lit|]. apply utf8_app; [apply cond_utf8; tauto|]. apply utf8_app; [lit|]. apply block_utf8; [apply B; tauto|tauto]. }
    destruct i as [p c l com foot], e as [ep el ecom efoot]. cbn [block eblock pr_if pr_else if_texts else_texts] in *. rewrite !U_app in V1. rewrite !U_app in V3.
    cbn [tbop]. apply utf8_app; [apply coms_utf8; tauto|]. apply utf8_app; [apply ind_utf8|]. apply utf8_app; [lit|]. apply utf8_app; [apply cond_utf8; tauto|]. apply utf8_app; [lit|].
    apply utf8_app; [apply block_utf8; [apply B; tauto|tauto]|]. apply utf8_app; [exact E|].
    assert (K : utf8_text (tintro n ecom ++ b "else " ++ tblock n (join [NL] (map (fun y => tbop (S n) y ++ [NL]) el)) efoot)).
    { apply utf8_app; [apply intro_utf8; tauto|]. apply utf8_app; [lit|]. apply block_utf8; [apply B; tauto|tauto]. }
    destruct el; [destruct ecom; [destruct efoot; [lit|]|]|]; exact K.
Qed.
Lemma sections_utf8 kind t l : utf8_text kind -> All (pr_section t) l -> U (flat_map section_texts l) -> utf8_text (tsections kind l).
Proof.
  intros K P V. unfold tsections. apply join_utf8; [lit|]. rewrite Forall_map. apply All_F in P. rewrite U_flat in V.
  assert (C : U (com_texts (match l with p0 :: _ => ps_com p0 | [] => [] end))).
  { destruct V as [|x l' V _]; [apply U_nil|]. now apply section_UV in V. }
  rewrite Forall_forall in *. intros x I. specialize (P x I). specialize (V x I). apply section_UV in V as (V1 & _ & V2). unfold pr_section in P. unfold tsection.
  apply utf8_app; [now apply coms_utf8|]. apply utf8_app; [exact K|]. apply utf8_app; [lit|]. apply utf8_app; [|lit]. apply body_utf8; [|exact V2]. unfold tbops. apply join_utf8; [lit|]. rewrite Forall_map.
  assert (Q : All pr_bop (ps_bops x)) by tauto. apply All_F in Q. rewrite U_flat in V1. rewrite Forall_forall in *. intros y J. apply utf8_app; [|lit]. apply bop_utf8; auto.
Qed.
Theorem printed_utf8 c : printable c -> Forall utf8_text (texts_config c) -> utf8_text (config_string c).
Proof.
  intros P V. rewrite (config_layout c P). destruct P as (P1 & P2 & P3 & _). change (U (texts_config c)) in V. unfold texts_config, sections in V. rewrite !flat_map_app, !U_app in V.
  unfold tconfig. repeat apply utf8_app; [eapply sections_utf8; [lit|exact P1|tauto]|eapply sections_utf8; [lit|exact P2|tauto]|eapply sections_utf8; [lit|exact P3|tauto]|apply coms_utf8; tauto].
Qed.
