(** A type system for the values that flow between the code blocks of the
    grammar: which errors and panics a run of the parser can produce. *)
From Coq Require Import List NArith Bool String Arith Lia.
From Verif Require Import Bytes Utf8 F64 Ast Peg Actions Engine Parser GrammarGen QuoteFacts PosFacts Run EngineFacts
  Termination Matches RunInv Sim HistFacts ParseFacts.
Import ListNotations.

(** ** Tags of values *)

(** [TBad]: values no code block produces.  [TLost]: the nil that stands for an
    array element dropped with an error. *)
Inductive tag :=
| TNil | TLost | TBytes | TList | TText | TWs | TComs | TPType
| TStr | TNum | TArr | THash | TPlugA | TAttrs | THEntry | THEntries
| TPlugin | TBranch | TIf | TElseIf | TElse | TCond | TExpr | TBool | TCmp | TReOp
| TSel | TSelEl | TRe | TSection | TConfig | TBad.
Scheme Equality for tag.

Definition tag_of (v : val) : tag :=
  match v with
  | VNil => TNil | VBytes _ => TBytes | VList _ => TList | VText _ => TText | VWs => TWs
  | VComments _ => TComs
  | VPType PTUndef => TBad | VPType _ => TPType
  | VAttr AtNil => TBad | VAttr (AtStr _) => TStr | VAttr (AtNum _) => TNum
  | VAttr (AtArr _ _ _ _ _) => TArr | VAttr (AtHash _ _ _ _ _) => THash | VAttr (AtPlug _ _ _ _) => TPlugA
  | VAttrs _ => TAttrs | VHEntry _ => THEntry | VHEntries _ => THEntries
  | VPlugin _ => TPlugin | VBranch _ _ _ => TBranch | VIf _ => TIf | VElseIf _ => TElseIf | VElse _ => TElse
  | VCond _ => TCond | VExpr _ => TExpr | VBoolOp _ => TBool | VCmpOp _ => TCmp | VReOp _ => TReOp
  | VSel _ => TSel | VSelEl _ => TSelEl | VRe _ => TRe
  | VSection s => match ps_type s with PTUndef => TBad | _ => TSection end
  | VConfig _ => TConfig
  end.

(** A type: the tags of the value, and of its elements if it is a list. *)
Definition ty : Type := list tag * list tag.
Definition mem (t : tag) (l : list tag) : bool := existsb (tag_beq t) l.
Definition sub (l m : list tag) : bool := forallb (fun t => mem t m) l.
Lemma mem_in t l : mem t l = true <-> In t l.
Proof.
  unfold mem. rewrite existsb_exists. split.
  - intros (x & H & E). apply internal_tag_dec_bl in E. now subst.
  - intros H. exists t. split; [exact H|]. now apply internal_tag_dec_lb.
Qed.
Lemma sub_in l m t : sub l m = true -> In t l -> In t m.
Proof. unfold sub. rewrite forallb_forall. intros H I. now apply mem_in, H. Qed.

(** [L]: an element was lost. *)
Definition tagged (L : Prop) (l : list tag) (v : val) : Prop :=
  In (tag_of v) l \/ (v = VNil /\ In TLost l /\ L).
Definition has (L : Prop) (t : ty) (v : val) : Prop :=
  tagged L (fst t) v /\ match v with VList l => Forall (tagged L (snd t)) l | _ => True end.
Definition subty (t u : ty) : bool := sub (fst t) (fst u) && sub (snd t) (snd u).

Lemma tagged_mono (L L' : Prop) l m v : (L -> L') -> (forall t, In t l -> In t m) -> tagged L l v -> tagged L' m v.
Proof. intros HL Hi [H|(H1 & H2 & H3)]; [left; auto|right; auto]. Qed.
Lemma has_mono (L L' : Prop) t u v : (L -> L') -> (forall x, In x (fst t) -> In x (fst u)) ->
  (forall x, In x (snd t) -> In x (snd u)) -> has L t v -> has L' u v.
Proof.
  intros HL H1 H2 [A B]. split; [eapply tagged_mono; eauto|]. destruct v; auto.
  eapply Forall_impl; [|exact B]. intros x. now apply tagged_mono.
Qed.
Lemma has_later (L L' : Prop) t v : (L -> L') -> has L t v -> has L' t v.
Proof. intros HL. apply has_mono; auto. Qed.
Lemma has_sub L t u v : subty t u = true -> has L t v -> has L u v.
Proof.
  unfold subty. intros H. apply andb_true_iff in H as [H1 H2]. apply has_mono; auto; intros x; now apply sub_in.
Qed.

(** ** Environments *)

Notation aenv := (list (string * ty)).
Fixpoint alookup (l : string) (e : aenv) : ty :=
  match e with [] => ([TNil], []) | (k, t) :: e' => if String.eqb k l then t else alookup l e' end.
Definition env_has (L : Prop) (en : env) (ae : aenv) : Prop := forall l, has L (alookup l ae) (lookup l en).
Lemma env_nil L : env_has L [] [].
Proof. intros l. split; [left; now left|exact I]. Qed.
Lemma env_bind (L : Prop) l v t en ae : has L t v -> env_has L en ae -> env_has L (bind l v en) ((l, t) :: ae).
Proof. intros H E k. cbn. destruct (String.eqb l k); auto. Qed.
Lemma env_later (L L' : Prop) en ae : (L -> L') -> env_has L en ae -> env_has L' en ae.
Proof. intros HL E l. eapply has_later; eauto. Qed.

(** ** The reasons of errors and panics of code blocks *)

Definition unsupported (m : emsg) : Prop := exists p, m = MGo (b "Unsupported attribute type %#v") (VPlugin p).
Definition lost_element : emsg := MGo (b "Argument is not an attribute: %#v") VNil.
Definition range_error (text : bytes) : emsg :=
  MText (b "strconv.ParseFloat: parsing """ ++ text ++ b """: value out of range").
Definition plugin_conversion (m : emsg) : Prop := exists p, m = MGo (b "interface conversion") (VPlugin p).

(** ** Typing code blocks *)

Definition AT : list tag := [TStr; TNum; TArr; THash; TPlugA].
Definition RV : list tag := [TStr; TNum; TArr; TSel; TRe].
Definition PB : list tag := [TPlugin; TBranch].
(** The elements [iface_slice] makes of a value *)
Definition slice_tags (t : ty) : list tag :=
  filter (fun x => negb (mem x [TNil; TLost; TList])) (fst t) ++ (if mem TList (fst t) then snd t else []).
Definition one (t : tag) : ty := ([t], []).

(** The code block cannot go wrong, except for the reasons above; [n]: the
    least length of its text. *)
Definition act_ok (a : action) (ae : aenv) (n : nat) : bool :=
  let is l ts := sub (fst (alookup l ae)) ts in
  let all l ts := sub (slice_tags (alookup l ae)) ts in
  match a with
  | ARet _ | ARetConfig _ | AEmptyConfig | AComment | AWhitespace | AStr | ANumber
  | ABooleanOperator | ACompareOperator | ARegexpOperator | AElseBlock _ _ => true
  | AConfigSection ps _ => is ps [TSection]
  | AConfig ps pss _ _ => all ps [TSection] && all pss [TSection]
  | AString t => match t with Bareword => true | _ => 2 <=? n end
  | AEnclosedValue | ARegexp | ASelectorElement => 2 <=? n
  | AArray l _ => is l [TNil; TAttrs]
  | AAttribute nm v => is nm [TStr; TText] && is v [TStr; TNum; TArr; THash; TPlugin]
  | AAttributeComment x _ _ => is x (TPlugin :: AT)
  | AAttributes _ xs _ => all xs (TLost :: AT)
  | ABranch i es e _ => is i [TIf] && all es [TElseIf] && is e [TNil; TElse]
  | ABranchOrPluginComment x _ => is x PB
  | ACompareExpression l o r => is l RV && is o [TCmp] && is r RV
  | ACondition x xs => all x [TExpr] && all xs [TExpr]
  | AConditionExpression c | ANegativeExpression c => is c [TCond]
  | AElseComment x _ => is x [TElse]
  | AElseIfBlock c _ _ | AIfBlock c _ _ => is c [TCond]
  | AElseIfComment x _ => is x [TElseIf]
  | AExpression o x => is o [TBool] && is x [TExpr]
  | AHash l _ => is l [TNil; THEntries]
  | AHashentries x xs => is x [THEntry] && all xs [THEntry]
  | AHashentry nm v _ => is nm [TStr; TNum] && is v (TPlugin :: AT)
  | AInExpression l r | ANotInExpression l r => is l RV && is r RV
  | ANegativeSelector s => is s [TSel]
  | APlugin nm l _ _ => is nm [TStr] && is l [TNil; TAttrs]
  | APluginSection t l _ => is t [TPType] && all l PB
  | APluginType t => match t with PTUndef => false | _ => true end
  | ARegexpExpression l o r => is l RV && is o [TReOp] && is r [TStr; TRe]
  | ARvalue r => is r RV
  | ASelector l => all l [TSelEl]
  end.
Definition act_ty (a : action) (ae : aenv) : ty :=
  match a with
  | ARet l => alookup l ae
  | ARetConfig _ | AEmptyConfig | AConfig _ _ _ _ => one TConfig
  | AConfigSection _ _ | APluginSection _ _ _ => one TSection
  | AComment => one TComs
  | AWhitespace => one TWs
  | AStr | AEnclosedValue => one TText
  | AString _ => one TStr
  | ANumber => one TNum
  | ARegexp => one TRe
  | AArray _ _ => one TArr
  | AAttribute _ _ => (AT, [])
  | AAttributeComment x _ _ =>
      let ts := fst (alookup x ae) in
      (filter (fun t => mem t AT) ts ++ (if mem TPlugin ts then [TLost] else []), [])
  | AAttributes _ _ _ => one TAttrs
  | ABooleanOperator => one TBool
  | ABranch _ _ _ _ => one TBranch
  | ABranchOrPluginComment x _ => (fst (alookup x ae), [])
  | ACompareExpression _ _ _ | AConditionExpression _ | ANegativeExpression _ | ANegativeSelector _
  | AExpression _ _ | AInExpression _ _ | ANotInExpression _ _ | ARegexpExpression _ _ _ | ARvalue _ => one TExpr
  | ACompareOperator => one TCmp
  | ACondition _ _ => one TCond
  | AElseBlock _ _ | AElseComment _ _ => one TElse
  | AElseIfBlock _ _ _ | AElseIfComment _ _ => one TElseIf
  | AHash _ _ => one THash
  | AHashentries _ _ => one THEntries
  | AHashentry _ _ _ => one THEntry
  | AIfBlock _ _ _ => one TIf
  | APlugin _ _ _ _ => one TPlugin
  | APluginType _ => one TPType
  | ARegexpOperator => one TReOp
  | ASelector _ => one TSel
  | ASelectorElement => one TSelEl
  end.

(** ** Code blocks respect their types *)

Lemma is_tag L t ts v : sub (fst t) ts = true -> has L t v -> ~ In TLost ts -> In (tag_of v) ts.
Proof.
  intros H [[A|(_ & A & _)] _] N; [exact (sub_in _ _ _ H A)|]. exfalso. apply N. exact (sub_in _ _ _ H A).
Qed.
Lemma all_tags L t ts v : sub (slice_tags t) ts = true -> has L t v -> Forall (tagged L ts) (iface_slice v).
Proof.
  intros H [A B]. destruct t as [t1 t2]. unfold slice_tags in H. cbn [fst snd] in *.
  assert (N : tag_of v <> TNil -> tag_of v <> TList -> Forall (tagged L ts) [v]).
  { intros N1 N2. constructor; [|constructor]. destruct A as [A|(-> & _ & _)]; [|now destruct N1]. left. apply (sub_in _ _ _ H).
    apply in_or_app. left. apply filter_In. split; [exact A|].
    destruct v; cbn in *; try reflexivity; try congruence.
    - now destruct t.
    - now destruct a.
    - now destruct (ps_type s). }
  destruct v; try (apply N; cbn; try congruence).
  - constructor.
  - cbn. destruct A as [A|(E & _)]; [|discriminate]. apply mem_in in A. cbn in A. rewrite A in H.
    eapply Forall_impl; [|exact B]. intros x [X|(X & X2 & X3)].
    + left. apply (sub_in _ _ _ H). apply in_or_app. now right.
    + right. repeat split; auto. apply (sub_in _ _ _ H). apply in_or_app. now right.
  - now destruct t.
  - now destruct t.
  - now destruct a.
  - now destruct a.
  - now destruct (ps_type s).
  - now destruct (ps_type s).
Qed.
Lemma all_plain L ts l : Forall (tagged L ts) l -> ~ In TLost ts -> Forall (fun v => In (tag_of v) ts) l.
Proof. intros H N. eapply Forall_impl; [|exact H]. now intros v [A|(_ & A & _)]. Qed.
Lemma has_one L t v : tag_of v = t -> t <> TList -> has L (one t) v.
Proof. intros E N. split; [left; now left|]. destruct v; auto. now destruct N. Qed.

Lemma tags_sections l com : Forall (fun v => In (tag_of v) [TSection]) l ->
  forall first i f o, exists x, config_loop com first l i f o = inl x.
Proof.
  induction 1 as [|v l [H|[]] _ IH]; intros first i f o; [now eexists|].
  destruct v; try discriminate H; try (destruct t; discriminate H); try (destruct a; discriminate H).
  cbn in H. cbn [config_loop]. replace (ps_type (if first then set_ps_com s com else s)) with (ps_type s) by now destruct first.
  destruct (ps_type s); try discriminate H; apply IH.
Qed.
Lemma tags_bops l : Forall (fun v => In (tag_of v) PB) l -> exists x, all_some as_bop l = Some x.
Proof.
  induction 1 as [|v l H _ [x IH]]; [now eexists|]. cbn. rewrite IH.
  assert (E : exists y, as_bop v = Some y).
  { destruct H as [H|[H|[]]]; destruct v; try discriminate H; try (destruct t; discriminate H); try (destruct a; discriminate H);
    try (cbn in H; destruct (ps_type s); discriminate H); now eexists. }
  destruct E as [y ->]. now eexists.
Qed.
Ltac tag_cases v H := destruct v; try discriminate H;
  try match goal with
  | t : ptype |- _ => destruct t; discriminate H
  | a : attr |- _ => destruct a; discriminate H
  | s : section |- _ => cbn in H; destruct (ps_type s); discriminate H
  end.
Lemma tags_elseifs l : Forall (fun v => In (tag_of v) [TElseIf]) l -> exists x, else_ifs_loop l = inl x.
Proof.
  induction 1 as [|v l [H|[]] _ [x IH]]; [now eexists|]. tag_cases v H. cbn. rewrite IH. now eexists.
Qed.
Lemma tags_exprs l : Forall (fun v => In (tag_of v) [TExpr]) l -> exists x, exprs_loop l = inl x.
Proof.
  induction 1 as [|v l [H|[]] _ [x IH]]; [now eexists|]. tag_cases v H. cbn. rewrite IH. now eexists.
Qed.
Lemma tags_hentries l : Forall (fun v => In (tag_of v) [THEntry]) l -> exists x, hentries_loop l = Some x.
Proof.
  induction 1 as [|v l [H|[]] _ [x IH]]; [now eexists|]. tag_cases v H. cbn. rewrite IH. now eexists.
Qed.
Lemma tags_selels l : Forall (fun v => In (tag_of v) [TSelEl]) l ->
  exists x, all_some (fun v => match v with VSelEl s => Some s | _ => None end) l = Some x.
Proof.
  induction 1 as [|v l [H|[]] _ [x IH]]; [now eexists|]. tag_cases v H. cbn. rewrite IH. now eexists.
Qed.
Lemma tags_attrs (L : Prop) l : Forall (tagged L (TLost :: AT)) l ->
  match attributes_loop l with inl _ => True | inr v => v = VNil /\ L end.
Proof.
  induction 1 as [|v l H _ IH]; [exact I|].
  destruct H as [H|(-> & _ & H)]; [|now cbn].
  assert (E : exists a, v = VAttr a).
  { destruct H as [H|[H|[H|[H|[H|[H|[]]]]]]]; tag_cases v H; now eexists. }
  destruct E as [a ->]. cbn. now destruct (attributes_loop l).
Qed.
Lemma tags_rvalue v : In (tag_of v) RV -> exists r, as_rvalue v = Some r.
Proof.
  intros [H|[H|[H|[H|[H|[]]]]]]; destruct v; try discriminate H; try (destruct t; discriminate H);
    try (cbn in H; destruct (ps_type s); discriminate H); try (now eexists);
  destruct a; try discriminate H; now eexists.
Qed.
Lemma tags_strre v : In (tag_of v) [TStr; TRe] -> exists r, as_strorre v = Some r.
Proof.
  intros [H|[H|[]]]; destruct v; try discriminate H; try (destruct t; discriminate H);
    try (cbn in H; destruct (ps_type s); discriminate H); try (now eexists);
  destruct a; try discriminate H; now eexists.
Qed.
Lemma inner_some text : 2 <= List.length text -> exists v, inner text = Some v.
Proof. destruct text as [|x [|y t]]; cbn; try lia. intros _. now eexists. Qed.

Definition block_ok (L : Prop) (a : action) (t : ty) (text : bytes) (r : ares) : Prop :=
  match r with
  | RVal v => has L t v
  | RErr v m =>
      ((a = ANumber /\ m = range_error text /\ parse_float text = None) \/ unsupported m \/ (m = lost_element /\ L)) /\
      has (L \/ unsupported m) t v
  | RPanic m => plugin_conversion m
  end.

Lemma run_ok ign warns L a en ae pos text n : env_has L en ae -> n <= List.length text -> act_ok a ae n = true ->
  block_ok L a (act_ty a ae) text (run_action ign warns a en pos text).
Proof.
  intros E Hn H.
  assert (Is : forall l ts, sub (fst (alookup l ae)) ts = true -> mem TLost ts = false -> In (tag_of (lookup l en)) ts).
  { intros l ts A B. eapply is_tag; [exact A|apply E|]. intros C. apply mem_in in C. congruence. }
  assert (All : forall l ts, sub (slice_tags (alookup l ae)) ts = true -> mem TLost ts = false ->
    Forall (fun v => In (tag_of v) ts) (iface_slice (lookup l en))).
  { intros l ts A B. eapply all_plain; [eapply all_tags; [exact A|apply E]|]. intros C. apply mem_in in C. congruence. }
  assert (Inner : (2 <=? n) = true -> exists v, inner text = Some v).
  { intros A. apply Nat.leb_le in A. apply inner_some. lia. }
  assert (One : forall t v, tag_of v = t -> tag_beq t TList = false -> block_ok L a (one t) text (RVal v)).
  { intros t v A B. apply has_one; [exact A|]. intros ->. discriminate B. }
  destruct a; cbn [act_ok] in H; rewrite ?andb_true_iff in H; cbn [run_action act_ty].
  - apply E.
  - now apply One.
  - now apply One.
  - destruct (Is _ _ H eq_refl) as [I|[]]. tag_cases (lookup ps en) I. cbn. apply has_one; [exact (eq_sym I)|discriminate].
  - destruct H as [H1 H2]. unfold act_config.
    destruct (tags_sections (iface_slice (lookup ps en) ++ iface_slice (lookup pss en)) (comment_block (lookup psComment en) false true)) with (first := true) (i := @nil section) (f := @nil section) (o := @nil section) as [[[i f] o] ->].
    + apply Forall_app. split; auto.
    + now apply One.
  - unfold act_comment. destruct ign; now apply One.
  - now apply One.
  - now apply One.
  - unfold act_string. destruct t; try (destruct (Inner H) as [v ->]); now apply One.
  - destruct (Inner H) as [v ->]. now apply One.
  - unfold act_number. destruct (parse_float text) eqn:F; [now apply One|]. cbn. split; [left; auto|]. now apply has_one.
  - unfold act_regexp. destruct (Inner H) as [v ->]. now apply One.
  - destruct (Is _ _ H eq_refl) as [I|[I|[]]]; tag_cases (lookup attributes en) I; now apply One.
  - destruct H as [H1 H2]. pose proof (Is _ _ H1 eq_refl) as I1. pose proof (Is _ _ H2 eq_refl) as I2.
    assert (K : exists key, (match lookup name en with VAttr (AtStr s) => Some (sa_value_string s) | VText t => Some t | _ => None end) = Some key).
    { destruct I1 as [I|[I|[]]]; tag_cases (lookup name en) I; [destruct a; try discriminate I|]; now eexists. }
    unfold act_attribute. destruct K as [key ->].
    assert (A : forall a, tag_of (VAttr a) <> TBad -> block_ok L (AAttribute name value) (AT, []) text (RVal (VAttr a))).
    { intros a N. split; [|exact Logic.I]. left. destruct a; cbn; auto 6. now destruct N. }
    destruct I2 as [I|[I|[I|[I|[I|[]]]]]]; tag_cases (lookup value en) I; try (destruct a; try discriminate I); now apply A.
  - pose proof (Is _ _ H eq_refl) as I. unfold act_attribute_comment.
    assert (T : In (tag_of (lookup attribute en)) (fst (alookup attribute ae))).
    { destruct (E attribute) as [[T|(T1 & T2 & _)] _]; [exact T|]. exfalso. pose proof (sub_in _ _ _ H T2) as X. cbn in X. intuition discriminate. }
    destruct I as [I|I].
    + tag_cases (lookup attribute en) I. cbn. split; [right; left; now eexists|]. split; [|exact Logic.I].
      right. split; [reflexivity|]. split; [|right; now eexists]. apply in_or_app. right. apply mem_in in T. cbn [tag_of] in T. rewrite T. now left.
    + assert (Z : exists a, lookup attribute en = VAttr a).
      { destruct I as [I|[I|[I|[I|[I|[]]]]]]; tag_cases (lookup attribute en) I; now eexists. }
      destruct Z as [a Za]. rewrite Za in *. cbn. split; [|exact Logic.I]. left. apply in_or_app. left. apply filter_In.
      replace (tag_of (VAttr (set_attr_com a (comment_block (lookup comment en) spaceBefore false)))) with (tag_of (VAttr a)) by now destruct a.
      split; [exact T|]. now apply (proj2 (mem_in _ AT)).
  - pose proof (all_tags _ _ _ _ H (E attributes)) as F. apply tags_attrs in F. unfold act_attributes.
    assert (Z : match attributes_loop (iface_slice (match act_attribute_comment (lookup attribute en) (lookup comment en) false with
               | RVal v => v | RErr v _ => v | RPanic _ => VNil end) ++ iface_slice (lookup attributes en)) with
               inl _ => True | inr v => v = VNil /\ L end).
    { destruct (lookup attribute en); cbn; try exact F. now destruct (attributes_loop (iface_slice (lookup attributes en))). }
    destruct (attributes_loop (_ ++ _)); [now apply One|]. destruct Z as [-> Z]. cbn. split; [auto|]. now apply has_one.
  - now apply One.
  - destruct H as [[H1 H2] H3]. unfold act_branch. destruct (tags_elseifs _ (All _ _ H2 eq_refl)) as [l ->].
    destruct (Is _ _ H1 eq_refl) as [I1|[]].
    assert (K : exists eb, (match lookup elseBlock en with VNil => Some zero_else | VElse x => Some x | _ => None end) = Some eb).
    { destruct (Is _ _ H3 eq_refl) as [I|[I|[]]]; tag_cases (lookup elseBlock en) I; now eexists. }
    destruct K as [eb ->]. tag_cases (lookup ifBlock en) I1. destruct b. now apply One.
  - pose proof (Is _ _ H eq_refl) as I. unfold act_bop_comment.
    assert (T : In (tag_of (lookup bop en)) (fst (alookup bop ae))).
    { destruct (E bop) as [[T|(T1 & T2 & _)] _]; [exact T|]. exfalso. pose proof (sub_in _ _ _ H T2) as X. cbn in X. intuition discriminate. }
    destruct I as [I|[I|[]]]; tag_cases (lookup bop en) I.
    + destruct p. split; [|exact Logic.I]. left. exact T.
    + destruct i. split; [|exact Logic.I]. left. exact T.
  - destruct H as [[H1 H2] H3]. unfold act_compare. destruct (tags_rvalue _ (Is _ _ H1 eq_refl)) as [x ->].
    destruct (tags_rvalue _ (Is _ _ H3 eq_refl)) as [y ->]. destruct (Is _ _ H2 eq_refl) as [I|[]]. tag_cases (lookup co en) I. now apply One.
  - now apply One.
  - destruct H as [H1 H2]. unfold act_condition. destruct (tags_exprs (iface_slice (lookup expr en) ++ iface_slice (lookup exprs en))) as [x ->].
    + apply Forall_app. split; auto.
    + now apply One.
  - destruct (Is _ _ H eq_refl) as [I|[]]. tag_cases (lookup cond en) I. now apply One.
  - now apply One.
  - destruct (Is _ _ H eq_refl) as [I|[]]. tag_cases (lookup eb en) I. destruct e. now apply One.
  - destruct (Is _ _ H eq_refl) as [I|[]]. tag_cases (lookup cond en) I. now apply One.
  - destruct (Is _ _ H eq_refl) as [I|[]]. tag_cases (lookup eib en) I. destruct b. now apply One.
  - destruct H as [H1 H2]. pose proof (Is _ _ H1 eq_refl) as I1. pose proof (Is _ _ H2 eq_refl) as I2.
    destruct I1 as [I1|[]]. destruct I2 as [I2|[]]. tag_cases (lookup expr en) I2. tag_cases (lookup bo en) I1. now apply One.
  - destruct (Is _ _ H eq_refl) as [I|[I|[]]]; tag_cases (lookup entries en) I; now apply One.
  - destruct H as [H1 H2]. destruct (Is _ _ H1 eq_refl) as [I|[]]. tag_cases (lookup attribute en) I. unfold act_hashentries. destruct e.
    destruct (tags_hentries _ (All _ _ H2 eq_refl)) as [l ->]. now apply One.
  - destruct H as [H1 H2]. pose proof (Is _ _ H1 eq_refl) as I1. pose proof (Is _ _ H2 eq_refl) as I2.
    assert (K : exists key, (match lookup name en with VAttr (AtStr s) => Some (HKStr s) | VAttr (AtNum n) => Some (HKNum n) | _ => None end) = Some key).
    { destruct I1 as [I|[I|[]]]; tag_cases (lookup name en) I; destruct a; try discriminate I; now eexists. }
    unfold act_hashentry. destruct K as [key ->]. destruct I2 as [I|I].
    + tag_cases (lookup value en) I. cbn. now eexists.
    + assert (Z : exists a, lookup value en = VAttr a).
      { destruct I as [I|[I|[I|[I|[I|[]]]]]]; tag_cases (lookup value en) I; now eexists. }
      destruct Z as [a ->]. now apply One.
  - destruct (Is _ _ H eq_refl) as [I|[]]. tag_cases (lookup cond en) I. now apply One.
  - destruct H as [H1 H2]. unfold act_in. destruct (tags_rvalue _ (Is _ _ H1 eq_refl)) as [x ->].
    destruct (tags_rvalue _ (Is _ _ H2 eq_refl)) as [y ->]. now apply One.
  - destruct (Is _ _ H eq_refl) as [I|[]]. tag_cases (lookup cond en) I. now apply One.
  - destruct (Is _ _ H eq_refl) as [I|[]]. tag_cases (lookup sel en) I. now apply One.
  - destruct H as [H1 H2]. unfold act_in. destruct (tags_rvalue _ (Is _ _ H1 eq_refl)) as [x ->].
    destruct (tags_rvalue _ (Is _ _ H2 eq_refl)) as [y ->]. now apply One.
  - destruct H as [H1 H2]. pose proof (Is _ _ H1 eq_refl) as I1. pose proof (Is _ _ H2 eq_refl) as I2.
    assert (K : exists l, (match lookup attributes en with VNil => Some [] | VAttrs l => Some l | _ => None end) = Some l).
    { destruct I2 as [I|[I|[]]]; tag_cases (lookup attributes en) I; now eexists. }
    unfold act_plugin. destruct K as [l ->]. destruct I1 as [I|[]]. tag_cases (lookup name en) I. destruct a; try discriminate I. now apply One.
  - destruct H as [H1 H2]. pose proof (Is _ _ H1 eq_refl) as I1. unfold act_plugin_section.
    destruct (tags_bops _ (All _ _ H2 eq_refl)) as [l ->]. destruct I1 as [I|[]].
    destruct (lookup pt en); try discriminate I; try (destruct a; discriminate I); try (cbn in I; destruct (ps_type s); discriminate I).
    apply One; [|reflexivity]. cbn in I |- *. now destruct t.
  - destruct t; try discriminate H; now apply One.
  - destruct H as [[H1 H2] H3]. unfold act_regexp_expr. destruct (tags_rvalue _ (Is _ _ H1 eq_refl)) as [x ->].
    destruct (tags_strre _ (Is _ _ H3 eq_refl)) as [y ->]. destruct (Is _ _ H2 eq_refl) as [I|[]]. tag_cases (lookup ro en) I. now apply One.
  - now apply One.
  - unfold act_rvalue. destruct (tags_rvalue _ (Is _ _ H eq_refl)) as [x ->]. now apply One.
  - unfold act_selector. destruct (tags_selels _ (All _ _ H eq_refl)) as [l ->]. now apply One.
  - unfold act_selector_element. destruct (Inner H) as [v ->]. now apply One.
Qed.

(** ** Typing expressions *)

Fixpoint minlen (e : expr) : nat :=
  match e with
  | EAct _ e | ELab _ e => minlen e
  | EAny | EClass _ _ _ _ => 1
  | ELit _ rs => List.length rs
  | ESeq l => (fix go l := match l with [] => 0 | x :: l' => minlen x + go l' end) l
  | EChoice l => (fix go l := match l with [] => 9 | x :: l' => Nat.min (minlen x) (go l') end) l
  | EAndCode PInitParser => 0
  | EAndCode _ => 9 (* never matches *)
  | _ => 0
  end.
(** The text of a number: "-"? [0-9]+ ("." [0-9]* )? *)
Definition is_num (e : expr) : bool :=
  match e with
  | ESeq [EOpt (ELit w1 [45%N]); EPlus (EClass w2 [] [(48%N, 57%N)] false);
          EOpt (ESeq [ELit w3 [46%N]; EStar (EClass w4 [] [(48%N, 57%N)] false)])] =>
      String.eqb w1 """-""" && String.eqb w2 "[0-9]" && String.eqb w3 """.""" && String.eqb w4 "[0-9]"
  | _ => false
  end.

Definition fatal_texts : list string :=
  ["expect closing curly bracket"; "expect closing double quotes ("")"; "expect closing parenthesis";
   "expect closing single quote (')"; "expect closing slash (/) for regexp"; "expect closing square bracket"]%string.

Fixpoint dedup (l : list tag) : list tag :=
  match l with [] => [] | t :: l' => if mem t l' then dedup l' else t :: dedup l' end.
Definition join (t u : ty) : ty := (dedup (fst t ++ fst u), dedup (snd t ++ snd u)).

Section Infer.
  (** The types of the rules *)
  Variable R : string -> option ty.
  Fixpoint tyof (e : expr) (ae : aenv) {struct e} : option (ty * aenv) :=
    match e with
    | EAct a e =>
        match tyof e ae with
        | Some (_, ae') =>
            if act_ok a ae' (minlen e) && (match a with ANumber => is_num e | _ => true end)
            then Some (act_ty a ae', ae') else None
        | None => None
        end
    | EAndCode p =>
        match p with
        | PInitParser => Some (one TNil, ae)
        | PPushError _ => Some (([], []), ae)
        | PFatalError m => if existsb (String.eqb m) fatal_texts then Some (([], []), ae) else None
        end
    | EStateCode _ => Some (one TNil, ae)
    | EAny | EClass _ _ _ _ | ELit _ _ => Some (one TBytes, ae)
    | EChoice l =>
        match (fix go (l : list expr) : option ty :=
                 match l with
                 | [] => Some ([], [])
                 | x :: l' =>
                     match tyof x [], go l' with
                     | Some (t, _), Some u => Some (join t u)
                     | _, _ => None
                     end
                 end) l with
        | Some t => Some (t, ae)
        | None => None
        end
    | ESeq l =>
        match (fix go (l : list expr) (ae : aenv) : option (list tag * aenv) :=
                 match l with
                 | [] => Some ([], ae)
                 | x :: l' =>
                     match tyof x ae with
                     | Some (t, ae') =>
                         match go l' ae' with Some (ts, ae2) => Some (fst t ++ ts, ae2) | None => None end
                     | None => None
                     end
                 end) l ae with
        | Some (ts, ae') => Some (([TList], dedup ts), ae')
        | None => None
        end
    | ELab l e => match tyof e [] with Some (t, _) => Some (t, (l, t) :: ae) | None => None end
    | ENot e => match tyof e [] with Some _ => Some (one TNil, ae) | None => None end
    | EPlus e | EStar e => match tyof e [] with Some (t, _) => Some (([TList], fst t), ae) | None => None end
    | EOpt e => match tyof e [] with Some (t, _) => Some (join (one TNil) t, ae) | None => None end
    | ERef n => match R n with Some t => Some (t, ae) | None => None end
    end.
End Infer.

(** The types of the rules of the grammar, by iteration. *)
Fixpoint table (l : list (string * ty)) (n : string) : option ty :=
  match l with [] => None | (k, t) :: l' => if String.eqb k n then Some t else table l' n end.
Definition improve (l : list (string * ty)) : list (string * ty) :=
  map (fun x : string * ty => let (n, t) := x in
         (n, match find_rule n gen_grammar with
             | Some e => match tyof (table l) e [] with Some (u, _) => join u t | None => t end
             | None => t
             end)) l.
Fixpoint iterate (k : nat) (l : list (string * ty)) : list (string * ty) :=
  match k with O => l | S k => iterate k (improve l) end.
Definition rule_types : list (string * ty) := Eval vm_compute in
  iterate 12 (map (fun r : string * expr => (fst r, ([], []))) gen_grammar).
Definition rule_typed (x : string * ty) : bool :=
  match find_rule (fst x) gen_grammar with
  | Some e => match tyof (table rule_types) e [] with Some (t, _) => subty t (snd x) | None => false end
  | None => false
  end.
Lemma gen_typed : forallb rule_typed rule_types = true.
Proof. vm_compute. reflexivity. Qed.

(** ** Lengths and numbers *)

Scheme matches_mind := Minimality for matches Sort Prop
  with matches_seq_mind := Minimality for matches_seq Sort Prop
  with matches_all_mind := Minimality for matches_all Sort Prop.
Combined Scheme matches_mut from matches_mind, matches_seq_mind, matches_all_mind.
Definition seq_len := fix go (l : list expr) := match l with [] => 0 | x :: l' => minlen x + go l' end.
Definition choice_len := fix go (l : list expr) := match l with [] => 9 | x :: l' => Nat.min (minlen x) (go l') end.
Lemma choice_len_in e l : In e l -> choice_len l <= minlen e.
Proof. induction l as [|x l IH]; cbn; [tauto|]. intros [->|H]; [lia|]. specialize (IH H). lia. Qed.
Lemma lit_text_len rs t : lit_text rs t -> List.length rs <= List.length t.
Proof.
  induction 1 as [|r rs u t N _ _ IH]; [auto|]. rewrite app_length. destruct u; [congruence|]. cbn. lia.
Qed.
Lemma minlen_all g :
  (forall e t, matches g e t -> minlen e <= List.length t) /\
  (forall l t, matches_seq g l t -> seq_len l <= List.length t) /\
  (forall e l, matches_all g e l -> True).
Proof.
  apply matches_mut; cbn; try lia; auto.
  - intros t H _. destruct t; [congruence|cbn; lia].
  - intros _ _ _ _ t H _ _. destruct t; [congruence|cbn; lia].
  - intros _ rs t H. now apply lit_text_len.
  - intros l e t I _ IH. apply choice_len_in in I. unfold choice_len in I. lia.
  - intros e l t u _ IH1 _ IH2 _. rewrite app_length. unfold seq_len in *. lia.
Qed.
