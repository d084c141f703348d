(** What a configuration tree may contain ([wf_config]), and what it says about
    the source text ([items_*], [laid]): the specification of C09, C10 and C13. *)
From Coq Require Import List NArith ZArith Bool String Arith Lia.
From Verif Require Import Bytes F64 Ast Actions AstPrint EscapeFacts PosFacts LexFacts.
Import ListNotations.

Definition All {A} (P : A -> Prop) : list A -> Prop :=
  fix all l := match l with [] => True | x :: l' => P x /\ all l' end.
Lemma All_Forall {A} (P : A -> Prop) l : All P l <-> Forall P l.
Proof. induction l; cbn; split; auto; [intros []; constructor; tauto|inversion 1; tauto]. Qed.

(** ** Lexical elements *)
Definition SLASH : N := 47.
(** a name: a word over letters, digits, underscore and hyphen, or a quoted literal *)
Definition word_char (c : N) : Prop := bareword_char c \/ c = 45%N.
Definition word (t : bytes) : Prop := t <> [] /\ Forall word_char t.
Definition quoted_lit (t : bytes) : Prop := exists q v, In q [DQ; SQ] /\ literal_value q v /\ t = [q] ++ v ++ [q].
Definition name_ok (t : bytes) : Prop := word t \/ quoted_lit t.
(** the value of a string by its kind *)
Definition str_ok (t : sat) (v : bytes) : Prop :=
  match t with
  | DoubleQuoted => literal_value DQ v
  | SingleQuoted => literal_value SQ v
  | Bareword => bareword v
  | SatUndef => False
  end.
(** a number: what a decimal literal denotes *)
Definition digit (c : N) : Prop := (48 <= c <= 57)%N.
Definition number_text (t : bytes) : Prop :=
  exists sg ip fp, t = sg ++ ip ++ fp /\ (sg = [] \/ sg = [45%N]) /\ ip <> [] /\ Forall digit ip /\
    (fp = [] \/ exists f, fp = 46%N :: f /\ Forall digit f).
Definition num_ok (f : f64) : Prop := exists t, number_text t /\ parse_float t = Some f.
(** comments: one line each, without surrounding spaces *)
Definition comment_ok (c : comment) : Prop :=
  no_break (c_text c) /\ (forall t, c_text c <> SP :: t) /\ (forall t, c_text c <> t ++ [SP]).
Definition com_ok (l : cblock) : Prop := Forall comment_ok l.
Definition selel_ok (e : selel) : Prop := se_name e <> [] /\ Forall (fun c => ~ In c [91; 93; 44]%N) (se_name e).
Definition sel_ok (s : selector) : Prop := sel_els s <> [] /\ All selel_ok (sel_els s).
Definition re_ok (r : regexp) : Prop := literal_value SLASH (re_text r).

(** ** Trees *)
(** attributes of a plugin have a name, values inside arrays and hashes have none; no comment
    stands between a key and its value, nor between an attribute's name and a plugin *)
Definition named (nm : bool) (n : bytes) : Prop := if nm then name_ok n else n = [].
Definition key_ok (k : hkey) : Prop :=
  match k with
  | HKStr s => sa_name s = [] /\ str_ok (sa_type s) (sa_val s) /\ sa_com s = []
  | HKNum n => na_name n = [] /\ num_ok (na_val n) /\ na_com n = []
  end.
Fixpoint wf_attr (nm : bool) (a : attr) : Prop :=
  match a with
  | AtNil => False
  | AtStr s => named nm (sa_name s) /\ str_ok (sa_type s) (sa_val s) /\ com_ok (sa_com s)
  | AtNum n => named nm (na_name n) /\ num_ok (na_val n) /\ com_ok (na_com n)
  | AtArr _ n l c f => named nm n /\ com_ok c /\ com_ok f /\ All (wf_attr false) l
  | AtHash _ n l c f => named nm n /\ com_ok c /\ com_ok f /\ All wf_hentry l
  | AtPlug _ n v c => nm = true /\ name_ok n /\ com_ok c /\ wf_plugin v /\ match v with Plugin _ _ _ vc _ => vc = [] end
  end
with wf_hentry (e : hentry) : Prop :=
  match e with HEntry _ k v com => key_ok k /\ com_ok com /\ wf_attr false v /\ attr_com v = [] end
with wf_plugin (x : plugin) : Prop :=
  match x with Plugin _ n l c f => name_ok n /\ com_ok c /\ com_ok f /\ All (wf_attr true) l end.

(** a string in a condition: quoted, no name, no comment *)
Definition cstr_ok (s : strattr) : Prop :=
  sa_name s = [] /\ str_ok (sa_type s) (sa_val s) /\ sa_type s <> Bareword /\ sa_com s = [].
Definition wf_rvalue (r : rvalue) : Prop :=
  match r with
  | RVNil => False
  | RVStr s => cstr_ok s
  | RVNum n => na_name n = [] /\ num_ok (na_val n) /\ na_com n = []
  | RVSel s => sel_ok s
  | RVArr _ n l c f => n = [] /\ c = [] /\ com_ok f /\ All (wf_attr false) l
  | RVRe r => re_ok r
  end.
Definition wf_strorre (r : strorre) : Prop :=
  match r with SRNil => False | SRStr s => cstr_ok s | SRRe r => re_ok r end.
(** the first expression of a condition has no operator, the others have one *)
Definition bo_ok (first : bool) (o : boolopn) : Prop :=
  if first then bo_op o = BoNone else bo_op o <> BoNone /\ bo_op o <> BoUndef.
Fixpoint wf_cexpr (first : bool) (e : cexpr) : Prop :=
  match e with
  | ExNil => False
  | ExCond _ bo c => bo_ok first bo /\ wf_cond c
  | ExNeg _ bo c => bo_ok first bo /\ wf_cond c
  | ExNegSel _ bo s => bo_ok first bo /\ sel_ok s
  | ExIn _ bo l r => bo_ok first bo /\ wf_rvalue l /\ wf_rvalue r
  | ExNotIn _ bo l r => bo_ok first bo /\ wf_rvalue l /\ wf_rvalue r
  | ExRv _ bo r => bo_ok first bo /\ wf_rvalue r
  | ExCmp _ bo l o r => bo_ok first bo /\ wf_rvalue l /\ co_op o <> CoUndef /\ wf_rvalue r
  | ExRe _ bo l o r => bo_ok first bo /\ wf_rvalue l /\ ro_op o <> RoUndef /\ wf_strorre r
  end
with wf_cond (c : condition) : Prop :=
  match c with Cond l => match l with [] => False | e :: l' => wf_cexpr true e /\ All (wf_cexpr false) l' end end.

Fixpoint wf_bop (x : bop) : Prop :=
  match x with
  | BNil => False
  | BPlugin p => wf_plugin p
  | BPluginPtr _ => False
  | BBranch i es e => wf_if i /\ All wf_if es /\ wf_else e
  end
with wf_if (x : ifblock) : Prop :=
  match x with IfB _ c l com foot => wf_cond c /\ com_ok com /\ com_ok foot /\ All wf_bop l end
with wf_else (x : elseblock) : Prop :=
  match x with ElB p l com foot =>
    com_ok com /\ com_ok foot /\ All wf_bop l /\ (p = zero_pos -> l = [] /\ com = [] /\ foot = []) end.
Definition wf_section (t : ptype) (s : section) : Prop :=
  ps_type s = t /\ com_ok (ps_com s) /\ com_ok (ps_foot s) /\ All wf_bop (ps_bops s).
(** a configuration without sections has no comments *)
Definition wf_config (c : config) : Prop :=
  All (wf_section PTInput) (cf_input c) /\ All (wf_section PTFilter) (cf_filter c) /\
  All (wf_section PTOutput) (cf_output c) /\ com_ok (cf_foot c) /\
  (cf_input c = [] -> cf_filter c = [] -> cf_output c = [] -> cf_foot c = []).

(** ** What a tree says about the text *)
(** An item: a token with the position where it stands, or another position *)
Inductive item := ITok (p : position) (t : bytes) | IPos (p : position).

(** The text [t] stands in the input at the position [p]. *)
Definition at_text (data : bytes) (p : position) (t : bytes) : Prop :=
  true_pos data p /\ exists pre post, data = pre ++ t ++ post /\ List.length pre = p_off p.
(** The items stand in the part [lo, hi) of the input, one after the other. *)
Fixpoint laid (data : bytes) (lo : nat) (l : list item) (hi : nat) : Prop :=
  match l with
  | [] => lo <= hi
  | IPos p :: l' => (p = zero_pos \/ true_pos data p) /\ laid data lo l' hi
  | ITok p t :: l' => lo <= p_off p /\ at_text data p t /\ laid data (p_off p + List.length t) l' hi
  end.

(** Pos() of an attribute: its name; of a value: its text, if it is a string *)
Definition own (p : position) (n : bytes) (other : item) : item := match n with [] => other | _ => ITok p n end.
Definition items_key (k : hkey) : list item :=
  match k with HKStr s => [ITok (sa_pos s) (sa_value_string s)] | HKNum n => [IPos (na_pos n)] end.
Fixpoint items_attr (a : attr) : list item :=
  match a with
  | AtNil => []
  | AtStr s => [own (sa_pos s) (sa_name s) (ITok (sa_pos s) (sa_value_string s))]
  | AtNum n => [own (na_pos n) (na_name n) (IPos (na_pos n))]
  | AtArr p n l _ _ => own p n (IPos p) :: flat_map items_attr l
  | AtHash p n l _ _ => own p n (IPos p) :: flat_map items_hentry l
  | AtPlug p n v _ => ITok p n :: items_plugin v
  end
with items_hentry (e : hentry) : list item :=
  match e with HEntry p k v _ => IPos p :: items_key k ++ items_attr v end
with items_plugin (x : plugin) : list item :=
  match x with Plugin p n l _ _ => ITok p n :: flat_map items_attr l end.

Definition items_sel (s : selector) : list item :=
  IPos (sel_pos s) :: map (fun e => ITok (se_pos e) (selel_string e)) (sel_els s).
Definition items_re (r : regexp) : list item := [ITok (re_pos r) (regexp_string r)].
Definition items_rvalue (r : rvalue) : list item :=
  match r with
  | RVNil => []
  | RVStr s => [ITok (sa_pos s) (sa_value_string s)]
  | RVNum n => [IPos (na_pos n)]
  | RVSel s => items_sel s
  | RVArr p _ l _ _ => IPos p :: flat_map items_attr l
  | RVRe r => items_re r
  end.
Definition items_strorre (r : strorre) : list item :=
  match r with SRNil => [] | SRStr s => [ITok (sa_pos s) (sa_value_string s)] | SRRe r => items_re r end.
(** spelling of the operators *)
Definition boolop_word (o : boolop) : bytes :=
  match o with BoAnd => b "and" | BoOr => b "or" | BoXor => b "xor" | BoNand => b "nand" | _ => [] end.
Definition items_bo (o : boolopn) : list item :=
  match bo_op o with BoNone => [IPos (bo_pos o)] | k => [ITok (bo_pos o) (boolop_word k)] end.
Definition bo_of (e : cexpr) : boolopn :=
  match e with
  | ExNil => no_op
  | ExCond _ bo _ | ExNeg _ bo _ | ExNegSel _ bo _ | ExIn _ bo _ _ | ExNotIn _ bo _ _ | ExRv _ bo _
  | ExCmp _ bo _ _ _ | ExRe _ bo _ _ _ => bo
  end.
Fixpoint items_body (e : cexpr) : list item :=
  match e with
  | ExNil => []
  | ExCond p _ c => ITok p (b "(") :: items_cond c
  | ExNeg p _ c => ITok p (b "!") :: items_cond c
  | ExNegSel p _ s => ITok p (b "!") :: items_sel s
  | ExIn p _ l r => IPos p :: items_rvalue l ++ items_rvalue r
  | ExNotIn p _ l r => IPos p :: items_rvalue l ++ items_rvalue r
  | ExRv p _ r => IPos p :: items_rvalue r
  | ExCmp p _ l o r => IPos p :: items_rvalue l ++ ITok (co_pos o) (cmpop_string (co_op o)) :: items_rvalue r
  | ExRe p _ l o r => IPos p :: items_rvalue l ++ ITok (ro_pos o) (reop_string (ro_op o)) :: items_strorre r
  end
with items_cond (c : condition) : list item :=
  match c with Cond l => flat_map (fun e => items_bo (bo_of e) ++ items_body e) l end.
Definition items_cexpr (e : cexpr) : list item := items_bo (bo_of e) ++ items_body e.

Definition is_zero (p : position) : bool := (p_line p =? 0) && (p_col p =? 0) && (p_off p =? 0).
Fixpoint items_bop (x : bop) : list item :=
  match x with
  | BNil => []
  | BPlugin p => items_plugin p
  | BPluginPtr p => items_plugin p
  | BBranch (IfB p c l _ _) es e =>
      (ITok p (b "if") :: items_cond c ++ flat_map items_bop l) ++ flat_map items_elseif es ++ items_else e
  end
with items_elseif (x : ifblock) : list item :=
  match x with IfB p c l _ _ => ITok p (b "else") :: items_cond c ++ flat_map items_bop l end
with items_else (x : elseblock) : list item :=
  match x with ElB p l _ _ => (if is_zero p then IPos p else ITok p (b "else")) :: flat_map items_bop l end.
Definition ptype_string (t : ptype) : bytes :=
  match t with PTInput => b "input" | PTFilter => b "filter" | PTOutput => b "output" | PTUndef => [] end.
Definition items_section (s : section) : list item :=
  ITok (ps_pos s) (ptype_string (ps_type s)) :: flat_map items_bop (ps_bops s).

(** ** The sections of a text *)
Definition slice (data : bytes) (lo hi : nat) : bytes := firstn (hi - lo) (skipn lo data).
(** From [lo] to [hi] the text consists of white space, comments and the sections
    [ss], in this order; each section starts at its position with its keyword, ends
    with a closing bracket, and holds its own items. *)
Inductive covered (data : bytes) : nat -> list section -> nat -> Prop :=
| cov_end lo hi : lo <= hi -> gap_text (slice data lo hi) -> covered data lo [] hi
| cov_next lo s ss mid hi :
    ps_type s <> PTUndef -> lo <= p_off (ps_pos s) -> gap_text (slice data lo (p_off (ps_pos s))) ->
    (exists x, slice data (p_off (ps_pos s)) mid = ptype_string (ps_type s) ++ x ++ b "}") ->
    laid data (p_off (ps_pos s)) (items_section s) mid ->
    covered data mid ss hi -> covered data lo (s :: ss) hi.
Definition is_type (t : ptype) (s : section) : bool :=
  match ps_type s, t with
  | PTInput, PTInput | PTFilter, PTFilter | PTOutput, PTOutput | PTUndef, PTUndef => true
  | _, _ => false
  end.
Definition of_type (t : ptype) (ss : list section) : list section := filter (is_type t) ss.

(** ** Nodes of a tree *)
(** [x] is an element of [l], or of a block nested in it *)
Inductive occurs (x : bop) : list bop -> Prop :=
| occ_here l : In x l -> occurs x l
| occ_if p c bs co f es e l : In (BBranch (IfB p c bs co f) es e) l -> occurs x bs -> occurs x l
| occ_elseif i p c bs co f es e l : In (BBranch i es e) l -> In (IfB p c bs co f) es -> occurs x bs -> occurs x l
| occ_else i es p bs co f l : In (BBranch i es (ElB p bs co f)) l -> occurs x bs -> occurs x l.
(** [y] is the attribute [a], or one inside it *)
Inductive inside (y : attr) : attr -> Prop :=
| ins_here : inside y y
| ins_arr p n l c f a : In a l -> inside y a -> inside y (AtArr p n l c f)
| ins_hash p n l c f hp k v com : In (HEntry hp k v com) l -> inside y v -> inside y (AtHash p n l c f)
| ins_plug p n vp vn vl vc vf c a : In a vl -> inside y a -> inside y (AtPlug p n (Plugin vp vn vl vc vf) c).
Definition sections (c : config) : list section := cf_input c ++ cf_filter c ++ cf_output c.
Definition bop_of (c : config) (x : bop) : Prop := exists s, In s (sections c) /\ occurs x (ps_bops s).
Definition attr_of (c : config) (y : attr) : Prop :=
  exists p n l co f a, bop_of c (BPlugin (Plugin p n l co f)) /\ In a l /\ inside y a.
(** the plugins of a configuration, codecs included *)
Definition plugin_of (c : config) (x : plugin) : Prop :=
  bop_of c (BPlugin x) \/ exists p n co, attr_of c (AtPlug p n x co).
Definition cond_of (c : config) (k : condition) : Prop :=
  (exists p bs co f es e, bop_of c (BBranch (IfB p k bs co f) es e)) \/
  (exists i es e p bs co f, bop_of c (BBranch i es e) /\ In (IfB p k bs co f) es).
Definition item_pos (i : item) : position := match i with ITok p _ | IPos p => p end.
(** every node of a configuration: plugin sections, if, else if and else blocks, plugins,
    attributes, hash entries, conditions with their operators and operands *)
Definition items_config (c : config) : list item := flat_map items_section (sections c).

(** ** Laying items out *)
Section Laid.
  Variable data : bytes.
  Lemma laid_le lo l hi : laid data lo l hi -> lo <= hi.
  Proof.
    revert lo. induction l as [|[p t|p] l IH]; intros lo; cbn; [auto| |].
    - intros (H & _ & K). apply IH in K. lia.
    - intros (_ & K). auto.
  Qed.
  Lemma laid_weak lo lo' l hi hi' : laid data lo l hi -> lo' <= lo -> hi <= hi' -> laid data lo' l hi'.
  Proof.
    revert lo lo'. induction l as [|[p t|p] l IH]; intros lo lo'; cbn; [lia| |].
    - intros (H & A & K) L1 L2. repeat (split; [lia || assumption|]). eapply IH; eauto.
    - intros (A & K) L1 L2. split; [assumption|]. eapply IH; eauto.
  Qed.
  Lemma laid_app lo l mid m hi : laid data lo l mid -> laid data mid m hi -> laid data lo (l ++ m) hi.
  Proof.
    revert lo. induction l as [|[p t|p] l IH]; intros lo; cbn.
    - intros L K. eapply laid_weak; eauto.
    - intros (H & A & K) M. eauto.
    - intros (A & K) M. eauto.
  Qed.
  Lemma laid_split lo l m hi : laid data lo (l ++ m) hi -> exists mid, laid data lo l mid /\ laid data mid m hi.
  Proof.
    revert lo. induction l as [|[p t|p] l IH]; intros lo; cbn.
    - intros L. exists lo. split; [lia|exact L].
    - intros (H & A & K). apply IH in K as (mid & K1 & K2). eauto 6.
    - intros (A & K). apply IH in K as (mid & K1 & K2). eauto.
  Qed.
  Lemma laid_in lo l hi p t : laid data lo l hi -> In (ITok p t) l -> at_text data p t /\ lo <= p_off p /\ p_off p + List.length t <= hi.
  Proof.
    revert lo. induction l as [|[p' t'|p'] l IH]; intros lo; cbn; [contradiction| |].
    - intros (H & A & K) [E|E].
      + inversion E; subst. split; [exact A|]. split; [exact H|]. now apply laid_le in K.
      + destruct (IH _ K E) as (X & Y & Z). split; [exact X|]. lia.
    - intros (A & K) [E|E]; [discriminate|]. eauto.
  Qed.
  Lemma laid_pos lo l hi : laid data lo l hi -> Forall (fun i => item_pos i = zero_pos \/ true_pos data (item_pos i)) l.
  Proof.
    revert lo. induction l as [|[p' t'|p'] l IH]; intros lo; cbn; [constructor| |].
    - intros (H & A & K). constructor; [right; exact (proj1 A)|eauto].
    - intros (A & K). constructor; [exact A|eauto].
  Qed.
End Laid.

(** ** Items of the parts *)
Lemma incl_flat {A} (f : A -> list item) x l : In x l -> incl (f x) (flat_map f l).
Proof. intros H y Hy. apply in_flat_map. eauto. Qed.
Lemma occurs_items x l : occurs x l -> incl (items_bop x) (flat_map items_bop l).
Proof.
  induction 1 as [l H|p c bs co f es e l H _ IH|i p c bs co f es e l H H1 _ IH|i es p bs co f l H _ IH].
  - now apply incl_flat.
  - eapply incl_tran; [exact IH|]. eapply incl_tran; [|apply (incl_flat items_bop _ _ H)]. cbn [items_bop]. intros y Hy. apply in_or_app. left. right. apply in_or_app. now right.
  - eapply incl_tran; [exact IH|]. eapply incl_tran; [|apply (incl_flat items_bop _ _ H)]. destruct i. cbn [items_bop]. intros y Hy. apply in_or_app. right. apply in_or_app. left.
    apply (incl_flat items_elseif _ _ H1). cbn [items_elseif]. right. apply in_or_app. now right.
  - eapply incl_tran; [exact IH|]. eapply incl_tran; [|apply (incl_flat items_bop _ _ H)]. destruct i. cbn [items_bop]. intros y Hy. apply in_or_app. right. apply in_or_app. right.
    cbn [items_else]. now right.
Qed.
Lemma inside_items y a : inside y a -> incl (items_attr y) (items_attr a).
Proof.
  induction 1 as [|p n l c f a H _ IH|p n l c f hp k v com H _ IH|p n vp vn vl vc vf c a H _ IH]; [apply incl_refl|..]; (eapply incl_tran; [exact IH|]); cbn [items_attr items_plugin]; intros z Hz; right.
  - now apply (incl_flat items_attr _ _ H).
  - apply (incl_flat items_hentry _ _ H). cbn [items_hentry]. right. apply in_or_app. now right.
  - right. now apply (incl_flat items_attr _ _ H).
Qed.
Lemma bop_items c x : bop_of c x -> incl (items_bop x) (items_config c).
Proof.
  intros (s & H & K). eapply incl_tran; [exact (occurs_items _ _ K)|]. intros z Hz. apply (incl_flat items_section _ _ H). now right.
Qed.
Lemma attr_items c y : attr_of c y -> incl (items_attr y) (items_config c).
Proof.
  intros (p & n & l & co & f & a & H & K & I). eapply incl_tran; [exact (inside_items _ _ I)|]. eapply incl_tran; [|exact (bop_items _ _ H)].
  cbn [items_bop items_plugin]. intros z Hz. right. now apply (incl_flat items_attr _ _ K).
Qed.
Lemma plugin_items c x : plugin_of c x -> incl (items_plugin x) (items_config c).
Proof.
  intros [H|(p & n & co & H)]; [exact (bop_items _ _ H)|]. eapply incl_tran; [|exact (attr_items _ _ H)]. cbn [items_attr]. apply incl_tl, incl_refl.
Qed.
Lemma cond_items c k : cond_of c k -> incl (items_cond k) (items_config c).
Proof.
  intros [(p & bs & co & f & es & e & H)|(i & es & e & p & bs & co & f & H & K)]; (eapply incl_tran; [|exact (bop_items _ _ H)]); intros z Hz.
  - cbn [items_bop]. apply in_or_app. left. right. apply in_or_app. now left.
  - destruct i. cbn [items_bop]. apply in_or_app. right. apply in_or_app. left. apply (incl_flat items_elseif _ _ K). cbn [items_elseif]. right. apply in_or_app. now left.
Qed.
Lemma covered_items data lo ss hi : covered data lo ss hi -> laid data lo (flat_map items_section ss) hi.
Proof.
  induction 1 as [lo hi H _|lo s ss mid hi _ H1 _ _ H2 _ IH]; cbn [flat_map]; [exact H|]. eapply laid_app; [|exact IH]. eapply laid_weak; [exact H2|exact H1|lia].
Qed.
Lemma covered_types data lo ss hi : covered data lo ss hi -> Forall (fun s => ps_type s <> PTUndef) ss.
Proof. induction 1; constructor; auto. Qed.
Lemma of_types_in ss s : Forall (fun s => ps_type s <> PTUndef) ss -> In s ss <-> In s (of_type PTInput ss ++ of_type PTFilter ss ++ of_type PTOutput ss).
Proof.
  rewrite Forall_forall. intros H. unfold of_type. rewrite !in_app_iff, !filter_In. unfold is_type. split.
  - intros K. specialize (H _ K). destruct (ps_type s); try congruence; auto.
  - tauto.
Qed.
Lemma laid_incl data lo l hi m : laid data lo l hi -> incl m l -> Forall (fun i => match i with ITok p t => at_text data p t | IPos p => p = zero_pos \/ true_pos data p end) m.
Proof.
  intros L I. apply Forall_forall. intros [p t|p] H; apply I in H; [exact (proj1 (laid_in _ _ _ _ _ _ L H))|].
  apply laid_pos in L. rewrite Forall_forall in L. exact (L _ H).
Qed.
