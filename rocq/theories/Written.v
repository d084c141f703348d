(** Specification: every layout of a configuration.

    The pieces of a tree (Spelled.v) fix its tokens and where gaps stand; a text is
    written from the pieces if it has the tokens in this order and any white space and
    comments in the gaps. *)
From Coq Require Import List NArith ZArith Bool String Arith.
From Verif Require Import Bytes Utf8 F64 Ast Actions AstPrint LexFacts Tree Layout Spelled.
Import ListNotations.

(** [writes L l t r]: the text [t] consists of the pieces [l] and then the text [r].
    [L m t u]: what may stand at a piece [PLost m]. *)
Section Writes.
  Variable L : bool -> bytes -> bytes -> Prop.
  Fixpoint writes (l : list piece) (t r : bytes) : Prop :=
    match l with
    | [] => t = r
    | PTok x :: l' => exists u, t = x ++ u /\ writes l' u r
    | PNum v :: l' => exists x u, t = x ++ u /\ number_text x /\ parse_float x = Some v /\ writes l' u r
    | PGap _ _ :: l' | PHid :: l' => exists x u, t = x ++ u /\ gap_run x u /\ writes l' u r
    | PWs :: l' => exists x u, t = x ++ u /\ x <> [] /\ Forall ws_char x /\ writes l' u r
    | PNosel :: l' => ~ selector_start t /\ writes l' t r
    | PLost m :: l' => exists u, L m t u /\ writes l' u r
    end.
  Lemma written_app l m t r : writes (l ++ m) t r <-> exists u, writes l t u /\ writes m u r.
  Proof.
    revert t. induction l as [|x l IH]; intros t; cbn [app writes].
    - split; [intros H; exists t; auto|intros (u & -> & H); exact H].
    - destruct x.
      + split; [intros (u & E & H); apply IH in H as (w & H1 & H2); exists w; split; [exists u; auto|exact H2]|].
        intros (w & (u & E & H1) & H2). exists u. split; [exact E|]. apply IH. eauto.
      + split; [intros (y & u & E & A & B & H); apply IH in H as (w & H1 & H2); exists w; split; [exists y, u; auto|exact H2]|].
        intros (w & (y & u & E & A & B & H1) & H2). exists y, u. split; [exact E|]. split; [exact A|]. split; [exact B|]. apply IH. eauto.
      + split; [intros (y & u & E & A & H); apply IH in H as (w & H1 & H2); exists w; split; [exists y, u; auto|exact H2]|].
        intros (w & (y & u & E & A & H1) & H2). exists y, u. split; [exact E|]. split; [exact A|]. apply IH. eauto.
      + split; [intros (y & u & E & A & H); apply IH in H as (w & H1 & H2); exists w; split; [exists y, u; auto|exact H2]|].
        intros (w & (y & u & E & A & H1) & H2). exists y, u. split; [exact E|]. split; [exact A|]. apply IH. eauto.
      + split; [intros (y & u & E & A & B & H); apply IH in H as (w & H1 & H2); exists w; split; [exists y, u; auto|exact H2]|].
        intros (w & (y & u & E & A & B & H1) & H2). exists y, u. split; [exact E|]. split; [exact A|]. split; [exact B|]. apply IH. eauto.
      + split; [intros (A & H); apply IH in H as (w & H1 & H2); eauto|]. intros (w & (A & H1) & H2). split; [exact A|]. apply IH. eauto.
      + split; [intros (u & E & H); apply IH in H as (w & H1 & H2); exists w; split; [exists u; auto|exact H2]|].
        intros (w & (u & E & H1) & H2). exists u. split; [exact E|]. apply IH. eauto.
  Qed.
End Writes.

(** In front of the elements of an array may stand a plugin, which the parser drops
    (C41), with the comma if elements follow; in its values as well, and so on: [n] is
    the depth. *)
Fixpoint lost (n : nat) (more : bool) (t u : bytes) : Prop :=
  match n with
  | O => t = u
  | S n' => t = u \/ exists c x, wf_plugin x /\ writes (lost n') (PGap Plain c :: pc_plugin x ++ if more then [PHid; tok ","] else []) t u
  end.
Definition written (l : list piece) (t r : bytes) : Prop := exists n, writes (lost n) l t r.
Lemma join_cons {A} k sep (f : place -> A -> list piece) x l : join k sep f (x :: l) = f k x ++ flat_map (fun y => sep ++ f Next y) l.
Proof. revert k x. induction l as [|y l IH]; intros k x; [cbn; now rewrite app_nil_r|]. change (join k sep f (x :: y :: l)) with (f k x ++ sep ++ join Next sep f (y :: l)). rewrite IH. cbn [flat_map]. now rewrite <- !app_assoc. Qed.

(** ** Names that start with a keyword *)
(** No space is needed after `if`, `else`, numbers and operators: the text `if5and6in7 {`
    starts a branch.  [word_cond t]: the word [t] is a condition, namely numbers and pairs
    `number in number` combined with boolean operators. *)
Definition word_number (w : bytes) : Prop := exists d, d <> [] /\ Forall digit d /\ (w = d \/ w = 45%N :: d).
Definition fits (w : bytes) : Prop := parse_float w <> None.   (* in the range of float64 *)
Inductive word_expr : bytes -> Prop :=
| we_num w : word_number w -> fits w -> word_expr w
| we_in w x : word_number w -> fits w -> word_number x -> fits x -> word_expr (w ++ b "in" ++ x).
Definition word_op (o : bytes) : Prop := In o [b "and"; b "or"; b "xor"; b "nand"].
Inductive word_cond : bytes -> Prop :=
| wc_one e : word_expr e -> word_cond e
| wc_more e o t : word_expr e -> word_op o -> word_cond t -> word_cond (e ++ o ++ t).
(** [too_big t]: the word [t] starts like a condition up to a number out of range; such
    a number is an error, whatever follows. *)
Inductive word_lead : bytes -> Prop :=
| wl_nil : word_lead []
| wl_in w : word_number w -> fits w -> word_lead (w ++ b "in")
| wl_more e o u : word_expr e -> word_op o -> word_lead u -> word_lead (e ++ o ++ u).
Definition no_digit (r : bytes) : Prop := match r with c :: _ => ~ digit c | [] => True end.
Definition too_big (t : bytes) : Prop := exists u w r, t = u ++ w ++ r /\ word_lead u /\ word_number w /\ ~ fits w /\ no_digit r.
Definition takes_cond (t : bytes) : Prop := word_cond t \/ too_big t.
(** The plugin name [n] is taken for the head of a branch; of an else block. *)
Definition takes_if (n : bytes) : Prop := exists t, n = b "if" ++ t /\ takes_cond t.
Definition takes_else (n : bytes) : Prop := n = b "else" \/ exists t, n = b "elseif" ++ t /\ takes_cond t.
(** Trees whose plugins can be told from branches: no plugin of a section or block has
    a name taken for a branch, and after a branch without else block no plugin has a
    name taken for an else block. *)
Definition parted (x y : bop) : Prop :=
  match x, y with
  | BBranch _ _ (ElB p _ _ _), (BPlugin q | BPluginPtr q) => is_zero p = true -> ~ takes_else (pname q)
  | _, _ => True
  end.
Fixpoint all_parted (l : list bop) : Prop :=
  match l with x :: l' => match l' with y :: _ => parted x y | [] => True end /\ all_parted l' | [] => True end.
Fixpoint clear_bop (x : bop) : Prop :=
  match x with
  | BNil => True
  | BPlugin p | BPluginPtr p => ~ takes_if (pname p)
  | BBranch i es e => clear_if i /\ All clear_if es /\ clear_else e
  end
with clear_if (x : ifblock) : Prop := match x with IfB _ _ l _ _ => All clear_bop l /\ all_parted l end
with clear_else (x : elseblock) : Prop := match x with ElB _ l _ _ => All clear_bop l /\ all_parted l end.
Definition clear_section (s : section) : Prop := All clear_bop (ps_bops s) /\ all_parted (ps_bops s).

(** ** The shape of a tree: no positions, no comments, no warnings *)
Definition shape_str (s : strattr) : strattr := StrAttr zero_pos (sa_name s) (sa_val s) (sa_type s) [].
Definition shape_num (n : numattr) : numattr := NumAttr zero_pos (na_name n) (na_val n) [].
Definition shape_key (k : hkey) : hkey := match k with HKStr s => HKStr (shape_str s) | HKNum n => HKNum (shape_num n) end.
Fixpoint shape_attr (a : attr) : attr :=
  match a with
  | AtNil => AtNil
  | AtStr s => AtStr (shape_str s)
  | AtNum n => AtNum (shape_num n)
  | AtArr _ n l _ _ => AtArr zero_pos n (map shape_attr l) [] []
  | AtHash _ n l _ _ => AtHash zero_pos n (map shape_hentry l) [] []
  | AtPlug _ n v _ => AtPlug zero_pos n (shape_plugin v) []
  end
with shape_hentry (e : hentry) : hentry :=
  match e with HEntry _ k v _ => HEntry zero_pos (shape_key k) (shape_attr v) [] end
with shape_plugin (x : plugin) : plugin :=
  match x with Plugin _ n l _ _ => Plugin zero_pos n (map shape_attr l) [] [] end.
Definition shape_sel (s : selector) : selector := Sel zero_pos (map (fun e => SelEl zero_pos (se_name e)) (sel_els s)).
Definition shape_re (r : regexp) : regexp := Regexp zero_pos (re_text r).
Definition shape_rvalue (r : rvalue) : rvalue :=
  match r with
  | RVNil => RVNil
  | RVStr s => RVStr (shape_str s)
  | RVNum n => RVNum (shape_num n)
  | RVSel s => RVSel (shape_sel s)
  | RVArr _ n l _ _ => RVArr zero_pos n (map shape_attr l) [] []
  | RVRe r => RVRe (shape_re r)
  end.
Definition shape_strorre (r : strorre) : strorre :=
  match r with SRNil => SRNil | SRStr s => SRStr (shape_str s) | SRRe r => SRRe (shape_re r) end.
Definition shape_bo (o : boolopn) : boolopn := BoolOp (bo_op o) zero_pos.
Definition shape_co (o : cmpopn) : cmpopn := CmpOp (co_op o) zero_pos.
Definition shape_ro (o : reopn) : reopn := ReOp (ro_op o) zero_pos.
Fixpoint shape_cexpr (e : cexpr) : cexpr :=
  match e with
  | ExNil => ExNil
  | ExCond _ bo c => ExCond zero_pos (shape_bo bo) (shape_cond c)
  | ExNeg _ bo c => ExNeg zero_pos (shape_bo bo) (shape_cond c)
  | ExNegSel _ bo s => ExNegSel zero_pos (shape_bo bo) (shape_sel s)
  | ExIn _ bo l r => ExIn zero_pos (shape_bo bo) (shape_rvalue l) (shape_rvalue r)
  | ExNotIn _ bo l r => ExNotIn zero_pos (shape_bo bo) (shape_rvalue l) (shape_rvalue r)
  | ExRv _ bo r => ExRv zero_pos (shape_bo bo) (shape_rvalue r)
  | ExCmp _ bo l o r => ExCmp zero_pos (shape_bo bo) (shape_rvalue l) (shape_co o) (shape_rvalue r)
  | ExRe _ bo l o r => ExRe zero_pos (shape_bo bo) (shape_rvalue l) (shape_ro o) (shape_strorre r)
  end
with shape_cond (c : condition) : condition := match c with Cond l => Cond (map shape_cexpr l) end.
Fixpoint shape_bop (x : bop) : bop :=
  match x with
  | BNil => BNil
  | BPlugin p | BPluginPtr p => BPlugin (shape_plugin p)
  | BBranch i es e => BBranch (shape_if i) (map shape_if es) (shape_else e)
  end
with shape_if (x : ifblock) : ifblock :=
  match x with IfB _ c l _ _ => IfB zero_pos (shape_cond c) (map shape_bop l) [] [] end
with shape_else (x : elseblock) : elseblock :=
  match x with ElB _ l _ _ => ElB zero_pos (map shape_bop l) [] [] end.
Definition shape_section (s : section) : section := Section_ zero_pos (ps_type s) (map shape_bop (ps_bops s)) [] [].
Definition shape_config (c : config) : config :=
  Config (map shape_section (cf_input c)) (map shape_section (cf_filter c)) (map shape_section (cf_output c)) [] [].
