(** Induction principles for the nested types of Ast.v. *)
From Coq Require Import List.
From Verif Require Import Bytes F64 Ast.
Import ListNotations.

Definition block (e : ifblock) : list bop := match e with IfB _ _ l _ _ => l end.
Definition eblock (e : elseblock) : list bop := match e with ElB _ l _ _ => l end.

Section BopInd.
  Variable P : bop -> Prop.
  Hypothesis HNil : P BNil.
  Hypothesis HPlugin : forall p, P (BPlugin p).
  Hypothesis HPtr : forall p, P (BPluginPtr p).
  Hypothesis HBranch : forall i es e,
    Forall P (block i) -> Forall (fun x => Forall P (block x)) es -> Forall P (eblock e) ->
    P (BBranch i es e).
  Fixpoint bop_ind' (x : bop) : P x :=
    let all := fix all (l : list bop) : Forall P l :=
      match l with [] => Forall_nil _ | y :: l' => Forall_cons _ (bop_ind' y) (all l') end in
    match x with
    | BNil => HNil
    | BPlugin p => HPlugin p
    | BPluginPtr p => HPtr p
    | BBranch i es e =>
        HBranch i es e
          (match i as i0 return Forall P (block i0) with IfB _ _ l _ _ => all l end)
          ((fix alls (es : list ifblock) : Forall (fun x => Forall P (block x)) es :=
              match es with
              | [] => Forall_nil _
              | y :: es' =>
                  Forall_cons _ (match y as i0 return Forall P (block i0) with IfB _ _ l _ _ => all l end)
                    (alls es')
              end) es)
          (match e as e0 return Forall P (eblock e0) with ElB _ l _ _ => all l end)
    end.
  Lemma bops_ind' (l : list bop) : Forall P l.
  Proof. induction l; constructor; auto using bop_ind'. Qed.
End BopInd.

Definition hval (e : hentry) : attr := match e with HEntry _ _ v _ => v end.
Definition pattrs (p : plugin) : list attr := match p with Plugin _ _ l _ _ => l end.

Section AttrInd.
  Variable P : attr -> Prop.
  Hypothesis HNil : P AtNil.
  Hypothesis HStr : forall s, P (AtStr s).
  Hypothesis HNum : forall n, P (AtNum n).
  Hypothesis HArr : forall p n l c f, Forall P l -> P (AtArr p n l c f).
  Hypothesis HHash : forall p n l c f, Forall (fun e => P (hval e)) l -> P (AtHash p n l c f).
  Hypothesis HPlug : forall p n v c, Forall P (pattrs v) -> P (AtPlug p n v c).
  Fixpoint attr_ind' (a : attr) : P a :=
    let all := fix all (l : list attr) : Forall P l :=
      match l with [] => Forall_nil _ | y :: l' => Forall_cons _ (attr_ind' y) (all l') end in
    match a with
    | AtNil => HNil
    | AtStr s => HStr s
    | AtNum n => HNum n
    | AtArr p n l c f => HArr p n l c f (all l)
    | AtHash p n l c f =>
        HHash p n l c f
          ((fix alls (l : list hentry) : Forall (fun e => P (hval e)) l :=
              match l with
              | [] => Forall_nil _
              | e :: l' =>
                  Forall_cons _ (match e as e0 return P (hval e0) with HEntry _ _ v _ => attr_ind' v end)
                    (alls l')
              end) l)
    | AtPlug p n v c =>
        HPlug p n v c (match v as v0 return Forall P (pattrs v0) with Plugin _ _ l _ _ => all l end)
    end.
  Lemma attrs_ind' (l : list attr) : Forall P l.
  Proof. induction l; constructor; auto using attr_ind'. Qed.
End AttrInd.

Definition exprs (c : condition) : list cexpr := match c with Cond l => l end.
Section ExprInd.
  Variable P : cexpr -> Prop.
  Hypothesis HNil : P ExNil.
  Hypothesis HCond : forall p bo c, Forall P (exprs c) -> P (ExCond p bo c).
  Hypothesis HNeg : forall p bo c, Forall P (exprs c) -> P (ExNeg p bo c).
  Hypothesis HNegSel : forall p bo s, P (ExNegSel p bo s).
  Hypothesis HIn : forall p bo l r, P (ExIn p bo l r).
  Hypothesis HNotIn : forall p bo l r, P (ExNotIn p bo l r).
  Hypothesis HRv : forall p bo r, P (ExRv p bo r).
  Hypothesis HCmp : forall p bo l o r, P (ExCmp p bo l o r).
  Hypothesis HRe : forall p bo l o r, P (ExRe p bo l o r).
  Fixpoint cexpr_ind' (x : cexpr) : P x :=
    let all := fix all (l : list cexpr) : Forall P l :=
      match l with [] => Forall_nil _ | y :: l' => Forall_cons _ (cexpr_ind' y) (all l') end in
    let cnd := fun c => match c as c0 return Forall P (exprs c0) with Cond l => all l end in
    match x with
    | ExNil => HNil
    | ExCond p bo c => HCond p bo c (cnd c)
    | ExNeg p bo c => HNeg p bo c (cnd c)
    | ExNegSel p bo s => HNegSel p bo s
    | ExIn p bo l r => HIn p bo l r
    | ExNotIn p bo l r => HNotIn p bo l r
    | ExRv p bo r => HRv p bo r
    | ExCmp p bo l o r => HCmp p bo l o r
    | ExRe p bo l o r => HRe p bo l o r
    end.
  Lemma cexprs_ind' (l : list cexpr) : Forall P l.
  Proof. induction l; constructor; auto using cexpr_ind'. Qed.
End ExprInd.
