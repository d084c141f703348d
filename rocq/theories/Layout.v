(** The printed form of a tree with its indentation explicit ([t_...], as functions of
    the depth), for printable trees ([pr_...]).  Results: the printing functions of AstPrint.v
    produce this layout at depth 0. *)
From Coq Require Import List NArith Bool String Arith Lia.
From Verif Require Import Bytes F64 Ast Actions Regex AstPrint AstInd EscapeFacts LexFacts Tree Lines.
Import ListNotations.

(** ** Printable trees *)
(** numbers that survive printing (C39, C40) *)
Definition pr_num (v : f64) : Prop := number_text (number_string v) /\ parse_float (number_string v) = Some v.
Definition pr_key (k : hkey) : Prop :=
  match k with
  | HKStr s => sa_name s = [] /\ str_ok (sa_type s) (sa_val s) /\ sa_com s = []
  | HKNum n => na_name n = [] /\ pr_num (na_val n) /\ na_com n = []
  end.
Fixpoint pr_attr (nm : bool) (a : attr) : Prop :=
  match a with
  | AtNil => False
  | AtStr s => named nm (sa_name s) /\ str_ok (sa_type s) (sa_val s) /\ com_ok (sa_com s)
  | AtNum n => named nm (na_name n) /\ pr_num (na_val n) /\ com_ok (na_com n)
  | AtArr _ n l c f => named nm n /\ com_ok c /\ com_ok f /\ All (pr_attr false) l
  | AtHash _ n l c f => named nm n /\ com_ok c /\ com_ok f /\ All pr_hentry l
  | AtPlug _ n v c => nm = true /\ name_ok n /\ com_ok c /\ pr_plugin v /\ match v with Plugin _ _ _ vc _ => vc = [] end
  end
with pr_hentry (e : hentry) : Prop :=
  match e with HEntry _ k v com => pr_key k /\ com_ok com /\ pr_attr false v /\ attr_com v = [] end
with pr_plugin (x : plugin) : Prop :=
  match x with Plugin _ n l c f => name_ok n /\ com_ok c /\ com_ok f /\ All (pr_attr true) l end.

(** selectors and regular expressions may not contain incomplete quotes, nor line
    breaks outside quotes *)
Definition pr_sel (s : selector) : Prop := sel_ok s /\ balanced (selector_string s).
Definition pr_re (r : regexp) : Prop := re_ok r /\ balanced (re_text r).
(** an array in a condition must not read as a field selector: the first bracket
    or comma after the opening bracket is not the closing bracket *)
Definition mark (c : N) : bool := mem c [91; 93; 44]%N.
Definition not_selector (l : list attr) (f : cblock) : Prop :=
  (l = [] /\ f = []) \/
  match filter mark (attr_value (AtArr zero_pos [] l [] f)) with _ :: c :: _ => c <> 93%N | _ => False end.
Definition pr_rvalue (r : rvalue) : Prop :=
  match r with
  | RVNil => False
  | RVStr s => cstr_ok s
  | RVNum n => na_name n = [] /\ pr_num (na_val n) /\ na_com n = []
  | RVSel s => pr_sel s
  | RVArr _ n l c f => n = [] /\ c = [] /\ com_ok f /\ All (pr_attr false) l /\ not_selector l f
  | RVRe r => pr_re r
  end.
Definition pr_strorre (r : strorre) : Prop :=
  match r with SRNil => False | SRStr s => cstr_ok s | SRRe r => pr_re r end.
Fixpoint pr_cexpr (first : bool) (e : cexpr) : Prop :=
  match e with
  | ExNil => False
  | ExCond _ bo c => bo_ok first bo /\ pr_cond c
  | ExNeg _ bo c => bo_ok first bo /\ pr_cond c
  | ExNegSel _ bo s => bo_ok first bo /\ pr_sel s
  | ExIn _ bo l r => bo_ok first bo /\ pr_rvalue l /\ pr_rvalue r
  | ExNotIn _ bo l r => bo_ok first bo /\ pr_rvalue l /\ pr_rvalue r
  | ExRv _ bo r => bo_ok first bo /\ pr_rvalue r
  | ExCmp _ bo l o r => bo_ok first bo /\ pr_rvalue l /\ co_op o <> CoUndef /\ pr_rvalue r
  | ExRe _ bo l o r => bo_ok first bo /\ pr_rvalue l /\ ro_op o <> RoUndef /\ pr_strorre r
  end
with pr_cond (c : condition) : Prop :=
  match c with Cond l => match l with [] => False | e :: l' => pr_cexpr true e /\ All (pr_cexpr false) l' end end.

(** the name of a plugin in a section or block must not read as [if] and a number, as in
    [if5] or [if-5]; after a branch without else block it must not read as an else block,
    as [else] or [elseif5] *)
Definition numeral (t : bytes) : Prop := exists d u, digit d /\ (t = d :: u \/ t = 45%N :: d :: u).
Definition if_like (n : bytes) : Prop := exists t, n = b "if" ++ t /\ numeral t.
Definition else_like (n : bytes) : Prop := n = b "else" \/ exists t, n = b "elseif" ++ t /\ numeral t.
Definition pname (x : plugin) : bytes := match x with Plugin _ n _ _ _ => n end.
Definition pr_item (x : plugin) : Prop := pr_plugin x /\ ~ if_like (pname x).
(** no else block is printed *)
Definition else_empty (e : elseblock) : Prop := match e with ElB _ l com foot => l = [] /\ com = [] /\ foot = [] end.
Definition beside (x y : bop) : Prop :=
  match x, y with BBranch _ _ e, (BPlugin p | BPluginPtr p) => else_empty e -> ~ else_like (pname p) | _, _ => True end.
Fixpoint apart (l : list bop) : Prop :=
  match l with x :: l' => match l' with y :: _ => beside x y | [] => True end /\ apart l' | [] => True end.
Fixpoint pr_bop (x : bop) : Prop :=
  match x with
  | BNil => False
  | BPlugin p => pr_item p
  | BPluginPtr p => pr_item p
  | BBranch i es e => pr_if i /\ All pr_if es /\ pr_else e
  end
with pr_if (x : ifblock) : Prop :=
  match x with IfB _ c l com foot => pr_cond c /\ com_ok com /\ com_ok foot /\ All pr_bop l /\ apart l end
with pr_else (x : elseblock) : Prop :=
  match x with ElB p l com foot => com_ok com /\ com_ok foot /\ All pr_bop l /\ apart l end.
Definition pr_section (t : ptype) (s : section) : Prop :=
  ps_type s = t /\ com_ok (ps_com s) /\ com_ok (ps_foot s) /\ All pr_bop (ps_bops s) /\ apart (ps_bops s).
(** the footer comments of a configuration need a section to follow *)
Definition printable (c : config) : Prop :=
  All (pr_section PTInput) (cf_input c) /\ All (pr_section PTFilter) (cf_filter c) /\
  All (pr_section PTOutput) (cf_output c) /\ com_ok (cf_foot c) /\
  (cf_input c = [] -> cf_filter c = [] -> cf_output c = [] -> cf_foot c = []).

(** ** The layout *)
Definition ind (n : nat) : bytes := repeat SP (n + n).
Definition tcomment (n : nat) (c : comment) : bytes :=
  (if c_before c then [NL] else []) ++ (ind n ++ b "# " ++ c_text c ++ [NL]) ++ (if c_after c then [NL] else []).
Definition tcoms (n : nat) (l : cblock) : bytes := flat_map (tcomment n) l.
Definition clear_after (c : comment) : comment := Comment (c_text c) (c_before c) false.
(** comments before a closing bracket: no blank line at the end *)
Definition tfoot (n : nat) (l : cblock) : bytes := tcoms n (map_last clear_after l).
(** the inside of brackets: [I] are the lines at depth [n + 1] *)
Definition tbody (n : nat) (I : bytes) (e : bool) (foot : cblock) : bytes :=
  match I, foot with
  | [], [] => if e then NL :: ind n else []
  | _, _ => [NL] ++ I ++ (match I, foot with _ :: _, _ :: _ => [NL] | _, _ => [] end) ++ tfoot (S n) foot ++ ind n
  end.
(** elements of an array, separated by commas, one per line *)
Definition telems (ts : list bytes) : bytes := match ts with [] => [] | _ => join [44%N; NL] ts ++ [NL] end.
Fixpoint tval (n : nat) (a : attr) : bytes :=
  match a with
  | AtNil => []
  | AtStr s => sa_value_string s
  | AtNum v => number_string (na_val v)
  | AtArr _ _ l _ foot =>
      b "[" ++ tbody n (telems (map (fun x => tcoms (S n) (attr_com x) ++ ind (S n) ++ tval (S n) x) l)) false foot ++ b "]"
  | AtHash _ _ l _ foot => b "{" ++ tbody n (flat_map (thentry (S n)) l) false foot ++ b "}"
  | AtPlug _ _ p _ => tplugin n p
  end
with thentry (n : nat) (e : hentry) : bytes :=
  match e with HEntry _ k v com => tcoms n com ++ ind n ++ hkey_string k ++ arrow ++ tval n v ++ [NL] end
with tplugin (n : nat) (p : plugin) : bytes :=
  match p with
  | Plugin _ name l _ foot =>
      name ++ b " {" ++
        tbody n (flat_map (fun x => tcoms (S n) (attr_com x) ++ ind (S n) ++ attr_name x ++ arrow ++ tval (S n) x ++ [NL]) l) false foot
        ++ b "}"
  end.
Definition tattr (n : nat) (x : attr) : bytes :=
  tcoms n (attr_com x) ++ ind n ++ attr_name x ++ arrow ++ tval n x ++ [NL].
Definition telem (n : nat) (x : attr) : bytes := tcoms n (attr_com x) ++ ind n ++ tval n x.

Definition trvalue (n : nat) (r : rvalue) : bytes :=
  match r with
  | RVNil => []
  | RVStr s => sa_value_string s
  | RVNum v => number_string (na_val v)
  | RVSel s => selector_string s
  | RVArr p nm l c f => tval n (AtArr p nm l c f)
  | RVRe r => regexp_string r
  end.
Fixpoint tcexpr (n : nat) (e : cexpr) : bytes :=
  match e with
  | ExNil => []
  | ExCond _ bo c => boolop_string (bo_op bo) ++ b "(" ++ tcond n c ++ b ")"
  | ExNeg _ bo c => boolop_string (bo_op bo) ++ b "!(" ++ tcond n c ++ b ")"
  | ExNegSel _ bo s => boolop_string (bo_op bo) ++ b "!" ++ selector_string s
  | ExIn _ bo l r => boolop_string (bo_op bo) ++ trvalue n l ++ b " in " ++ trvalue n r
  | ExNotIn _ bo l r => boolop_string (bo_op bo) ++ trvalue n l ++ b " not in " ++ trvalue n r
  | ExRv _ bo r => boolop_string (bo_op bo) ++ trvalue n r
  | ExCmp _ bo l o r => boolop_string (bo_op bo) ++ trvalue n l ++ b " " ++ cmpop_string (co_op o) ++ b " " ++ trvalue n r
  | ExRe _ bo l o r => boolop_string (bo_op bo) ++ trvalue n l ++ b " " ++ reop_string (ro_op o) ++ b " " ++ strorre_string r
  end
with tcond (n : nat) (c : condition) : bytes := match c with Cond l => flat_map (tcexpr n) l end.

Definition tblock (n : nat) (I : bytes) (foot : cblock) : bytes := b "{" ++ tbody n I true foot ++ b "}".
Definition tintro (n : nat) (com : cblock) : bytes := match com with [] => [SP] | _ => [NL] ++ tcoms n com ++ ind n end.
Fixpoint tbop (n : nat) (x : bop) : bytes :=
  match x with
  | BNil => []
  | BPlugin p | BPluginPtr p => match p with Plugin _ _ _ com _ => tcoms n com ++ ind n ++ tplugin n p end
  | BBranch (IfB _ c l com foot) es (ElB _ el ecom efoot) =>
      tcoms n com ++ ind n ++ b "if " ++ tcond n c ++ b " "
        ++ tblock n (join [NL] (map (fun y => tbop (S n) y ++ [NL]) l)) foot
      ++ flat_map (telseif n) es
      ++ match el, ecom, efoot with
         | [], [], [] => []
         | _, _, _ => tintro n ecom ++ b "else " ++ tblock n (join [NL] (map (fun y => tbop (S n) y ++ [NL]) el)) efoot
         end
  end
with telseif (n : nat) (e : ifblock) : bytes :=
  match e with
  | IfB _ c l com foot =>
      tintro n com ++ b "else if " ++ tcond n c ++ b " " ++ tblock n (join [NL] (map (fun y => tbop (S n) y ++ [NL]) l)) foot
  end.
Definition tbops (n : nat) (l : list bop) : bytes := join [NL] (map (fun y => tbop n y ++ [NL]) l).
Definition tsection (kind : bytes) (com : cblock) (s : section) : bytes :=
  tcoms 0 com ++ kind ++ b " {" ++ tbody 0 (tbops 1 (ps_bops s)) false (ps_foot s) ++ b "}" ++ [NL].
Definition tsections (kind : bytes) (l : list section) : bytes :=
  join [NL] (map (tsection kind (match l with p0 :: _ => ps_com p0 | [] => [] end)) l).
Definition tconfig (c : config) : bytes :=
  tsections (b "input") (cf_input c) ++ tsections (b "filter") (cf_filter c) ++ tsections (b "output") (cf_output c)
    ++ tcoms 0 (cf_foot c).

(** ** Indenting a text by one level *)
Inductive place := LS | IL. (* at the start of a line, inside a line *)
Inductive Lay : place -> bytes -> bytes -> place -> Prop :=
| lay_nil p : Lay p [] [] p
| lay_in t s s' p : balanced t -> Lay IL s s' p -> Lay IL (t ++ s) (t ++ s') p
| lay_nl s s' p : Lay LS s s' p -> Lay IL (NL :: s) (NL :: s') p
| lay_blank s s' p : Lay LS s s' p -> Lay LS (NL :: s) (NL :: s') p
| lay_com k t s s' p : ~ In NL t -> Lay LS s s' p ->
    Lay LS ((repeat SP k ++ HASH :: t ++ [NL]) ++ s) ([SP; SP] ++ (repeat SP k ++ HASH :: t ++ [NL]) ++ s') p
| lay_start k c t s s' p : ~ space c -> c <> HASH -> balanced (c :: t) -> Lay IL s s' p ->
    Lay LS ((repeat SP k ++ c :: t) ++ s) ([SP; SP] ++ (repeat SP k ++ c :: t) ++ s') p.
Lemma lay_eq p s s' q t t' : Lay p s s' q -> s = t -> s' = t' -> Lay p t t' q.
Proof. now intros H -> ->. Qed.
Lemma lay_app p s s' q t t' r : Lay p s s' q -> Lay q t t' r -> Lay p (s ++ t) (s' ++ t') r.
Proof.
  induction 1; intros K; auto.
  - rewrite <- !app_assoc. apply lay_in; auto.
  - apply lay_nl; auto.
  - apply lay_blank; auto.
  - eapply lay_eq; [eapply lay_com; [eassumption|eauto]|now rewrite <- !app_assoc|]. rewrite <- !app_assoc. reflexivity.
  - eapply lay_eq; [eapply lay_start; eauto|now rewrite <- !app_assoc|]. rewrite <- !app_assoc. reflexivity.
Qed.
Lemma balanced_app s t : balanced s -> balanced t -> balanced (s ++ t).
Proof. intros H K. induction H; cbn [app]; [exact K|now constructor|]. rewrite <- app_assoc. now constructor. Qed.

Definition is_open (x : bytes) : Prop := exists k c t, x = repeat SP k ++ c :: t /\ ~ space c /\ c <> HASH /\ balanced (c :: t).
Lemma lay_lines p s s' q : Lay p s s' q -> q = LS ->
  match p with
  | LS => exists ls, Forall line ls /\ s = List.concat ls /\ s' = flat_map indented ls
  | IL => forall x, is_open x -> exists ls, Forall line ls /\ x ++ s = List.concat ls /\ [SP; SP] ++ x ++ s' = flat_map indented ls
  end.
Proof.
  induction 1 as [p|t s s' p B H IH|s s' p H IH|s s' p H IH|k t s s' p Ht H IH|k c t s s' p Hs Hh B H IH]; intros Eq.
  - subst. exists []. repeat split; constructor.
  - intros x (k & c & u & -> & O1 & O2 & O3). destruct (IH Eq ((repeat SP k ++ c :: u) ++ t)) as (ls & F & E1 & E2).
    { exists k, c, (u ++ t). split; [now rewrite <- app_assoc|]. split; [exact O1|]. split; [exact O2|]. exact (balanced_app _ _ O3 B). }
    exists ls. split; [exact F|]. split; [now rewrite <- E1, <- !app_assoc|]. rewrite <- E2. now rewrite <- !app_assoc.
  - intros x (k & c & u & -> & O1 & O2 & O3). destruct (IH Eq) as (ls & F & -> & ->).
    exists ((repeat SP k ++ (c :: u) ++ [NL]) :: ls). split; [constructor; [now constructor|exact F]|]. cbn [List.concat flat_map]. split; [now rewrite <- !app_assoc|].
    unfold indented at 2. destruct (beqb _ _) eqn:Eb.
    + exfalso. destruct k; cbn in Eb; [|discriminate]. apply andb_true_iff in Eb as [Eb _]. apply N.eqb_eq in Eb. subst. apply O1. right. now left.
    + now rewrite <- !app_assoc.
  - destruct (IH Eq) as (ls & F & -> & ->). exists ([NL] :: ls). split; [constructor; [constructor|exact F]|]. auto.
  - destruct (IH Eq) as (ls & F & -> & ->). exists ((repeat SP k ++ HASH :: t ++ [NL]) :: ls). split; [constructor; [now constructor|exact F]|]. split; [reflexivity|].
    cbn [flat_map]. unfold indented at 2. destruct k; reflexivity.
  - destruct (IH Eq (repeat SP k ++ c :: t)) as (ls & F & E1 & E2); [exists k, c, t; auto|]. exists ls. auto.
Qed.
(** the last line is not empty *)
Definition solid (s : bytes) : Prop := exists x c, s = x ++ [c; NL] /\ c <> NL.
Lemma solid_app s t : solid t -> solid (s ++ t).
Proof. intros (x & c & -> & H). exists (s ++ x), c. split; [now rewrite app_assoc|exact H]. Qed.
Lemma line_end l : line l -> exists x, l = x ++ [NL].
Proof. intros H. destruct H as [|k t Ht|k c t Hs Hh B]; [exists []; reflexivity|exists (repeat SP k ++ HASH :: t); now rewrite <- app_assoc|exists (repeat SP k ++ c :: t); now rewrite <- app_assoc]. Qed.
Lemma prefix_lay s s' k e : Lay LS s s' LS -> solid s -> prefix (s ++ repeat NL k) e = NL :: s'.
Proof.
  intros H (x & c & E & Hc). destruct (lay_lines _ _ _ _ H eq_refl) as (ls & F & E1 & E2). clear H.
  destruct ls as [|l ls _] using rev_ind; [cbn in E1; subst s; destruct x; discriminate|].
  apply Forall_app in F as [F1 F2]. apply Forall_inv in F2. rewrite concat_app in E1. cbn [List.concat] in E1. rewrite app_nil_r in E1.
  rewrite E1, <- app_assoc, E2. apply prefix_lines; [exact F1|exact F2|]. intros ->. rewrite E in E1. clear -E1 Hc F1.
  change [c; NL] with ([c] ++ [NL]) in E1. rewrite app_assoc in E1. apply app_inj_tail in E1 as [E _].
  destruct ls as [|l0 ls _] using rev_ind.
  - cbn in E. destruct x; discriminate.
  - apply Forall_app in F1 as [_ F1]. apply Forall_inv in F1. destruct (line_end l0 F1) as (y & ->).
    rewrite concat_app in E. cbn [List.concat] in E. rewrite app_nil_r, app_assoc in E. apply app_inj_tail in E as [_ E]. congruence.
Qed.

(** ** Balanced tokens *)
Lemma balanced_plain t : Forall (fun c => ~ In c [DQ; SQ; NL]) t -> balanced t.
Proof. induction 1; constructor; auto. Qed.
Lemma balanced_lit q v : In q [DQ; SQ] -> literal_value q v -> balanced ([q] ++ v ++ [q]).
Proof. intros H K. rewrite <- (app_nil_r (v ++ [q])). change ([q] ++ (v ++ [q]) ++ []) with ((q :: v ++ [q]) ++ []). constructor; [exact H|exact K|constructor]. Qed.
(** the first character of a token *)
Definition starts (t : bytes) : Prop := exists c u, t = c :: u /\ ~ space c /\ c <> HASH.
Lemma starts_app t u : starts t -> starts (t ++ u).
Proof. intros (c & v & -> & H). exists c, (v ++ u). auto. Qed.
Lemma word_plain c : word_char c -> ~ In c [DQ; SQ; NL] /\ ~ space c /\ c <> HASH.
Proof.
  unfold word_char, bareword_char, bareword_start, space, HASH, DQ, SQ, NL. cbn [In]. intros H. split; [|split]; lia.
Qed.
Lemma name_token n : name_ok n -> balanced n /\ starts n.
Proof.
  intros [[N W]|(q & v & Hq & Hv & ->)].
  - split.
    + apply balanced_plain. eapply Forall_impl; [|exact W]. intros c Hc. now apply word_plain.
    + destruct n as [|c n]; [congruence|]. inversion W; subst. exists c, n. split; [reflexivity|]. now apply word_plain.
  - split; [now apply balanced_lit|]. exists q, (v ++ [q]). split; [reflexivity|]. destruct Hq as [<-|[<-|[]]]; cbv; split; intuition discriminate.
Qed.
Lemma str_token s : str_ok (sa_type s) (sa_val s) -> balanced (sa_value_string s) /\ starts (sa_value_string s).
Proof.
  unfold sa_value_string. destruct (sa_type s); cbn [str_ok sat_string]; intros H.
  - apply name_token. right. exists DQ, (sa_val s). split; [now left|auto].
  - apply name_token. right. exists SQ, (sa_val s). split; [right; now left|auto].
  - destruct H as (c & v & E & _ & H1 & H2). rewrite E. cbn [app]. rewrite app_nil_r. apply name_token. left. split; [discriminate|].
    constructor; [left; now left|]. eapply Forall_impl; [|exact H2]. intros d Hd. now left.
  - contradiction.
Qed.
Lemma number_chars t : number_text t -> balanced t /\ starts t.
Proof.
  intros (sg & ip & fp & -> & Hs & Hi & Di & Hf).
  assert (Q : forall c, (48 <= c <= 57)%N \/ c = 45%N \/ c = 46%N -> ~ In c [DQ; SQ; NL] /\ ~ space c /\ c <> HASH).
  { unfold space, HASH, DQ, SQ, NL. cbn [In]. intros c H. split; [|split]; lia. }
  assert (F : Forall (fun c => (48 <= c <= 57)%N \/ c = 45%N \/ c = 46%N) (sg ++ ip ++ fp)).
  { apply Forall_app. split; [destruct Hs as [-> | ->]; auto|]. apply Forall_app. split; [eapply Forall_impl; [|exact Di]; intros c Hc; now left|].
    destruct Hf as [->|(f & -> & Hf)]; [constructor|]. constructor; [auto|]. eapply Forall_impl; [|exact Hf]. intros c Hc. now left. }
  split.
  - apply balanced_plain. eapply Forall_impl; [|exact F]. intros c Hc. now apply Q.
  - destruct (sg ++ ip ++ fp) as [|c t] eqn:E; [destruct sg, ip; try discriminate; congruence|]. inversion F; subst. exists c, t. split; [reflexivity|now apply Q].
Qed.
Lemma num_token v : pr_num v -> balanced (number_string v) /\ starts (number_string v).
Proof. intros [H _]. now apply number_chars. Qed.
Lemma key_token k : pr_key k -> balanced (hkey_string k) /\ starts (hkey_string k).
Proof. destruct k; cbn; intros (_ & H & _); [now apply str_token|now apply num_token]. Qed.

(** ** Layouts are indented by going one level deeper *)
Lemma ind_S n : ind (S n) = [SP; SP] ++ ind n.
Proof. unfold ind. replace (S n + S n) with (S (S (n + n))) by lia. reflexivity. Qed.
Lemma lay_bal t : balanced t -> Lay IL t t IL.
Proof. intros H. rewrite <- (app_nil_r t). apply lay_in; [exact H|constructor]. Qed.
Lemma lay_empty p s s' q : Lay p s s' q -> s = [] <-> s' = [].
Proof.
  induction 1; try tauto; try (split; discriminate).
  - split; intros E; apply app_eq_nil in E as [-> E]; cbn; tauto.
  - split; intros E; destruct k; discriminate.
  - split; intros E; destruct k; discriminate.
Qed.
Lemma lay_marks p s s' q : Lay p s s' q -> filter mark s' = filter mark s.
Proof.
  induction 1; cbn [filter app]; rewrite ?filter_app; try congruence; cbn; try (rewrite ?filter_app; congruence).
  all: destruct (mark NL); congruence.
Qed.
(** A text that starts with a token, for use inside a line or at its start *)
Definition Tok (s s' : bytes) : Prop :=
  exists t r r', s = t ++ r /\ s' = t ++ r' /\ balanced t /\ starts t /\ Lay IL r r' IL.
Lemma tok_in s s' : Tok s s' -> Lay IL s s' IL.
Proof. intros (t & r & r' & -> & -> & B & _ & L). apply lay_in; auto. Qed.
Lemma tok_start n s s' : Tok s s' -> Lay LS (ind n ++ s) (ind (S n) ++ s') IL.
Proof.
  intros (t & r & r' & -> & -> & B & (c & u & -> & H1 & H2) & L). rewrite ind_S. eapply lay_eq; [exact (lay_start (n + n) c u r r' IL H1 H2 B L)|now rewrite <- app_assoc|].
  now rewrite <- !app_assoc.
Qed.
Lemma tok_app s s' t t' : Tok s s' -> Lay IL t t' IL -> Tok (s ++ t) (s' ++ t').
Proof.
  intros (x & r & r' & -> & -> & B & S & L) K. exists x, (r ++ t), (r' ++ t'). rewrite <- !app_assoc. repeat (split; [reflexivity || assumption|]). eapply lay_app; eauto.
Qed.
Lemma tok_tok t : balanced t /\ starts t -> Tok t t.
Proof. intros [B S]. exists t, [], []. rewrite app_nil_r. repeat (split; [reflexivity || assumption|]). constructor. Qed.
Lemma lay_trans_nl p s s' : Lay p s s' IL -> Lay p (s ++ [NL]) (s' ++ [NL]) LS.
Proof. intros H. eapply lay_app; [exact H|]. apply lay_nl. constructor. Qed.

Lemma comment_text_nl c : comment_ok c -> ~ In NL (c_text c).
Proof. intros [H _] I. unfold no_break in H. rewrite Forall_forall in H. destruct (H _ I) as [_ E]. now apply E. Qed.
Lemma lay_comment n c : comment_ok c -> Lay LS (tcomment n c) (tcomment (S n) c) LS.
Proof.
  intros H. unfold tcomment. eapply lay_app; [destruct (c_before c); [apply lay_blank|]; constructor|].
  eapply lay_app; [|destruct (c_after c); [apply lay_blank|]; constructor]. rewrite ind_S.
  eapply lay_eq; [apply (lay_com (n + n) (SP :: c_text c) [] [] LS)|rewrite app_nil_r; reflexivity|rewrite app_nil_r, <- app_assoc; reflexivity]; [|constructor].
  intros [E|E]; [discriminate|]. now apply comment_text_nl in H.
Qed.
Lemma lay_coms n l : com_ok l -> Lay LS (tcoms n l) (tcoms (S n) l) LS.
Proof. induction 1 as [|c l Hc H IH]; [constructor|]. cbn. eapply lay_app; [now apply lay_comment|exact IH]. Qed.
Lemma foot_ok l : com_ok l -> com_ok (map_last clear_after l).
Proof.
  induction 1 as [|c l Hc H IH]; [constructor|]. destruct l as [|d l].
  - constructor; [exact Hc|constructor].
  - constructor; [exact Hc|exact IH].
Qed.
Lemma lay_foot n l : com_ok l -> Lay LS (tfoot n l) (tfoot (S n) l) LS.
Proof. intros H. apply lay_coms. now apply foot_ok. Qed.

Lemma lay_body n I I' e foot c : Lay LS I I' LS -> com_ok foot -> ~ space c -> c <> HASH -> ~ In c [DQ; SQ; NL] ->
  Lay IL (tbody n I e foot ++ [c]) (tbody (S n) I' e foot ++ [c]) IL.
Proof.
  intros L F H1 H2 H3. pose proof (lay_empty _ _ _ _ L) as Z.
  assert (C : Tok [c] [c]). { apply tok_tok. split; [constructor; [exact H3|constructor]|]. exists c, []. auto. }
  assert (G : forall x, Lay LS x x LS -> Lay IL ([NL] ++ I ++ x ++ tfoot (S n) foot ++ ind n ++ [c]) ([NL] ++ I' ++ x ++ tfoot (S (S n)) foot ++ ind (S n) ++ [c]) IL).
  { intros x Lx. apply lay_nl. eapply lay_app; [exact L|]. eapply lay_app; [exact Lx|]. eapply lay_app; [now apply lay_foot|]. now apply tok_start. }
  destruct I as [|i I].
  - rewrite (proj1 Z eq_refl). destruct foot as [|f foot].
    + destruct e; [|cbn; apply lay_bal; constructor; [exact H3|constructor]]. cbn [tbody app]. apply lay_nl. now apply tok_start.
    + rewrite (proj1 Z eq_refl) in G. specialize (G [] (lay_nil LS)). cbn [tbody]. rewrite <- !app_assoc. exact G.
  - destruct I' as [|i' I']; [destruct Z as [_ Z]; specialize (Z eq_refl); discriminate|].
    destruct foot as [|f foot].
    + specialize (G [] (lay_nil LS)). cbn [tbody]. rewrite <- !app_assoc. exact G.
    + specialize (G [NL] (lay_blank _ _ _ (lay_nil LS))). cbn [tbody]. rewrite <- !app_assoc. exact G.
Qed.
Lemma lay_elems {A} (f g : A -> bytes) l : Forall (fun x => Lay LS (f x) (g x) IL) l -> Lay LS (telems (map f l)) (telems (map g l)) LS.
Proof.
  intros H. destruct H as [|x l Hx H]; [constructor|]. cbn [map telems].
  revert x Hx. induction H as [|y l Hy H IH]; intros x Hx; cbn [map join].
  - now apply lay_trans_nl.
  - rewrite <- !app_assoc. eapply lay_app; [exact Hx|]. change [44%N; NL] with ([44%N] ++ [NL]). rewrite <- !app_assoc.
    apply lay_in; [constructor; [cbv; intuition discriminate|constructor]|]. apply lay_nl. exact (IH y Hy).
Qed.
Lemma lay_flat {A} (f g : A -> bytes) l : Forall (fun x => Lay LS (f x) (g x) LS) l -> Lay LS (flat_map f l) (flat_map g l) LS.
Proof. induction 1; [constructor|]. cbn. eapply lay_app; eauto. Qed.
Lemma lay_join {A} (f g : A -> bytes) l : Forall (fun x => Lay LS (f x) (g x) IL) l ->
  Lay LS (join [NL] (map (fun x => f x ++ [NL]) l)) (join [NL] (map (fun x => g x ++ [NL]) l)) LS.
Proof.
  intros H. destruct H as [|x l Hx H]; [constructor|]. cbn [map].
  revert x Hx. induction H as [|y l Hy H IH]; intros x Hx; cbn [map join].
  - now apply lay_trans_nl.
  - eapply lay_app; [now apply lay_trans_nl|]. eapply lay_app; [apply lay_blank; constructor|]. exact (IH y Hy).
Qed.
Lemma All_F {A} (P : A -> Prop) l : All P l -> Forall P l.
Proof. apply All_Forall. Qed.
Lemma close_sq : ~ space 93%N /\ 93%N <> HASH /\ ~ In 93%N [DQ; SQ; NL].
Proof. cbv. intuition discriminate. Qed.
Lemma close_cu : ~ space 125%N /\ 125%N <> HASH /\ ~ In 125%N [DQ; SQ; NL].
Proof. cbv. intuition discriminate. Qed.
Ltac plain_tok := apply tok_tok; split; [apply balanced_plain; repeat constructor; cbv; intuition discriminate|eexists _, _; split; [reflexivity|cbv; intuition discriminate]].
Ltac plain_lay := apply lay_bal, balanced_plain; repeat constructor; cbv; intuition discriminate.

Lemma lay_attr_line n c nm s s' : com_ok c -> name_ok nm -> Lay IL s s' IL ->
  Lay LS (tcoms n c ++ ind n ++ nm ++ arrow ++ s ++ [NL]) (tcoms (S n) c ++ ind (S n) ++ nm ++ arrow ++ s' ++ [NL]) LS.
Proof.
  intros C N L. eapply lay_app; [now apply lay_coms|]. rewrite (app_assoc (ind n)), (app_assoc (ind (S n))).
  eapply lay_app; [apply tok_start, tok_tok; now apply name_token|]. eapply lay_app; [plain_lay|]. now apply lay_trans_nl.
Qed.
Lemma attr_name_ok a : pr_attr true a -> name_ok (attr_name a) /\ com_ok (attr_com a).
Proof. destruct a; cbn; tauto. Qed.
Lemma elem_com_ok nm a : pr_attr nm a -> com_ok (attr_com a).
Proof. destruct a; cbn; tauto. Qed.
Lemma tok_body t n I I' foot c : balanced t /\ starts t -> Lay LS I I' LS -> com_ok foot -> ~ space c /\ c <> HASH /\ ~ In c [DQ; SQ; NL] ->
  Tok (t ++ tbody n I false foot ++ [c]) (t ++ tbody (S n) I' false foot ++ [c]).
Proof. intros T L F (H1 & H2 & H3). apply tok_app; [now apply tok_tok|]. now apply lay_body. Qed.

Lemma plugin_lay : forall nm a, pr_attr nm a -> forall n, Tok (tval n a) (tval (S n) a).
Proof.
  intros nm a. revert nm. induction a as [|s|v|p nm l c f IH|p nm l c f IH|p nm v c IH] using attr_ind'; intros b0 H n.
  - contradiction.
  - apply tok_tok. apply str_token. apply H.
  - apply tok_tok. apply num_token. apply H.
  - destruct H as (_ & _ & Hf & Hl). cbn [tval]. apply tok_body; [split; [apply balanced_plain; repeat constructor; cbv; intuition discriminate|eexists _, _; split; [reflexivity|cbv; intuition discriminate]]| |exact Hf|exact close_sq].
    apply All_F in Hl. apply (lay_elems (telem (S n)) (telem (S (S n)))). rewrite Forall_forall in *. intros x Hx.
    unfold telem. eapply lay_app; [apply lay_coms, (elem_com_ok false), Hl, Hx|]. apply tok_start, (IH _ Hx false), Hl, Hx.
  - destruct H as (_ & _ & Hf & Hl). cbn [tval]. apply tok_body; [split; [apply balanced_plain; repeat constructor; cbv; intuition discriminate|eexists _, _; split; [reflexivity|cbv; intuition discriminate]]| |exact Hf|exact close_cu].
    apply All_F in Hl. apply lay_flat. rewrite Forall_forall in *. intros [hp k x com] Hx. specialize (Hl _ Hx). specialize (IH _ Hx). cbn in Hl, IH. destruct Hl as (Hk & Hc & Hv & _).
    cbn [thentry]. eapply lay_app; [now apply lay_coms|]. rewrite (app_assoc (ind _)), (app_assoc (ind (S _))).
    eapply lay_app; [apply tok_start, tok_tok; now apply key_token|]. eapply lay_app; [plain_lay|]. apply lay_trans_nl, tok_in. exact (IH false Hv _).
  - destruct H as (_ & _ & _ & Hp & _). destruct v as [vp vn l vc vf]. cbn [pattrs] in IH. cbn in Hp. destruct Hp as (Hn & _ & Hf & Hl). cbn [tval tplugin].
    rewrite !app_assoc. rewrite <- (app_assoc (vn ++ _)), <- (app_assoc (vn ++ _) _ (b "}")). apply tok_body; [|  |exact Hf|exact close_cu].
    { apply name_token in Hn as [B S]. split; [apply balanced_app; [exact B|apply balanced_plain; repeat constructor; cbv; intuition discriminate]|now apply starts_app]. }
    apply All_F in Hl. apply lay_flat. rewrite Forall_forall in *. intros x Hx. destruct (attr_name_ok _ (Hl _ Hx)) as [N1 N2].
    apply lay_attr_line; [exact N2|exact N1|]. apply tok_in, (IH _ Hx true), Hl, Hx.
Qed.

Lemma plugin_tok x : pr_plugin x -> forall n, Tok (tplugin n x) (tplugin (S n) x).
Proof.
  destruct x as [p nm l c f]. intros (Hn & _ & Hf & Hl) n.
  apply (plugin_lay true (AtPlug zero_pos nm (Plugin p nm l [] f) [])). split; [reflexivity|]. split; [exact Hn|]. split; [constructor|]. split; [|reflexivity].
  split; [exact Hn|]. split; [constructor|]. split; [exact Hf|exact Hl].
Qed.
Lemma lay_cat t s s' : balanced t -> Lay IL s s' IL -> Lay IL (t ++ s) (t ++ s') IL.
Proof. apply lay_in. Qed.
Lemma lay_rv r : pr_rvalue r -> forall n, Lay IL (trvalue n r) (trvalue (S n) r) IL.
Proof.
  destruct r as [|s|v|s|p nm l c f|r]; cbn [pr_rvalue trvalue]; intros H n.
  - contradiction.
  - apply lay_bal. apply str_token. destruct H as (_ & H & _). destruct (sa_type s); try exact H; tauto.
  - apply lay_bal. apply num_token, H.
  - apply lay_bal, H.
  - destruct H as (-> & -> & Hf & Hl & _). apply tok_in. apply (plugin_lay false). split; [reflexivity|]. split; [constructor|]. split; [exact Hf|exact Hl].
  - destruct H as [_ H]. apply lay_bal. unfold regexp_string. repeat (apply balanced_app; [|]); try exact H; apply balanced_plain; repeat constructor; cbv; intuition discriminate.
Qed.
Ltac bal_plain := apply balanced_plain; repeat constructor; cbv; intuition discriminate.
Lemma bal_boolop o : balanced (boolop_string o).
Proof. destruct o; bal_plain. Qed.
Lemma bal_cmpop o : balanced (cmpop_string o).
Proof. destruct o; bal_plain. Qed.
Lemma bal_reop o : balanced (reop_string o).
Proof. destruct o; bal_plain. Qed.
Lemma bal_re r : pr_re r -> balanced (regexp_string r).
Proof. intros [_ H]. unfold regexp_string. apply balanced_app; [bal_plain|]. apply balanced_app; [exact H|bal_plain]. Qed.
Lemma bal_strorre r : pr_strorre r -> balanced (strorre_string r).
Proof. destruct r as [|s|r]; cbn; intros H; [contradiction| |now apply bal_re]. apply str_token, H. Qed.
Lemma pr_cexpr_any f e : pr_cexpr f e -> exists g, pr_cexpr g e.
Proof. eauto. Qed.
Lemma pr_exprs c : pr_cond c -> Forall (fun e => exists g, pr_cexpr g e) (exprs c).
Proof.
  destruct c as [[|e l]]; [contradiction|]. intros [H K]. constructor; [eauto|]. apply All_F in K. eapply Forall_impl; [|exact K]. eauto.
Qed.
Lemma lay_flat_in {A} (f g : A -> bytes) l : Forall (fun x => Lay IL (f x) (g x) IL) l -> Lay IL (flat_map f l) (flat_map g l) IL.
Proof. induction 1; [constructor|]. cbn. eapply lay_app; eauto. Qed.
Lemma lay_cexpr e : forall f, pr_cexpr f e -> forall n, Lay IL (tcexpr n e) (tcexpr (S n) e) IL.
Proof.
  induction e as [|p bo c IH|p bo c IH|p bo s|p bo l r|p bo l r|p bo r|p bo l o r|p bo l o r] using cexpr_ind'; intros fi H n; cbn [tcexpr]; try contradiction;
    cbn [pr_cexpr] in H; apply lay_cat; try apply bal_boolop; try (destruct H as [_ H]).
  1,2: apply lay_cat; [bal_plain|]; eapply lay_app; [|plain_lay]; destruct c as [l]; cbn [tcond]; apply lay_flat_in; apply pr_exprs in H; cbn [exprs] in *;
    rewrite Forall_forall in *; intros x Hx; destruct (H x Hx) as [g Hg]; exact (IH x Hx g Hg n).
  - apply lay_cat; [bal_plain|]. apply lay_bal, H.
  - destruct H as [Hl Hr]. eapply lay_app; [now apply lay_rv|]. apply lay_cat; [bal_plain|]. now apply lay_rv.
  - destruct H as [Hl Hr]. eapply lay_app; [now apply lay_rv|]. apply lay_cat; [bal_plain|]. now apply lay_rv.
  - now apply lay_rv.
  - destruct H as (Hl & _ & Hr). eapply lay_app; [now apply lay_rv|]. apply lay_cat; [bal_plain|]. apply lay_cat; [apply bal_cmpop|]. apply lay_cat; [bal_plain|]. now apply lay_rv.
  - destruct H as (Hl & _ & Hr). eapply lay_app; [now apply lay_rv|]. apply lay_cat; [bal_plain|]. apply lay_cat; [apply bal_reop|]. apply lay_cat; [bal_plain|]. apply lay_bal. now apply bal_strorre.
Qed.
Lemma lay_cond c : pr_cond c -> forall n, Lay IL (tcond n c) (tcond (S n) c) IL.
Proof.
  intros H n. destruct c as [l]. cbn [tcond]. apply lay_flat_in. apply pr_exprs in H. cbn [exprs] in H. eapply Forall_impl; [|exact H].
  intros e [g Hg]. now apply (lay_cexpr e g).
Qed.

Lemma lay_block n I I' foot : Lay LS I I' LS -> com_ok foot -> Lay IL (tblock n I foot) (tblock (S n) I' foot) IL.
Proof. intros L F. unfold tblock. apply lay_cat; [bal_plain|]. destruct close_cu as (H1 & H2 & H3). now apply lay_body. Qed.
Lemma lay_intro n com t s s' : com_ok com -> balanced t -> starts t -> Lay IL s s' IL -> Lay IL (tintro n com ++ t ++ s) (tintro (S n) com ++ t ++ s') IL.
Proof.
  intros C B S L. destruct com as [|c com].
  - apply lay_cat; [bal_plain|]. now apply lay_cat.
  - unfold tintro. rewrite <- !app_assoc. apply lay_nl. eapply lay_app; [now apply lay_coms|]. apply tok_start. exists t, s, s'. auto.
Qed.
Lemma lay_bops n l : Forall (fun y => Lay LS (tbop n y) (tbop (S n) y) IL) l ->
  Lay LS (join [NL] (map (fun y => tbop n y ++ [NL]) l)) (join [NL] (map (fun y => tbop (S n) y ++ [NL]) l)) LS.
Proof. apply lay_join. Qed.
Lemma pr_block_all (P : bop -> nat -> Prop) l : Forall (fun x => pr_bop x -> forall n, P x n) l -> All pr_bop l -> forall n, Forall (fun x => P x n) l.
Proof. intros H K n. apply All_F in K. rewrite Forall_forall in *. auto. Qed.
Lemma lay_bop x : pr_bop x -> forall n, Lay LS (tbop n x) (tbop (S n) x) IL.
Proof.
  induction x as [|p|p|i es e IHi IHes IHe] using bop_ind'; intros H n.
  - contradiction.
  - destruct p as [pp nm l c f]. destruct H as [H _]. cbn [tbop]. eapply lay_app; [apply lay_coms, H|]. apply tok_start. now apply plugin_tok.
  - destruct p as [pp nm l c f]. destruct H as [H _]. cbn [tbop]. eapply lay_app; [apply lay_coms, H|]. apply tok_start. now apply plugin_tok.
  - destruct i as [ip ic il icom ifo], e as [ep el ecom ef]. destruct H as (Hi & Hes & He). cbn [tbop]. cbn [block eblock] in *.
    destruct Hi as (Hc & H1 & H2 & Hl & _). eapply lay_app; [now apply lay_coms|]. apply tok_start.
    apply (tok_app (b "if ") (b "if ")); [plain_tok|]. eapply lay_app; [now apply lay_cond|]. apply lay_cat; [bal_plain|].
    eapply lay_app. { apply lay_block; [|exact H2]. apply lay_bops. exact (pr_block_all (fun x n => Lay LS (tbop n x) (tbop (S n) x) IL) _ IHi Hl (S n)). }
    eapply lay_app.
    + apply lay_flat_in. apply All_F in Hes. rewrite Forall_forall in *. intros [xp xc xl xcom xf] Hx. specialize (IHes _ Hx). specialize (Hes _ Hx). cbn [block] in IHes. destruct Hes as (K1 & K2 & K3 & K4 & _).
      cbn [telseif]. apply lay_intro; [exact K2|bal_plain|eexists _, _; split; [reflexivity|cbv; intuition discriminate]|]. eapply lay_app; [now apply lay_cond|]. apply lay_cat; [bal_plain|].
      apply lay_block; [|exact K3]. apply lay_bops. apply (pr_block_all (fun x n => Lay LS (tbop n x) (tbop (S n) x) IL)); assumption.
    + destruct He as (K2 & K3 & K4 & _).
      assert (G : Lay IL (tintro n ecom ++ b "else " ++ tblock n (join [NL] (map (fun y => tbop (S n) y ++ [NL]) el)) ef)
                         (tintro (S n) ecom ++ b "else " ++ tblock (S n) (join [NL] (map (fun y => tbop (S (S n)) y ++ [NL]) el)) ef) IL).
      { apply lay_intro; [exact K2|bal_plain|eexists _, _; split; [reflexivity|cbv; intuition discriminate]|].
        apply lay_block; [|exact K3]. apply lay_bops. apply (pr_block_all (fun x n => Lay LS (tbop n x) (tbop (S n) x) IL)); assumption. }
      destruct el, ecom, ef; try exact G. constructor.
Qed.

(** ** The printing functions produce this layout *)
Definition ends (t : bytes) : Prop := exists x c, t = x ++ [c] /\ c <> NL.
Lemma ends_app t u : ends u -> ends (t ++ u).
Proof. intros (x & c & -> & H). exists (t ++ x), c. split; [now rewrite app_assoc|exact H]. Qed.
Lemma ends_solid t : ends t -> solid (t ++ [NL]).
Proof. intros (x & c & -> & H). exists x, c. split; [now rewrite <- app_assoc|exact H]. Qed.
Lemma ends_all t : t <> [] -> Forall (fun c => c <> NL) t -> ends t.
Proof.
  intros N F. destruct t as [|c t _] using rev_ind; [congruence|]. apply Forall_app in F as [_ F]. exists t, c. split; [reflexivity|now inversion F].
Qed.
Lemma ends_nonempty t : ends t -> t <> [].
Proof. intros (x & c & -> & _) E. destruct x; discriminate. Qed.
Lemma solid_nonempty t : solid t -> t <> [].
Proof. intros (x & c & -> & _) E. destruct x; discriminate. Qed.
Lemma cblock_layout l : cblock_string l = tcoms 0 l.
Proof. unfold cblock_string, tcoms. induction l as [|c l IH]; [reflexivity|]. cbn [flat_map]. rewrite IH. unfold comment_string, tcomment. cbn [ind repeat Nat.add app]. now rewrite <- !app_assoc. Qed.
Lemma tcoms_foot n l : exists k, tcoms n l = tfoot n l ++ repeat NL k.
Proof.
  unfold tfoot. induction l as [|c l IH]; [exists 0; reflexivity|]. destruct l as [|d l].
  - exists (if c_after c then 1 else 0). cbn [map_last tcoms flat_map]. rewrite !app_nil_r. unfold tcomment. cbn [clear_after c_before c_after c_text].
    rewrite app_nil_r, <- !app_assoc. destruct (c_after c); reflexivity.
  - destruct IH as [k E]. exists k. change (tcoms n (c :: d :: l)) with (tcomment n c ++ tcoms n (d :: l)). rewrite E.
    change (map_last clear_after (c :: d :: l)) with (c :: map_last clear_after (d :: l)). cbn [tcoms flat_map]. now rewrite <- app_assoc.
Qed.
Lemma foot_solid n l : com_ok l -> l <> [] -> solid (tfoot n l).
Proof.
  unfold tfoot. intros H. induction H as [|c l Hc H IH]; [congruence|]. intros _. destruct l as [|d l].
  - cbn [map_last tcoms flat_map]. rewrite app_nil_r. unfold tcomment. cbn [clear_after c_before c_after c_text]. rewrite app_nil_r.
    apply solid_app. rewrite !app_assoc. apply ends_solid. rewrite <- app_assoc. apply ends_app. apply ends_all; [discriminate|].
    apply comment_text_nl in Hc. repeat constructor; try discriminate. apply Forall_forall. intros x Hx ->. auto.
  - change (map_last clear_after (c :: d :: l)) with (c :: map_last clear_after (d :: l)). cbn [tcoms flat_map]. apply solid_app. apply IH. discriminate.
Qed.
Lemma nl_if_some t : t <> [] -> nl_if t = [NL].
Proof. destruct t; [congruence|reflexivity]. Qed.
Lemma lay_tail I I' x : Lay LS I I' LS -> Lay LS x x LS -> Lay LS (I ++ x) (I' ++ x) LS.
Proof. apply lay_app. Qed.
Lemma prefix_body I0 I1 e foot : Lay LS I0 I1 LS -> I0 = [] \/ solid I0 -> com_ok foot ->
  prefix (I0 ++ nl_if I0 ++ cblock_string foot) e = tbody 0 I1 e foot.
Proof.
  intros L S F. rewrite cblock_layout. destruct (tcoms_foot 0 foot) as [k Ek]. pose proof (lay_empty _ _ _ _ L) as Z.
  destruct S as [-> | S].
  - rewrite (proj1 Z eq_refl). cbn [nl_if app]. destruct foot as [|c foot].
    + destruct e; reflexivity.
    + rewrite Ek. rewrite (prefix_lay _ (tfoot 1 (c :: foot)) k e); [|now apply lay_foot|apply foot_solid; [exact F|discriminate]].
      unfold tbody. cbn [ind repeat Nat.add]. now rewrite app_nil_r.
  - pose proof (solid_nonempty _ S) as N. rewrite (nl_if_some _ N). destruct I1 as [|i I1]; [now rewrite (proj2 Z eq_refl) in N|].
    destruct foot as [|c foot].
    + cbn [tcoms flat_map]. rewrite app_nil_r. change [NL] with (repeat NL 1). rewrite (prefix_lay _ _ 1 e L S). cbn [tbody tfoot map_last tcoms flat_map ind repeat Nat.add]. rewrite !app_nil_r. reflexivity.
    + rewrite Ek. rewrite (app_assoc [NL]), (app_assoc I0). rewrite (prefix_lay _ ((i :: I1) ++ [NL] ++ tfoot 1 (c :: foot)) k e).
      * cbn [tbody ind repeat Nat.add]. now rewrite app_nil_r.
      * eapply lay_app; [exact L|]. apply lay_blank. now apply lay_foot.
      * apply solid_app, solid_app. apply foot_solid; [exact F|discriminate].
Qed.
Lemma flat_solid {A} (f : A -> bytes) l : Forall (fun x => solid (f x)) l -> flat_map f l = [] \/ solid (flat_map f l).
Proof.
  induction 1 as [|x l H K IH]; [now left|]. right. cbn [flat_map]. destruct IH as [E|IH]; [rewrite E, app_nil_r; exact H|now apply solid_app].
Qed.
Lemma join_solid ts : Forall solid ts -> join [NL] ts = [] \/ solid (join [NL] ts).
Proof.
  intros H. destruct H as [|x l Hx H]; [now left|]. right. revert x Hx. induction H as [|y l Hy H IH]; intros x Hx; [exact Hx|].
  change (join [NL] (x :: y :: l)) with (x ++ [NL] ++ join [NL] (y :: l)). apply solid_app, solid_app. now apply IH.
Qed.
Lemma elems_solid ts : Forall ends ts -> telems ts = [] \/ solid (telems ts).
Proof.
  intros H. destruct H as [|x l Hx H]; [now left|]. right. unfold telems. revert x Hx. induction H as [|y l Hy H IH]; intros x Hx; [now apply ends_solid|].
  change (join [44%N; NL] (x :: y :: l)) with (x ++ [44%N; NL] ++ join [44%N; NL] (y :: l)). rewrite <- !app_assoc. apply solid_app, solid_app. now apply IH.
Qed.
Lemma elems_join ts : Forall ends ts -> let ss := join [44%N; NL] ts in (match ss with [] => [] | _ => ss ++ [NL; NL] end) = telems ts ++ nl_if (telems ts).
Proof.
  intros H ss. destruct H as [|x l Hx H]; [reflexivity|]. unfold telems. fold ss.
  assert (N : ss <> []). { unfold ss. apply ends_nonempty in Hx. destruct l as [|y l]; [exact Hx|]. change (join [44%N; NL] (x :: y :: l)) with (x ++ [44%N; NL] ++ join [44%N; NL] (y :: l)). intros E. apply app_eq_nil in E as [E _]. congruence. }
  rewrite nl_if_some; [|intros E; apply app_eq_nil in E as [E _]; congruence]. rewrite <- app_assoc. destruct ss; [congruence|reflexivity].
Qed.
Lemma ends_close t c : c <> NL -> ends (t ++ [c]).
Proof. exists t, c. auto. Qed.
Lemma str_ends s : str_ok (sa_type s) (sa_val s) -> ends (sa_value_string s).
Proof.
  unfold sa_value_string. destruct (sa_type s); cbn [str_ok sat_string]; intros H.
  - rewrite app_assoc. now apply ends_close.
  - rewrite app_assoc. now apply ends_close.
  - destruct H as (c & v & E & _ & H1 & H2). rewrite E. cbn [app]. rewrite app_nil_r. apply ends_all; [discriminate|].
    constructor; [|eapply Forall_impl; [|exact H2]; intros d Hd]; intros ->; unfold bareword_start, bareword_char, bareword_start, NL in *; lia.
  - contradiction.
Qed.
Lemma num_ends v : pr_num v -> ends (number_string v).
Proof.
  intros [(sg & ip & fp & E & Hs & Hi & Di & Hf) _]. rewrite E. apply ends_all.
  - intros X. apply app_eq_nil in X as [_ X]. apply app_eq_nil in X as [X _]. congruence.
  - apply Forall_app. split; [destruct Hs as [-> | ->]; repeat constructor; discriminate|]. apply Forall_app. split.
    + eapply Forall_impl; [|exact Di]. intros c [H1 H2] ->. unfold NL in *. lia.
    + destruct Hf as [-> | (f & -> & Hf)]; [constructor|]. constructor; [discriminate|]. eapply Forall_impl; [|exact Hf]. intros c [H1 H2] ->. unfold NL in *. lia.
Qed.
Lemma tplugin_ends n x : ends (tplugin n x).
Proof. destruct x. cbn [tplugin]. rewrite !app_assoc. now apply ends_close. Qed.
Lemma tval_ends nm a n : pr_attr nm a -> ends (tval n a).
Proof.
  destruct a as [|s|v|p nm' l c f|p nm' l c f|p nm' v c]; intros H; cbn [tval].
  - contradiction.
  - apply str_ends, H.
  - apply num_ends, H.
  - rewrite app_assoc. now apply ends_close.
  - rewrite app_assoc. now apply ends_close.
  - apply tplugin_ends.
Qed.
Lemma attr_layout a : forall nm, pr_attr nm a -> attr_value a = tval 0 a.
Proof.
  induction a as [|s|v|p nm' l c f IH|p nm' l c f IH|p nm' v c IH] using attr_ind'; intros nm H; try reflexivity.
  - destruct H as (_ & _ & Hf & Hl). apply All_F in Hl. cbn [attr_value tval]. f_equal. f_equal.
    assert (E : flat_map (fun x => match x with AtNil => [] | _ => [cblock_string (attr_com x) ++ attr_value x] end) l = map (telem 0) l).
    { clear Hf. induction l as [|x l IHl]; [reflexivity|]. inversion Hl; subst. inversion IH; subst. cbn [flat_map map]. rewrite IHl by assumption.
      unfold telem. rewrite <- cblock_layout, <- (H3 false H1). destruct x; [contradiction|reflexivity..]. }
    rewrite E. assert (En : Forall ends (map (telem 0) l)).
    { apply Forall_forall. intros y Hy. apply in_map_iff in Hy as (x & <- & Hx). unfold telem. apply ends_app. apply ends_app. rewrite Forall_forall in Hl. apply (tval_ends false), Hl, Hx. }
    rewrite (elems_join _ En), <- app_assoc.
    apply (prefix_body _ (telems (map (telem 1) l))); [|now apply elems_solid|exact Hf].
    apply lay_elems. rewrite Forall_forall in *. intros x Hx. unfold telem. eapply lay_app; [apply lay_coms, (elem_com_ok false), Hl, Hx|]. apply tok_start, (plugin_lay false), Hl, Hx.
  - destruct H as (_ & _ & Hf & Hl). apply All_F in Hl. cbn [attr_value tval]. f_equal. f_equal.
    assert (E : flat_map (fun e => hentry_string e ++ [NL]) l = flat_map (thentry 0) l).
    { clear Hf. induction l as [|x l IHl]; [reflexivity|]. inversion Hl; subst. inversion IH; subst. cbn [flat_map]. rewrite IHl by assumption. f_equal.
      destruct x as [hp k x com]. destruct H1 as (_ & _ & Hv & _). cbn [hval hentry_string thentry] in *. rewrite <- cblock_layout, <- (H3 false Hv). cbn [ind repeat Nat.add app]. now rewrite <- !app_assoc. }
    rewrite E. apply prefix_body; [| |exact Hf].
    + apply lay_flat. rewrite Forall_forall in *. intros [hp k x com] Hx. specialize (Hl _ Hx). destruct Hl as (Hk & Hc & Hv & _).
      cbn [thentry]. eapply lay_app; [now apply lay_coms|]. rewrite (app_assoc (ind _)), (app_assoc (ind 1)).
      eapply lay_app; [apply tok_start, tok_tok; now apply key_token|]. eapply lay_app; [plain_lay|]. apply lay_trans_nl, tok_in. now apply (plugin_lay false).
    + apply flat_solid. rewrite Forall_forall in *. intros [hp k x com] Hx. specialize (Hl _ Hx). destruct Hl as (Hk & Hc & Hv & _). cbn [thentry].
      do 4 apply solid_app. now apply ends_solid, (tval_ends false).
  - destruct H as (_ & _ & _ & Hp & Hv). destruct v as [vp vn l vc vf]. subst vc. cbn [pattrs] in IH. destruct Hp as (Hn & _ & Hf & Hl). apply All_F in Hl. cbn [attr_value tval plugin_string tplugin cblock_string flat_map app].
    f_equal. f_equal. f_equal.
    assert (E : flat_map (fun x => match x with AtNil => [] | _ => cblock_string (attr_com x) ++ (attr_name x ++ arrow ++ attr_value x) ++ [NL] end) l = flat_map (tattr 0) l).
    { clear Hf. induction l as [|x l IHl]; [reflexivity|]. inversion Hl; subst. inversion IH; subst. cbn [flat_map]. rewrite IHl by assumption. f_equal.
      unfold tattr. rewrite <- cblock_layout, <- (H3 true H1). cbn [ind repeat Nat.add app]. rewrite <- !app_assoc. destruct x; [contradiction|reflexivity..]. }
    rewrite E. apply (prefix_body _ (flat_map (tattr 1) l)); [| |exact Hf].
    + apply lay_flat. rewrite Forall_forall in *. intros x Hx. destruct (attr_name_ok _ (Hl _ Hx)) as [N1 N2].
      apply lay_attr_line; [exact N2|exact N1|]. apply tok_in, (plugin_lay true), Hl, Hx.
    + apply flat_solid. rewrite Forall_forall in *. intros x Hx. unfold tattr. do 4 apply solid_app. apply ends_solid, (tval_ends true), Hl, Hx.
Qed.
Lemma plugin_layout p nm l c f : pr_plugin (Plugin p nm l c f) -> plugin_string (Plugin p nm l c f) = tcoms 0 c ++ ind 0 ++ tplugin 0 (Plugin p nm l c f).
Proof.
  intros (Hn & Hc & Hf & Hl). rewrite <- cblock_layout. cbn [ind repeat Nat.add app]. change (tplugin 0 (Plugin p nm l c f)) with (tplugin 0 (Plugin p nm l [] f)).
  assert (E : attr_value (AtPlug zero_pos nm (Plugin p nm l [] f) []) = tval 0 (AtPlug zero_pos nm (Plugin p nm l [] f) [])).
  { apply (attr_layout _ true). split; [reflexivity|]. split; [exact Hn|]. split; [constructor|]. split; [|reflexivity]. split; [exact Hn|]. split; [constructor|]. split; [exact Hf|exact Hl]. }
  cbn [tval] in E. rewrite <- E. reflexivity.
Qed.
Lemma rv_layout r : pr_rvalue r -> rvalue_string r = Some (trvalue 0 r).
Proof.
  destruct r as [|s|v|s|p nm l c f|r]; try reflexivity; [contradiction|]. intros (-> & -> & Hf & Hl & _). cbn [rvalue_string trvalue]. f_equal. apply (attr_layout _ false).
  split; [reflexivity|]. split; [constructor|]. split; [exact Hf|exact Hl].
Qed.
Lemma cexpr_layout e : forall f, pr_cexpr f e -> cexpr_string e = tcexpr 0 e.
Proof.
  induction e as [|p bo c IH|p bo c IH|p bo s|p bo l r|p bo l r|p bo r|p bo l o r|p bo l o r] using cexpr_ind'; intros fi H; try reflexivity; cbn [pr_cexpr] in H; destruct H as [_ H]; cbn [cexpr_string tcexpr].
  1,2: do 3 f_equal; apply pr_exprs in H; destruct c as [l]; cbn [exprs cond_string tcond] in *; induction l as [|x l IHl]; [reflexivity|]; inversion IH; subst; inversion H; subst;
    cbn [flat_map]; destruct H4 as [g Hg]; rewrite (H2 g Hg); f_equal; now apply IHl.
  - destruct H as [Hl Hr]. now rewrite (rv_layout _ Hl), (rv_layout _ Hr).
  - destruct H as [Hl Hr]. now rewrite (rv_layout _ Hl), (rv_layout _ Hr).
  - now rewrite (rv_layout _ H).
  - destruct H as (Hl & _ & Hr). now rewrite (rv_layout _ Hl), (rv_layout _ Hr).
  - destruct H as (Hl & _ & Hr). now rewrite (rv_layout _ Hl).
Qed.
Lemma cond_layout c : pr_cond c -> cond_string c = tcond 0 c.
Proof.
  intros H. apply pr_exprs in H. destruct c as [l]. cbn [exprs cond_string tcond] in *. induction H as [|x l [g Hg] H IH]; [reflexivity|]. cbn [flat_map]. now rewrite IH, (cexpr_layout _ g).
Qed.
Lemma bops_layout ts : Forall (fun t => t <> []) ts -> bops_text ts = join [NL] (map (fun t => t ++ [NL]) ts).
Proof.
  unfold bops_text. intros H.
  assert (G : forall acc, acc <> [] -> fold_left bops_step ts acc = acc ++ flat_map (fun t => [NL] ++ t ++ [NL]) ts).
  { induction H as [|t ts Ht H IH]; intros acc Ha; cbn [fold_left flat_map]; [now rewrite app_nil_r|].
    assert (E : bops_step acc t = acc ++ [NL] ++ t ++ [NL]).
    { unfold bops_step. rewrite (nl_if_some acc Ha), nl_if_some by (destruct acc; [congruence|discriminate]). now rewrite <- !app_assoc. }
    rewrite E, IH by (destruct acc; [congruence|discriminate]). now rewrite <- !app_assoc. }
  destruct H as [|t ts Ht H]; [reflexivity|]. cbn [fold_left map].
  assert (E : bops_step [] t = t ++ [NL]). { unfold bops_step. cbn [nl_if app]. now rewrite (nl_if_some t Ht). }
  rewrite E, <- E. clear G. rewrite E.
  assert (G : forall acc, acc <> [] -> fold_left bops_step ts acc = acc ++ flat_map (fun t => [NL] ++ t ++ [NL]) ts).
  { clear E. induction H as [|u ts Hu H IH]; intros acc Ha; cbn [fold_left flat_map]; [now rewrite app_nil_r|].
    assert (E : bops_step acc u = acc ++ [NL] ++ u ++ [NL]).
    { unfold bops_step. rewrite (nl_if_some acc Ha), nl_if_some by (destruct acc; [congruence|discriminate]). now rewrite <- !app_assoc. }
    rewrite E, IH by (destruct acc; [congruence|discriminate]). now rewrite <- !app_assoc. }
  rewrite G by (destruct t; discriminate). clear. generalize (t ++ [NL]). induction ts as [|u ts IH]; intros x; [cbn; now rewrite app_nil_r|].
  cbn [flat_map map]. change (join [NL] (x :: (u ++ [NL]) :: map (fun t => t ++ [NL]) ts)) with (x ++ [NL] ++ join [NL] ((u ++ [NL]) :: map (fun t => t ++ [NL]) ts)).
  rewrite <- IH. now rewrite <- !app_assoc.
Qed.
Lemma tbop_ends x : pr_bop x -> forall n, ends (tbop n x).
Proof.
  destruct x as [|p|p|[ip ic il icom ifo] es [ep el ecom ef]]; intros H n; cbn [tbop].
  - contradiction.
  - destruct p. do 2 apply ends_app. apply tplugin_ends.
  - destruct p. do 2 apply ends_app. apply tplugin_ends.
  - assert (B : forall I f, ends (tblock n I f)). { intros I f. unfold tblock. rewrite app_assoc. now apply ends_close. }
    assert (F : forall u, u = [] \/ ends u -> ends (tblock n (join [NL] (map (fun y => tbop (S n) y ++ [NL]) il)) ifo ++ flat_map (telseif n) es ++ u)).
    { intros u [-> | U]; [|apply ends_app, ends_app; exact U]. rewrite app_nil_r. clear H. destruct es as [|e es _] using rev_ind; [cbn; rewrite app_nil_r; apply B|].
      rewrite flat_map_app. do 2 apply ends_app. destruct e. cbn [flat_map telseif]. rewrite app_nil_r. do 4 apply ends_app. apply B. }
    do 5 apply ends_app. apply F. destruct el, ecom, ef; [now left|..]; right; do 2 apply ends_app; apply B.
Qed.
Lemma block_layout (l : list bop) foot : Forall (fun x => pr_bop x -> bop_string x = tbop 0 x) l -> All pr_bop l -> com_ok foot ->
  block_text (flat_map (fun y => match y with BNil => [] | _ => [bop_string y] end) l) foot = tblock 0 (join [NL] (map (fun y => tbop 1 y ++ [NL]) l)) foot.
Proof.
  intros IH H F. apply All_F in H. assert (E : flat_map (fun y => match y with BNil => [] | _ => [bop_string y] end) l = map (tbop 0) l).
  { clear F. induction l as [|x l IHl]; [reflexivity|]. inversion H; subst. inversion IH; subst. cbn [flat_map map]. rewrite IHl by assumption. rewrite <- (H4 H2). destruct x; [contradiction|reflexivity..]. }
  assert (N : Forall (fun t => t <> []) (map (tbop 0) l)).
  { apply Forall_forall. intros y Hy. apply in_map_iff in Hy as (x & <- & Hx). rewrite Forall_forall in H. apply ends_nonempty, tbop_ends, H, Hx. }
  unfold block_text, tblock. f_equal. f_equal. rewrite E, (bops_layout _ N), map_map. apply prefix_body; [| |exact F].
  - apply lay_join. rewrite Forall_forall in *. intros x Hx. apply lay_bop, H, Hx.
  - apply join_solid. apply Forall_forall. intros y Hy. apply in_map_iff in Hy as (x & <- & Hx). apply ends_solid, tbop_ends. rewrite Forall_forall in H. apply H, Hx.
Qed.
Lemma else_layout com : com_ok com -> else_intro com = tintro 0 com.
Proof. intros _. destruct com as [|c com]; [reflexivity|]. unfold else_intro, tintro. rewrite cblock_layout. cbn [ind repeat Nat.add]. now rewrite app_nil_r. Qed.
Lemma bop_layout x : pr_bop x -> bop_string x = tbop 0 x.
Proof.
  induction x as [|p|p|i es e IHi IHes IHe] using bop_ind'; intros H.
  - contradiction.
  - destruct p as [pp nm l c f]. destruct H as [H _]. now apply plugin_layout.
  - destruct p as [pp nm l c f]. destruct H as [H _]. now apply plugin_layout.
  - destruct i as [ip ic il icom ifo], e as [ep el ecom ef]. destruct H as (Hi & Hes & He). cbn [block eblock] in *. destruct Hi as (Hc & H1 & H2 & Hl & _). destruct He as (K2 & K3 & K4 & _).
    cbn [bop_string tbop]. rewrite cblock_layout, (cond_layout _ Hc), (block_layout _ _ IHi Hl H2), (block_layout _ _ IHe K4 K3), (else_layout _ K2). cbn [ind repeat Nat.add app].
    do 4 f_equal. f_equal. f_equal. apply All_F in Hes. clear -IHes Hes. induction es as [|[xp xc xl xcom xf] es IH]; [reflexivity|]. inversion Hes; subst. inversion IHes; subst. cbn [block] in *. destruct H1 as (G1 & G2 & G3 & G4 & _).
    cbn [flat_map]. rewrite IH by assumption. f_equal. cbn [elseif_string telseif]. now rewrite (cond_layout _ G1), (block_layout _ _ H3 G4 G3), (else_layout _ G2).
Qed.
Lemma section_layout kind com s t : pr_section t s -> com_ok com ->
  cblock_string com ++ kind ++ b " {" ++ prefix (section_string s) false ++ prefix (cblock_string (ps_foot s)) false ++ b "}" ++ [NL] = tsection kind com s.
Proof.
  intros (_ & _ & Hf & Hb & _) Hc. unfold tsection. rewrite cblock_layout. do 3 f_equal. rewrite app_assoc. f_equal. unfold section_string, bop_texts, tbops.
  apply All_F in Hb. assert (E : flat_map (fun y => match y with BNil => [] | _ => [bop_string y] end) (ps_bops s) = map (tbop 0) (ps_bops s)).
  { induction Hb as [|x l Hx Hl IHl]; [reflexivity|]. cbn [flat_map map]. rewrite IHl. rewrite <- (bop_layout _ Hx). destruct x; [contradiction|reflexivity..]. }
  rewrite E. assert (N : Forall (fun t => t <> []) (map (tbop 0) (ps_bops s))).
  { apply Forall_forall. intros y Hy. apply in_map_iff in Hy as (x & <- & Hx). rewrite Forall_forall in Hb. apply ends_nonempty, tbop_ends, Hb, Hx. }
  rewrite (bops_layout _ N), map_map.
  assert (L : Lay LS (join [NL] (map (fun x => tbop 0 x ++ [NL]) (ps_bops s))) (join [NL] (map (fun x => tbop 1 x ++ [NL]) (ps_bops s))) LS).
  { apply lay_join. eapply Forall_impl; [|exact Hb]. intros x Hx. now apply lay_bop. }
  assert (S : join [NL] (map (fun x => tbop 0 x ++ [NL]) (ps_bops s)) = [] \/ solid (join [NL] (map (fun x => tbop 0 x ++ [NL]) (ps_bops s)))).
  { apply join_solid. apply Forall_forall. intros y Hy. apply in_map_iff in Hy as (x & <- & Hx). apply ends_solid, tbop_ends. rewrite Forall_forall in Hb. apply Hb, Hx. }
  pose proof (prefix_body [] [] false (ps_foot s) (lay_nil LS) (or_introl eq_refl) Hf) as PF. cbn [nl_if app] in PF. rewrite PF.
  pose proof (prefix_body _ _ false [] L S (Forall_nil _)) as PB. pose proof (lay_empty _ _ _ _ L) as Z.
  destruct S as [S|S].
  - rewrite S in *. rewrite (proj1 Z eq_refl). reflexivity.
  - pose proof (prefix_lay _ _ 0 false L S) as PL. cbn [repeat] in PL. rewrite app_nil_r in PL. rewrite PL.
    destruct (join [NL] (map (fun x => tbop 1 x ++ [NL]) (ps_bops s))) as [|i I]; [apply solid_nonempty in S; now rewrite (proj2 Z eq_refl) in S|].
    destruct (ps_foot s) as [|c f]; cbn [tbody tfoot map_last tcoms flat_map ind repeat Nat.add app]; rewrite ?app_nil_r; [reflexivity|]. reflexivity.
Qed.
Lemma sections_layout kind t l : All (pr_section t) l -> sections_string kind l = tsections kind l.
Proof.
  intros H. unfold sections_string, tsections. f_equal. destruct l as [|p0 l]; [reflexivity|]. assert (C : com_ok (ps_com p0)). { destruct H as [H _]. apply H. }
  apply All_F in H. generalize C. generalize (ps_com p0). intros com Hc. clear C. induction H as [|s l' Hs H IH]; [reflexivity|]. cbn [map]. rewrite (section_layout kind com s t Hs Hc). f_equal. exact IH.
Qed.
(** What Config.String returns for a printable configuration *)
Theorem config_layout c : printable c -> config_string c = tconfig c.
Proof.
  intros (H1 & H2 & H3 & _). unfold config_string, tconfig. now rewrite (sections_layout _ _ _ H1), (sections_layout _ _ _ H2), (sections_layout _ _ _ H3), cblock_layout.
Qed.
