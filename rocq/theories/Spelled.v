(** Specification: the text a tree was read from, byte by byte.

    The text of a configuration is the tokens of its tree, in source order, and the
    white space and comments between them.  Every such gap is of one of three kinds:
    its comments are stored in the tree ([PGap]), or the parser reports it if it has a
    comment ([PHid], "exceptional comment"), or it is white space only ([PWs]). *)
From Coq Require Import List NArith ZArith Bool String Arith.
From Verif Require Import Bytes Utf8 F64 Ast Actions AstPrint PosFacts LexFacts Tree.
Import ListNotations.

(** Where a gap stands, as far as the blank lines around its comments matter. *)
Inductive place :=
| Plain      (* the first comment keeps its blank line *)
| Next       (* the first comment always has one: attributes, elements, entries after the first, end of file *)
| Head       (* the first comment never has one: first entry of a hash *)
| Top.       (* first section: a blank line after the last comment is kept *)

Inductive piece :=
| PTok (t : bytes)       (* exactly this text *)
| PNum (v : f64)         (* a numeral with this value *)
| PGap (k : place) (c : cblock)   (* a gap with these comments *)
| PHid                   (* a gap whose comments are not stored *)
| PWs                    (* white space, at least one character *)
| PNosel                 (* nothing; what follows does not look like a selector *)
| PLost (more : bool).   (* C41: nothing, or a plugin dropped by the parser *)

(** The comments of a gap: the text after the first # of each line, without carriage
    return and surrounding spaces. *)
Definition line_comment (l : bytes) : list bytes :=
  match after_byte HASH l with Some c => [trim [SP] c] | None => [] end.
Definition gap_comments (t : bytes) : list bytes := flat_map line_comment (split NL (replace_byte CR [] t)).
(** With the blank lines: the lines of the gap are counted from the first that is not
    empty; a comment has a blank line before it if it is not on the line after the
    previous comment (the first comment: if it is not on the first two lines). *)
Fixpoint numbered (i prev : nat) (ls : list bytes) : cblock :=
  match ls with
  | [] => []
  | l :: ls' =>
      match line_comment l with
      | [c] => Comment c (prev + 1 <? i) false :: numbered (S i) i ls'
      | _ => numbered (S i) prev ls'
      end
  end.
(** the text after the last line with a comment; [com]: the line has a comment *)
Fixpoint tail_text (com : bool) (t : bytes) : bytes :=
  match t with
  | [] => []
  | c :: t' => if com && (c =? NL)%N && negb (existsb (N.eqb HASH) t') then t' else tail_text (if (c =? NL)%N then false else com || (c =? HASH)%N) t'
  end.
Definition first_before (x : bool) (c : cblock) : cblock :=
  match c with Comment t _ a :: c' => Comment t x a :: c' | [] => [] end.
Fixpoint last_after (c : cblock) : cblock :=
  match c with [] => [] | [Comment t x _] => [Comment t x true] | y :: c' => y :: last_after c' end.
Definition gap_block (k : place) (t : bytes) : cblock :=
  let c := numbered 0 0 (split NL (trim_left [NL] (replace_byte CR [] t))) in
  match k with
  | Plain => c
  | Next => first_before true c
  | Head => first_before false c
  | Top => match tail_text false t with [] => c | _ => last_after c end
  end.

(** ** The pieces of a tree *)
Definition tok (s : string) : piece := PTok (b s).
(** the first of [l] at the place [k], the others [Next] *)
Definition join {A} (k : place) (sep : list piece) (f : place -> A -> list piece) : list A -> list piece :=
  (fix go (k : place) (l : list A) : list piece :=
    match l with
    | [] => []
    | x :: l' => f k x ++ match l' with [] => [] | _ => sep ++ go Next l' end
    end) k.
Definition attr_name (a : attr) : bytes :=
  match a with
  | AtNil => [] | AtStr s => sa_name s | AtNum n => na_name n
  | AtArr _ n _ _ _ | AtHash _ n _ _ _ | AtPlug _ n _ _ => n
  end.
Definition arrow : list piece := [PHid; tok "=>"; PHid].
Definition pc_key (k : hkey) : list piece :=
  match k with HKStr s => [PTok (sa_value_string s)] | HKNum n => [PNum (na_val n)] end.
Definition nonempty {A} (l : list A) : bool := match l with [] => false | _ => true end.

(** a value, without its name and comment *)
Fixpoint pc_value (a : attr) : list piece :=
  match a with
  | AtNil => []
  | AtStr s => [PTok (sa_value_string s)]
  | AtNum n => [PNum (na_val n)]
  | AtArr _ _ l _ f =>
      [tok "["; PLost (nonempty l)] ++ join Plain [PHid; tok ","] (fun k x => PGap k (attr_com x) :: pc_value x) l ++ [PGap Plain f; tok "]"]
  | AtHash _ _ l _ f => [tok "{"] ++ join Head [PWs] pc_hentry l ++ [PGap Plain f; tok "}"]
  | AtPlug _ _ v _ => pc_plugin v
  end
with pc_hentry (pl : place) (e : hentry) {struct e} : list piece :=
  match e with HEntry _ k v com => [PGap pl com] ++ pc_key k ++ arrow ++ pc_value v end
(** a plugin, without its comment *)
with pc_plugin (x : plugin) : list piece :=
  match x with
  | Plugin _ n l _ f =>
      [PTok n; PHid; tok "{"] ++
      join Plain [PWs] (fun k a => [PGap k (attr_com a); PTok (attr_name a)] ++ arrow ++ pc_value a) l ++ [PGap Plain f; tok "}"]
  end.
Definition pc_attr (k : place) (a : attr) : list piece := [PGap k (attr_com a); PTok (attr_name a)] ++ arrow ++ pc_value a.
Definition pc_elem (k : place) (a : attr) : list piece := PGap k (attr_com a) :: pc_value a.

(** conditions *)
Definition pc_sel (s : selector) : list piece := [PTok (List.concat (map selel_string (sel_els s)))].
Definition pc_rvalue (r : rvalue) : list piece :=
  match r with
  | RVNil => []
  | RVStr s => [PTok (sa_value_string s)]
  | RVNum n => [PNum (na_val n)]
  | RVSel s => pc_sel s
  | RVArr p n l c f => PNosel :: pc_value (AtArr p n l c f)
  | RVRe r => [PTok (regexp_string r)]
  end.
Definition pc_strorre (r : strorre) : list piece :=
  match r with SRNil => [] | SRStr s => [PTok (sa_value_string s)] | SRRe r => [PTok (regexp_string r)] end.
Fixpoint pc_body (e : cexpr) : list piece :=
  match e with
  | ExNil => []
  | ExCond _ _ c => [tok "("; PHid] ++ pc_cond c ++ [PHid; tok ")"]
  | ExNeg _ _ c => [tok "!"; PHid; tok "("; PHid] ++ pc_cond c ++ [PHid; tok ")"]
  | ExNegSel _ _ s => [tok "!"; PHid] ++ pc_sel s
  | ExIn _ _ l r => pc_rvalue l ++ [PHid; tok "in"; PHid] ++ pc_rvalue r
  | ExNotIn _ _ l r => pc_rvalue l ++ [PHid; tok "not "; PHid; tok "in"; PHid] ++ pc_rvalue r
  | ExRv _ _ r => pc_rvalue r
  | ExCmp _ _ l o r => pc_rvalue l ++ [PHid; PTok (cmpop_string (co_op o)); PHid] ++ pc_rvalue r
  | ExRe _ _ l o r => pc_rvalue l ++ [PHid; PTok (reop_string (ro_op o)); PHid] ++ pc_strorre r
  end
with pc_cond (c : condition) : list piece :=
  match c with
  | Cond l => flat_map (fun e =>
      (match bo_op (bo_of e) with BoNone => [] | o => [PHid; PTok (boolop_word o); PHid] end) ++ pc_body e) l
  end.
Definition pc_cexpr (e : cexpr) : list piece :=
  (match bo_op (bo_of e) with BoNone => [] | o => [PHid; PTok (boolop_word o); PHid] end) ++ pc_body e.

(** plugins and branches, with their comments *)
Fixpoint pc_bop (x : bop) : list piece :=
  match x with
  | BNil => []
  | BPlugin p | BPluginPtr p => PGap Plain (match p with Plugin _ _ _ c _ => c end) :: pc_plugin p
  | BBranch i es e =>
      [PGap Plain (match i with IfB _ _ _ c _ => c end)] ++ pc_if i ++
      flat_map (fun x => [PGap Plain (match x with IfB _ _ _ c _ => c end); tok "else"; PHid] ++ pc_if x) es ++ pc_else e
  end
with pc_if (x : ifblock) : list piece :=
  match x with
  | IfB _ c l _ f => [tok "if"; PHid] ++ pc_cond c ++ [PHid; tok "{"] ++ flat_map pc_bop l ++ [PGap Plain f; tok "}"]
  end
with pc_else (x : elseblock) : list piece :=
  match x with
  | ElB p l c f => if is_zero p then [] else [PGap Plain c; tok "else"; PHid; tok "{"] ++ flat_map pc_bop l ++ [PGap Plain f; tok "}"]
  end.
Definition pc_section (k : place) (s : section) : list piece :=
  [PGap k (ps_com s); PTok (ptype_string (ps_type s)); PHid; tok "{"] ++ flat_map pc_bop (ps_bops s) ++ [PGap Plain (ps_foot s); tok "}"].
(** a configuration: its sections in source order, and the comment at the end *)
Definition pc_config (ss : list section) (foot : cblock) : list piece :=
  match ss with [] => [] | s :: ss' => pc_section Top s ++ flat_map (pc_section Plain) ss' end ++ [PGap Next foot].

(** ** Gaps *)
(** White space and comments before the text [rest].  A comment runs to the end of the
    line, which is a line feed or a carriage return and a line feed, or to the end of
    the text. *)
Inductive gap_run : bytes -> bytes -> Prop :=
| gr_nil r : gap_run [] r
| gr_ws c t r : ws_char c -> gap_run t r -> gap_run (c :: t) r
| gr_com body cr t r : no_break body -> cr = [] \/ cr = [CR] -> gap_run t r -> gap_run (HASH :: body ++ cr ++ NL :: t) r
| gr_end body cr : no_break body -> cr = [] \/ cr = [CR] -> gap_run (HASH :: body ++ cr) [].

(** The text starts like a selector: a bracket, one or more characters other than
    brackets and comma, and a closing bracket. *)
Definition selector_start (s : bytes) : Prop :=
  exists x u, s = [91%N] ++ x ++ [93%N] ++ u /\ x <> [] /\ Forall (fun c => ~ In c [91; 93; 44]%N) x.

(** ** The texts of a list of pieces *)
(** [spelled ign data lo l t hs]: the text [t], which starts at the offset [lo] of the
    input [data], consists of the pieces [l]; [hs] are its gaps of kind [PHid] with
    their places.  [ign]: comments are not stored (option IgnoreComments). *)
Inductive spelled (ign : bool) (data : bytes) : nat -> list piece -> bytes -> list (position * bytes) -> Prop :=
| sp_nil lo : spelled ign data lo [] [] []
| sp_tok lo t l u hs : spelled ign data (lo + List.length t) l u hs -> spelled ign data lo (PTok t :: l) (t ++ u) hs
| sp_num lo v t l u hs : number_text t -> parse_float t = Some v ->
    spelled ign data (lo + List.length t) l u hs -> spelled ign data lo (PNum v :: l) (t ++ u) hs
| sp_gap lo k c t l u hs : gap_run t (skipn (lo + List.length t) data) -> c = (if ign then [] else gap_block k t) ->
    spelled ign data (lo + List.length t) l u hs -> spelled ign data lo (PGap k c :: l) (t ++ u) hs
| sp_hid lo p t l u hs : gap_run t (skipn (lo + List.length t) data) -> true_pos data p -> p_off p = lo ->
    spelled ign data (lo + List.length t) l u hs -> spelled ign data lo (PHid :: l) (t ++ u) ((p, t) :: hs)
| sp_ws lo t l u hs : t <> [] -> Forall ws_char t ->
    spelled ign data (lo + List.length t) l u hs -> spelled ign data lo (PWs :: l) (t ++ u) hs
| sp_nosel lo l u hs : ~ selector_start (skipn lo data) -> spelled ign data lo l u hs -> spelled ign data lo (PNosel :: l) u hs
| sp_none lo m l u hs : spelled ign data lo l u hs -> spelled ign data lo (PLost m :: l) u hs
| sp_lost lo c x l u hs : wf_plugin x -> spelled ign data lo (PGap Plain c :: pc_plugin x ++ l) u hs -> spelled ign data lo (PLost false :: l) u hs
| sp_lost_more lo c x d l u hs : (* the first element stored is not the first of the array *)
    wf_plugin x -> spelled ign data lo (PGap Plain c :: pc_plugin x ++ [PHid; tok ","] ++ PGap Next d :: l) u hs ->
    spelled ign data lo (PLost true :: PGap Plain d :: l) u hs.

(** the gaps among [hs] with a comment *)
Definition has_comment (h : position * bytes) : bool := existsb (N.eqb HASH) (snd h).
Definition commented (hs : list (position * bytes)) : list position := map fst (filter has_comment hs).

Lemma spelled_app ign data l : forall lo t hs m u hs2, spelled ign data lo l t hs -> spelled ign data (lo + List.length t) m u hs2 ->
  spelled ign data lo (l ++ m) (t ++ u) (hs ++ hs2).
Proof.
  intros lo t hs m u hs2 H. revert m u hs2. induction H; intros m' u' hs2' K; cbn [app];
    try (rewrite <- app_assoc; constructor; auto; apply IHspelled; rewrite app_length, Nat.add_assoc in K; exact K).
  - rewrite Nat.add_0_r in K. exact K.
  - apply sp_nosel; [assumption|]. now apply IHspelled.
  - apply sp_none. now apply IHspelled.
  - eapply sp_lost; [eassumption|]. specialize (IHspelled _ _ _ K). cbn [app] in IHspelled. rewrite <- !app_assoc in IHspelled. exact IHspelled.
  - eapply sp_lost_more; [eassumption|]. specialize (IHspelled _ _ _ K). cbn [app] in IHspelled. rewrite <- !app_assoc in IHspelled. exact IHspelled.
Qed.
