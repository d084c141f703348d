(** White space and comments as the printer writes them, read back. *)
From Coq Require Import List NArith Bool String Arith Lia.
From Verif Require Import Bytes Utf8 F64 Ast Peg Actions Engine AstPrint EscapeFacts QuoteFacts SimpleFacts PosFacts Matches PegSem LexFacts Tree Rules Bare Reads Lines NumPrint Layout ReadLex ReadGap.
Import ListNotations.

Notation rd := (@ReadGap.rd false).
Notation rds := (@ReadGap.rds false).
Notation rdt := (@ReadGap.rdt false).
Notation name_reads := (@ReadGap.name_reads false).
Notation number_text_reads := (@ReadGap.number_text_reads false).
Notation selector_reads := (@ReadGap.selector_reads false).
Notation selel_reads := (@ReadGap.selel_reads false).
Notation quoted_reads_rd := (@ReadGap.quoted_reads_rd false).

(** ** White space *)
Definition nosp (s : bytes) : Prop := stop [32; 9; 13; 10]%N [] false s.
Definition nogap (s : bytes) : Prop := nosp s /\ first_not [35%N] s.
Definition spaces (k m : nat) : bytes := repeat NL k ++ repeat SP m.
Lemma spaces_ws k m : Forall (fun c => (c < 128)%N /\ class_match [32; 9; 13; 10]%N [] false c = true) (spaces k m).
Proof. apply Forall_app. split; apply Forall_forall; intros x H; apply repeat_spec in H; subst; split; reflexivity. Qed.
Lemma ws_reads k m s en : 0 < k + m -> nosp s -> rd ws_e en (spaces k m ++ s) VWs en s.
Proof.
  intros H K. pose proof (rdt_chars (ign := false) "[ \t\r\n]" [32; 9; 13; 10]%N [] (spaces k m) s (spaces_ws k m) K) as R.
  destruct (spaces k m) as [|c w] eqn:E; [unfold spaces in E; destruct k, m; try discriminate; lia|].
  eapply rd_act1; [eapply rd_plus; exact R|reflexivity].
Qed.
Lemma ws_no s en : nosp s -> no ws_e en s.
Proof. intros H. apply no_act, no_plus, no_stop, H. Qed.
Lemma opt_ws k m s en : nosp s -> exists v, rd (EOpt ws_e) en (spaces k m ++ s) v en s.
Proof.
  intros H. destruct (Nat.eq_dec (k + m) 0) as [E|E].
  - assert (k = 0 /\ m = 0) as [-> ->] by lia. eexists. apply rd_opt_none. now apply ws_no.
  - eexists. eapply rd_opt, (ws_reads k m s []); [lia|exact H].
Qed.

(** ** Comment lines *)
Definition item : Type := (nat * nat * bytes).
Definition itext (x : item) : bytes := match x with (k, m, t) => spaces k m ++ b "# " ++ t ++ [NL] end.
Definition gtext (l : list item) : bytes := flat_map itext l.
Definition text_ok (t : bytes) : Prop := no_break t /\ (forall u, t <> SP :: u) /\ (forall u, t <> u ++ [SP]).
Definition item_ok (x : item) : Prop := text_ok (snd x).
Lemma line_reads x s : item_ok x -> exists v, rd comment_line_e [] (itext x ++ s) v [] s.
Proof.
  destruct x as [[k m] t]. intros (H & _). cbn [snd] in H. unfold itext. rewrite <- !app_assoc.
  destruct (okt_runes (ign := false) "[^\r\n]" [13; 10]%N 10%N (SP :: t) s) as (l & K & _).
  { repeat constructor. } { right. now left. } { constructor; [cbv; intuition discriminate|]. eapply Forall_impl; [|exact H]. intros c [C1 C2] I. enum I; auto. }
  destruct (opt_ws k m (b "# " ++ t ++ [NL] ++ s) []) as (v0 & W); [split; reflexivity|].
  enough (A : rds [EOpt ws_e; lit "#"; EStar (EClass "[^\r\n]" [13; 10]%N [] true); EOpt (ELit """\r""" [13%N]); EChoice [ELit """\n""" [10%N]; eof_e]]
    [] (spaces k m ++ b "# " ++ t ++ [NL] ++ s) [] s).
  { destruct A as (u & l0 & E & A). rewrite E. exists (VList l0), u. split; [reflexivity|now apply ok_seq]. }
  eapply rds_cons; [exact W|]. change (b "# ") with (HASH :: [SP]). cbn [app].
  eapply rds_cons; [apply rd_chr; reflexivity|]. eapply rds_cons; [apply rd_star; exists (SP :: t); split; [reflexivity|exact K]|].
  eapply rds_cons; [apply rd_opt_none, no_chr; [repeat constructor|cbv; intuition discriminate]|].
  eapply rds_cons; [eapply rd_choice, (rd_chr _ 10%N []); reflexivity|apply rds_nil].
Qed.
Lemma line_no k m s en : nogap s -> no comment_line_e en (spaces k m ++ s).
Proof.
  intros [N H]. destruct (opt_ws k m s en N) as (v & R). apply no_seq. eapply nos_rd; [exact R|]. apply nos_here, no_chr; [repeat constructor|exact H].
Qed.
Lemma lines_read its k m s : Forall item_ok its -> nogap s -> exists l, rdt comment_line_e (gtext its ++ spaces k m ++ s) l (spaces k m ++ s) /\ (its <> [] -> l <> []).
Proof.
  intros H G. induction H as [|x its Hx H (l & IH & _)].
  - exists []. split; [|congruence]. apply rdt_stop. now apply line_no.
  - destruct (line_reads x (gtext its ++ spaces k m ++ s) Hx) as (v & R). exists (v :: l). split; [|discriminate].
    unfold gtext. cbn [flat_map]. rewrite <- app_assoc. eapply rdt_more; [exact R|exact IH].
Qed.

(** ** The comments of the lines *)
Definition b2n (x : bool) : nat := if x then 1 else 0.
Definition before_of (k : nat) : bool := match k with 0 => false | _ => true end.
Fixpoint gcoms (first : bool) (its : list item) : cblock :=
  match its with
  | [] => []
  | (k, _, t) :: its' => Comment t (if first then false else before_of k) false :: gcoms false its'
  end.
Lemma text_trim t : text_ok t -> trim [SP] (SP :: t) = t.
Proof.
  intros (_ & H1 & H2). unfold trim. change (trim_left [SP] (SP :: t)) with (trim_left [SP] t).
  replace (trim_left [SP] t) with t by (destruct t as [|c t]; [reflexivity|]; cbn; destruct (N.eqb_spec c SP) as [->|E]; [now elim (H1 t)|reflexivity]).
  destruct (rev t) as [|c u] eqn:E.
  - unfold trim_right. rewrite E. apply (f_equal (@rev N)) in E. rewrite rev_involutive in E. now subst.
  - assert (T : t = rev u ++ [c]) by (rewrite <- (rev_involutive t), E; reflexivity). subst t.
    rewrite trim_right_app; [reflexivity|]. cbn. destruct (N.eqb_spec c SP) as [->|N]; [now elim (H2 (rev u))|reflexivity].
Qed.
Lemma after_hash m t : after_byte HASH (repeat SP m ++ b "# " ++ t) = Some (SP :: t).
Proof. induction m; [reflexivity|exact IHm]. Qed.
Lemma split_lines k c s : split NL (repeat NL k ++ c :: s) = repeat [] k ++ split NL (c :: s).
Proof. induction k; [reflexivity|]. cbn [repeat app]. change (NL :: ?x) with ([] ++ NL :: x). rewrite split_app, IHk. reflexivity. Qed.
Lemma nls_lines f sp k ls : comment_lines f sp (repeat [] k ++ ls) =
  match k with 0 => comment_lines f sp ls | S k' => comment_lines false (if f then (match k' with 0 => sp | _ => true end) else true) ls end.
Proof.
  assert (G : forall k sp ls, comment_lines false sp (repeat [] k ++ ls) = comment_lines false (match k with 0 => sp | _ => true end) ls).
  { clear. induction k as [|k IH]; intros sp ls; [reflexivity|]. cbn [repeat app comment_lines after_byte]. rewrite IH. destruct k; reflexivity. }
  destruct k as [|k]; [reflexivity|]. cbn [repeat app comment_lines after_byte]. rewrite G. destruct f, k; reflexivity.
Qed.
Definition head_line (x : item) : bytes := match x with (k, m, t) => repeat SP m ++ b "# " ++ t end.
(** the lines after the first *)
Definition ltext (l : list item) : bytes := flat_map (fun x => match x with (k, m, t) => [NL] ++ repeat NL k ++ head_line x end) l.
Lemma gtext_lines k m t its : gtext ((k, m, t) :: its) = repeat NL k ++ head_line (k, m, t) ++ ltext its ++ [NL].
Proof.
  revert k m t. induction its as [|[[k' m'] t'] its IH]; intros k m t; unfold gtext in *; cbn [flat_map itext]; unfold spaces; rewrite <- !app_assoc; [cbn [head_line ltext flat_map]; now rewrite <- !app_assoc|].
  f_equal. cbn [head_line]. rewrite <- !app_assoc. do 3 f_equal. specialize (IH k' m' t'). cbn [flat_map itext] in IH. unfold spaces in IH. rewrite <- !app_assoc in IH. cbn [ltext flat_map]. fold (ltext its). rewrite IH. now rewrite <- !app_assoc.
Qed.
Lemma split_one x s : ~ In NL x -> split NL (x ++ NL :: s) = x :: split NL s.
Proof. intros H. rewrite split_app, (split_none _ _ H). reflexivity. Qed.
Lemma head_line_nl x : item_ok x -> ~ In NL (head_line x).
Proof.
  destruct x as [[k m] t]. intros (H & _) I. cbn [head_line] in I. apply in_app_or in I as [I|[I|[I|I]]]; try discriminate.
  - apply repeat_spec in I. discriminate.
  - unfold no_break in H. rewrite Forall_forall in H. destruct (H _ I) as [_ E]. now apply E.
Qed.
Lemma head_line_cons x : exists c u, head_line x = c :: u /\ c <> NL.
Proof. destruct x as [[k m] t]. destruct m; cbn; eexists _, _; (split; [reflexivity|discriminate]). Qed.
Lemma head_line_com f sp x ls : item_ok x -> comment_lines f sp (head_line x :: ls) = Comment (snd x) sp false :: comment_lines false false ls.
Proof. destruct x as [[k m] t]. intros H. cbn [head_line comment_lines]. rewrite after_hash. rewrite (text_trim t H). reflexivity. Qed.
Lemma rest_lines its x f sp : Forall item_ok its -> item_ok x ->
  comment_lines f sp (split NL (head_line x ++ ltext its)) = Comment (snd x) sp false :: gcoms false its.
Proof.
  intros H. revert x f sp. induction H as [|[[k m] t] its Hy H IH]; intros x f sp Hx.
  - cbn [ltext flat_map]. rewrite app_nil_r, split_none by now apply head_line_nl. now apply head_line_com.
  - cbn [ltext flat_map]. fold (ltext its). rewrite <- !app_assoc. cbn [app]. rewrite split_one by now apply head_line_nl.
    rewrite head_line_com by exact Hx. f_equal. cbn [gcoms].
    destruct (head_line_cons (k, m, t)) as (c & u & E & _). pose proof (IH _ false (before_of k) Hy) as K. rewrite E in K |- *. cbn [app]. rewrite split_lines, nls_lines. cbn [app] in K.
    destruct k; exact K.
Qed.
Lemma comment_value k m t its : item_ok (k, m, t) -> Forall item_ok its ->
  act_comment false (gtext ((k, m, t) :: its)) = RVal (VComments (gcoms true ((k, m, t) :: its))).
Proof.
  intros Hx H. unfold act_comment. do 2 f_equal.
  assert (R : forall s, ~ In CR s -> replace_byte CR [] s = s).
  { induction s as [|c s IH]; [reflexivity|]. intros N. cbn. destruct (N.eqb_spec c CR) as [->|E]; [elim N; now left|]. cbn. f_equal. apply IH. intros I. apply N. now right. }
  rewrite R.
  2:{ intros I. assert (F : Forall item_ok ((k, m, t) :: its)) by now constructor. apply in_flat_map in I as ([[k' m'] t'] & I1 & I2). rewrite Forall_forall in F. specialize (F _ I1).
      destruct F as (F & _). cbn [itext] in I2. unfold spaces in I2. rewrite <- !app_assoc in I2.
      apply in_app_or in I2 as [I2|I2]; [apply repeat_spec in I2; discriminate|]. apply in_app_or in I2 as [I2|I2]; [apply repeat_spec in I2; discriminate|].
      apply in_app_or in I2 as [I2|I2]; [cbv in I2; intuition discriminate|]. apply in_app_or in I2 as [I2|[I2|[]]]; [|discriminate]. unfold no_break in F. rewrite Forall_forall in F. destruct (F _ I2) as [E _]. now apply E. }
  rewrite gtext_lines. unfold trim.
  assert (TL : forall k s, (exists c u, s = c :: u /\ c <> NL) -> trim_left [NL] (repeat NL k ++ s) = s).
  { clear. induction k as [|k IH]; intros s (c & u & -> & N); [|cbn; apply IH; eauto]. cbn. destruct (N.eqb_spec c NL); [congruence|reflexivity]. }
  rewrite TL by (destruct (head_line_cons (k, m, t)) as (c & u & -> & N); cbn; eauto).
  rewrite app_assoc. rewrite (trim_right_nls _ 1).
  - rewrite (rest_lines its (k, m, t) true false H Hx). reflexivity.
  - assert (E : forall x, item_ok x -> forall y, head_line x <> y ++ [NL]). { intros x Hx2 y E. apply (head_line_nl x Hx2). rewrite E. apply in_or_app. right. now left. }
    assert (N : forall x y, item_ok x -> forall z, y ++ head_line x <> z ++ [NL]).
    { intros x y Hx2 z Ez. destruct (head_line_cons x) as (c & u & Ec & Nc). destruct (@exists_last _ (c :: u)) as (u' & d & Eu); [discriminate|]. rewrite Eu in Ec. rewrite Ec, app_assoc in Ez.
      apply app_inj_tail in Ez as [_ ->]. apply (E x Hx2 u'). exact Ec. }
    intros y. destruct its as [|z its _] using rev_ind; [cbn [ltext flat_map]; rewrite app_nil_r; apply E; exact Hx|].
    apply Forall_app in H as [_ H]. apply Forall_inv in H. unfold ltext. rewrite flat_map_app. cbn [flat_map]. rewrite app_nil_r. destruct z as [[k' m'] t']. rewrite !app_assoc. now apply N.
Qed.

(** ** Gaps *)
Definition gvals (its : list item) (k m : nat) : list val :=
  (match its with [] => [] | _ => [VComments (gcoms true its)] end) ++ (if k + m =? 0 then [] else [VWs]).
Lemma comment_no k m s en : nogap s -> no comment_e en (spaces k m ++ s).
Proof. intros H. apply no_act, no_plus. now apply line_no. Qed.
Lemma gap_reads its k m s en : Forall item_ok its -> nogap s -> rd gap_e en (gtext its ++ spaces k m ++ s) (VList (gvals its k m)) en s.
Proof.
  intros H G. apply rd_star.
  assert (T : rdt (EChoice [comment_e; ws_e]) (spaces k m ++ s) (if k + m =? 0 then [] else [VWs]) s).
  { assert (S : rdt (EChoice [comment_e; ws_e]) s [] s).
    { apply rdt_stop, no_choice; [exact (comment_no 0 0 s [] G)|]. apply no_choice; [|apply no_none]. apply ws_no, G. }
    destruct (Nat.eqb_spec (k + m) 0) as [E|E]; [assert (k = 0 /\ m = 0) as [-> ->] by lia; exact S|].
    eapply rdt_more; [|exact S]. eapply rd_next; [apply comment_no, G|]. eapply rd_choice, (ws_reads k m s []); [lia|apply G]. }
  unfold gvals. destruct H as [|x its Hx H]; [exact T|]. cbn [app]. eapply rdt_more; [|exact T].
  eapply rd_choice. destruct x as [[k' m'] t]. destruct (lines_read ((k', m', t) :: its) k m s (Forall_cons _ Hx H) G) as (l & (u & E & R) & N).
  destruct l as [|v l]; [now elim N|].
  exists u. split; [exact E|]. apply app_inv_tail in E. subst u. eapply ok_act; [|cbn [run_action]; now apply comment_value].
  apply ok_plus. exact R.
Qed.

(** ** Comment blocks of the tree *)
(** the comments as they read: a blank line before a comment is kept, except before
    the first; the flag for a blank line after becomes one before the next *)
Fixpoint norm_from (pre : bool) (l : cblock) : cblock :=
  match l with [] => [] | c :: l' => Comment (c_text c) (pre || c_before c) false :: norm_from (c_after c) l' end.
Definition norm (l : cblock) : cblock :=
  match l with [] => [] | c :: l' => Comment (c_text c) false false :: norm_from (c_after c) l' end.
Fixpoint last_after (d : bool) (l : cblock) : bool := match l with [] => d | c :: l' => last_after (c_after c) l' end.
Fixpoint items (k n : nat) (l : cblock) : list item :=
  match l with [] => [] | c :: l' => (k + b2n (c_before c), n + n, c_text c) :: items (b2n (c_after c)) n l' end.
Fixpoint tail_nl (k : nat) (l : cblock) : nat := match l with [] => k | c :: l' => tail_nl (b2n (c_after c)) l' end.
Lemma repeat_plus {A} (x : A) m n : repeat x (m + n) = repeat x m ++ repeat x n.
Proof. apply repeat_app. Qed.
Lemma items_text l : forall k n, repeat NL k ++ tcoms n l = gtext (items k n l) ++ repeat NL (tail_nl k l).
Proof.
  induction l as [|c l IH]; intros k n; [cbn; apply app_nil_r|]. cbn [items gtext flat_map tail_nl itext]. unfold tcoms. cbn [flat_map]. fold (tcoms n l). fold (gtext (items (b2n (c_after c)) n l)).
  unfold tcomment, ind, spaces. rewrite (repeat_plus NL), <- !app_assoc.
  assert (B : forall x, repeat NL (b2n x) = if x then [NL] else []) by (intros []; reflexivity). rewrite B.
  do 5 apply f_equal. rewrite <- IH, B. reflexivity.
Qed.
Lemma items_ok k n l : com_ok l -> Forall item_ok (items k n l).
Proof. intros H. revert k. induction H as [|c l Hc H IH]; intros k; [constructor|]. constructor; [exact Hc|apply IH]. Qed.
Lemma items_coms_from n l : forall pre, gcoms false (items (b2n pre) n l) = norm_from pre l.
Proof. induction l as [|c l IH]; intros pre; [reflexivity|]. cbn [items gcoms norm_from]. rewrite IH. destruct pre, (c_before c); reflexivity. Qed.
Lemma items_coms k n l : gcoms true (items k n l) = norm l.
Proof. destruct l as [|c l]; [reflexivity|]. cbn [items gcoms norm]. now rewrite items_coms_from. Qed.
Definition set_last (x : bool) (l : cblock) : cblock := if x then map_last set_after l else l.
(** what a gap says *)
Definition says (v : val) (com : cblock) : Prop :=
  comment_block v false false = norm com /\ comment_block v true false = map_first set_before (norm com).
Lemma coms_read k n com m s : com_ok com -> nogap s ->
  exists v, (forall en, rd gap_e en (repeat NL k ++ tcoms n com ++ repeat SP m ++ s) v en s) /\ says v com /\
    (com <> [] -> comment_block v false true = set_last (last_after false com || before_of m) (norm com)).
Proof.
  intros H G. exists (VList (gvals (items k n com) (tail_nl k com) m)). split; [|split].
  - intros en. rewrite app_assoc, items_text, <- app_assoc, (app_assoc (repeat NL _)). apply gap_reads; [now apply items_ok|exact G].
  - unfold gvals, comment_block, iface_slice. rewrite items_coms. destruct com as [|c com]; [cbn [items app]; destruct (_ =? 0); split; reflexivity|].
    cbn [items app]. destruct (_ =? 0); split; reflexivity.
  - intros N. unfold gvals, comment_block, iface_slice. rewrite items_coms. destruct com as [|c com]; [congruence|]. cbn [items app comment_block_loop andb].
    assert (E : forall l k, tail_nl (b2n k) l = b2n (last_after k l)). { induction l as [|x l IH]; intros k0; [reflexivity|]. cbn. apply IH. }
    cbn [tail_nl last_after]. rewrite E. destruct (last_after (c_after c) com), m; reflexivity.
Qed.
(** gaps whose comments are ignored *)
Lemma gaps_read k n com m s en : com_ok com -> nogap s -> exists v, rd gaps_e en (repeat NL k ++ tcoms n com ++ repeat SP m ++ s) v en s.
Proof.
  intros H G. destruct (coms_read k n com m s H G) as (v & R & _). destruct (R en) as (t & E & K). exists (VText t), t. split; [exact E|]. eapply ok_act; [exact K|reflexivity].
Qed.
(** white space, then comments *)
Lemma ws_coms_read k n com m s : com_ok com -> nogap s -> 0 < k ->
  exists v i, (forall en, rd ws_e en (repeat NL k ++ tcoms n com ++ repeat SP m ++ s) VWs en i) /\ (forall en, rd gap_e en i v en s) /\ says v com.
Proof.
  intros H G K. destruct com as [|c com].
  - exists (VList []), s. split; [|split].
    + intros en. cbn [tcoms flat_map app]. rewrite app_assoc. apply (ws_reads k m); [lia|apply G].
    + intros en. exact (gap_reads [] 0 0 s en (Forall_nil _) G).
    + split; reflexivity.
  - inversion H as [|? ? Hc Hl]; subst. exists (VList (gvals ((0, 0, c_text c) :: items (b2n (c_after c)) n com) (tail_nl k (c :: com)) m)).
    exists (gtext ((0, 0, c_text c) :: items (b2n (c_after c)) n com) ++ spaces (tail_nl k (c :: com)) m ++ s). split; [|split].
    + intros en. eapply rd_eq; [apply (ws_reads (k + b2n (c_before c)) (n + n)); [lia|split; reflexivity]|].
      rewrite app_assoc, items_text. cbn [items gtext flat_map itext tail_nl]. unfold spaces. rewrite <- !app_assoc. reflexivity.
    + intros en. apply gap_reads; [|exact G]. constructor; [exact Hc|now apply items_ok].
    + unfold gvals, says, comment_block, iface_slice. cbn [gcoms app]. rewrite items_coms_from. cbn [norm]. destruct (_ =? 0); split; reflexivity.
Qed.
