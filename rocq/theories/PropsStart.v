(** Property C77: how an accepted text starts; byte order marks. *)
From Coq Require Import List NArith ZArith Bool String Arith Lia.
From Verif Require Import Bytes Utf8 F64 Ast Peg Actions Engine Parser GrammarGen QuoteFacts PosFacts Run EngineFacts
  Termination AstPrint LexFacts Tree Layout Spelled Written Accepted Concat PropsLayout PropsEngine PropsExact.
Import ListNotations.
Open Scope list_scope.

(** The names of the sections *)
Definition section_words : list bytes := [b "input"; b "filter"; b "output"].

(** An accepted text is white space and comments, and then nothing or the name of a
    section. *)
Theorem C77_starts : forall opts ff data c ff',
  k_entry (config_of opts) = "init"%string ->
  parse opts ff data = (Returned (VConfig c) [], ff') ->
  exists gap rest, data = gap ++ rest /\ gap_run gap rest /\ (rest = [] \/ exists w u, In w section_words /\ rest = w ++ u).
Proof.
  intros opts ff data c ff' He P. destruct (C58_tree opts ff data c ff' He P) as (ss & W & (foot & n & L) & _). unfold pc_config in L. destruct ss as [|s ss].
  - cbn [app writes] in L. destruct L as (x & u & -> & G & ->). exists x, []. auto.
  - cbn [pc_section app writes] in L. destruct L as (x & u & -> & G & u' & -> & _). exists x, (ptype_string (ps_type s) ++ u'). split; [reflexivity|]. split; [exact G|]. right.
    inversion W as [|? ? (T & _) _]; subst. exists (ptype_string (ps_type s)), u'. split; [|reflexivity]. unfold section_words. destruct (ps_type s); cbn; auto.
Qed.
Print Assumptions C77_starts.

(** An accepted text ends with white space and comments; before that stands nothing or a
    closing brace. *)
Theorem C77_ends : forall opts ff data c ff',
  k_entry (config_of opts) = "init"%string ->
  parse opts ff data = (Returned (VConfig c) [], ff') ->
  exists front gap, data = front ++ gap /\ gap_run gap [] /\ (front = [] \/ exists u, front = u ++ b "}").
Proof.
  intros opts ff data c ff' He P. destruct (C58_tree opts ff data c ff' He P) as (ss & W & (foot & n & L) & _).
  assert (A : forall l1 l2 t r, writes (lost n) (l1 ++ l2) t r -> exists u, writes (lost n) l1 t u /\ writes (lost n) l2 u r).
  { clear. induction l1 as [|x l1 IH]; intros l2 t r H; [now exists t|]. destruct x; cbn [writes app] in *.
    - destruct H as (u & E & H). apply IH in H as (w & ? & ?). eauto 8.
    - destruct H as (x & u & E & ? & ? & H). apply IH in H as (w & ? & ?). exists w. split; [|assumption]. exists x, u. auto.
    - destruct H as (x & u & E & ? & H). apply IH in H as (w & ? & ?). exists w. split; [|assumption]. exists x, u. auto.
    - destruct H as (x & u & E & ? & H). apply IH in H as (w & ? & ?). exists w. split; [|assumption]. exists x, u. auto.
    - destruct H as (x & u & E & ? & ? & H). apply IH in H as (w & ? & ?). exists w. split; [|assumption]. exists x, u. auto.
    - destruct H as (? & H). apply IH in H as (w & ? & ?). eauto 8.
    - destruct H as (u & E & H). apply IH in H as (w & ? & ?). eauto 8. }
  destruct ss as [|s ss].
  - cbn in L. destruct L as (x & u & -> & G & ->). exists [], x. rewrite app_nil_r. auto.
  - assert (E : exists q, pc_config (s :: ss) foot = q ++ [tok "}"] ++ [PGap Next foot]).
    { unfold pc_config. destruct (exists_last (l := s :: ss) ltac:(discriminate)) as (ss' & s' & E).
      assert (X : forall k, exists q, pc_section k s' = q ++ [tok "}"]) by (intros k; unfold pc_section; eexists; rewrite !app_assoc; change [PGap Plain (ps_foot s'); tok "}"] with ([PGap Plain (ps_foot s')] ++ [tok "}"]); now rewrite app_assoc).
      destruct ss' as [|s0 ss'].
      - injection E as -> ->. destruct (X Top) as (q & ->). cbn [flat_map]. exists q. now rewrite app_nil_r, <- app_assoc.
      - injection E as <- ->. rewrite flat_map_app. cbn [flat_map]. destruct (X Plain) as (q & ->). eexists. rewrite app_nil_r, !app_assoc. reflexivity. }
    destruct E as (q & E). rewrite E in L. apply A in L as (u & L1 & L2). cbn in L2. destruct L2 as (v & -> & x & w & -> & G & ->).
    pose proof (writes_suffix _ (lost_suffix n) _ _ _ L1) as (z & ->). exists (z ++ b "}"), x. rewrite app_nil_r. split; [|split; [exact G|right; now exists z]]. rewrite <- app_assoc. reflexivity.
Qed.
Print Assumptions C77_ends.

(** So the first byte is white space, a number sign, or the first letter of a section. *)
Theorem C77_first_byte : forall opts ff c data v ff',
  k_entry (config_of opts) = "init"%string ->
  parse opts ff (c :: data) = (Returned v [], ff') -> In c (b " #ifo" ++ [9; 13; 10]%N).
Proof.
  intros opts ff c data v ff' He P. destruct (C02_nil_error_is_config _ _ _ _ _ He P) as (cf & ->).
  destruct (C77_starts _ _ _ _ _ He P) as (gap & rest & E & G & S). destruct gap as [|x gap].
  - cbn in E. subst rest. destruct S as [S|(w & u & I & S)]; [discriminate S|].
    destruct I as [<-|[<-|[<-|[]]]]; injection S as -> _; cbn; auto 12.
  - injection E as <- _. inversion G; subst; cbn; auto 12.
    match goal with H : ws_char c |- _ => destruct H as [<-|[<-|[<-|[<-|[]]]]] end; auto 12.
Qed.
Print Assumptions C77_first_byte.

(** So without comments the last byte is a closing brace or white space: a file that has
    been cut off anywhere else is rejected. *)
Theorem C77_last_byte : forall opts ff data x v ff',
  k_entry (config_of opts) = "init"%string -> ~ In HASH (data ++ [x]) ->
  parse opts ff (data ++ [x]) = (Returned v [], ff') -> In x (b " }" ++ [9; 13; 10]%N).
Proof.
  intros opts ff data x v ff' He N P. destruct (C02_nil_error_is_config _ _ _ _ _ He P) as (cf & ->).
  destruct (C77_ends _ _ _ _ _ He P) as (front & gap & E & G & S).
  assert (W : forall g r, gap_run g r -> ~ In HASH g -> Forall ws_char g).
  { clear. induction 1 as [|c t r Wc _ IH| |]; intros N; [constructor| |destruct N; now left|destruct N; now left]. constructor; [exact Wc|]. apply IH. intros I. apply N. now right. }
  destruct gap as [|g0 gap0] using rev_ind.
  - rewrite app_nil_r in E. subst front. destruct S as [S|(u & S)]; [now apply app_eq_nil in S as [_ S]|].
    apply app_inj_tail in S as [_ ->]. cbn. auto.
  - clear IHgap0. rewrite app_assoc in E. rewrite E in N. apply app_inj_tail in E as [_ ->].
    assert (F : Forall ws_char (gap0 ++ [g0])) by (apply (W _ _ G); intros I; apply N; rewrite <- app_assoc; apply in_or_app; now right).
    apply Forall_app in F as [_ F]. inversion F as [|? ? Wx _]. destruct Wx as [<-|[<-|[<-|[<-|[]]]]]; cbn; auto 12.
Qed.
Print Assumptions C77_last_byte.

(** A file with a byte order mark is rejected, whatever stands behind the mark, with all
    options (also if text that is not UTF-8 is allowed). *)
Definition byte_order_marks : list bytes := [[239; 187; 191]; [255; 254]; [254; 255]]%N.
Theorem C77_byte_order_mark : forall opts ff mark data v ff',
  k_entry (config_of opts) = "init"%string -> In mark byte_order_marks ->
  parse opts ff (mark ++ data) <> (Returned v [], ff').
Proof.
  intros opts ff mark data v ff' He I P.
  destruct I as [<-|[<-|[<-|[]]]]; apply C77_first_byte in P; auto; cbn in P; repeat (destruct P as [P|P]; [discriminate P|]); exact P.
Qed.
Print Assumptions C77_byte_order_mark.

(** ... and without the mark it may well be accepted. *)
Example C77_case : exists c ff ff2, parse [] [] (b "input { }") = (Returned (VConfig c) [], ff) /\
  parse [] [] ([239; 187; 191]%N ++ b "input { }") =
  (Returned VNil [PError (Pos 1 1 0) None (MText (b "no match found, expected: ""#"", ""filter"", ""input"", ""output"", [ \t\r\n] or EOF"))], ff2).
Proof.
  destruct (parse [] [] (b "input { }")) as [r ff'] eqn:E. vm_compute in E. injection E as <- <-.
  destruct (parse [] [] ([239; 187; 191]%N ++ b "input { }")) as [r2 ff2] eqn:E2. vm_compute in E2. injection E2 as <- <-.
  eexists _, _, _. split; reflexivity.
Qed.
