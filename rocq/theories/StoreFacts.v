(** The memory that calls of Parse reuse and share is not observable: every run of the
    machine of Store.v is a run of the machine of Conc.v. *)
From Coq Require Import List NArith Bool String Arith Lia.
From Verif Require Import Bytes Utf8 F64 Ast Peg Actions Engine Parser GrammarGen Run Conc HistFacts ConcFacts Store.
Import ListNotations.

(** ** What a call owns: some maps and some arrays, with their contents *)
Record res := Res { r_maps : nat -> option smap; r_arrs : nat -> option (list position) }.
Definition upd {A} (a : nat) (v : A) (f : nat -> A) : nat -> A := fun x => if x =? a then v else f x.
Definition set_map a v R := Res (upd a v (r_maps R)) (r_arrs R).
Definition set_arr a v R := Res (r_maps R) (upd a v (r_arrs R)).
Lemma upd_same {A} a (v : A) f : upd a v f a = v. Proof. unfold upd. now rewrite Nat.eqb_refl. Qed.
Lemma upd_other {A} a (v : A) f x : x <> a -> upd a v f x = f x. Proof. unfold upd. intros H. apply Nat.eqb_neq in H. now rewrite H. Qed.

(** [ref hp p R Q]: with the resources [R] the program [hp] never accesses anything else, makes the
    accesses to farthestFailure that [p] makes, and its results are in the relation [Q] *)
Fixpoint ref {A B} (hp : hprog A) (p : prog B) (R : res) (Q : A -> B -> res -> Prop) : Prop :=
  match hp with
  | HDone x => exists y, p = Done y /\ Q x y R
  | HFGet k => exists k', p = Get k' /\ forall l, ref (k l) (k' l) R Q
  | HFPut l k => exists k', p = Put l k' /\ ref k k' R Q
  | HNew k | HGet k => forall a, r_maps R a = None -> ref (k a) p (set_map a (Some None) R) Q
  | HPut a k => r_maps R a = Some None /\ ref k p (set_map a None R) Q
  | HLoad a k => exists v, r_maps R a = Some v /\ ref (k v) p R Q
  | HStore a v k => r_maps R a <> None /\ ref k p (set_map a (Some v) R) Q
  | HMake n k => forall r c, r_arrs R r = None -> n <= c -> ref (k r) p (set_arr r (Some (repeat zero_pos c)) R) Q
  | HRead r k => exists l, r_arrs R r = Some l /\ ref (k l) p R Q
  | HWrite r i l k => exists old, r_arrs R r = Some old /\ i + List.length l <= List.length old /\
                                  ref k p (set_arr r (Some (write_at i l old)) R) Q
  end.

Lemma ref_mono {A B} (hp : hprog A) : forall (p : prog B) R (Q Q' : A -> B -> res -> Prop),
  (forall x y R, Q x y R -> Q' x y R) -> ref hp p R Q -> ref hp p R Q'.
Proof.
  induction hp as [x|k IH|l k IH|k IH|k IH|a k IH|a k IH|a v k IH|n k IH|r k IH|r i l k IH]; intros p R Q Q' H X; cbn in *.
  - destruct X as (y & E & HQ). eauto.
  - destruct X as (k' & E & HQ). exists k'. split; [exact E|]. intros l. eapply IH; eauto.
  - destruct X as (k' & E & HQ). exists k'. split; [exact E|]. eapply IH; eauto.
  - intros a Ha. eapply IH; eauto.
  - intros a Ha. eapply IH; eauto.
  - destruct X as (E & X). split; [exact E|]. eapply IH; eauto.
  - destruct X as (v & E & X). exists v. split; [exact E|]. eapply IH; eauto.
  - destruct X as (E & X). split; [exact E|]. eapply IH; eauto.
  - intros r c Hr Hc. eapply IH; eauto.
  - destruct X as (v & E & X). exists v. split; [exact E|]. eapply IH; eauto.
  - destruct X as (v & E & L & X). exists v. split; [exact E|]. split; [exact L|]. eapply IH; eauto.
Qed.

Lemma ref_bind {A B A' B'} (hp : hprog A) : forall (p : prog B) R (Q : A -> B -> res -> Prop) (f : A -> hprog A') (f' : B -> prog B') Q',
  ref hp p R Q -> (forall x y R', Q x y R' -> ref (f x) (f' y) R' Q') -> ref (hbind hp f) (bindp p f') R Q'.
Proof.
  induction hp as [x|k IH|l k IH|k IH|k IH|a k IH|a k IH|a v k IH|n k IH|r k IH|r i l k IH]; intros p R Q f f' Q' X H; cbn in *.
  - destruct X as (y & -> & HQ). cbn. auto.
  - destruct X as (k' & -> & HQ). cbn. eexists. split; [reflexivity|]. intros l. cbn. eapply IH; eauto.
  - destruct X as (k' & -> & HQ). cbn. eexists. split; [reflexivity|]. eapply IH; eauto.
  - intros a Ha. eapply IH; eauto.
  - intros a Ha. eapply IH; eauto.
  - destruct X as (E & X). split; [exact E|]. eapply IH; eauto.
  - destruct X as (v & E & X). exists v. split; [exact E|]. eapply IH; eauto.
  - destruct X as (E & X). split; [exact E|]. eapply IH; eauto.
  - intros r c Hr Hc. eapply IH; eauto.
  - destruct X as (v & E & X). exists v. split; [exact E|]. eapply IH; eauto.
  - destruct X as (v & E & L & X). exists v. split; [exact E|]. split; [exact L|]. eapply IH; eauto.
Qed.
(** a part that does not touch the variable *)
Lemma ref_left {A A' B'} (hp : hprog A) : forall R (Q : A -> unit -> res -> Prop) (f : A -> hprog A') (p : prog B') Q',
  ref hp (Done tt) R Q -> (forall x R', Q x tt R' -> ref (f x) p R' Q') -> ref (hbind hp f) p R Q'.
Proof.
  induction hp as [x|k IH|l k IH|k IH|k IH|a k IH|a k IH|a v k IH|n k IH|r k IH|r i l k IH]; intros R Q f p Q' X H; cbn in *.
  - destruct X as ([] & _ & HQ). auto.
  - destruct X as (k' & X & _). discriminate X.
  - destruct X as (k' & X & _). discriminate X.
  - intros a Ha. eapply IH; eauto.
  - intros a Ha. eapply IH; eauto.
  - destruct X as (E & X). split; [exact E|]. eapply IH; eauto.
  - destruct X as (v & E & X). exists v. split; [exact E|]. eapply IH; eauto.
  - destruct X as (E & X). split; [exact E|]. eapply IH; eauto.
  - intros r c Hr Hc. eapply IH; eauto.
  - destruct X as (v & E & X). exists v. split; [exact E|]. eapply IH; eauto.
  - destruct X as (v & E & L & X). exists v. split; [exact E|]. split; [exact L|]. eapply IH; eauto.
Qed.
Lemma ref_right {A A' B} (hp : hprog A) : forall (p : prog B) R (Q : A -> B -> res -> Prop) (f : A -> hprog A') Q',
  ref hp p R Q -> (forall x y R', Q x y R' -> ref (f x) (Done y) R' Q') -> ref (hbind hp f) p R Q'.
Proof.
  induction hp as [x|k IH|l k IH|k IH|k IH|a k IH|a k IH|a v k IH|n k IH|r k IH|r i l k IH]; intros p R Q f Q' X H; cbn in *.
  - destruct X as (y & -> & HQ). auto.
  - destruct X as (k' & -> & HQ). eexists. split; [reflexivity|]. intros l. cbn. eapply IH; eauto.
  - destruct X as (k' & -> & HQ). eexists. split; [reflexivity|]. eapply IH; eauto.
  - intros a Ha. eapply IH; eauto.
  - intros a Ha. eapply IH; eauto.
  - destruct X as (E & X). split; [exact E|]. eapply IH; eauto.
  - destruct X as (v & E & X). exists v. split; [exact E|]. eapply IH; eauto.
  - destruct X as (E & X). split; [exact E|]. eapply IH; eauto.
  - intros r c Hr Hc. eapply IH; eauto.
  - destruct X as (v & E & X). exists v. split; [exact E|]. eapply IH; eauto.
  - destruct X as (v & E & L & X). exists v. split; [exact E|]. split; [exact L|]. eapply IH; eauto.
Qed.
Lemma ref_lift {B} (p : prog B) R : ref (hlift p) p R (fun x y R' => x = y /\ R' = R).
Proof.
  induction p as [x|k IH|l k IH]; cbn.
  - eauto.
  - eexists. split; [reflexivity|]. intros l. apply IH.
  - eexists. split; [reflexivity|]. exact IH.
Qed.

(** ** Frames *)
Definition split_fun {A} (f f1 f2 : nat -> option A) : Prop :=
  forall a, f a = match f1 a with Some v => Some v | None => f2 a end /\ (f1 a = None \/ f2 a = None).
Definition split R R1 RF : Prop := split_fun (r_maps R) (r_maps R1) (r_maps RF) /\ split_fun (r_arrs R) (r_arrs R1) (r_arrs RF).
Lemma split_upd {A} (f f1 f2 : nat -> option A) a v' : split_fun f f1 f2 -> (f1 a <> None \/ f a = None) -> split_fun (upd a v' f) (upd a v' f1) f2.
Proof.
  intros S H x. destruct (S x) as (E & D). unfold upd. destruct (Nat.eqb_spec x a) as [->|N]; [|auto].
  assert (Z : f2 a = None).
  { destruct H as [H|H]; [destruct D as [D|D]; [congruence|exact D]|]. rewrite E in H. destruct (f1 a); [discriminate|exact H]. }
  rewrite Z. split; [destruct v'; reflexivity|now right].
Qed.
Lemma split_none {A} (f f1 f2 : nat -> option A) a : split_fun f f1 f2 -> f a = None -> f1 a = None.
Proof. intros S H. destruct (S a) as (E & _). rewrite E in H. destruct (f1 a); [discriminate|reflexivity]. Qed.
Lemma split_l {A} (f f1 f2 : nat -> option A) a v : split_fun f f1 f2 -> f1 a = Some v -> f a = Some v.
Proof. intros S H. destruct (S a) as (E & _). now rewrite E, H. Qed.
Lemma split_r {A} (f f1 f2 : nat -> option A) a v : split_fun f f1 f2 -> f2 a = Some v -> f a = Some v.
Proof. intros S H. destruct (S a) as (E & D). rewrite E. destruct D as [D|D]; [now rewrite D|congruence]. Qed.
Lemma split_sep {A} (f f1 f2 : nat -> option A) a v v' : split_fun f f1 f2 -> f1 a = Some v -> f2 a = Some v' -> False.
Proof. intros S H1 H2. destruct (S a) as (_ & [D|D]); congruence. Qed.

Lemma ref_frame {A B} (hp : hprog A) : forall (p : prog B) R R1 RF (Q : A -> B -> res -> Prop),
  split R R1 RF -> ref hp p R1 Q -> ref hp p R (fun x y R' => exists R1', split R' R1' RF /\ Q x y R1').
Proof.
  induction hp as [x|k IH|l k IH|k IH|k IH|a k IH|a k IH|a v k IH|n k IH|r k IH|r i l k IH]; intros p R R1 RF Q S X; cbn in *.
  - destruct X as (y & E & HQ). eauto 6.
  - destruct X as (k' & E & HQ). exists k'. split; [exact E|]. intros l. eapply IH; eauto.
  - destruct X as (k' & E & HQ). exists k'. split; [exact E|]. eapply IH; eauto.
  - intros a Ha. eapply IH; [|apply X; eapply split_none; [apply S|exact Ha]]. split; [|apply S]. eapply split_upd; [apply S|now right].
  - intros a Ha. eapply IH; [|apply X; eapply split_none; [apply S|exact Ha]]. split; [|apply S]. eapply split_upd; [apply S|now right].
  - destruct X as (E & X). split; [eapply split_l; [apply S|exact E]|]. eapply IH; [|exact X]. split; [|apply S].
    eapply split_upd; [apply S|left; congruence].
  - destruct X as (v & E & X). exists v. split; [eapply split_l; [apply S|exact E]|]. eapply IH; eauto.
  - destruct X as (E & X). split.
    + destruct (r_maps R1 a) as [v1|] eqn:E1; [|congruence]. erewrite split_l; [|apply S|exact E1]. discriminate.
    + eapply IH; [|exact X]. split; [|apply S]. eapply split_upd; [apply S|now left].
  - intros r c Hr Hc. eapply IH; [|apply X; [eapply split_none; [apply S|exact Hr]|exact Hc]]. split; [apply S|].
    eapply split_upd; [apply S|now right].
  - destruct X as (v & E & X). exists v. split; [eapply split_l; [apply S|exact E]|]. eapply IH; eauto.
  - destruct X as (v & E & L & X). exists v. split; [eapply split_l; [apply S|exact E]|]. split; [exact L|]. eapply IH; [|exact X].
    split; [apply S|]. eapply split_upd; [apply S|left; congruence].
Qed.

(** ** The stack of label maps *)
Definition stk (h : hst) (below : list (option env)) (en : env) : Prop :=
  h_len h = S (List.length below) /\ firstn (h_len h) (h_slots h) = below ++ [Some en].
Lemma stk_split h below en : stk h below en -> exists rest, h_slots h = below ++ Some en :: rest.
Proof.
  intros (L & E). exists (skipn (h_len h) (h_slots h)). rewrite <- (firstn_skipn (h_len h) (h_slots h)) at 1. rewrite E. now rewrite <- app_assoc.
Qed.
Lemma stk_intro h below en rest : h_len h = S (List.length below) -> h_slots h = below ++ Some en :: rest -> stk h below en.
Proof.
  intros L E. split; [exact L|]. rewrite L, E. change (below ++ Some en :: rest) with (below ++ [Some en] ++ rest). rewrite app_assoc.
  rewrite firstn_app. replace (S (List.length below)) with (List.length (below ++ [Some en])) by (rewrite app_length; cbn; lia).
  rewrite firstn_all, Nat.sub_diag, firstn_O. now rewrite app_nil_r.
Qed.
Lemma update_at {A} (l1 : list A) x y l2 : update (List.length l1) y (l1 ++ x :: l2) = l1 ++ y :: l2.
Proof. induction l1; cbn; congruence. Qed.
Lemma nth_at {A} (l1 : list A) x l2 d : nth (List.length l1) (l1 ++ x :: l2) d = x.
Proof. induction l1; cbn; auto. Qed.
Lemma stk_top h below en : stk h below en -> slot (h_len h - 1) h = Some en.
Proof.
  intros S. destruct (stk_split _ _ _ S) as (rest & E). destruct S as (L & _). unfold slot. rewrite L, E. cbn [Nat.sub]. rewrite Nat.sub_0_r. apply nth_at.
Qed.
Lemma stk_env h below en : stk h below en -> top_env h = en.
Proof. intros S. unfold top_env. now rewrite (stk_top _ _ _ S). Qed.
Lemma stk_set h below en en' : stk h below en -> stk (set_top (Some en') h) below en'.
Proof.
  intros S. destruct (stk_split _ _ _ S) as (rest & E). destruct S as (L & _). apply stk_intro with (rest := rest); [exact L|].
  unfold set_top. cbn [h_slots set_slots]. rewrite L, E. cbn [Nat.sub]. rewrite Nat.sub_0_r. apply update_at.
Qed.
Definition base (h : hst) (below : list (option env)) : Prop := h_len h = List.length below /\ exists rest, h_slots h = below ++ rest.
Lemma push_base spare h below : base h below -> stk (push_v spare h) below [].
Proof.
  intros (L & rest & E).
  assert (G : forall l, (exists x r, l = below ++ x :: r) ->
    stk (match slot (S (h_len h) - 1) (set_slots l (S (h_len h)) h) with Some [] => set_slots l (S (h_len h)) h | _ => set_top (Some []) (set_slots l (S (h_len h)) h) end) below []).
  { intros l (x & r & ->). unfold slot, set_top. cbn [h_slots h_len set_slots Nat.sub]. rewrite Nat.sub_0_r, L, nth_at, update_at.
    destruct x as [[|y x]|]; (apply stk_intro with (rest := r); cbn [h_len h_slots set_slots]; [now rewrite ?L|reflexivity]). }
  unfold push_v. destruct (Nat.eqb_spec (List.length (h_slots h)) (h_len h)) as [F|F].
  - apply G. rewrite E in F |- *. rewrite app_length, L in F. destruct rest; [|cbn in F; lia]. rewrite app_nil_r. cbn [repeat]. eauto.
  - apply G. rewrite E in F |- *. destruct rest as [|x r]; [|eauto]. rewrite app_nil_r, L in F. congruence.
Qed.
Lemma stk_base h below en : stk h below en -> base h (below ++ [Some en]).
Proof.
  intros S. destruct (stk_split _ _ _ S) as (rest & E). destruct S as (L & _). split; [rewrite L, app_length; cbn; lia|].
  exists rest. now rewrite E, <- app_assoc.
Qed.
Lemma push_ok spare h below en : stk h below en -> stk (push_v spare h) (below ++ [Some en]) [].
Proof. intros S. now apply push_base, stk_base. Qed.
Lemma pop_ok h below en en' : stk h (below ++ [Some en]) en' -> stk (pop_v h) below en.
Proof.
  intros S. pose proof (stk_top _ _ _ S) as T. destruct (stk_split _ _ _ S) as (rest & E). destruct S as (L & _).
  unfold pop_v. rewrite T. rewrite app_length in L. cbn [List.length] in L.
  destruct en' as [|x en'].
  - apply stk_intro with (rest := Some [] :: rest); cbn [h_len h_slots set_slots]; [lia|]. now rewrite E, <- app_assoc.
  - apply stk_intro with (rest := None :: rest); cbn [h_len h_slots set_slots set_top]; [lia|].
    replace (h_len h - 1) with (List.length (below ++ [Some en])) by (rewrite app_length; cbn; lia).
    rewrite E, update_at. now rewrite <- app_assoc.
Qed.
Lemma push_st spare h : h_st (push_v spare h) = h_st h /\ h_cur (push_v spare h) = h_cur h /\ h_given (push_v spare h) = h_given h.
Proof. unfold push_v. destruct (_ =? _); destruct (slot _ _) as [[|x l]|]; auto. Qed.
Lemma pop_st h : h_st (pop_v h) = h_st h /\ h_cur (pop_v h) = h_cur h /\ h_given (pop_v h) = h_given h.
Proof. unfold pop_v. destruct (slot _ _) as [[|x l]|]; auto. Qed.

(** ** The objects of a call *)
Definition repr (R : res) (v : smap) (w : option (list position)) : Prop :=
  match v, w with
  | None, None => True
  | Some (r, n), Some ws => exists l, r_arrs R r = Some l /\ n <= List.length l /\ firstn n l = ws
  | _, _ => False
  end.
Definition arrays (G : list (smap * option (list position))) : list nat :=
  flat_map (fun x => match fst x with Some (r, _) => [r] | None => [] end) G.
Definition kept (R : res) (G : list (smap * option (list position))) : Prop := Forall (fun x => repr R (fst x) (snd x)) G.
Definition mine (R : res) (cur : nat) (w : option (list position)) (G : list (smap * option (list position))) : Prop :=
  exists c, r_maps R cur = Some c /\ repr R c w /\ kept R G /\ match c with Some (r, _) => ~ In r (arrays G) | None => True end.
Definition saved (R : res) (a : nat) (w : option (list position)) : Prop := exists c, r_maps R a = Some c /\ repr R c w.

Lemma repr_arrs R R' v w : (forall r l, r_arrs R r = Some l -> r_arrs R' r = Some l) -> repr R v w -> repr R' v w.
Proof. intros H. destruct v as [[r n]|], w as [ws|]; cbn; auto. intros (l & E & X). eauto. Qed.
Lemma kept_arrs R R' G : (forall r l, r_arrs R r = Some l -> r_arrs R' r = Some l) -> kept R G -> kept R' G.
Proof. intros H K. eapply Forall_impl; [|exact K]. intros x. now apply repr_arrs. Qed.
Lemma kept_in R G r : kept R G -> In r (arrays G) -> exists l, r_arrs R r = Some l.
Proof.
  intros K I. apply in_flat_map in I as ([v w] & I & J). eapply Forall_forall in K; [|exact I]. cbn in *. destruct v as [[r' n]|]; [|destruct J].
  destruct J as [->|[]]. destruct w as [ws|]; [|destruct K]. destruct K as (l & E & _). eauto.
Qed.
Lemma kept_other R G r l : ~ In r (arrays G) -> kept R G -> kept (set_arr r l R) G.
Proof.
  intros N K. apply Forall_forall. intros [v w] I. pose proof (proj1 (Forall_forall _ _) K _ I) as X. cbn in *.
  destruct v as [[r' n]|], w as [ws|]; cbn in *; auto. rewrite upd_other; [exact X|]. intros ->. apply N. apply in_flat_map. exists (Some (r, n), Some ws). split; [exact I|now left].
Qed.

(** taking resources apart *)
Definition only_map (f : nat -> option smap) (a : nat) : nat -> option smap := fun x => if x =? a then f x else None.
Definition but {A} (f : nat -> option A) (a : nat) : nat -> option A := fun x => if x =? a then None else f x.
Definition only {A} (f : nat -> option A) (a : nat) : nat -> option A := fun x => if x =? a then f x else None.
Definition nothing {A} : nat -> option A := fun _ => None.
Lemma split_only {A} (f : nat -> option A) a : split_fun f (but f a) (only f a).
Proof. intros x. unfold but, only. destruct (x =? a); auto. split; [destruct (f x); reflexivity|now right]. Qed.
Lemma split_nothing {A} (f : nat -> option A) : split_fun f f nothing.
Proof. intros x. unfold nothing. split; [destruct (f x); reflexivity|now right]. Qed.

Lemma clone_ok h R w G : mine R (h_cur h) w G ->
  ref (hclone h) (Done tt) R (fun a _ R' => exists R1 RF, split R' R1 RF /\ mine R1 (h_cur h) w G /\ saved RF a w).
Proof.
  intros (c & E & P & K & D). unfold hclone. cbn [ref]. intros a Ha. exists c. split; [cbn; rewrite upd_other; [exact E|congruence]|].
  destruct c as [[r n]|].
  - cbn [hclone_slice hbind ref]. intros r' cap Hr' Hc. cbn in P. destruct w as [ws|]; [|destruct P]. destruct P as (l & El & Ln & F).
    cbn [r_arrs set_map] in Hr'. exists l. split; [cbn; rewrite upd_other; [exact El|congruence]|].
    eexists. split; [cbn; apply upd_same|]. split; [cbn; rewrite firstn_length, repeat_length; lia|].
    split; [cbn; rewrite upd_same; discriminate|]. eexists. split; [reflexivity|].
    set (R' := set_map _ _ _). exists (Res (but (r_maps R') a) (but (r_arrs R') r')), (Res (only (r_maps R') a) (only (r_arrs R') r')).
    split; [split; apply split_only|]. assert (X : forall q q', r_arrs R q = Some q' -> but (r_arrs R') r' q = Some q').
    { intros q q' Eq. unfold but. cbn. destruct (Nat.eqb_spec q r') as [e|N]; [congruence|]. unfold upd. apply Nat.eqb_neq in N. now rewrite N. }
    split.
    + exists (Some (r, n)). split; [|split; [|split; [|exact D]]].
      * cbn. unfold but, upd. destruct (Nat.eqb_spec (h_cur h) a) as [e|N]; [congruence|]. exact E.
      * cbn. exists l. split; [apply X, El|]. auto.
      * eapply kept_arrs; [|exact K]. exact X.
    + exists (Some (r', n)). split; [cbn; unfold only; rewrite Nat.eqb_refl; apply upd_same|]. cbn. unfold only. rewrite Nat.eqb_refl. rewrite upd_same.
      eexists. split; [reflexivity|]. split; [rewrite app_length, firstn_length; lia|].
      assert (Lw : List.length ws = n) by (rewrite <- F, firstn_length; lia).
      rewrite firstn_app, firstn_firstn, Nat.min_id, F, Lw. rewrite Nat.sub_diag, firstn_O, app_nil_r. reflexivity.
  - cbn [ref]. eexists. split; [reflexivity|]. destruct w; [destruct P|].
    set (R' := set_map _ _ _). exists (Res (but (r_maps R') a) (r_arrs R')), (Res (only (r_maps R') a) nothing).
    split; [split; [apply split_only|apply split_nothing]|]. split.
    + exists None. split; [|repeat split; auto]. cbn. unfold but, upd. destruct (Nat.eqb_spec (h_cur h) a) as [e|N]; [congruence|]. exact E.
    + exists None. split; [|exact I]. cbn. unfold only. rewrite Nat.eqb_refl. apply upd_same.
Qed.

Lemma restore_ok a h R R1 RF w0 G : split R R1 RF -> r_maps R1 (h_cur h) <> None -> kept R1 G -> saved RF a w0 ->
  ref (hrestore a h) (Done tt) R (fun h' _ R' => h' = set_hcur a h /\ mine R' a w0 G).
Proof.
  intros S Hc K (c & E & P). unfold hrestore. cbn [ref]. destruct (r_maps R1 (h_cur h)) as [v|] eqn:Ec; [|congruence].
  split; [erewrite split_l; [|apply S|exact Ec]; discriminate|]. split; [cbn; apply upd_same|]. eexists. split; [reflexivity|]. split; [reflexivity|].
  exists c. split; [|split; [|split]].
  - cbn. unfold upd. destruct (Nat.eqb_spec a (h_cur h)) as [e|N]; [exfalso; rewrite <- e in Ec; eapply split_sep; [apply (proj1 S)|exact Ec|exact E]|].
    eapply split_r; [apply S|exact E].
  - cbn. eapply repr_arrs; [|exact P]. intros q q' Eq. cbn. eapply split_r; [apply S|exact Eq].
  - eapply kept_arrs; [|exact K]. intros q q' Eq. cbn. eapply split_l; [apply S|exact Eq].
  - destruct c as [[r n]|]; [|exact I]. intros I. destruct (kept_in _ _ _ K I) as (l & El). cbn in P. destruct w0; [|destruct P]. destruct P as (l' & El' & _).
    eapply split_sep; [apply (proj2 S)|exact El|exact El'].
Qed.

(** ** The state without the warnings *)
Lemma sw_tick w s : tick (set_warns w s) = set_warns w (tick s). Proof. reflexivity. Qed.
Lemma sw_over o w s : over_limit o (set_warns w s) = over_limit o s. Proof. reflexivity. Qed.
Lemma sw_restore w p s : restore p (set_warns w s) = set_warns w (restore p s).
Proof. unfold restore. cbn [s_pt set_warns]. destruct (_ =? _); reflexivity. Qed.
Lemma sw_fail w x p t s : fail_at x p t (set_warns w s) = set_warns w (fail_at x p t s).
Proof. unfold fail_at. cbn [s_mfinv s_mfpos s_mfexp set_warns]. destruct (Bool.eqb _ _); [|reflexivity]. destruct (_ <? _)%nat; [reflexivity|]. destruct (_ <? _)%nat; reflexivity. Qed.
Lemma sw_read o w r s : read o r (set_warns w s) = set_warns w (read o r s).
Proof. unfold read, check_rune. cbn. destruct (_ && _); reflexivity. Qed.
(** the same outcome but for the labels and the warnings *)
Definition swo (en : env) (w : option (list position)) (r : out) : out :=
  match r with
  | OOk v _ s => OOk v en (set_warns w s)
  | OFail _ s => OFail en (set_warns w s)
  | OPanic m x s => OPanic m x (set_warns w s)
  | OFuel => OFuel
  end.
Lemma sw_lit o rule want p rs en w : forall s, lit_loop o rule want p rs en (set_warns w s) = swo en w (lit_loop o rule want p rs [] s).
Proof.
  induction rs as [|r rs IH]; intros s; cbn [lit_loop].
  - rewrite sw_fail. reflexivity.
  - cbn [s_pt set_warns]. destruct (_ =? _)%N; [rewrite sw_read; apply IH|]. now rewrite sw_fail, sw_restore.
Qed.
Definition leaf (g : grammar) (e : expr) : bool :=
  match e with
  | EAny | EClass _ _ _ _ | ELit _ _ => true
  | ERef n => match find_rule n g with Some _ => false | None => true end
  | _ => false
  end.
Lemma sw_step o g F F' k rule e en w s : leaf g e = true -> over_limit o (tick s) = false ->
  step o g F k rule e en (set_warns w s) = swo en w (step o g F' k rule e [] s).
Proof.
  intros L O. unfold step. rewrite sw_tick, sw_over, O.
  destruct e; try discriminate L.
  - cbn [s_pt set_warns]. change (at_eof (set_warns w (tick s))) with (at_eof (tick s)). destruct (at_eof (tick s)).
    + now rewrite sw_fail.
    + cbn zeta. now rewrite sw_read, sw_fail.
  - cbn [s_pt set_warns]. change (at_eof (set_warns w (tick s))) with (at_eof (tick s)). destruct (_ && _).
    + cbn zeta. now rewrite sw_read, sw_fail.
    + now rewrite sw_fail.
  - apply sw_lit.
  - cbn in L. destruct (find_rule name g); [discriminate|]. reflexivity.
Qed.
Lemma sw_sw w w' s : set_warns w (set_warns w' s) = set_warns w s. Proof. reflexivity. Qed.

(** ** The simulation *)
Definition good (R : res) (h : hst) (below : list (option env)) (en : env) (s : st) : Prop :=
  exists w G, s = set_warns w (h_st h) /\ stk h below en /\ h_given h = map fst G /\ mine R (h_cur h) w G.
Definition post (below : list (option env)) (hr : hout) (r : out) (R : res) : Prop :=
  match hr, r with
  | HOk v h, OOk v' en s => v = v' /\ good R h below en s
  | HFail h, OFail en s => good R h below en s
  | HPanic m ru h, OPanic m' ru' s => m = m' /\ ru = ru' /\ exists w, s = set_warns w (h_st h)
  | HFuel, OFuel => True
  | _, _ => False
  end.
Definition framed (RF : res) (below : list (option env)) (hr : hout) (r : out) (R : res) : Prop :=
  exists R1, split R R1 RF /\ post below hr r R1.
Definition hyp (f : string -> expr -> hst -> hprog hout) (F : string -> expr -> env -> st -> prog out) : Prop :=
  forall rule e h below en s R, good R h below en s -> ref (f rule e h) (F rule e en s) R (post below).

Lemma good_st R h below en s f : good R h below en s -> (forall w x, f (set_warns w x) = set_warns w (f x)) ->
  good R (set_hst (f (h_st h)) h) below en (f s).
Proof. intros (w & G & -> & S & E & M) H. exists w, G. rewrite H. auto. Qed.
Lemma good_push spare R h below en s : good R h below en s -> good R (push_v spare h) (below ++ [Some en]) [] s.
Proof.
  intros (w & G & -> & S & E & M). destruct (push_st spare h) as (E1 & E2 & E3). exists w, G. rewrite E1, E2, E3. split; [reflexivity|]. split; [now apply push_ok|]. auto.
Qed.
Lemma good_pop R h below en en' s : good R h (below ++ [Some en]) en' s -> good R (pop_v h) below en s.
Proof.
  intros (w & G & -> & S & E & M). destruct (pop_st h) as (E1 & E2 & E3). exists w, G. rewrite E1, E2, E3. split; [reflexivity|]. split; [eapply pop_ok; eauto|]. auto.
Qed.

(** restoreState after a part that was framed with the clone *)
Lemma good_restore a h R R1 RF below en s w0 : split R R1 RF -> good R1 h below en s -> saved RF a w0 ->
  ref (hrestore a h) (Done tt) R (fun h' _ R' => good R' h' below en (set_warns w0 s) /\ h_st h' = h_st h).
Proof.
  intros S (w & G & -> & T & E & (c & Ec & P & K & D)) V. eapply ref_mono; [|eapply restore_ok with (w0 := w0); [exact S|congruence|exact K|exact V]].
  intros h' [] R' (-> & M). split; [|reflexivity]. exists w0, G. auto.
Qed.
Lemma good_clone R h below en s : good R h below en s ->
  ref (hclone h) (Done tt) R (fun a _ R' => exists R1 RF, split R' R1 RF /\ good R1 h below en s /\ saved RF a (s_warns s)).
Proof.
  intros (w & G & -> & T & E & M). eapply ref_mono; [|apply clone_ok; exact M]. intros a [] R' (R1 & RF & S & M' & V).
  exists R1, RF. split; [exact S|]. split; [|exact V]. exists w, G. auto.
Qed.

Section Sim.
  Variable spare : nat -> nat.
  Variable o : settings.
  Variable g : grammar.

  Lemma r_seq f F rule pt a w0 es below : hyp f F -> forall acc h en s R R1 RF,
    split R R1 RF -> good R1 h below en s -> saved RF a w0 ->
    ref (hseq_loop (f rule) pt a es acc h) (pseq_loop (F rule) pt w0 es acc en s) R (post below).
  Proof.
    intros H. induction es as [|e es IH]; intros acc h en s R R1 RF S GD V; cbn [hseq_loop pseq_loop].
    - cbn. eexists. split; [reflexivity|]. cbn. split; [reflexivity|]. destruct GD as (w & G & E1 & E2 & E3 & c & E4 & P & K & D).
      exists w, G. repeat (split; [assumption|]). exists c. split; [eapply split_l; [apply S|exact E4]|].
      split; [eapply repr_arrs; [|exact P]; intros q q'; eapply split_l; apply S|]. split; [|exact D]. eapply kept_arrs; [|exact K]. intros q q'; eapply split_l; apply S.
    - eapply ref_bind; [eapply ref_frame; [exact S|apply H; exact GD]|].
      intros x y R' (R1' & S' & P). destruct x, y; cbn [post] in P; try (exfalso; exact P); cbn beta iota.
      + destruct P as (<- & P). eapply IH; eauto.
      + eapply ref_left; [eapply good_restore; eauto|]. intros h' R'' (G' & E). cbn. eexists. split; [reflexivity|].
        cbn. apply (good_st _ _ _ _ _ (restore pt)); [exact G'|]. intros; apply sw_restore.
      + eexists. split; [reflexivity|]. exact P.
      + eexists. split; [reflexivity|]. exact I.
  Qed.
  Lemma unframe R R1 RF h below en s : split R R1 RF -> good R1 h below en s -> good R h below en s.
  Proof.
    intros S (w & G & E1 & E2 & E3 & c & E4 & P & K & D).
    exists w, G. repeat (split; [assumption|]). exists c. split; [eapply split_l; [apply S|exact E4]|].
    split; [eapply repr_arrs; [|exact P]; intros q q'; eapply split_l; apply S|]. split; [|exact D]. eapply kept_arrs; [|exact K]. intros q q'; eapply split_l; apply S.
  Qed.
  Lemma r_choice f F rule es below : hyp f F -> forall h en s R, good R h below en s ->
    ref (hchoice_loop spare (f rule) es h) (pchoice_loop (F rule) es en s) R (post below).
  Proof.
    intros H. induction es as [|e es IH]; intros h en s R GD; cbn [hchoice_loop pchoice_loop].
    - cbn. eauto.
    - eapply ref_left; [eapply good_clone; exact GD|]. intros a R' (R1 & RF & S & GD1 & V).
      eapply ref_bind; [eapply ref_frame; [exact S|apply H; apply good_push; exact GD1]|].
      intros x y R2 (R1' & S' & P). destruct x, y; cbn [post] in P; try (exfalso; exact P); cbn [pop_out].
      + destruct P as (<- & P). cbn. eexists. split; [reflexivity|]. cbn. split; [reflexivity|]. eapply good_pop, unframe; eauto.
      + eapply ref_left; [eapply good_restore; [exact S'|eapply good_pop; exact P|exact V]|]. intros h' R'' (G' & E).
        apply IH. exact G'.
      + cbn. eexists. split; [reflexivity|]. exact P.
      + cbn. eexists. split; [reflexivity|]. exact I.
  Qed.
  Lemma r_star (f : hst -> hprog hout) (F : st -> prog out) k en below :
    (forall h s R, good R h (below ++ [Some en]) [] s -> ref (f h) (F s) R (post (below ++ [Some en]))) -> forall acc h s R, good R h below en s ->
    ref (hstar_loop spare f k acc h) (pstar_loop F k acc en s) R (fun x y R' => post below x y R' /\ match y with OOk _ e _ => e = en | _ => True end).
  Proof.
    intros H. induction k as [|k IH]; intros acc h s R GD; cbn [hstar_loop pstar_loop].
    - cbn. eexists. split; [reflexivity|split; exact I].
    - eapply ref_bind; [apply H, good_push, GD|]. intros x y R2 P. destruct x, y; cbn [post] in P; try (exfalso; exact P); cbn [pop_out].
      + destruct P as (<- & P). apply IH. eapply good_pop; eauto.
      + cbn. eexists. split; [reflexivity|]. cbn. split; [|reflexivity]. split; [reflexivity|]. eapply good_pop; eauto.
      + cbn. eexists. split; [reflexivity|]. split; [exact P|exact I].
      + cbn. eexists. split; [reflexivity|split; exact I].
  Qed.
End Sim.

Lemma arr_same r v R : r_arrs (set_arr r v R) r = v. Proof. apply upd_same. Qed.
Lemma write_last l n (x : position) : n < List.length l -> S n <= List.length (write_at n [x] l) /\ firstn (S n) (write_at n [x] l) = firstn n l ++ [x].
Proof.
  intros L. unfold write_at. cbn [List.length]. assert (E : List.length (firstn n l) = n) by (rewrite firstn_length; lia).
  split; [rewrite !app_length, E; cbn; lia|]. rewrite app_assoc, firstn_app, app_length, E. cbn [List.length].
  replace (S n - (n + 1)) with 0 by lia. rewrite firstn_O, app_nil_r. apply firstn_all2. rewrite app_length, E. cbn. lia.
Qed.
Lemma write_first (l old : list position) : List.length l <= List.length old ->
  List.length l <= List.length (write_at 0 l old) /\ firstn (List.length l) (write_at 0 l old) = l.
Proof.
  intros L. unfold write_at. cbn [firstn app Nat.add]. split; [rewrite app_length; lia|]. rewrite firstn_app, Nat.sub_diag, firstn_O, app_nil_r. apply firstn_all.
Qed.
Definition texts_of (w : option (list position)) : list position := match w with Some l => l | None => [] end.
Lemma happend_ok c x R w G : repr R c w -> kept R G -> match c with Some (r, _) => ~ In r (arrays G) | None => True end ->
  ref (happend c x) (Done tt) R (fun w' _ R' => (forall a, r_maps R' a = r_maps R a) /\ repr R' (Some w') (Some (texts_of w ++ [x])) /\ kept R' G /\ ~ In (fst w') (arrays G)).
Proof.
  intros P K D. assert (new : forall r, r_arrs R r = None -> ~ In r (arrays G)).
  { intros r Hr I. destruct (kept_in _ _ _ K I) as (l & E). congruence. }
  destruct c as [[r n]|]; cbn [happend ref].
  - destruct w as [ws|]; [|destruct P]. destruct P as (l & El & Ln & F). exists l. split; [exact El|]. destruct (Nat.ltb_spec n (List.length l)) as [L|L]; cbn [ref].
    + exists l. split; [exact El|]. split; [cbn; lia|]. eexists. split; [reflexivity|]. split; [reflexivity|]. destruct (write_last l n x L) as (L1 & F1). split.
      * cbn [repr]. eexists. split; [apply arr_same|]. split; [exact L1|]. rewrite F1, F. reflexivity.
      * split; [now apply kept_other|exact D].
    + intros r' cap Hr Hc. eexists. split; [apply arr_same|]. assert (Lw : List.length (firstn n l ++ [x]) = S n) by (rewrite app_length, firstn_length; cbn; lia).
      split; [rewrite Lw, repeat_length; exact Hc|]. eexists. split; [reflexivity|]. split; [reflexivity|].
      destruct (write_first (firstn n l ++ [x]) (repeat zero_pos cap)) as (L1 & F1); [rewrite Lw, repeat_length; exact Hc|]. rewrite Lw in L1, F1. split.
      * cbn [repr]. eexists. split; [apply arr_same|]. split; [exact L1|]. rewrite F1, F. reflexivity.
      * split; [|cbn; now apply new]. apply kept_other; [now apply new|]. apply kept_other; [now apply new|exact K].
  - destruct w as [ws|]; [destruct P|]. intros r' cap Hr Hc. eexists. split; [apply arr_same|].
    split; [rewrite repeat_length; exact Hc|]. eexists. split; [reflexivity|]. split; [reflexivity|].
    destruct (write_first [x] (repeat zero_pos cap)) as (L1 & F1); [rewrite repeat_length; exact Hc|]. split.
    + cbn [repr]. eexists. split; [apply arr_same|]. split; [exact L1|]. exact F1.
    + split; [|cbn; now apply new]. apply kept_other; [now apply new|]. apply kept_other; [now apply new|exact K].
Qed.

Lemma hstate_ok o c R h below en s : good R h below en s ->
  ref (hstate o c h) (Done tt) R (fun h' _ R' => good R' h' below en (run_state o c s)).
Proof.
  intros (w & G & -> & T & E & m & Em & P & K & D). assert (new : forall r, r_arrs R r = None -> ~ In r (arrays G)).
  { intros r Hr I. destruct (kept_in _ _ _ K I) as (l & El). congruence. }
  destruct c; cbn [hstate run_state].
  - cbn [ref]. exists m. split; [exact Em|]. cbn [s_warns set_warns]. destruct m as [[r n]|].
    + destruct w as [ws|]; [|destruct P]. cbn. eexists. split; [reflexivity|]. exists (Some ws), G. repeat (split; [assumption||reflexivity|]). exists (Some (r, n)). auto.
    + destruct w; [destruct P|]. cbn [ref]. intros r cap Hr _. split; [cbn; congruence|]. eexists. split; [reflexivity|]. exists (Some []), G.
      split; [reflexivity|]. repeat (split; [assumption|]). exists (Some (r, 0)). split; [cbn; apply upd_same|]. split; [|split].
      * cbn. eexists. split; [apply upd_same|]. split; [lia|reflexivity].
      * now apply (kept_other R G r); [apply new|].
      * now apply new.
  - change (s_ctext (set_warns w (h_st h))) with (s_ctext (h_st h)). destruct (_ && _).
    + cbn [ref]. exists m. split; [exact Em|]. eapply ref_left; [eapply happend_ok; eassumption|]. intros w' R' (M & P' & K' & D'). cbn [ref].
      split; [rewrite M; congruence|]. eexists. split; [reflexivity|]. exists (Some (texts_of w ++ [s_cpos (h_st h)])), G. split; [reflexivity|].
      repeat (split; [assumption|]). exists (Some w'). split; [cbn; apply upd_same|]. split; [|split].
      * exact P'.
      * exact K'.
      * destruct w'. exact D'.
    + cbn. eexists. split; [reflexivity|]. exists w, G. repeat (split; [assumption||reflexivity|]). exists m. auto.
Qed.

Section SimEval.
  Variable spare : nat -> nat.
  Variable o : settings.
  Variable g : grammar.

  (** what an action of retConfig gives to the configuration *)
  Definition gave (a : action) (hr : hout) (R : res) : Prop :=
    match a, hr with
    | ARetConfig _, HOk v h => exists c w rest cf, h_given h = c :: rest /\ repr R c w /\ v = VConfig cf /\ cf_warnings cf = map warning_text (texts_of w)
    | _, _ => True
    end.
  Lemma gave_other a v v' h h' R : not_ret_config a = true -> gave a (HOk v h) R -> gave a (HOk v' h') R.
  Proof. destruct a; try discriminate; auto. Qed.

  Lemma after_act rule a c h below en s R R1 RF pos text :
    split R R1 RF -> good R1 h below en s -> saved RF c (s_warns s) ->
    ref (hbind (haction o a pos text h) (fun x =>
           match fst x with
           | RVal v => hbind (hrestore c (snd x)) (fun h3 => HDone (HOk v h3))
           | RErr v m => hbind (hrestore c (set_hst (add_err_at (Some rule) m pos (h_st (snd x))) (snd x))) (fun h3 => HDone (HOk v h3))
           | RPanic m => HDone (HPanic m rule (snd x))
           end))
        (Done (match run_action (o_ignore o) (s_warns s) a en pos text with
               | RVal v => OOk v en s
               | RErr v m => OOk v en (add_err_at (Some rule) m pos s)
               | RPanic m => OPanic m rule s
               end)) R (fun x y R' => post below x y R' /\ gave a x R').
  Proof.
    intros S GD V. destruct (not_ret_config a) eqn:NR.
    - assert (E : haction o a pos text h = HDone (run_action (o_ignore o) None a (top_env h) pos text, h)) by (destruct a; try discriminate NR; reflexivity).
      rewrite E. cbn [hbind fst snd]. rewrite (action_warns (o_ignore o) a en (s_warns s) None pos text NR). rewrite (stk_env h below en) by (destruct GD as (? & ? & _ & T & _); exact T).
      assert (W : set_warns (s_warns s) s = s) by (destruct s; reflexivity).
      destruct (run_action (o_ignore o) None a en pos text) as [v|v m|m].
      + eapply ref_left; [eapply good_restore; eauto|]. intros h' R' (G' & _). rewrite W in G'. cbn. eexists. split; [reflexivity|]. cbn. split; [auto|]. destruct a; try discriminate NR; exact I.
      + eapply ref_left; [eapply good_restore with (s := add_err_at (Some rule) m pos s); [exact S| |exact V]|].
        * apply (good_st _ _ _ _ _ (add_err_at (Some rule) m pos)); [exact GD|reflexivity].
        * intros h' R' (G' & _). cbn. eexists. split; [reflexivity|]. cbn. split; [split; [reflexivity|]|destruct a; try discriminate NR; exact I].
          replace (add_err_at (Some rule) m pos s) with (set_warns (s_warns s) (add_err_at (Some rule) m pos s)) by (destruct s; reflexivity). exact G'.
      + cbn. eexists. split; [reflexivity|]. cbn. split; [|destruct a; exact I]. split; [reflexivity|]. split; [reflexivity|]. destruct GD as (w & G & -> & _). eauto.
    - destruct a; try discriminate NR. cbn [haction]. destruct GD as (w & G & -> & T & E & m & Em & P & K & D). cbn [hbind ref]. exists m.
      split; [eapply split_l; [apply S|exact Em]|]. rewrite (stk_env _ _ _ T).
      assert (X : forall w', w' = w -> ref (hbind (hrestore c (give m h)) (fun h3 => HDone (HOk (VConfig
        (let c := match lookup l en with VConfig c => c | _ => zero_config end in Config (cf_input c) (cf_filter c) (cf_output c) (cf_foot c) (match w' with Some l => map warning_text l | None => [] end))) h3)))
        (Done (OOk (VConfig (let c := match lookup l en with VConfig c => c | _ => zero_config end in Config (cf_input c) (cf_filter c) (cf_output c) (cf_foot c) (match w with Some l => map warning_text l | None => [] end))) en (set_warns w (h_st h)))) R
        (fun x y R' => post below x y R' /\ gave (ARetConfig l) x R')).
      { intros w' ->. eapply ref_left; [eapply restore_ok with (w0 := w) (G := (m, w) :: G); [exact S|cbn; congruence| |exact V]|].
        - constructor; [exact P|exact K].
        - intros h' R' (-> & M). cbn [ref]. eexists. split; [reflexivity|]. split.
          + cbn [post]. split; [reflexivity|]. exists w, ((m, w) :: G). split; [reflexivity|]. split; [exact T|]. split; [cbn; now rewrite E|exact M].
          + cbn [gave]. exists m, w, (h_given h). eexists. split; [reflexivity|]. split; [|split; [reflexivity|destruct w; reflexivity]].
            destruct M as (c' & _ & _ & K' & _). apply Forall_inv in K'. exact K'. }
      destruct m as [[r n]|].
      + destruct w as [ws|]; [|destruct P]. destruct P as (la & El & Ln & F). cbn [hcontents hbind ref]. exists la. split; [eapply split_l; [apply S|exact El]|].
        cbn [fst snd run_action act_ret_config s_warns set_warns]. apply (X (Some (firstn n la))). now rewrite F.
      + destruct w; [destruct P|]. cbn [hcontents hbind fst snd run_action act_ret_config s_warns set_warns]. apply (X None). reflexivity.
  Qed.

  Lemma r_act f F k rule a e h below en s R : hyp f F -> good R h below en s ->
    ref (hstep spare o g f k rule (EAct a e) h) (pstep o g F k rule (EAct a e) en s) R (fun x y R' => post below x y R' /\ gave a x R').
  Proof.
    intros H GD. unfold hstep, pstep. assert (ON : over_limit o (tick s) = over_limit o (tick (h_st h))) by (destruct GD as (w & G & -> & _); reflexivity).
    cbn [h_st set_hst]. rewrite ON. assert (GT := good_st R h below en s tick GD (fun w x => eq_refl)).
    destruct (over_limit o (tick (h_st h))).
    { cbn. eexists. split; [reflexivity|]. cbn. split; [|destruct a; exact I]. split; [reflexivity|]. split; [reflexivity|]. destruct GD as (w & G & -> & _). exists w. reflexivity. }
    unfold mapp. eapply ref_bind; [apply H; exact GT|]. intros x y R1 P. destruct x as [v h1|h1|m ru h1|], y as [v' en' s'|en' s'|m' ru' s'|]; cbn [post] in P; try (exfalso; exact P); cbn beta iota.
    - destruct P as (<- & P). 
      assert (PT : s_pt (tick s) = s_pt (tick (h_st h))) by (destruct GD as (w & G & -> & _); reflexivity).
      assert (TX : slice_from (s_pt (tick (h_st h))) (h_st h1) = slice_from (s_pt (tick s)) s') by (rewrite PT; destruct P as (w & G & -> & _); reflexivity).
      rewrite TX, <- PT. set (text := slice_from _ _). set (pos := pt_pos (s_pt (tick s))).
      assert (G2 := good_st R1 h1 below en' s' (set_cur pos text) P (fun w x => eq_refl)).
      eapply ref_left; [eapply good_clone; exact G2|]. intros c R2 (R1' & RF & S & G3 & V). cbn [act_out]. fold text. fold pos. eapply after_act; eassumption.
    - cbn. eexists. split; [reflexivity|]. split; [exact P|destruct a; exact I].
    - cbn. eexists. split; [reflexivity|]. split; [exact P|destruct a; exact I].
    - cbn. eexists. split; [reflexivity|]. split; [exact I|destruct a; exact I].
  Qed.
End SimEval.

Section SimAll.
  Variable spare : nat -> nat.
  Variable o : settings.
  Variable g : grammar.

  Lemma of_out_post R h below en s r : good R h below en s ->
    (forall v en' s', r = OOk v en' s' -> True) ->
    post below (of_out h r) (swo en (s_warns s) r) R.
  Proof.
    intros (w & G & -> & T & E & M) _. destruct r as [v en' s'|en' s'|m ru s'|]; cbn.
    - split; [reflexivity|]. exists w, G. auto.
    - exists w, G. auto.
    - split; [reflexivity|]. split; [reflexivity|]. eauto.
    - exact I.
  Qed.
  (** the predicates do not look at the labels or the warnings *)
  Ltac fin := eexists; split; [reflexivity|]; split; reflexivity.
  Lemma pred_sw rule p en w s R : ref (hlift (ppredicate rule p [] s)) (ppredicate rule p en (set_warns w s)) R (fun x y R' => y = swo en w x /\ R' = R).
  Proof.
    destruct p as [|m|m]; cbn [ppredicate hlift ref].
    - eexists. split; [reflexivity|]. fin.
    - unfold ppush, first_failure. change (cur_off (set_warns w s)) with (cur_off s). cbn [s_cpos s_ctext set_warns hlift ref].
      eexists. split; [reflexivity|]. intros [|f l]; cbn [hlift ref].
      + eexists. split; [reflexivity|]. fin.
      + eexists. split; [reflexivity|]. intros [|f1 l1]; cbn [hlift ref]; [fin|]. destruct (f_off f1 <? cur_off s); cbn [hlift ref].
        * eexists. split; [reflexivity|]. fin.
        * eexists. split; [reflexivity|]. intros [|f2 l2]; cbn [hlift ref]; [fin|]. destruct (cur_off s =? f_off f2); cbn [hlift ref]; [|fin].
          eexists. split; [reflexivity|]. intros l3. cbn beta. destruct (existsb _ l3); cbn [hlift ref]; [fin|].
          eexists. split; [reflexivity|]. intros l4. cbn [hlift ref]. eexists. split; [reflexivity|]. fin.
    - cbn. eexists. split; [reflexivity|]. fin.
  Qed.

  Lemma r_eval n : hyp (heval spare o g n) (peval o g n).
  Proof.
    induction n as [|n IH]; intros rule e h below en s R GD; [cbn; eexists; split; [reflexivity|exact I]|]. cbn [heval peval].
    destruct e as [a e'|p|c| |wn cs rs i|wn rs|es|es|l e'|e'|e'|e'|e'|name].
    1: { eapply ref_mono; [|apply r_act; [exact IH|exact GD]]. intros x y R' (P & _). exact P. }
    all: unfold hstep, pstep; assert (ON : over_limit o (tick s) = over_limit o (tick (h_st h))) by (destruct GD as (w & G & -> & _); reflexivity);
      cbn [h_st set_hst]; rewrite ON; assert (GT := good_st R h below en s tick GD (fun w x => eq_refl));
      destruct (over_limit o (tick (h_st h))) eqn:OL;
      [cbn; eexists; split; [reflexivity|]; cbn; split; [reflexivity|]; split; [reflexivity|]; destruct GD as (w & G & -> & _); exists w; reflexivity|].
    - (* &{} *)
      eapply ref_left; [eapply good_clone; exact GT|]. intros c R1 (R1' & RF & S & G1 & V).
      assert (SW : exists w, tick s = set_warns w (tick (h_st h)) /\ s_warns (tick s) = w) by (destruct GD as (w & G & -> & _); exists w; split; reflexivity).
      destruct SW as (w & SW & W). rewrite W in V. rewrite SW in *.
      eapply ref_right; [eapply pred_sw with (w := w)|]. intros x y R2 (-> & ->).
      assert (G0 : forall s', good R1' (set_hst s' (set_hst (tick (h_st h)) h)) below en (set_warns w s')).
      { intros s'. destruct G1 as (w1 & G & E1 & T & E & M). assert (w1 = w) by (apply (f_equal s_warns) in E1; cbn in E1; congruence). subst w1. exists w, G. auto. }
      destruct x as [v en' s'|en' s'|m ru s'|]; cbn [of_out swo].
      + eapply ref_left; [eapply good_restore; [exact S|apply (G0 s')|exact V]|]. intros h' R' (G' & _). cbn. eexists. split; [reflexivity|]. cbn. auto.
      + eapply ref_left; [eapply good_restore; [exact S|apply (G0 s')|exact V]|]. intros h' R' (G' & _). cbn. eexists. split; [reflexivity|]. cbn. auto.
      + cbn. eexists. split; [reflexivity|]. cbn. eauto.
      + cbn. eexists. split; [reflexivity|]. exact I.
    - (* #{} *)
      eapply ref_left; [eapply hstate_ok; exact GT|]. intros h' R' G'. cbn [ref]. eexists. split.
      + unfold step. rewrite ON, ?OL. reflexivity.
      + cbn. auto.
    - cbn [ref]. eexists. split; [reflexivity|]. assert (SW : s = set_warns (s_warns s) (h_st h)) by (destruct GD as (w & G & -> & _); reflexivity).
      rewrite SW at 1. erewrite sw_step; [|reflexivity|exact OL]. apply of_out_post with (en := en) (s := tick s); [exact GT|auto].
    - cbn [ref]. eexists. split; [reflexivity|]. assert (SW : s = set_warns (s_warns s) (h_st h)) by (destruct GD as (w & G & -> & _); reflexivity).
      rewrite SW at 1. erewrite sw_step; [|reflexivity|exact OL]. apply of_out_post with (en := en) (s := tick s); [exact GT|auto].
    - cbn [ref]. eexists. split; [reflexivity|]. assert (SW : s = set_warns (s_warns s) (h_st h)) by (destruct GD as (w & G & -> & _); reflexivity).
      rewrite SW at 1. erewrite sw_step; [|reflexivity|exact OL]. apply of_out_post with (en := en) (s := tick s); [exact GT|auto].
    - apply r_choice; [exact IH|exact GT].
    - eapply ref_left; [eapply good_clone; exact GT|]. intros c R1 (R1' & RF & S & G1 & V).
      assert (PT : s_pt (tick s) = s_pt (tick (h_st h))) by (destruct GD as (w & G & -> & _); reflexivity). rewrite <- PT.
      eapply r_seq; [exact IH|exact S|exact G1|exact V].
    - unfold mapp. eapply ref_bind; [apply IH, good_push; exact GT|]. intros x y R1 P.
      destruct x as [v h1|h1|m ru h1|], y as [v' en' s'|en' s'|m' ru' s'|]; cbn [post] in P; try (exfalso; exact P); cbn [pop_out lab_out].
      + destruct P as (<- & P). apply good_pop in P. cbn [ref]. eexists. split; [reflexivity|]. cbn [post]. split; [reflexivity|].
        destruct P as (w & G & E1 & T & E2 & M). rewrite (stk_env _ _ _ T). exists w, G. split; [exact E1|]. split; [eapply stk_set; exact T|]. auto.
      + cbn [ref]. eexists. split; [reflexivity|]. cbn [post]. eapply good_pop; exact P.
      + cbn [ref]. eexists. split; [reflexivity|]. exact P.
      + cbn [ref]. eexists. split; [reflexivity|]. exact I.
    - (* ! *)
      assert (MI : s_mfinv (tick s) = s_mfinv (tick (h_st h))) by (destruct GD as (w & G & -> & _); reflexivity).
      assert (PT : s_pt (tick s) = s_pt (tick (h_st h))) by (destruct GD as (w & G & -> & _); reflexivity). rewrite MI, <- PT.
      eapply ref_left; [eapply good_clone; exact GT|]. intros c R1 (R1' & RF & S & G1 & V). unfold mapp.
      eapply ref_bind; [eapply ref_frame; [exact S|apply IH]|].
      { pose proof (good_st _ _ _ _ _ (set_mfinv (negb (s_mfinv (tick (h_st h))))) (good_push spare _ _ _ _ _ G1) (fun w x => eq_refl)) as X.
        destruct (push_st spare (set_hst (tick (h_st h)) h)) as (E1 & _). rewrite E1 in X. exact X. }
      intros x y R2 (R2' & S2 & P).
      destruct x as [v h1|h1|m ru h1|], y as [v' en' s'|en' s'|m' ru' s'|]; cbn [post] in P; try (exfalso; exact P); cbn [pop_out not_out].
      + destruct P as (<- & P). apply good_pop in P. 
        assert (G2 := good_st _ _ _ _ _ (set_mfinv (negb (s_mfinv (h_st (pop_v h1))))) P (fun w x => eq_refl)).
        assert (MI2 : s_mfinv (h_st (pop_v h1)) = s_mfinv s') by (destruct P as (w & G & -> & _); reflexivity). rewrite MI2 in *.
        eapply ref_left with (Q := fun h' _ R' => good R' h' below en (restore (s_pt (tick s)) (set_warns (s_warns (tick s)) (set_mfinv (negb (s_mfinv s')) s')))); [eapply ref_left; [eapply good_restore; [exact S2|exact G2|exact V]|]|].
        * intros h' R' (G' & E). cbn [ref]. eexists. split; [reflexivity|]. apply (good_st _ _ _ _ _ (restore (s_pt (tick s))) G'). intros; apply sw_restore.
        * intros h' R' G'. cbn [ref]. eexists. split; [reflexivity|]. exact G'.
      + apply good_pop in P. 
        assert (G2 := good_st _ _ _ _ _ (set_mfinv (negb (s_mfinv (h_st (pop_v h1))))) P (fun w x => eq_refl)).
        assert (MI2 : s_mfinv (h_st (pop_v h1)) = s_mfinv s') by (destruct P as (w & G & -> & _); reflexivity). rewrite MI2 in *.
        eapply ref_left with (Q := fun h' _ R' => good R' h' below en (restore (s_pt (tick s)) (set_warns (s_warns (tick s)) (set_mfinv (negb (s_mfinv s')) s')))); [eapply ref_left; [eapply good_restore; [exact S2|exact G2|exact V]|]|].
        * intros h' R' (G' & E). cbn [ref]. eexists. split; [reflexivity|]. apply (good_st _ _ _ _ _ (restore (s_pt (tick s))) G'). intros; apply sw_restore.
        * intros h' R' G'. cbn [ref]. eexists. split; [reflexivity|]. cbn [post]. split; [reflexivity|exact G'].
      + cbn [ref]. eexists. split; [reflexivity|]. exact P.
      + cbn [ref]. eexists. split; [reflexivity|]. exact I.
    - unfold mapp. eapply ref_bind; [apply (r_star spare) with (below := below); [|exact GT]; intros; apply IH; assumption|]. intros x y R1 (P & E).
      destruct x as [v h1|h1|m ru h1|], y as [v' en' s'|en' s'|m' ru' s'|]; cbn [post] in P; try (exfalso; exact P); cbn [plus_out].
      + destruct P as (<- & P). cbn beta iota in E. subst en'.
        destruct (match v with VList [] => true | _ => false end) eqn:EV.
        * destruct v; try discriminate EV. destruct l; [|discriminate EV]. cbn [ref]. eexists. split; [reflexivity|]. exact P.
        * assert (X : forall A (x y : A), match v with VList [] => x | _ => y end = y) by (intros A x y; destruct v; try reflexivity; destruct l; [discriminate EV|reflexivity]).
          rewrite !X. cbn [ref]. eexists. split; [reflexivity|]. cbn [post]. auto.
      + cbn [ref]. eexists. split; [reflexivity|]. exact P.
      + cbn [ref]. eexists. split; [reflexivity|]. exact P.
      + cbn [ref]. eexists. split; [reflexivity|]. exact I.
    - eapply ref_mono; [|apply (r_star spare); [|exact GT]; intros; apply IH; assumption]. intros x y R1 (P & _). exact P.
    - unfold mapp. eapply ref_bind; [apply IH, good_push; exact GT|]. intros x y R1 P.
      destruct x as [v h1|h1|m ru h1|], y as [v' en' s'|en' s'|m' ru' s'|]; cbn [post] in P; try (exfalso; exact P); cbn [pop_out opt_out].
      + destruct P as (<- & P). apply good_pop in P. cbn [ref]. eexists. split; [reflexivity|]. cbn [post]. auto.
      + cbn [ref]. eexists. split; [reflexivity|]. cbn [post]. split; [reflexivity|]. eapply good_pop; exact P.
      + cbn [ref]. eexists. split; [reflexivity|]. exact P.
      + cbn [ref]. eexists. split; [reflexivity|]. exact I.
    - destruct (find_rule name g) as [e'|] eqn:FR.
      + unfold mapp. eapply ref_bind; [apply IH, good_push; exact GT|]. intros x y R1 P.
        destruct x as [v h1|h1|m ru h1|], y as [v' en' s'|en' s'|m' ru' s'|]; cbn [post] in P; try (exfalso; exact P); cbn [pop_out ref_out].
        * destruct P as (<- & P). apply good_pop in P. cbn [ref]. eexists. split; [reflexivity|]. cbn [post]. auto.
        * cbn [ref]. eexists. split; [reflexivity|]. cbn [post]. eapply good_pop; exact P.
        * cbn [ref]. eexists. split; [reflexivity|]. exact P.
        * cbn [ref]. eexists. split; [reflexivity|]. exact I.
      + cbn [ref]. eexists. split; [reflexivity|]. assert (SW : s = set_warns (s_warns s) (h_st h)) by (destruct GD as (w & G & -> & _); reflexivity).
        rewrite SW at 1. erewrite sw_step; [|cbn; now rewrite FR|exact OL]. apply of_out_post with (en := en) (s := tick s); [exact GT|auto].
  Qed.
End SimAll.

(** ** Calls *)
Definition empty_res : res := Res nothing nothing.
(** the warnings of the configuration that a call returns are in a slice that the call owns *)
Definition holds (c : call) (x : answer * list smap) (a : answer) (R : res) : Prop :=
  fst x = a /\
  match c with
  | CallParse opts _ =>
      k_entry (config_of opts) = "init"%string -> forall cf errs, a = Parsed (Returned (VConfig cf) errs) ->
      exists sm w rest, snd x = sm :: rest /\ repr R sm w /\ cf_warnings cf = map warning_text (texts_of w)
  | CallFarthest => True
  end.
Lemma gen_rule_init e : find_rule "init" gen_grammar = Some e -> exists l e', e = EAct (ARetConfig l) e'.
Proof. intros H. vm_compute in H. injection H as <-. eauto. Qed.
Lemma fuel_S len : exists n, parse_fuel len = S n.
Proof. unfold parse_fuel, fuel_factor. destruct (S len * 600) eqn:E; [cbn in E; discriminate|eauto]. Qed.
Lemma start_ref spare c : ref (hstart spare c) (start c) empty_res (holds c).
Proof.
  destruct c as [opts data|]; cbn [hstart start].
  - unfold hparse, pparse, mapp. set (k := config_of opts). cbn [hbind ref]. intros a _.
    destruct (find_rule (k_entry k) gen_grammar) as [e|] eqn:FR.
    + set (h0 := Hst (init_st (settings_of k) [] data) a [] 0 []).
      assert (GD : good (set_map a (Some None) empty_res) (push_v spare h0) [] [] (init_st (settings_of k) [] data)).
      { destruct (push_st spare h0) as (E1 & E2 & E3). exists None, []. rewrite E1, E2, E3. split; [cbn [h_st h0]; unfold init_st, check_rune; destruct (_ && _); reflexivity|].
        split; [apply push_base; split; [reflexivity|exists []; reflexivity]|]. split; [reflexivity|]. exists None. split; [cbn; apply upd_same|]. split; [exact I|]. split; [constructor|exact I]. }
      assert (X : ref (heval spare (settings_of k) gen_grammar (parse_fuel (List.length data)) (k_entry k) e (push_v spare h0))
                      (peval (settings_of k) gen_grammar (parse_fuel (List.length data)) (k_entry k) e [] (init_st (settings_of k) [] data))
                      (set_map a (Some None) empty_res)
                      (fun x y R => post [] x y R /\ (k_entry k = "init"%string -> exists l, gave (ARetConfig l) x R))).
      { destruct (string_dec (k_entry k) "init") as [EI|NI].
        - assert (FI := FR). rewrite EI in FI. destruct (gen_rule_init e FI) as (l & e' & ->). destruct (fuel_S (List.length data)) as (n & ->). cbn [heval peval].
          eapply ref_mono; [|apply r_act; [apply r_eval|exact GD]]. intros x y R (P & V). split; [exact P|]. intros _. exists l. exact V.
        - eapply ref_mono; [|apply r_eval; exact GD]. intros x y R P. split; [exact P|]. intros E. congruence. }
      eapply ref_bind with (Q := fun x y R => fst x = y /\ (k_entry k = "init"%string -> forall cf errs, y = Returned (VConfig cf) errs ->
         exists sm w rest, snd x = sm :: rest /\ repr R sm w /\ cf_warnings cf = map warning_text (texts_of w))).
      * eapply ref_bind; [exact X|]. intros x y R (P & V). cbn [ref]. eexists. split; [reflexivity|]. cbn [fst snd].
        destruct x as [v h1|h1|m ru h1|], y as [v' en' s'|en' s'|m' ru' s'|]; cbn [post] in P; try (exfalso; exact P); cbn [drop_env given out_result].
        -- destruct P as (<- & w & G & -> & _). split; [reflexivity|]. intros EI cf errs E. destruct (V EI) as (l & c & w' & rest & cf' & G1 & G2 & G3 & G4).
           subst v. injection E as <- <-. eauto 8.
        -- destruct P as (w & G & -> & _). split; [reflexivity|]. intros EI cf errs E. discriminate E.
        -- destruct P as (<- & <- & w & ->). split; [reflexivity|]. intros EI cf errs E. destruct (k_recover k); discriminate E.
        -- split; [reflexivity|]. intros EI cf errs E. discriminate E.
      * intros x y R (E & V). cbn [ref]. eexists. split; [reflexivity|]. split; [cbn; congruence|]. intros EI cf errs E2. injection E2 as ->. eapply V; [exact EI|reflexivity].
    + cbn. eexists. split; [reflexivity|]. split; [reflexivity|]. intros EI cf errs E. discriminate E.
  - unfold mapp. eapply ref_bind; [apply ref_lift|]. intros x y R (-> & _). cbn. eexists. split; [reflexivity|]. split; [reflexivity|exact I].
Qed.

(** ** Runs *)
Definition agrees (m : mem) (R : res) : Prop :=
  (forall a v, r_maps R a = Some v -> nth_error (m_maps m) a = Some v) /\
  (forall r l, r_arrs R r = Some l -> nth_error (m_arrs m) r = Some l).
Definition disjoint (R R' : res) : Prop :=
  (forall a, r_maps R a = None \/ r_maps R' a = None) /\ (forall r, r_arrs R r = None \/ r_arrs R' r = None).
(** the memory and what the calls own *)
Record shared (m : mem) (Rs : nat -> res) : Prop := Shared
  { sh_agree : forall i, agrees m (Rs i);
    sh_apart : forall i j, i <> j -> disjoint (Rs i) (Rs j);
    sh_nodup : NoDup (m_pool m);
    sh_pool : forall a, In a (m_pool m) -> nth_error (m_maps m) a = Some None;
    sh_free : forall a i, In a (m_pool m) -> r_maps (Rs i) a = None }.
Lemma disjoint_sym R R' : disjoint R R' -> disjoint R' R.
Proof. intros (A & B). split; intros x; [destruct (A x)|destruct (B x)]; auto. Qed.

Lemma fresh_map m Rs i : shared m Rs -> r_maps (Rs i) (List.length (m_maps m)) = None.
Proof.
  intros S. destruct (r_maps (Rs i) _) as [v|] eqn:E; [|reflexivity]. apply (proj1 (sh_agree _ _ S i)) in E.
  assert (X : nth_error (m_maps m) (List.length (m_maps m)) = None) by now apply nth_error_None. congruence.
Qed.
Lemma fresh_arr m Rs i : shared m Rs -> r_arrs (Rs i) (List.length (m_arrs m)) = None.
Proof.
  intros S. destruct (r_arrs (Rs i) _) as [v|] eqn:E; [|reflexivity]. apply (proj2 (sh_agree _ _ S i)) in E.
  assert (X : nth_error (m_arrs m) (List.length (m_arrs m)) = None) by now apply nth_error_None. congruence.
Qed.
Lemma nth_app_l {A} (l l' : list A) i x : nth_error l i = Some x -> nth_error (l ++ l') i = Some x.
Proof. intros H. rewrite nth_error_app1; [exact H|]. apply nth_error_Some. congruence. Qed.
Lemma nth_app_new {A} (l : list A) x : nth_error (l ++ [x]) (List.length l) = Some x.
Proof. rewrite nth_error_app2 by lia. now rewrite Nat.sub_diag. Qed.

(** one call changes what it owns, and what nobody owns *)
Lemma shared_step m Rs i m' R' : shared m Rs ->
  agrees m' R' ->
  (forall j, j <> i -> agrees m' (Rs j) /\ disjoint R' (Rs j)) ->
  NoDup (m_pool m') -> (forall a, In a (m_pool m') -> nth_error (m_maps m') a = Some None) ->
  (forall a, In a (m_pool m') -> r_maps R' a = None /\ forall j, j <> i -> r_maps (Rs j) a = None) ->
  shared m' (upd i R' Rs).
Proof.
  intros S A B N P F. constructor.
  - intros j. unfold upd. destruct (Nat.eqb_spec j i); [exact A|]. now apply B.
  - intros j k NE. unfold upd. destruct (Nat.eqb_spec j i), (Nat.eqb_spec k i); subst; try congruence; [now apply B|apply disjoint_sym; now apply B|now apply (sh_apart _ _ S)].
  - exact N.
  - exact P.
  - intros a j I. destruct (F a I) as (F1 & F2). unfold upd. destruct (Nat.eqb_spec j i); [exact F1|now apply F2].
Qed.
Lemma upd_some {A} a (v x : option A) f b : upd a v f b = x -> (b = a /\ v = x) \/ (b <> a /\ f b = x).
Proof. unfold upd. destruct (Nat.eqb_spec b a); auto. Qed.

Lemma shared_new m Rs i : shared m Rs ->
  let a := List.length (m_maps m) in
  shared (Mem (m_ff m) (m_maps m ++ [None]) (m_arrs m) (m_pool m)) (upd i (set_map a (Some None) (Rs i)) Rs).
Proof.
  intros S a. eapply shared_step; [exact S|..].
  - split; cbn [r_maps r_arrs set_map m_maps m_arrs]; [|apply (sh_agree _ _ S i)]. intros b v E. apply upd_some in E as [(-> & E)|(N & E)]; [rewrite <- E; apply nth_app_new|].
    apply nth_app_l. now apply (sh_agree _ _ S i).
  - intros j NE. split; [split; cbn; [intros b v E; apply nth_app_l; now apply (sh_agree _ _ S j)|apply (sh_agree _ _ S j)]|].
    split; cbn; [|apply (sh_apart _ _ S); congruence]. intros b. unfold upd. destruct (Nat.eqb_spec b a) as [->|N]; [right; now apply fresh_map|]. apply (sh_apart _ _ S); congruence.
  - apply S.
  - cbn. intros b I. apply nth_app_l. now apply S.
  - cbn. intros b I. split; [|intros; now apply S]. rewrite upd_other; [now apply S|]. intros ->. pose proof (sh_pool _ _ S _ I) as X.
    assert (Y : nth_error (m_maps m) a = None) by now apply nth_error_None. congruence.
Qed.
Lemma shared_get m Rs i p1 a p2 : shared m Rs -> m_pool m = p1 ++ a :: p2 ->
  shared (Mem (m_ff m) (m_maps m) (m_arrs m) (p1 ++ p2)) (upd i (set_map a (Some None) (Rs i)) Rs).
Proof.
  intros S E. assert (IA : In a (m_pool m)) by (rewrite E; apply in_elt).
  assert (SUB : forall b, In b (p1 ++ p2) -> In b (m_pool m)) by (intros b; rewrite E, !in_app_iff; cbn; tauto).
  assert (ND : NoDup (p1 ++ p2) /\ ~ In a (p1 ++ p2)) by (apply NoDup_remove; rewrite <- E; apply S). destruct ND as (ND & NA).
  eapply shared_step; [exact S|..]; cbn [m_pool m_maps m_arrs].
  - split; cbn [r_maps r_arrs set_map m_maps m_arrs]; [|apply (sh_agree _ _ S i)]. intros b v X. apply upd_some in X as [(-> & X)|(N & X)]; [rewrite <- X; now apply S|]. now apply (sh_agree _ _ S i).
  - intros j NE. split; [apply (sh_agree _ _ S j)|]. split; cbn; [|apply (sh_apart _ _ S); congruence]. intros b. unfold upd.
    destruct (Nat.eqb_spec b a) as [->|N]; [right; now apply S|]. apply (sh_apart _ _ S); congruence.
  - exact ND.
  - intros b I. now apply S, SUB.
  - intros b I. split; [|intros; now apply S, SUB]. cbn. rewrite upd_other; [now apply S, SUB|]. intros ->. contradiction.
Qed.
Lemma shared_put m Rs i a : shared m Rs -> r_maps (Rs i) a = Some None ->
  shared (Mem (m_ff m) (m_maps m) (m_arrs m) (a :: m_pool m)) (upd i (set_map a None (Rs i)) Rs).
Proof.
  intros S E. assert (NI : ~ In a (m_pool m)) by (intros I; pose proof (sh_free _ _ S a i I); congruence).
  eapply shared_step; [exact S|..]; cbn [m_pool m_maps m_arrs].
  - split; cbn [r_maps r_arrs set_map m_maps m_arrs]; [|apply (sh_agree _ _ S i)]. intros b v X. apply upd_some in X as [(-> & X)|(N & X)]; [discriminate X|]. now apply (sh_agree _ _ S i).
  - intros j NE. split; [apply (sh_agree _ _ S j)|]. split; cbn; [|apply (sh_apart _ _ S); congruence]. intros b. unfold upd.
    destruct (Nat.eqb_spec b a) as [->|N]; [now left|]. apply (sh_apart _ _ S); congruence.
  - constructor; [exact NI|apply S].
  - intros b [<-|I]; [now apply (sh_agree _ _ S i)|now apply S].
  - intros b [<-|I].
    + cbn. split; [apply upd_same|]. intros j NE. destruct (sh_apart _ _ S i j) as (X & _); [congruence|]. destruct (X a) as [Y|Y]; [congruence|exact Y].
    + cbn. split; [|intros; now apply S]. rewrite upd_other; [now apply S|]. intros ->. contradiction.
Qed.
Lemma shared_store m Rs i a v : shared m Rs -> r_maps (Rs i) a <> None ->
  shared (Mem (m_ff m) (update a v (m_maps m)) (m_arrs m) (m_pool m)) (upd i (set_map a (Some v) (Rs i)) Rs).
Proof.
  intros S E. assert (NI : ~ In a (m_pool m)) by (intros I; apply E; now apply S).
  assert (OT : forall j, j <> i -> r_maps (Rs j) a = None).
  { intros j NE. destruct (sh_apart _ _ S i j) as (X & _); [congruence|]. destruct (X a) as [Y|Y]; [congruence|exact Y]. }
  assert (XN : forall b w, b <> a -> nth_error (m_maps m) b = Some w -> nth_error (update a v (m_maps m)) b = Some w).
  { intros b w N X. rewrite nth_update. destruct (Nat.eqb_spec a b); [congruence|exact X]. }
  eapply shared_step; [exact S|..]; cbn [m_pool m_maps m_arrs].
  - split; cbn [r_maps r_arrs set_map m_maps m_arrs]; [|apply (sh_agree _ _ S i)]. intros b w X. apply upd_some in X as [(-> & X)|(N & X)].
    + injection X as ->. rewrite nth_update, Nat.eqb_refl. destruct (r_maps (Rs i) a) as [w0|] eqn:E0; [|congruence]. apply (sh_agree _ _ S i) in E0. now rewrite E0.
    + apply XN; [exact N|]. now apply (sh_agree _ _ S i).
  - intros j NE. split; [split; cbn; [|apply (sh_agree _ _ S j)]|].
    + intros b w X. apply XN; [|now apply (sh_agree _ _ S j)]. intros ->. rewrite OT in X; [discriminate X|exact NE].
    + split; cbn; [|apply (sh_apart _ _ S); congruence]. intros b. unfold upd. destruct (Nat.eqb_spec b a) as [->|N]; [right; now apply OT|]. apply (sh_apart _ _ S); congruence.
  - apply S.
  - intros b I. apply XN; [|now apply S]. intros ->. contradiction.
  - intros b I. cbn. split; [|intros; now apply S]. rewrite upd_other; [now apply S|]. intros ->. contradiction.
Qed.
Lemma shared_make m Rs i l : shared m Rs ->
  shared (Mem (m_ff m) (m_maps m) (m_arrs m ++ [l]) (m_pool m)) (upd i (set_arr (List.length (m_arrs m)) (Some l) (Rs i)) Rs).
Proof.
  intros S. eapply shared_step; [exact S|..]; cbn [m_pool m_maps m_arrs].
  - split; cbn [r_maps r_arrs set_arr m_maps m_arrs]; [apply (sh_agree _ _ S i)|]. intros b v E. apply upd_some in E as [(-> & E)|(N & E)]; [rewrite <- E; apply nth_app_new|].
    apply nth_app_l. now apply (sh_agree _ _ S i).
  - intros j NE. split; [split; cbn; [apply (sh_agree _ _ S j)|intros b v E; apply nth_app_l; now apply (sh_agree _ _ S j)]|].
    split; cbn; [apply (sh_apart _ _ S); congruence|]. intros b. unfold upd. destruct (Nat.eqb_spec b (List.length (m_arrs m))) as [->|N]; [right; now apply fresh_arr|]. apply (sh_apart _ _ S); congruence.
  - apply S.
  - intros b I. now apply S.
  - intros b I. cbn. split; [now apply S|intros; now apply S].
Qed.
Lemma shared_write m Rs i r l old : shared m Rs -> r_arrs (Rs i) r = Some old ->
  shared (Mem (m_ff m) (m_maps m) (update r l (m_arrs m)) (m_pool m)) (upd i (set_arr r (Some l) (Rs i)) Rs).
Proof.
  intros S E.
  assert (OT : forall j, j <> i -> r_arrs (Rs j) r = None).
  { intros j NE. destruct (sh_apart _ _ S i j) as (_ & X); [congruence|]. destruct (X r) as [Y|Y]; [congruence|exact Y]. }
  assert (XN : forall b w, b <> r -> nth_error (m_arrs m) b = Some w -> nth_error (update r l (m_arrs m)) b = Some w).
  { intros b w N X. rewrite nth_update. destruct (Nat.eqb_spec r b); [congruence|exact X]. }
  eapply shared_step; [exact S|..]; cbn [m_pool m_maps m_arrs].
  - split; cbn [r_maps r_arrs set_arr m_maps m_arrs]; [apply (sh_agree _ _ S i)|]. intros b w X. apply upd_some in X as [(-> & X)|(N & X)].
    + injection X as ->. rewrite nth_update, Nat.eqb_refl. apply (sh_agree _ _ S i) in E. now rewrite E.
    + apply XN; [exact N|]. now apply (sh_agree _ _ S i).
  - intros j NE. split; [split; cbn; [apply (sh_agree _ _ S j)|]|].
    + intros b w X. apply XN; [|now apply (sh_agree _ _ S j)]. intros ->. rewrite OT in X; [discriminate X|exact NE].
    + split; cbn; [apply (sh_apart _ _ S); congruence|]. intros b. unfold upd. destruct (Nat.eqb_spec b r) as [->|N]; [right; now apply OT|]. apply (sh_apart _ _ S); congruence.
  - apply S.
  - intros b I. now apply S.
  - intros b I. cbn. split; [now apply S|intros; now apply S].
Qed.

(** the relation between the two machines *)
Definition follows (cs : list call) (x : hmachine) (y : machine) : Prop :=
  fst y = m_ff (fst x) /\ List.length (snd x) = List.length cs /\ List.length (snd y) = List.length cs /\ exists Rs, shared (fst x) Rs /\
  forall i c, nth_error cs i = Some c -> exists p q, nth_error (snd x) i = Some p /\ nth_error (snd y) i = Some q /\ ref p q (Rs i) (holds c).
Lemma update_length {A} i (x : A) l : List.length (update i x l) = List.length l.
Proof. revert i. induction l; intros []; cbn; auto. Qed.

Lemma access_follows {A B} m (p : hprog A) m' p' (q : prog B) R Q Rs i : shared m Rs -> R = Rs i -> ref p q R Q -> haccess m p m' p' ->
  exists R' q', shared m' (upd i R' Rs) /\ ref p' q' R' Q /\
    ((m_ff m' = m_ff m /\ q' = q) \/ access (m_ff m) q = (m_ff m', q')).
Proof.
  intros S -> X A'. inversion A'; subst; cbn [ref] in X.
  - destruct X as (k' & -> & X). exists (Rs i), (k' (m_ff m')). split; [|split; [apply X|right; reflexivity]].
    eapply shared_step; [exact S|apply S| |apply S|apply S|]; [intros j NE; split; [apply S|apply (sh_apart _ _ S); congruence]|intros a I; split; intros; now apply S].
  - destruct X as (k' & -> & X). exists (Rs i), k'. split; [|split; [exact X|right; reflexivity]].
    eapply shared_step; [exact S|apply (sh_agree _ _ S i)| |apply S|apply S|]; [intros j NE; split; [apply (sh_agree _ _ S j)|apply (sh_apart _ _ S); congruence]|intros a I; split; intros; now apply S].
  - eexists _, q. split; [apply shared_new; exact S|]. split; [|left; auto]. apply X. now apply fresh_map.
  - eexists _, q. split; [apply shared_new; exact S|]. split; [|left; auto]. apply X. now apply fresh_map.
  - eexists _, q. split; [eapply shared_get; eassumption|]. split; [|left; auto]. apply X. apply S. rewrite H. apply in_elt.
  - destruct X as (E & X). eexists _, q. split; [apply shared_put; eassumption|]. split; [exact X|left; auto].
  - destruct X as (v' & E & X). apply (sh_agree _ _ S i) in E. assert (v' = v) by congruence. subst v'. exists (Rs i), q. split; [|split; [exact X|left; auto]].
    eapply shared_step; [exact S|apply S| |apply S|apply S|]; [intros j NE; split; [apply S|apply (sh_apart _ _ S); congruence]|intros b I; split; intros; now apply S].
  - destruct X as (E & X). eexists _, q. split; [apply shared_store; eassumption|]. split; [exact X|left; auto].
  - eexists _, q. split; [apply shared_make; exact S|]. split; [|left; auto]. apply X; [now apply fresh_arr|assumption].
  - destruct X as (l' & E & X). apply (sh_agree _ _ S i) in E. assert (l' = l) by congruence. subst l'. exists (Rs i), q. split; [|split; [exact X|left; auto]].
    eapply shared_step; [exact S|apply S| |apply S|apply S|]; [intros j NE; split; [apply S|apply (sh_apart _ _ S); congruence]|intros b I; split; intros; now apply S].
  - destruct X as (old' & E & L & X). pose proof (proj2 (sh_agree _ _ S i) _ _ E) as E'. assert (old' = old) by congruence. subst old'.
    eexists _, q. split; [eapply shared_write; eassumption|]. split; [exact X|left; auto].
Qed.

Lemma move_follows cs x x' y : follows cs x y -> hmove x x' -> exists sched, follows cs x' (schedule sched y).
Proof.
  intros (EF & L1 & L2 & Rs & S & H) M. inversion M; subst; cbn [fst snd] in *.
  - destruct (nth_error cs i) as [c|] eqn:EC.
    2:{ exfalso. apply nth_error_None in EC. assert (X : nth_error ps i = None) by (apply nth_error_None; lia). congruence. }
    destruct (H i c EC) as (p0 & q & E1 & E2 & X). assert (p0 = p) by congruence. subst p0.
    destruct (access_follows m p m' p' q (Rs i) (holds c) Rs i S eq_refl X) as (R' & q' & S' & X' & D); [assumption|].
    assert (G : forall y', fst y' = m_ff m' -> snd y' = update i q' (snd y) -> follows cs (m', update i p' ps) y').
    { intros y' F1 F2. split; [exact F1|]. cbn [fst snd]. rewrite F2, !update_length. split; [exact L1|]. split; [exact L2|]. exists (upd i R' Rs). split; [exact S'|].
      intros j c' EC'. unfold upd. rewrite !nth_update. destruct (Nat.eqb_spec j i) as [->|NE].
      - rewrite Nat.eqb_refl. rewrite H0, E2. exists p', q'. split; [reflexivity|]. split; [reflexivity|]. congruence.
      - assert (NE' : (i =? j) = false) by (apply Nat.eqb_neq; congruence). rewrite NE'. now apply H. }
    destruct D as [(F & ->)|D].
    + exists []. cbn. apply G; [congruence|]. now rewrite update_id.
    + exists [i]. cbn. apply G; unfold pick; rewrite E2; rewrite EF, D; reflexivity.
  - exists []. cbn [schedule fold_left]. split; [exact EF|]. split; [exact L1|]. split; [exact L2|]. exists Rs. split; [|exact H].
    assert (SUB : forall b, In b (p1 ++ p2) -> In b (m_pool m)) by (intros b; rewrite H0, !in_app_iff; cbn; tauto).
    constructor; cbn [m_pool m_maps m_arrs]; try apply S.
    + pose proof (sh_nodup _ _ S) as ND. rewrite H0 in ND. now apply NoDup_remove_1 in ND.
    + intros b I. now apply S, SUB.
    + intros b j I. now apply S, SUB.
Qed.

Lemma begin_follows spare m cs : good_mem m -> follows cs (hbegin spare m cs) (begin_calls (m_ff m) cs).
Proof.
  intros (ND & P). split; [reflexivity|]. unfold hbegin, begin_calls. cbn [fst snd]. rewrite !map_length. split; [reflexivity|]. split; [reflexivity|].
  exists (fun _ => empty_res). split.
  - constructor; try assumption; intros; try reflexivity; split; try discriminate; try (intros; now left).
  - intros i c E. rewrite !nth_error_map, E. cbn. eexists _, _. split; [reflexivity|]. split; [reflexivity|]. apply start_ref.
Qed.
Lemma moves_follow spare m cs x : good_mem m -> hmoves (hbegin spare m cs) x ->
  exists sched, follows cs x (schedule sched (begin_calls (m_ff m) cs)).
Proof.
  intros GM H. remember (hbegin spare m cs) as x0 eqn:E0. induction H as [x1|x1 y z H IH M].
  - subst x1. exists []. cbn. now apply begin_follows.
  - destruct (IH E0) as (sched & F). destruct (move_follows _ _ _ _ F M) as (s2 & F2). exists (sched ++ s2). now rewrite schedule_app.
Qed.
