(** ApplyPlugins on memory (ApplyMem.v) and on values (Apply.v). *)
From Coq Require Import List ZArith Bool Arith Lia Permutation.
From Verif Require Import Bytes Ast AstInd Actions Engine Parser AstUtil Apply App ApplyMem.
Import ListNotations.

(** ** Specification *)

(** An array of the memory and what it holds *)
Inductive owner := ONode (a : nat) | OIf (a : nat).
Definition cell_of (m : amem) (o : owner) : option (list hnode + list hif) :=
  match o with
  | ONode a => option_map inl (nth_error (m_nodes m) a)
  | OIf a => option_map inr (nth_error (m_ifs m) a)
  end.

(** The slice lies within its array.  A slice without capacity needs no array. *)
Definition fits {A} (arrays : list (list A)) (sl : aslice) : Prop :=
  sl_len sl <= sl_cap sl /\
  (sl_cap sl <> 0 -> exists l, nth_error arrays (sl_arr sl) = Some l /\ sl_off sl + sl_cap sl <= List.length l).
Definition own (k : nat -> owner) (sl : aslice) : list owner := if sl_cap sl =? 0 then [] else [k (sl_arr sl)].

(** The slice [sl] (the node [h], ...) holds the list [l] (the node [x], ...) of Ast.v, and these
    are the arrays of the tree, each named once for every slice that lies in it. *)
Section Rep.
  Variable m : amem.
  Inductive rep_node : hnode -> bop -> list owner -> Prop :=
  | rn_plugin p : rep_node (HPlugin p) (BPlugin p) []
  | rn_nil : rep_node HNil BNil []
  | rn_ptr p : rep_node (HPtr p) (BPluginPtr p) []
  | rn_branch i i' es es' ep be el ecom efoot F1 F2 F3 :
      rep_if i i' F1 -> fits (m_ifs m) es -> rep_ifs (part (m_ifs m) es) es' F2 -> rep_slice be el F3 ->
      rep_node (HBranch i es (HEl ep be ecom efoot)) (BBranch i' es' (ElB ep el ecom efoot)) (F1 ++ (own OIf es ++ F2) ++ F3)
  with rep_nodes : list hnode -> list bop -> list owner -> Prop :=
  | rl_nil : rep_nodes [] [] []
  | rl_cons h x hs l F1 F2 : rep_node h x F1 -> rep_nodes hs l F2 -> rep_nodes (h :: hs) (x :: l) (F1 ++ F2)
  with rep_slice : aslice -> list bop -> list owner -> Prop :=
  | rs_slice sl l F : fits (m_nodes m) sl -> rep_nodes (elems m sl) l F -> rep_slice sl l (own ONode sl ++ F)
  with rep_if : hif -> ifblock -> list owner -> Prop :=
  | ri_if p c sl l com foot F : rep_slice sl l F -> rep_if (HIf p c sl com foot) (IfB p c l com foot) F
  with rep_ifs : list hif -> list ifblock -> list owner -> Prop :=
  | rf_nil : rep_ifs [] [] []
  | rf_cons h x hs l F1 F2 : rep_if h x F1 -> rep_ifs hs l F2 -> rep_ifs (h :: hs) (x :: l) (F1 ++ F2).
End Rep.
Scheme rep_node_mut := Minimality for rep_node Sort Prop
  with rep_nodes_mut := Minimality for rep_nodes Sort Prop
  with rep_slice_mut := Minimality for rep_slice Sort Prop
  with rep_if_mut := Minimality for rep_if Sort Prop
  with rep_ifs_mut := Minimality for rep_ifs Sort Prop.
Combined Scheme rep_mut from rep_node_mut, rep_nodes_mut, rep_slice_mut, rep_if_mut, rep_ifs_mut.

(** From [m] with the arrays [F] to [m'] with the arrays [F']: other arrays are unchanged, none
    disappears, and the arrays of [F'] are those of [F] or new. *)
Definition evolve (m : amem) (F : list owner) (m' : amem) (F' : list owner) : Prop :=
  (forall o, cell_of m o <> None -> cell_of m' o <> None) /\
  (forall o, cell_of m o <> None -> ~ In o F -> cell_of m' o = cell_of m o) /\
  (forall o, In o F' -> In o F \/ cell_of m o = None).

(** The same callback on values *)
Fixpoint lift {S} (p : aprog S) : prog S :=
  match p with
  | ADone s => PDone s
  | APanicked => PPanic
  | ADo op k => PDo op (fun c => lift (k (cursor_plugin c) (k_index c)))
  end.
Definition on_values {S} (cb : S -> option (option plugin) -> Z -> aprog S) (s : S) (c : cursor) : prog S :=
  lift (cb s (cursor_plugin c) (k_index c)).

(** ** Arrays *)
Lemma part_length {A} arrays sl : @fits A arrays sl -> List.length (part arrays sl) = sl_len sl.
Proof.
  intros (L & E). unfold part. destruct (Nat.eq_dec (sl_cap sl) 0) as [Z|NZ]; [replace (sl_len sl) with 0 by lia; reflexivity|].
  destruct (E NZ) as (l & E1 & E2). rewrite (nth_error_nth _ _ _ E1), firstn_length, skipn_length. lia.
Qed.
Lemma part_same {A} arrays arrays' sl : @fits A arrays sl -> (sl_cap sl <> 0 -> nth_error arrays' (sl_arr sl) = nth_error arrays (sl_arr sl)) ->
  fits arrays' sl /\ part arrays' sl = part arrays sl.
Proof.
  intros (L & E) H. destruct (Nat.eq_dec (sl_cap sl) 0) as [Z|NZ].
  - split; [split; [exact L|congruence]|]. unfold part. replace (sl_len sl) with 0 by lia. reflexivity.
  - destruct (E NZ) as (l & E1 & E2). specialize (H NZ). split; [split; [exact L|]; intros _; exists l; split; [congruence|exact E2]|].
    unfold part. rewrite (nth_error_nth _ _ _ E1). assert (E3 : nth_error arrays' (sl_arr sl) = Some l) by congruence. now rewrite (nth_error_nth _ _ _ E3).
Qed.
Lemma set_nth_same {A} n f (l : list A) : nth_error (set_nth n f l) n = option_map f (nth_error l n).
Proof. revert n. induction l as [|x l IH]; intros [|n]; cbn; auto. Qed.
Lemma set_nth_other {A} n k f (l : list A) : k <> n -> nth_error (set_nth n f l) k = nth_error l k.
Proof. revert n k. induction l as [|x l IH]; intros [|n] [|k] H; cbn; auto; congruence. Qed.
Lemma overlay_length {A} k xs (l : list A) : k + List.length xs <= List.length l -> List.length (overlay k xs l) = List.length l.
Proof. intros H. unfold overlay. rewrite !app_length, firstn_length, skipn_length. lia. Qed.
Lemma overlay_part {A} off n (xs l : list A) : off + n + List.length xs <= List.length l ->
  firstn (n + List.length xs) (skipn off (overlay (off + n) xs l)) = firstn n (skipn off l) ++ xs.
Proof.
  intros H. unfold overlay.
  assert (E : skipn off (firstn (off + n) l ++ xs ++ skipn (off + n + List.length xs) l) = firstn n (skipn off l) ++ xs ++ skipn (off + n + List.length xs) l).
  { rewrite skipn_app, skipn_firstn_comm, firstn_length. replace (off + n - off) with n by lia. replace (off - Nat.min (off + n) (List.length l)) with 0 by lia. reflexivity. }
  rewrite E, app_assoc, firstn_app, firstn_all2; rewrite app_length, firstn_length, skipn_length; [|lia].
  replace (n + _ - _) with 0 by lia. cbn. apply app_nil_r.
Qed.
Lemma overlay_nil {A} k (l : list A) : overlay k [] l = l.
Proof. unfold overlay. cbn. rewrite Nat.add_0_r. apply firstn_skipn. Qed.
Lemma skip_skip {A} x y (l : list A) : skipn x (skipn y l) = skipn (x + y) l.
Proof. revert l. induction y as [|y IH]; intros l; [now rewrite Nat.add_0_r|]. destruct l as [|a l]; [now rewrite !skipn_nil|]. rewrite Nat.add_succ_r. apply IH. Qed.
Lemma first_app {A} n (a c : list A) : List.length a = n -> firstn n (a ++ c) = a.
Proof. intros <-. rewrite firstn_app, Nat.sub_diag, firstn_all. apply app_nil_r. Qed.
Lemma overlay_mid {A} off n x (l : list A) len : n < len -> off + len <= List.length l ->
  firstn len (skipn off (overlay (off + n) [x] l)) = firstn n (firstn len (skipn off l)) ++ x :: skipn (S n) (firstn len (skipn off l)).
Proof.
  intros H1 H2. unfold overlay. cbn [List.length]. rewrite skipn_app, skipn_firstn_comm, firstn_length. replace (off + n - off) with n by lia. replace (off - Nat.min (off + n) (List.length l)) with 0 by lia.
  rewrite skipn_O. cbn [app]. rewrite firstn_app, firstn_firstn, firstn_length, skipn_length. replace (Nat.min len n) with n by lia. replace (len - Nat.min n (List.length l - off)) with (S (len - S n)) by lia.
  rewrite firstn_cons, firstn_firstn. replace (Nat.min n len) with n by lia. f_equal. f_equal.
  rewrite skipn_firstn_comm, skip_skip. replace (off + n + 1) with (S n + off) by lia. reflexivity.
Qed.

(** ** Owners *)
Lemma evolve_refl m F : evolve m F m F.
Proof. repeat split; auto. Qed.
Lemma evolve_trans m0 F0 m1 F1 m2 F2 : evolve m0 F0 m1 F1 -> evolve m1 F1 m2 F2 -> evolve m0 F0 m2 F2.
Proof.
  intros (A1 & A2 & A3) (B1 & B2 & B3). split; [|split].
  - auto.
  - intros o E N. rewrite B2; [auto| |]; [auto|]. intros I. destruct (A3 o I) as [J|J]; [auto|congruence].
  - intros o I. destruct (B3 o I) as [J|J]; [auto|]. right. destruct (cell_of m0 o) eqn:E; [|reflexivity]. exfalso. apply (A1 o); congruence.
Qed.
Lemma evolve_part m B m' B' A C : evolve m B m' B' -> evolve m (A ++ B ++ C) m' (A ++ B' ++ C).
Proof.
  intros (A1 & A2 & A3). split; [|split]; [exact A1| |].
  - intros o E N. apply A2; [exact E|]. intros I. apply N. rewrite !in_app_iff. tauto.
  - intros o I. rewrite !in_app_iff in *. specialize (A3 o). tauto.
Qed.
Lemma evolve_sub m F m' F' F'' : evolve m F m' F' -> (forall o, In o F'' -> In o F') -> evolve m F m' F''.
Proof. intros (A1 & A2 & A3) H. split; [|split]; auto. Qed.
Lemma evolve_more m F m' F' G : evolve m F m' F' -> (forall o, In o F -> In o G) -> evolve m G m' F'.
Proof. intros (A1 & A2 & A3) H. split; [|split]; auto. intros o I. destruct (A3 o I); auto. Qed.
Lemma nodup_mid {A} (X Y Z : list A) : NoDup (X ++ Y ++ Z) <-> NoDup (Y ++ X ++ Z).
Proof.
  split; apply Permutation_NoDup; rewrite !app_assoc; apply Permutation_app_tail, Permutation_app_comm.
Qed.
Lemma nodup_app {A} (X Y : list A) : NoDup (X ++ Y) <-> NoDup X /\ NoDup Y /\ (forall a, In a X -> ~ In a Y).
Proof.
  induction X as [|a X IH]; cbn.
  - split; [intros H; repeat split; [constructor|exact H|tauto]|tauto].
  - split.
    + intros H. inversion H as [|? ? N D]; subst. apply IH in D as (D1 & D2 & D3). rewrite in_app_iff in N. split; [constructor; tauto|]. split; [exact D2|]. intros c [<-|I]; [tauto|auto].
    + intros (D1 & D2 & D3). inversion D1 as [|? ? N D]; subst. constructor; [rewrite in_app_iff; intros [I|I]; [tauto|]; exact (D3 a (or_introl eq_refl) I)|]. apply IH. repeat split; auto.
Qed.

(** What a part of the tree does leaves the rest alone. *)
Lemma evolve_rest m B m' B' R : evolve m B m' B' -> NoDup B' -> NoDup (B ++ R) -> (forall o, In o R -> cell_of m o <> None) ->
  NoDup (B' ++ R) /\ (forall o, In o R -> cell_of m' o = cell_of m o).
Proof.
  intros (A1 & A2 & A3) N D E. apply nodup_app in D as (D1 & D2 & D3). split.
  - apply nodup_app. repeat split; auto. intros o I J. destruct (A3 o I) as [K|K]; [exact (D3 o K J)|exact (E o J K)].
  - intros o I. apply A2; [auto|]. intros J. exact (D3 o J I).
Qed.

(** ** Representation *)
Lemma own_in k sl o : In o (own k sl) <-> sl_cap sl <> 0 /\ o = k (sl_arr sl).
Proof.
  unfold own. destruct (Nat.eqb_spec (sl_cap sl) 0) as [E|E]; cbn; [|].
  - split; [tauto|]. intros (H & _). lia.
  - split; [intros [H|[]]; auto|intros (_ & ->); auto].
Qed.
Lemma fits_cell_nodes m sl o : fits (m_nodes m) sl -> In o (own ONode sl) -> cell_of m o <> None.
Proof. intros (_ & E) I. apply own_in in I as (NZ & ->). destruct (E NZ) as (l & E1 & _). cbn. rewrite E1. discriminate. Qed.
Lemma fits_cell_ifs m sl o : fits (m_ifs m) sl -> In o (own OIf sl) -> cell_of m o <> None.
Proof. intros (_ & E) I. apply own_in in I as (NZ & ->). destruct (E NZ) as (l & E1 & _). cbn. rewrite E1. discriminate. Qed.
Lemma cell_node m m' a : cell_of m' (ONode a) = cell_of m (ONode a) -> nth_error (m_nodes m') a = nth_error (m_nodes m) a.
Proof. cbn. destruct (nth_error (m_nodes m') a), (nth_error (m_nodes m) a); cbn; congruence. Qed.
Lemma cell_if m m' a : cell_of m' (OIf a) = cell_of m (OIf a) -> nth_error (m_ifs m') a = nth_error (m_ifs m) a.
Proof. cbn. destruct (nth_error (m_ifs m') a), (nth_error (m_ifs m) a); cbn; congruence. Qed.

Definition agree (m m' : amem) (F : list owner) : Prop := forall o, In o F -> cell_of m' o = cell_of m o.
Lemma agree_app m m' A B : agree m m' (A ++ B) <-> agree m m' A /\ agree m m' B.
Proof. unfold agree. split; [intros H; split; intros o I; apply H, in_or_app; auto|]. intros (H1 & H2) o I. apply in_app_or in I as [I|I]; auto. Qed.
Lemma nodes_same m m' sl : fits (m_nodes m) sl -> agree m m' (own ONode sl) -> fits (m_nodes m') sl /\ elems m' sl = elems m sl.
Proof. intros H A. apply part_same; [exact H|]. intros NZ. apply cell_node, A, own_in. auto. Qed.
Lemma ifs_same m m' sl : fits (m_ifs m) sl -> agree m m' (own OIf sl) -> fits (m_ifs m') sl /\ part (m_ifs m') sl = part (m_ifs m) sl.
Proof. intros H A. apply part_same; [exact H|]. intros NZ. apply cell_if, A, own_in. auto. Qed.

Lemma rep_agree m m' :
  (forall h x F, rep_node m h x F -> agree m m' F -> rep_node m' h x F) /\
  (forall h x F, rep_nodes m h x F -> agree m m' F -> rep_nodes m' h x F) /\
  (forall h x F, rep_slice m h x F -> agree m m' F -> rep_slice m' h x F) /\
  (forall h x F, rep_if m h x F -> agree m m' F -> rep_if m' h x F) /\
  (forall h x F, rep_ifs m h x F -> agree m m' F -> rep_ifs m' h x F).
Proof.
  apply rep_mut; try (intros; constructor; fail).
  - intros i i' es es' ep be el ecom efoot F1 F2 F3 _ IH1 Hf _ IH2 _ IH3 A. rewrite !agree_app in A. destruct A as (A1 & (A2 & A3) & A4).
    destruct (ifs_same _ _ _ Hf A2) as (Hf' & E). constructor; auto. rewrite E. auto.
  - intros h x hs l F1 F2 _ IH1 _ IH2 A. rewrite agree_app in A. destruct A. constructor; auto.
  - intros sl l F Hf _ IH A. rewrite agree_app in A. destruct A as (A1 & A2). destruct (nodes_same _ _ _ Hf A1) as (Hf' & E). constructor; [exact Hf'|]. rewrite E. auto.
  - intros p c sl l com foot F _ IH A. constructor. auto.
  - intros h x hs l F1 F2 _ IH1 _ IH2 A. rewrite agree_app in A. destruct A. constructor; auto.
Qed.
Lemma rep_cells m :
  (forall h x F, rep_node m h x F -> forall o, In o F -> cell_of m o <> None) /\
  (forall h x F, rep_nodes m h x F -> forall o, In o F -> cell_of m o <> None) /\
  (forall h x F, rep_slice m h x F -> forall o, In o F -> cell_of m o <> None) /\
  (forall h x F, rep_if m h x F -> forall o, In o F -> cell_of m o <> None) /\
  (forall h x F, rep_ifs m h x F -> forall o, In o F -> cell_of m o <> None).
Proof.
  apply rep_mut; try (intros; contradiction).
  - intros i i' es es' ep be el ecom efoot F1 F2 F3 _ IH1 Hf _ IH2 _ IH3 o I. rewrite !in_app_iff in I. destruct I as [I|[[I|I]|I]]; eauto using fits_cell_ifs.
  - intros h x hs l F1 F2 _ IH1 _ IH2 o I. rewrite !in_app_iff in I. destruct I as [I|I]; eauto.
  - intros sl l F Hf _ IH o I. rewrite !in_app_iff in I. destruct I as [I|I]; eauto using fits_cell_nodes.
  - intros p c sl l com foot F _ IH o I. eauto.
  - intros h x hs l F1 F2 _ IH1 _ IH2 o I. rewrite !in_app_iff in I. destruct I as [I|I]; eauto.
Qed.
Lemma reps_length m hs l F : rep_nodes m hs l F -> List.length hs = List.length l.
Proof. intros H. induction H; cbn; congruence. Qed.
Lemma reps_app m h1 l1 F1 h2 l2 F2 : rep_nodes m h1 l1 F1 -> rep_nodes m h2 l2 F2 -> rep_nodes m (h1 ++ h2) (l1 ++ l2) (F1 ++ F2).
Proof. intros H H2. induction H; cbn; [exact H2|]. rewrite <- app_assoc. constructor; auto. Qed.
Lemma reps_split m n hs l F : rep_nodes m hs l F -> exists F1 F2, F = F1 ++ F2 /\ rep_nodes m (firstn n hs) (firstn n l) F1 /\ rep_nodes m (skipn n hs) (skipn n l) F2.
Proof.
  revert n l F. induction hs as [|h hs IH]; intros n l F H; inversion H; subst; [exists [], []; destruct n; repeat split; constructor|].
  destruct n as [|n]; [exists [], (F1 ++ F2); repeat split; [constructor|exact H]|]. destruct (IH n _ _ ltac:(eassumption)) as (G1 & G2 & -> & R1 & R2).
  exists (F1 ++ G1), G2. rewrite app_assoc. split; [reflexivity|]. cbn. split; [constructor; auto|exact R2].
Qed.
Lemma reps_at m n hs l F h : rep_nodes m hs l F -> nth_error hs n = Some h ->
  exists x F1 F2 F3, nth_error l n = Some x /\ F = F1 ++ F2 ++ F3 /\ rep_nodes m (firstn n hs) (firstn n l) F1 /\ rep_node m h x F2 /\ rep_nodes m (skipn (S n) hs) (skipn (S n) l) F3.
Proof.
  revert n l F. induction hs as [|h' hs IH]; intros n l F H E; [destruct n; discriminate|]. inversion H; subst. destruct n as [|n].
  - injection E as ->. exists x, [], F1, F2. repeat split; auto. constructor.
  - cbn in E. destruct (IH n _ _ ltac:(eassumption) E) as (y & G1 & G2 & G3 & E1 & -> & R1 & R2 & R3). exists y, (F1 ++ G1), G2, G3. rewrite <- app_assoc. cbn. repeat split; auto. constructor; auto.
Qed.

(** ** append *)
Section Grow.
  Variable spare : nat -> nat.

  Lemma write_cells m a k xs o : cell_of (write_nodes m a k xs) o <> None <-> cell_of m o <> None.
  Proof.
    destruct o as [a'|a']; cbn; [|tauto]. destruct (Nat.eq_dec a' a) as [->|N]; [rewrite set_nth_same|rewrite set_nth_other by exact N; tauto].
    destruct (nth_error (m_nodes m) a); cbn; split; congruence.
  Qed.
  Lemma write_other m a k xs o : o <> ONode a -> cell_of (write_nodes m a k xs) o = cell_of m o.
  Proof. destruct o as [a'|a']; cbn; [|reflexivity]. intros N. rewrite set_nth_other; congruence. Qed.
  Lemma new_cell m xs o : cell_of m o <> None -> cell_of (snd (new_nodes m xs)) o = cell_of m o.
  Proof. destruct o as [a'|a']; cbn; [|reflexivity]. intros N. rewrite nth_error_app1; [reflexivity|]. apply nth_error_Some. intros E. rewrite E in N. now apply N. Qed.

  (** The slice sl[:n] with xs appended, in a memory where the elements to be are represented *)
  Lemma append_rep m sl n xs l F : fits (m_nodes m) sl -> n <= sl_len sl ->
    rep_nodes m (firstn n (elems m sl) ++ xs) l F -> NoDup (own ONode sl ++ F) ->
    let '(sl', m') := happend spare m (upto sl n) xs in
    exists F', rep_slice m' sl' l F' /\ NoDup F' /\ evolve m (own ONode sl ++ F) m' F' /\ sl_len sl' = List.length l.
  Proof.
    intros Hf Hn R D. pose proof (reps_length _ _ _ _ R) as Len. pose proof (part_length _ _ Hf) as PL. fold (elems m sl) in PL.
    rewrite app_length, firstn_length, PL in Len. replace (Nat.min n (sl_len sl)) with n in Len by lia.
    unfold happend. cbn [sl_len sl_cap sl_arr sl_off upto]. destruct (Nat.leb_spec (n + List.length xs) (sl_cap sl)) as [C|C].
    - set (m' := write_nodes _ _ _ _). exists (own ONode sl ++ F).
      assert (AF : agree m m' F).
      { intros o I. destruct (Nat.eq_dec (sl_cap sl) 0) as [Z|NZ].
        - assert (xs = []) by (destruct xs; cbn in C; [reflexivity|lia]). subst xs. destruct o as [a|a]; [|reflexivity]. unfold m', write_nodes. cbn.
          destruct (Nat.eq_dec a (sl_arr sl)) as [->|N]; [rewrite set_nth_same|rewrite set_nth_other by exact N; reflexivity]. destruct (nth_error _ _); cbn; [|reflexivity]. now rewrite overlay_nil.
        - apply write_other. intros ->. apply nodup_app in D as (_ & _ & D). apply (D (ONode (sl_arr sl))); [apply own_in; auto|exact I]. }
      assert (R' : rep_nodes m' (firstn n (elems m sl) ++ xs) l F) by (apply (proj1 (proj2 (rep_agree m m'))); auto).
      split; [|split; [exact D|split; [|exact Len]]].
      + change (own ONode sl) with (own ONode (Sl (sl_arr sl) (sl_off sl) (n + List.length xs) (sl_cap sl))). constructor.
        * split; [exact C|]. cbn. intros NZ. destruct (proj2 Hf NZ) as (a & E1 & E2). exists (overlay (sl_off sl + n) xs a). unfold m'. cbn. rewrite set_nth_same, E1. split; [reflexivity|].
          rewrite overlay_length; lia.
        * replace (elems m' _) with (firstn n (elems m sl) ++ xs); [exact R'|]. unfold elems, part. cbn [sl_len sl_cap sl_arr sl_off].
          destruct (Nat.eq_dec (sl_cap sl) 0) as [Z|NZ].
          { assert (xs = []) by (destruct xs; cbn in C; [reflexivity|lia]). subst xs. replace n with 0 by (destruct Hf; lia). reflexivity. }
          destruct (proj2 Hf NZ) as (a & E1 & E2). assert (EA : nth_error (m_nodes m') (sl_arr sl) = Some (overlay (sl_off sl + n) xs a)) by (unfold m'; cbn; rewrite set_nth_same, E1; reflexivity). rewrite (nth_error_nth _ _ _ EA).
          rewrite overlay_part by lia. rewrite (nth_error_nth _ _ _ E1), firstn_firstn. now replace (Nat.min n (sl_len sl)) with n by lia.
      + split; [|split]; [intros o E; now apply write_cells| |auto].
        intros o E N. destruct (Nat.eq_dec (sl_cap sl) 0) as [Z|NZ]; [|apply write_other; intros ->; apply N, in_or_app; left; apply own_in; auto].
        assert (xs = []) by (destruct xs; cbn in C; [reflexivity|lia]). subst xs. destruct o as [a|a]; [|reflexivity]. unfold m', write_nodes. cbn.
        destruct (Nat.eq_dec a (sl_arr sl)) as [->|N']; [rewrite set_nth_same|rewrite set_nth_other by exact N'; reflexivity]. destruct (nth_error _ _); cbn; [|reflexivity]. now rewrite overlay_nil.
    - unfold new_nodes. set (arr := _ ++ xs ++ _). set (m' := AMem _ _).
      assert (Ne : cell_of m (ONode (List.length (m_nodes m))) = None) by (cbn; rewrite (proj2 (nth_error_None _ _) (le_n _)); reflexivity).
      assert (EE : elems m (upto sl n) = firstn n (elems m sl)) by (unfold elems, part; cbn; rewrite firstn_firstn; now replace (Nat.min n (sl_len sl)) with n by lia).
      assert (AF : forall o, cell_of m o <> None -> cell_of m' o = cell_of m o) by (intros o E; exact (new_cell m arr o E)).
      assert (CF : forall o, In o F -> cell_of m o <> None) by (intros o I; exact (proj1 (proj2 (rep_cells m)) _ _ _ R o I)).
      assert (R' : rep_nodes m' (firstn n (elems m sl) ++ xs) l F) by (apply (proj1 (proj2 (rep_agree m m'))); [exact R|intros o I; auto]).
      set (sl' := Sl _ _ _ _). exists (own ONode sl' ++ F).
      assert (LA : List.length arr = n + List.length xs + spare (n + List.length xs)) by (unfold arr; rewrite EE, !app_length, repeat_length, firstn_length, PL; lia).
      assert (EA : nth_error (m_nodes m') (List.length (m_nodes m)) = Some arr) by (unfold m'; cbn; rewrite nth_error_app2, Nat.sub_diag by lia; reflexivity).
      split; [|split; [|split; [|exact Len]]].
      + constructor; [split; [unfold sl'; cbn [sl_len sl_cap]; lia|]; intros _; exists arr; unfold sl'; cbn [sl_off sl_cap sl_arr]; split; [exact EA|lia]|].
        replace (elems m' sl') with (firstn n (elems m sl) ++ xs); [exact R'|]. unfold elems at 2, part. cbn [sl' sl_len sl_cap sl_arr sl_off]. rewrite (nth_error_nth _ _ _ EA). cbn [skipn]. unfold arr. rewrite EE, app_assoc. symmetry. apply first_app. rewrite app_length, firstn_length, PL. lia.
      + apply nodup_app. apply nodup_app in D as (_ & D & _). split; [unfold own; destruct (_ =? _); repeat constructor; auto|]. split; [exact D|].
        intros o I J. apply own_in in I as (_ & ->). exact (CF _ J Ne).
      + split; [|split]; [intros o E; rewrite AF; auto|auto|]. intros o I. apply in_app_or in I as [I|I]; [apply own_in in I as (_ & ->); right; exact Ne|left; apply in_or_app; auto].
  Qed.

  (** Writing one element *)
  Lemma write_rep m sl n h l F : fits (m_nodes m) sl -> n < sl_len sl ->
    rep_nodes m (firstn n (elems m sl) ++ h :: skipn (S n) (elems m sl)) l F -> NoDup (own ONode sl ++ F) ->
    let m' := write_nodes m (sl_arr sl) (sl_off sl + n) [h] in
    rep_slice m' sl l (own ONode sl ++ F) /\ evolve m (own ONode sl ++ F) m' (own ONode sl ++ F).
  Proof.
    intros Hf Hn R D m'. assert (NZ : sl_cap sl <> 0) by (destruct Hf; lia). destruct (proj2 Hf NZ) as (a & E1 & E2).
    assert (Eo : own ONode sl = [ONode (sl_arr sl)]) by (unfold own; destruct (Nat.eqb_spec (sl_cap sl) 0); congruence).
    assert (AF : agree m m' F).
    { intros o I. apply write_other. intros ->. rewrite Eo in D. inversion D; subst. contradiction. }
    assert (R' : rep_nodes m' (firstn n (elems m sl) ++ h :: skipn (S n) (elems m sl)) l F) by (apply (proj1 (proj2 (rep_agree m m'))); auto).
    assert (EA : nth_error (m_nodes m') (sl_arr sl) = Some (overlay (sl_off sl + n) [h] a)) by (unfold m'; cbn; rewrite set_nth_same, E1; reflexivity).
    split.
    - constructor; [split; [apply Hf|]; intros _; exists (overlay (sl_off sl + n) [h] a); split; [exact EA|]; rewrite overlay_length; cbn; destruct Hf; lia|].
      replace (elems m' sl) with (firstn n (elems m sl) ++ h :: skipn (S n) (elems m sl)); [exact R'|].
      unfold elems, part. rewrite (nth_error_nth _ _ _ EA), (nth_error_nth _ _ _ E1). destruct Hf. rewrite overlay_mid by lia. reflexivity.
    - split; [|split]; [intros o E; now apply write_cells| |auto]. intros o E N. apply write_other. intros ->. apply N. rewrite Eo. now left.
  Qed.
  Lemma write_if_cells m a k xs o : cell_of (write_ifs m a k xs) o <> None <-> cell_of m o <> None.
  Proof.
    destruct o as [a'|a']; cbn; [tauto|]. destruct (Nat.eq_dec a' a) as [->|N]; [rewrite set_nth_same|rewrite set_nth_other by exact N; tauto].
    destruct (nth_error (m_ifs m) a); cbn; split; congruence.
  Qed.
  Lemma write_if_other m a k xs o : o <> OIf a -> cell_of (write_ifs m a k xs) o = cell_of m o.
  Proof. destruct o as [a'|a']; cbn; [reflexivity|]. intros N. rewrite set_nth_other; congruence. Qed.
  Lemma write_if_part m es n h : fits (m_ifs m) es -> n < sl_len es ->
    fits (m_ifs (write_ifs m (sl_arr es) (sl_off es + n) [h])) es /\
    part (m_ifs (write_ifs m (sl_arr es) (sl_off es + n) [h])) es = firstn n (part (m_ifs m) es) ++ h :: skipn (S n) (part (m_ifs m) es).
  Proof.
    intros Hf Hn. assert (NZ : sl_cap es <> 0) by (destruct Hf; lia). destruct (proj2 Hf NZ) as (a & E1 & E2). destruct Hf as (Hf & _).
    assert (EA : nth_error (m_ifs (write_ifs m (sl_arr es) (sl_off es + n) [h])) (sl_arr es) = Some (overlay (sl_off es + n) [h] a)) by (cbn; rewrite set_nth_same, E1; reflexivity).
    split; [split; [exact Hf|]; intros _; eexists; split; [exact EA|]; rewrite overlay_length; cbn; lia|].
    unfold part. rewrite (nth_error_nth _ _ _ EA), (nth_error_nth _ _ _ E1). now rewrite overlay_mid by lia.
  Qed.

  (** ** New nodes *)
  Definition fresh_ok (m m' : amem) (F : list owner) : Prop :=
    NoDup F /\ evolve m [] m' F.
  Lemma fresh_trans m m1 F1 m2 F2 : fresh_ok m m1 F1 -> fresh_ok m1 m2 F2 -> (forall o, In o F1 -> cell_of m1 o <> None) -> fresh_ok m m2 (F1 ++ F2) /\ agree m1 m2 F1.
  Proof.
    intros (N1 & E1) (N2 & E2) C. assert (A : agree m1 m2 F1) by (intros o I; apply (proj1 (proj2 E2)); [auto|intros []]). split; [|exact A]. split.
    - apply nodup_app. repeat split; auto. intros o I J. destruct (proj2 (proj2 E2) o J) as [[]|K]. exact (C o I K).
    - destruct E1 as (A1 & A2 & A3), E2 as (B1 & B2 & B3). split; [|split]; [auto| |].
      + intros o E _. rewrite B2; auto.
      + intros o I. apply in_app_or in I as [I|I]; [auto|]. right. destruct (B3 o I) as [[]|K]. destruct (cell_of m o) eqn:E; [|reflexivity]. exfalso. apply (A1 o); congruence.
  Qed.
  Lemma fresh_new_nodes m hs l F : rep_nodes m hs l F -> NoDup F ->
    let '(a, m') := new_nodes m hs in
    exists O, rep_slice m' (whole a (List.length hs)) l (O ++ F) /\ fresh_ok m m' O /\ agree m m' F /\ (forall o, In o O -> cell_of m' o <> None).
  Proof.
    intros R D. unfold new_nodes. set (m' := AMem _ _). set (sl := whole _ _).
    assert (Ne : cell_of m (ONode (List.length (m_nodes m))) = None) by (cbn; rewrite (proj2 (nth_error_None _ _) (le_n _)); reflexivity).
    assert (AF : forall o, cell_of m o <> None -> cell_of m' o = cell_of m o) by (intros o E; exact (new_cell m hs o E)).
    assert (CF : forall o, In o F -> cell_of m o <> None) by (intros o I; exact (proj1 (proj2 (rep_cells m)) _ _ _ R o I)).
    assert (R' : rep_nodes m' hs l F) by (apply (proj1 (proj2 (rep_agree m m'))); [exact R|intros o I; auto]).
    assert (EA : nth_error (m_nodes m') (List.length (m_nodes m)) = Some hs) by (unfold m'; cbn; rewrite nth_error_app2, Nat.sub_diag by lia; reflexivity).
    assert (Hf : fits (m_nodes m') sl) by (split; [cbn; lia|]; intros _; exists hs; cbn; split; [exact EA|lia]).
    exists (own ONode sl). split; [|split; [split|split]].
    - constructor; [exact Hf|]. replace (elems m' sl) with hs; [exact R'|]. unfold elems, part, sl. cbn [whole sl_len sl_arr sl_off]. rewrite (nth_error_nth _ _ _ EA). cbn. now rewrite firstn_all.
    - unfold own. destruct (_ =? _); repeat constructor; auto.
    - split; [|split]; [intros o E; rewrite AF; auto|auto|]. intros o I. apply own_in in I as (_ & ->). right. exact Ne.
    - intros o I. auto.
    - intros o I. eapply fits_cell_nodes; eauto.
  Qed.
  Lemma fresh_new_ifs m hs l F : rep_ifs m hs l F -> NoDup F ->
    let '(a, m') := new_ifs m hs in let sl := whole a (List.length hs) in
    fits (m_ifs m') sl /\ part (m_ifs m') sl = hs /\ rep_ifs m' hs l F /\ fresh_ok m m' (own OIf sl) /\ agree m m' F /\ (forall o, In o (own OIf sl) -> cell_of m' o <> None).
  Proof.
    intros R D. unfold new_ifs. set (m' := AMem _ _). set (sl := whole _ _).
    assert (Ne : cell_of m (OIf (List.length (m_ifs m))) = None) by (cbn; rewrite (proj2 (nth_error_None _ _) (le_n _)); reflexivity).
    assert (AF : forall o, cell_of m o <> None -> cell_of m' o = cell_of m o).
    { intros [a|a]; cbn; [reflexivity|]. intros N. rewrite nth_error_app1; [reflexivity|]. apply nth_error_Some. intros E. rewrite E in N. now apply N. }
    assert (CF : forall o, In o F -> cell_of m o <> None) by (intros o I; exact (proj2 (proj2 (proj2 (proj2 (rep_cells m)))) _ _ _ R o I)).
    assert (EA : nth_error (m_ifs m') (List.length (m_ifs m)) = Some hs) by (unfold m'; cbn; rewrite nth_error_app2, Nat.sub_diag by lia; reflexivity).
    assert (Hf : fits (m_ifs m') sl) by (split; [cbn; lia|]; intros _; exists hs; cbn; split; [exact EA|lia]).
    split; [exact Hf|]. split; [unfold part, sl; cbn [whole sl_len sl_arr sl_off]; rewrite (nth_error_nth _ _ _ EA); cbn; now rewrite firstn_all|].
    split; [apply (proj2 (proj2 (proj2 (proj2 (rep_agree m m'))))); [exact R|intros o I; auto]|]. split; [split|split].
    - unfold own. destruct (_ =? _); repeat constructor; auto.
    - split; [|split]; [intros o E; rewrite AF; auto|auto|]. intros o I. apply own_in in I as (_ & ->). right. exact Ne.
    - intros o I. auto.
    - intros o I. eapply fits_cell_ifs; eauto.
  Qed.

  Definition fresh_rep (x : bop) : Prop := forall m, let '(h, m') := fresh_node x m in exists F, rep_node m' h x F /\ fresh_ok m m' F.
  Lemma fresh_list_rep l : Forall fresh_rep l -> forall m, let '(hs, m') := fresh_list fresh_node l m in exists F, rep_nodes m' hs l F /\ fresh_ok m m' F.
  Proof.
    intros H. induction H as [|x l Hx _ IH]; intros m; cbn [fresh_list].
    - exists []. split; [constructor|]. split; [constructor|apply evolve_refl].
    - specialize (Hx m). destruct (fresh_node x m) as [h m1]. destruct Hx as (F1 & R1 & K1). specialize (IH m1). destruct (fresh_list fresh_node l m1) as [hs m2]. destruct IH as (F2 & R2 & K2).
      destruct (fresh_trans _ _ _ _ _ K1 K2) as (K & A); [exact (proj1 (rep_cells m1) _ _ _ R1)|]. exists (F1 ++ F2). split; [|exact K]. constructor; [|exact R2]. apply (proj1 (rep_agree m1 m2)); auto.
  Qed.
  (** a block: its nodes and an array for them *)
  Lemma fresh_block_rep l : Forall fresh_rep l -> forall m, let '(hs, m1) := fresh_list fresh_node l m in let '(a, m2) := new_nodes m1 hs in
    exists F, rep_slice m2 (whole a (List.length hs)) l F /\ fresh_ok m m2 F.
  Proof.
    intros H m. pose proof (fresh_list_rep l H m) as X. destruct (fresh_list fresh_node l m) as [hs m1]. destruct X as (F & R & K).
    pose proof (fresh_new_nodes m1 hs l F R (proj1 K)) as Y. destruct (new_nodes m1 hs) as [a m2]. destruct Y as (O & R2 & K2 & A & C). exists (O ++ F). split; [exact R2|].
    destruct (fresh_trans _ _ _ _ _ K K2) as ((N & E) & _); [exact (proj1 (proj2 (rep_cells m1)) _ _ _ R)|]. split.
    - apply nodup_app in N as (N1 & N2 & N3). apply nodup_app. repeat split; auto. intros o I J. exact (N3 o J I).
    - eapply evolve_sub; [exact E|]. intros o I. rewrite in_app_iff in *. tauto.
  Qed.
  Definition fresh_if (e : ifblock) (m : amem) : hif * amem :=
    match e with IfB p c l com foot =>
      let '(hl, m1) := fresh_list fresh_node l m in
      let '(al, m2) := new_nodes m1 hl in
      (HIf p c (whole al (List.length hl)) com foot, m2) end.
  Lemma fresh_if_rep e : Forall fresh_rep (block e) -> forall m, let '(h, m') := fresh_if e m in exists F, rep_if m' h e F /\ fresh_ok m m' F.
  Proof.
    destruct e as [p c l com foot]. cbn [block]. intros H m. pose proof (fresh_block_rep l H m) as X. unfold fresh_if.
    destruct (fresh_list fresh_node l m) as [hs m1]. destruct (new_nodes m1 hs) as [a m2]. destruct X as (F & R & K). exists F. split; [constructor; exact R|exact K].
  Qed.
  Lemma fresh_ifs_rep es : Forall (fun e => Forall fresh_rep (block e)) es -> forall m, let '(hs, m') := fresh_list fresh_if es m in exists F, rep_ifs m' hs es F /\ fresh_ok m m' F.
  Proof.
    intros H. induction H as [|x l Hx _ IH]; intros m; cbn [fresh_list].
    - exists []. split; [constructor|]. split; [constructor|apply evolve_refl].
    - pose proof (fresh_if_rep x Hx m) as X. destruct (fresh_if x m) as [h m1]. destruct X as (F1 & R1 & K1). specialize (IH m1). destruct (fresh_list fresh_if l m1) as [hs m2]. destruct IH as (F2 & R2 & K2).
      destruct (fresh_trans _ _ _ _ _ K1 K2) as (K & A); [exact (proj1 (proj2 (proj2 (proj2 (rep_cells m1)))) _ _ _ R1)|]. exists (F1 ++ F2). split; [|exact K]. constructor; [|exact R2]. apply (proj1 (proj2 (proj2 (proj2 (rep_agree m1 m2))))); auto.
  Qed.
  Lemma fresh_all : forall x, fresh_rep x.
  Proof.
    apply bop_ind'.
    - intros m. cbn. exists []. split; [constructor|]. split; [constructor|apply evolve_refl].
    - intros p m. cbn. exists []. split; [constructor|]. split; [constructor|apply evolve_refl].
    - intros p m. cbn. exists []. split; [constructor|]. split; [constructor|apply evolve_refl].
    - intros [p c l com foot] es [ep el ecom efoot] Hi Hes He m. cbn [block eblock] in *.
      change (fresh_node (BBranch (IfB p c l com foot) es (ElB ep el ecom efoot)) m) with
        (let '(hl, m1) := fresh_list fresh_node l m in
         let '(al, m2) := new_nodes m1 hl in
         let '(hes, m3) := fresh_list fresh_if es m2 in
         let '(aes, m4) := new_ifs m3 hes in
         let '(hel, m5) := fresh_list fresh_node el m4 in
         let '(ael, m6) := new_nodes m5 hel in
         (HBranch (HIf p c (whole al (List.length hl)) com foot) (whole aes (List.length hes))
           (HEl ep (whole ael (List.length hel)) ecom efoot), m6)).
      pose proof (fresh_block_rep l Hi m) as X. destruct (fresh_list fresh_node l m) as [hl m1]. destruct (new_nodes m1 hl) as [al m2]. destruct X as (F1 & R1 & K1).
      pose proof (fresh_ifs_rep es Hes m2) as X. destruct (fresh_list fresh_if es m2) as [hes m3]. destruct X as (F2 & R2 & K2).
      pose proof (fresh_new_ifs m3 hes es F2 R2 (proj1 K2)) as X. destruct (new_ifs m3 hes) as [aes m4]. cbv zeta in X. set (es' := whole aes (List.length hes)) in *. destruct X as (Hf & Ep & R2' & K3 & A3 & C3).
      pose proof (fresh_block_rep el He m4) as X. destruct (fresh_list fresh_node el m4) as [hel m5]. destruct (new_nodes m5 hel) as [ael m6]. destruct X as (F3 & R3 & K4).
      assert (C2 : forall o, In o F2 -> cell_of m3 o <> None) by exact (proj2 (proj2 (proj2 (proj2 (rep_cells m3)))) _ _ _ R2).
      destruct (fresh_trans _ _ _ _ _ K2 K3 C2) as ((N23 & E23) & _).
      assert (K23 : fresh_ok m2 m4 (own OIf es' ++ F2)).
      { split; [|eapply evolve_sub; [exact E23|]; intros o I; rewrite in_app_iff in *; tauto]. apply nodup_app in N23 as (N1 & N2 & N3). apply nodup_app. repeat split; auto. intros o I J. exact (N3 o J I). }
      assert (C23 : forall o, In o (own OIf es' ++ F2) -> cell_of m4 o <> None) by (intros o I; apply in_app_or in I as [I|I]; [auto|]; rewrite A3 by exact I; auto).
      destruct (fresh_trans _ _ _ _ _ K23 K4 C23) as (K & A4).
      assert (C1 : forall o, In o F1 -> cell_of m2 o <> None) by exact (proj1 (proj2 (proj2 (rep_cells m2))) _ _ _ R1).
      destruct (fresh_trans _ _ _ _ _ K1 K C1) as (K' & A1). exists (F1 ++ (own OIf es' ++ F2) ++ F3). split; [|exact K'].
      apply agree_app in A4 as (A4 & A5). destruct (ifs_same _ _ _ Hf A4) as (Hf' & Ep').
      constructor; [|exact Hf'| |exact R3].
      + constructor. apply (proj1 (proj2 (proj2 (rep_agree m2 m6)))); auto.
      + rewrite Ep', Ep. apply (proj2 (proj2 (proj2 (proj2 (rep_agree m4 m6))))); auto.
  Qed.

  (** ** Edits *)
  Definition crep (m : amem) (c : cursor) (hc : hcursor) (F : list owner) : Prop :=
    rep_slice m (hc_parent hc) (k_parent c) F /\ hc_index hc = k_index c /\ hc_step hc = k_step c.

  Lemma slice_inv m sl l F : rep_slice m sl l F -> exists G, F = own ONode sl ++ G /\ fits (m_nodes m) sl /\ rep_nodes m (elems m sl) l G /\ List.length l = sl_len sl.
  Proof.
    intros H. inversion H as [sl' l' G Hf R]; subst. exists G. repeat split; auto; try apply Hf. rewrite <- (reps_length _ _ _ _ R). now apply part_length.
  Qed.
  Lemma elems_from m sl n : n <= sl_len sl -> elems m (from sl n) = skipn n (elems m sl).
  Proof.
    intros H. unfold elems, part, from. cbn [sl_len sl_off sl_arr]. rewrite skipn_firstn_comm, skip_skip. now rewrite (Nat.add_comm n).
  Qed.
  Lemma fresh_step m sl l F x : rep_slice m sl l F -> NoDup F -> let '(h, m1) := fresh_node x m in
    exists Fx, rep_node m1 h x Fx /\ rep_slice m1 sl l F /\ NoDup (F ++ Fx) /\ evolve m F m1 (F ++ Fx).
  Proof.
    intros R D. pose proof (fresh_all x m) as X. destruct (fresh_node x m) as [h m1]. destruct X as (Fx & Rx & (N & E)). exists Fx. split; [exact Rx|].
    assert (C : forall o, In o F -> cell_of m o <> None) by exact (proj1 (proj2 (proj2 (rep_cells m))) _ _ _ R).
    split; [apply (proj1 (proj2 (proj2 (rep_agree m m1)))); [exact R|]; intros o I; apply (proj1 (proj2 E)); [auto|intros []]|]. split.
    - apply nodup_app. repeat split; auto. intros o I J. destruct (proj2 (proj2 E) o J) as [[]|K]. exact (C o I K).
    - pose proof (evolve_part m [] m1 Fx F [] E) as P. rewrite !app_nil_r in P. exact P.
  Qed.
  Lemma nodup_sub {A} (X Y : list A) : NoDup (X ++ Y) -> forall Y', NoDup Y' -> (forall a, In a Y' -> In a Y) -> NoDup (X ++ Y').
  Proof. intros H Y' N S. apply nodup_app in H as (H1 & H2 & H3). apply nodup_app. repeat split; auto. intros a I J. exact (H3 a I (S a J)). Qed.

  Lemma cop_ok op m c hc F : crep m c hc F -> NoDup F ->
    match run_cop op c with
    | Some c' => exists m' hc' F', run_hcop spare op m hc = Some (m', hc') /\ crep m' c' hc' F' /\ NoDup F' /\ evolve m F m' F'
    | None => run_hcop spare op m hc = None
    end.
  Proof.
    destruct c as [l ci cs], hc as [sl hi hs]. intros (R & E1 & E2) D. cbn [k_parent k_index k_step hc_parent hc_index hc_step] in *. subst hi hs. unfold run_cop, run_hcop. cbn [k_parent k_index k_step hc_parent hc_index hc_step].
    set (n := Z.to_nat ci). destruct (ci <? 0)%Z eqn:Ni; [reflexivity|].
    destruct op as [|x|x|x].
    - destruct (slice_inv _ _ _ _ R) as (G & -> & Hf & Rn & Len). rewrite <- Len. destruct (Nat.ltb_spec n (List.length l)) as [H|H]; [|reflexivity].
      destruct (nth_error (elems m sl) n) as [h|] eqn:Eh; [|apply nth_error_None in Eh; rewrite (reps_length _ _ _ _ Rn) in Eh; lia].
      destruct (reps_at _ _ _ _ _ _ Rn Eh) as (y & F1 & F2 & F3 & Ey & -> & R1 & R2 & R3).
      pose proof (append_rep m sl n (elems m (from sl (S n))) (firstn n l ++ skipn (S n) l) (F1 ++ F3) Hf ltac:(lia)) as X.
      rewrite elems_from in X by lia. specialize (X (reps_app _ _ _ _ _ _ _ R1 R3)).
      assert (D' : NoDup (own ONode sl ++ F1 ++ F3)).
      { eapply nodup_sub; [exact D| |]; [|intros o I; rewrite !in_app_iff in *; tauto]. apply nodup_app in D as (_ & D & _). apply nodup_app in D as (D1 & D2 & D3). apply nodup_app in D2 as (_ & D2 & _). apply nodup_app. repeat split; auto. intros o I J. apply (D3 o I). apply in_or_app. auto. }
      specialize (X D'). rewrite elems_from by lia. destruct (happend spare m (upto sl n) _) as [sl' m']. destruct X as (F' & R' & N' & E' & _).
      eexists _, _, F'. split; [reflexivity|]. split; [exact (conj R' (conj eq_refl eq_refl))|]. split; [exact N'|]. eapply evolve_more; [exact E'|]. intros o I. rewrite !in_app_iff in *. tauto.
    - pose proof (fresh_step m sl l F x R D) as X. destruct (fresh_node x m) as [h m1]. destruct X as (Fx & Rx & R' & D' & E').
      destruct (slice_inv _ _ _ _ R') as (G & -> & Hf & Rn & Len). rewrite <- Len. destruct (Nat.ltb_spec n (List.length l)) as [H|H]; [|reflexivity].
      destruct (nth_error (elems m1 sl) n) as [h0|] eqn:Eh; [|apply nth_error_None in Eh; rewrite (reps_length _ _ _ _ Rn) in Eh; lia].
      destruct (reps_at _ _ _ _ _ _ Rn Eh) as (y & F1 & F2 & F3 & Ey & -> & R1 & R2 & R3).
      assert (D2 : NoDup (own ONode sl ++ F1 ++ Fx ++ F3)).
      { apply Permutation_NoDup with (l := own ONode sl ++ (F1 ++ F3) ++ Fx). { apply Permutation_app_head. rewrite <- app_assoc. apply Permutation_app_head, Permutation_app_comm. }
        rewrite app_assoc. apply nodup_app in D' as (N1 & N2 & N3). apply nodup_app. split; [|split; [exact N2|intros o I; apply N3; rewrite !in_app_iff in *; tauto]].
        eapply nodup_sub; [exact N1| |intros o I; rewrite !in_app_iff in *; tauto]. apply nodup_app in N1 as (_ & N1 & _). apply nodup_app in N1 as (M1 & M2 & M3). apply nodup_app in M2 as (_ & M2 & _). apply nodup_app. repeat split; auto. intros o I J. apply (M3 o I). apply in_or_app. auto. }
      destruct (write_rep m1 sl n h (firstn n l ++ x :: skipn (S n) l) (F1 ++ Fx ++ F3) Hf ltac:(lia)) as (R4 & E4).
      { apply reps_app; [exact R1|]. constructor; [exact Rx|exact R3]. }
      { exact D2. }
      eexists _, _, _. split; [reflexivity|]. split; [exact (conj R4 (conj eq_refl eq_refl))|]. split; [exact D2|]. eapply evolve_trans; [|exact E4]. eapply evolve_sub; [exact E'|]. intros o I. rewrite !in_app_iff in *. tauto.
    - pose proof (fresh_step m sl l F x R D) as X. destruct (fresh_node x m) as [h m1]. destruct X as (Fx & Rx & R' & D' & E').
      destruct (slice_inv _ _ _ _ R') as (G & -> & Hf & Rn & Len). rewrite <- Len. destruct (Nat.leb_spec n (List.length l)) as [H|H]; [|reflexivity].
      destruct (reps_split m1 n _ _ _ Rn) as (F1 & F3 & -> & R1 & R3).
      assert (D2 : NoDup (own ONode sl ++ F1 ++ Fx ++ F3)).
      { apply Permutation_NoDup with (l := (own ONode sl ++ F1 ++ F3) ++ Fx); [|exact D']. rewrite <- !app_assoc. do 2 apply Permutation_app_head. apply Permutation_app_comm. }
      pose proof (append_rep m1 sl n (h :: elems m1 (from sl n)) (firstn n l ++ x :: skipn n l) (F1 ++ Fx ++ F3) Hf ltac:(lia)) as X.
      rewrite elems_from in X by lia. specialize (X (reps_app _ _ _ _ _ _ _ R1 (rl_cons m1 _ _ _ _ _ _ Rx R3)) D2).
      rewrite elems_from by lia. destruct (happend spare m1 (upto sl n) _) as [sl' m']. destruct X as (F' & R4 & N4 & E4 & _).
      eexists _, _, _. split; [reflexivity|]. split; [exact (conj R4 (conj eq_refl eq_refl))|]. split; [exact N4|]. eapply evolve_trans; [|exact E4]. eapply evolve_sub; [exact E'|]. intros o I. rewrite !in_app_iff in *. tauto.
    - pose proof (fresh_step m sl l F x R D) as X. destruct (fresh_node x m) as [h m1]. destruct X as (Fx & Rx & R' & D' & E').
      destruct (slice_inv _ _ _ _ R') as (G & -> & Hf & Rn & Len). rewrite <- Len. destruct (Nat.ltb_spec n (List.length l)) as [H|H]; [|reflexivity].
      destruct (reps_split m1 (S n) _ _ _ Rn) as (F1 & F3 & -> & R1 & R3).
      assert (D2 : NoDup (own ONode sl ++ F1 ++ Fx ++ F3)).
      { apply Permutation_NoDup with (l := (own ONode sl ++ F1 ++ F3) ++ Fx); [|exact D']. rewrite <- !app_assoc. do 2 apply Permutation_app_head. apply Permutation_app_comm. }
      pose proof (append_rep m1 sl (S n) (h :: elems m1 (from sl (S n))) (firstn (S n) l ++ x :: skipn (S n) l) (F1 ++ Fx ++ F3) Hf ltac:(lia)) as X.
      rewrite elems_from in X by lia. specialize (X (reps_app _ _ _ _ _ _ _ R1 (rl_cons m1 _ _ _ _ _ _ Rx R3)) D2).
      rewrite elems_from by lia. destruct (happend spare m1 (upto sl (S n)) _) as [sl' m']. destruct X as (F' & R4 & N4 & E4 & _).
      eexists _, _, _. split; [reflexivity|]. split; [exact (conj R4 (conj eq_refl eq_refl))|]. split; [exact N4|]. eapply evolve_trans; [|exact E4]. eapply evolve_sub; [exact E'|]. intros o I. rewrite !in_app_iff in *. tauto.
  Qed.

  (** ** The walk *)
  Lemma at_ok m c hc F : crep m c hc F -> NoDup F ->
    match at_index c with
    | None => h_at m hc = None
    | Some x => exists h G, h_at m hc = Some h /\ rep_node m h x G
    end.
  Proof.
    destruct c as [l ci cs], hc as [sl hi hs]. intros (R & E1 & E2) D. cbn [k_parent k_index k_step hc_parent hc_index hc_step] in *. subst hi hs. unfold at_index, h_at. cbn [k_parent k_index k_step hc_parent hc_index hc_step].
    destruct (ci <? 0)%Z; [reflexivity|]. destruct (slice_inv _ _ _ _ R) as (G & -> & Hf & Rn & Len). pose proof (reps_length _ _ _ _ Rn) as L2.
    destruct (nth_error (elems m sl) (Z.to_nat ci)) as [h|] eqn:Eh.
    - destruct (reps_at _ _ _ _ _ _ Rn Eh) as (y & F1 & F2 & F3 & Ey & -> & R1 & R2 & R3). rewrite Ey. exists h, F2. auto.
    - apply nth_error_None in Eh. rewrite (proj2 (nth_error_None l _)) by lia. reflexivity.
  Qed.
  Lemma plugin_ok m c hc F : crep m c hc F -> NoDup F -> h_plugin m hc = cursor_plugin c.
  Proof.
    intros R D. pose proof (at_ok m c hc F R D) as X. unfold h_plugin, cursor_plugin. destruct (at_index c) as [x|]; [|now rewrite X]. destruct X as (h & G & -> & Rn). inversion Rn; reflexivity.
  Qed.

  Lemma prog_ok {S} (p : aprog S) : forall m c hc F, crep m c hc F -> NoDup F ->
    match run_prog (lift p) c with
    | Some (s, c') => exists m' hc' F', run_aprog spare p m hc = Some (s, m', hc') /\ crep m' c' hc' F' /\ NoDup F' /\ evolve m F m' F'
    | None => run_aprog spare p m hc = None
    end.
  Proof.
    induction p as [s| |op k IH]; intros m c hc F R D; cbn [lift run_prog run_aprog].
    - exists m, hc, F. split; [reflexivity|]. split; [exact R|]. split; [exact D|apply evolve_refl].
    - reflexivity.
    - pose proof (cop_ok op m c hc F R D) as X. destruct (run_cop op c) as [c'|]; [|now rewrite X]. destruct X as (m' & hc' & F' & -> & R' & D' & E').
      rewrite (plugin_ok _ _ _ _ R' D'). rewrite (proj1 (proj2 R')). specialize (IH (cursor_plugin c') (k_index c') m' c' hc' F' R' D').
      destruct (run_prog _ c') as [[s c'']|]; [|exact IH]. destruct IH as (m2 & hc2 & F2 & E & R2 & D2 & E2). exists m2, hc2, F2. split; [exact E|]. split; [exact R2|]. split; [exact D2|]. eapply evolve_trans; eassumption.
  Qed.

  Section Walk.
    Context {S : Type}.
    Variable walk : S -> list bop -> aout S.
    Variable hwalk : S -> aslice -> amem -> hout S.
    Hypothesis walk_ok : forall s sl l m F, rep_slice m sl l F -> NoDup F ->
      match walk s l with
      | AOk s' l' => exists sl' m' F', hwalk s sl m = HOk s' sl' m' /\ rep_slice m' sl' l' F' /\ NoDup F' /\ evolve m F m' F'
      | APanic => hwalk s sl m = HPanic
      | AFuel => hwalk s sl m = HFuel
      end.

    Lemma ifs_app m h1 l1 F1 h2 l2 F2 : rep_ifs m h1 l1 F1 -> rep_ifs m h2 l2 F2 -> rep_ifs m (h1 ++ h2) (l1 ++ l2) (F1 ++ F2).
    Proof. intros H H2. induction H; cbn; [exact H2|]. rewrite <- app_assoc. constructor; auto. Qed.
    Lemma ifs_length m hs l F : rep_ifs m hs l F -> List.length hs = List.length l.
    Proof. intros H. induction H; cbn; congruence. Qed.

    (** the else-if blocks: [done] are behind, [todo] ahead *)
    Lemma elseifs_ok es todo : forall m s hdone htodo done F1 F2,
      fits (m_ifs m) es -> part (m_ifs m) es = hdone ++ htodo -> rep_ifs m hdone done F1 -> rep_ifs m htodo todo F2 -> NoDup (own OIf es ++ F1 ++ F2) ->
      match walk_blocks walk s todo with
      | Some (Some (s', todo')) => exists m' F', h_elseifs hwalk (List.length todo) (List.length done) s es m = Some (Some (s', m')) /\
          fits (m_ifs m') es /\ rep_ifs m' (part (m_ifs m') es) (done ++ todo') F' /\ NoDup (own OIf es ++ F') /\ evolve m (own OIf es ++ F1 ++ F2) m' (own OIf es ++ F')
      | Some None => h_elseifs hwalk (List.length todo) (List.length done) s es m = Some None
      | None => h_elseifs hwalk (List.length todo) (List.length done) s es m = None
      end.
    Proof.
      induction todo as [|[p c l com foot] todo IH]; intros m s hdone htodo done F1 F2 Hf Ep R1 R2 D; cbn [walk_blocks List.length h_elseifs].
      - inversion R2; subst. rewrite app_nil_r in *. exists m, F1. rewrite Ep, app_nil_r. split; [reflexivity|]. split; [exact Hf|]. split; [exact R1|]. split; [exact D|apply evolve_refl].
      - inversion R2 as [|h x hs l0 G1 G2 Ri Rr]; subst. inversion Ri; subst. pose proof (ifs_length _ _ _ _ R1) as L1. pose proof (part_length _ _ Hf) as PL. rewrite Ep, app_length in PL. cbn [List.length] in PL.
        rewrite Ep, <- L1, nth_error_app2, Nat.sub_diag by lia. cbn [nth_error hi_block hi_pos hi_cond hi_com hi_foot].
        assert (D' : NoDup (G1 ++ own OIf es ++ F1 ++ G2)).
        { eapply Permutation_NoDup; [|exact D]. rewrite (app_assoc (own OIf es) F1 (G1 ++ G2)), (app_assoc (own OIf es) F1 G2). apply Permutation_app_swap_app. }
        assert (DG : NoDup G1) by (apply nodup_app in D'; tauto).
        match goal with H : rep_slice m ?sl0 l G1 |- _ => rename sl0 into sl; rename H into Rs end.
        pose proof (walk_ok s sl l m G1 Rs DG) as X. destruct (walk s l) as [s1 l'| |]; [|now rewrite X|now rewrite X].
        destruct X as (sl' & m1 & G1' & -> & Rs' & DG' & E1).
        assert (CR : forall o, In o (own OIf es ++ F1 ++ G2) -> cell_of m o <> None).
        { intros o I. rewrite !in_app_iff in I. destruct I as [I|[I|I]]; [eapply fits_cell_ifs; eauto|exact (proj2 (proj2 (proj2 (proj2 (rep_cells m)))) _ _ _ R1 o I)|exact (proj2 (proj2 (proj2 (proj2 (rep_cells m)))) _ _ _ Rr o I)]. }
        destruct (evolve_rest _ _ _ _ _ E1 DG' D' CR) as (D1 & A1). assert (A1' : agree m m1 (own OIf es ++ F1 ++ G2)) by exact A1. rewrite !agree_app in A1'. destruct A1' as (Ao & AF & AG).
        destruct (ifs_same _ _ _ Hf Ao) as (Hf1 & Ep1).
        set (h' := HIf p c sl' com foot). assert (Ln : List.length hdone < sl_len es) by lia.
        destruct (write_if_part m1 es (List.length hdone) h' Hf1 Ln) as (Hf2 & Ep2). set (m2 := write_ifs m1 _ _ _) in *.
        assert (NZ : sl_cap es <> 0) by (destruct Hf; lia).
        assert (Aw : agree m1 m2 (G1' ++ F1 ++ G2)).
        { intros o I. apply write_if_other. intros ->. apply nodup_mid in D1. apply nodup_app in D1 as (_ & _ & D1). apply (D1 (OIf (sl_arr es))); [apply own_in; auto|exact I]. }
        rewrite !agree_app in Aw. destruct Aw as (Aw1 & Aw2 & Aw3).
        rewrite Ep1, Ep in Ep2. rewrite first_app in Ep2 by reflexivity. rewrite skipn_app, skipn_all2 in Ep2 by lia. replace (Datatypes.S (List.length hdone) - List.length hdone) with 1 in Ep2 by lia. cbn [skipn app] in Ep2.
        specialize (IH m2 s1 (hdone ++ [h']) hs (done ++ [IfB p c l' com foot]) (F1 ++ G1') G2 Hf2).
        rewrite <- app_assoc in IH. cbn [app] in IH. specialize (IH Ep2).
        assert (agree m m2 F1) by (intros o I; rewrite Aw2, AF; auto). assert (agree m m2 G2) by (intros o I; rewrite Aw3, AG; auto).
        assert (X1 : rep_ifs m2 hdone done F1) by (apply (proj2 (proj2 (proj2 (proj2 (rep_agree m m2))))); assumption).
        assert (X2 : rep_ifs m2 [h'] [IfB p c l' com foot] G1').
        { rewrite <- (app_nil_r G1'). constructor; [|constructor]. constructor. apply (proj1 (proj2 (proj2 (rep_agree m1 m2)))); assumption. }
        assert (X3 : rep_ifs m2 hs todo G2) by (apply (proj2 (proj2 (proj2 (proj2 (rep_agree m m2))))); assumption).
        specialize (IH (ifs_app _ _ _ _ _ _ _ X1 X2) X3).
        assert (D2 : NoDup (own OIf es ++ (F1 ++ G1') ++ G2)).
        { eapply Permutation_NoDup; [|exact D1]. rewrite <- app_assoc. rewrite (app_assoc (own OIf es) F1 G2), (app_assoc (own OIf es) F1 (G1' ++ G2)). apply Permutation_app_swap_app. }
        specialize (IH D2). rewrite app_length in IH. cbn [List.length] in IH. rewrite L1. replace (Datatypes.S (List.length done)) with (List.length done + 1) by lia.
        assert (E2 : evolve m (own OIf es ++ F1 ++ G1 ++ G2) m2 (own OIf es ++ (F1 ++ G1') ++ G2)).
        { eapply evolve_trans.
          - eapply evolve_sub. { rewrite app_assoc. eapply evolve_part. exact E1. } intros o I. instantiate (1 := own OIf es ++ (F1 ++ G1') ++ G2) in I. rewrite !in_app_iff in *. tauto.
          - split; [|split]; [intros o Eo; now apply write_if_cells| |auto]. intros o Eo No. apply write_if_other. intros ->. apply No, in_or_app. left. apply own_in. auto. }
        destruct (walk_blocks walk s1 todo) as [[[s2 todo']|]|]; [|exact IH|exact IH]. destruct IH as (m' & F' & Eh & Hf' & R' & D3 & E3).
        exists m', F'. split; [exact Eh|]. split; [exact Hf'|]. split; [rewrite <- app_assoc in R'; exact R'|]. split; [exact D3|]. eapply evolve_trans; eassumption.
    Qed.

    Lemma branch_ok s i es e i' es' e' m F : rep_node m (HBranch i es e) (BBranch i' es' e') F -> NoDup F ->
      match walk_branch walk s i' es' e' with
      | Some (Some (s', x)) => exists h m' F', h_branch hwalk s i es e m = Some (Some (s', h, m')) /\ rep_node m' h x F' /\ NoDup F' /\ evolve m F m' F'
      | Some None => h_branch hwalk s i es e m = Some None
      | None => h_branch hwalk s i es e m = None
      end.
    Proof.
      intros R D. inversion R as [| | |? ? ? ? ep be el ecom efoot F1 F2 F3 Ri Hf Rf Re]; subst. inversion Ri as [p c bi li com foot ? Rs]; subst. unfold walk_branch, h_branch. cbn [hi_block hi_pos hi_cond hi_com hi_foot he_block he_pos he_com he_foot].
      assert (CF : forall o, In o ((own OIf es ++ F2) ++ F3) -> cell_of m o <> None).
      { intros o I. apply (proj1 (rep_cells m) _ _ _ R). apply in_or_app. now right. }
      pose proof (walk_ok s bi li m F1 Rs ltac:(apply nodup_app in D; tauto)) as X. destruct (walk s li) as [s1 l1| |]; [|now rewrite X|now rewrite X]. destruct X as (sl1 & m1 & F1' & -> & R1 & D1 & E1).
      destruct (evolve_rest _ _ _ _ _ E1 D1 D CF) as (DD1 & A1). assert (A1' : agree m m1 ((own OIf es ++ F2) ++ F3)) by exact A1. rewrite !agree_app in A1'. destruct A1' as ((Ao & AF2) & AF3).
      destruct (ifs_same _ _ _ Hf Ao) as (Hf1 & Ep1).
      assert (Rf1 : rep_ifs m1 (part (m_ifs m) es) es' F2) by now apply (proj2 (proj2 (proj2 (proj2 (rep_agree m m1))))).
      pose proof (elseifs_ok es es' m1 s1 [] (part (m_ifs m) es) [] [] F2 Hf1 Ep1 (rf_nil m1) Rf1) as X. cbn [app] in X.
      specialize (X ltac:(apply nodup_app in DD1 as (_ & DD1 & _); apply nodup_app in DD1; tauto)). cbn [List.length] in X.
      replace (sl_len es) with (List.length es') by (rewrite <- (ifs_length _ _ _ _ Rf); now apply part_length).
      destruct (walk_blocks walk s1 es') as [[[s2 es2]|]|]; [|now rewrite X|now rewrite X]. destruct X as (m2 & F2' & -> & Hf2 & Rf2 & D2 & E2).
      assert (D12 : NoDup ((own OIf es ++ F2) ++ F1' ++ F3)) by (apply nodup_mid; exact DD1).
      assert (CF1 : forall o, In o (F1' ++ F3) -> cell_of m1 o <> None).
      { intros o I. apply in_app_or in I as [I|I]; [exact (proj1 (proj2 (proj2 (rep_cells m1))) _ _ _ R1 o I)|]. rewrite AF3 by exact I. apply CF, in_or_app. now right. }
      destruct (evolve_rest _ _ _ _ _ E2 D2 D12 CF1) as (DD2 & A2). assert (A2' : agree m1 m2 (F1' ++ F3)) by exact A2. rewrite agree_app in A2'. destruct A2' as (AF1 & AF3').
      assert (Re2 : rep_slice m2 be el F3) by (apply (proj1 (proj2 (proj2 (rep_agree m1 m2)))); [apply (proj1 (proj2 (proj2 (rep_agree m m1)))); auto|exact AF3']).
      assert (DF3 : NoDup F3) by (apply nodup_app in DD2 as (_ & DD2 & _); apply nodup_app in DD2; tauto).
      pose proof (walk_ok s2 be el m2 F3 Re2 DF3) as X. destruct (walk s2 el) as [s3 l3| |]; [|now rewrite X|now rewrite X]. destruct X as (sl3 & m3 & F3' & -> & R3 & D3 & E3).
      assert (D23 : NoDup (F3 ++ F1' ++ (own OIf es ++ F2'))).
      { eapply Permutation_NoDup; [|exact DD2]. rewrite (app_assoc _ F1' F3). etransitivity; [apply Permutation_app_comm|]. apply Permutation_app_head, Permutation_app_comm. }
      assert (CF2 : forall o, In o (F1' ++ (own OIf es ++ F2')) -> cell_of m2 o <> None).
      { intros o I. rewrite !in_app_iff in I. destruct I as [I|[I|I]]; [rewrite AF1 by exact I; exact (proj1 (proj2 (proj2 (rep_cells m1))) _ _ _ R1 o I)|eapply fits_cell_ifs; eauto|].
        exact (proj2 (proj2 (proj2 (proj2 (rep_cells m2)))) _ _ _ Rf2 o I). }
      destruct (evolve_rest _ _ _ _ _ E3 D3 D23 CF2) as (DD3 & A3). assert (A3' : agree m2 m3 (F1' ++ own OIf es ++ F2')) by exact A3. rewrite !agree_app in A3'. destruct A3' as (B1 & B2 & B3).
      destruct (ifs_same _ _ _ Hf2 B2) as (Hf3 & Ep3).
      eexists _, m3, (F1' ++ (own OIf es ++ F2') ++ F3'). split; [reflexivity|]. split; [|split].
      - constructor; [constructor|exact Hf3|rewrite Ep3|exact R3].
        + apply (proj1 (proj2 (proj2 (rep_agree m2 m3)))); [apply (proj1 (proj2 (proj2 (rep_agree m1 m2)))); auto|exact B1].
        + now apply (proj2 (proj2 (proj2 (proj2 (rep_agree m2 m3))))).
      - eapply Permutation_NoDup; [|exact DD3]. replace (F1' ++ (own OIf es ++ F2') ++ F3') with ((F1' ++ own OIf es ++ F2') ++ F3') by (rewrite <- !app_assoc; reflexivity). apply Permutation_app_comm.
      - eapply evolve_trans; [exact (evolve_part _ _ _ _ [] _ E1)|]. cbn [app]. eapply evolve_trans; [exact (evolve_part _ _ _ _ F1' F3 E2)|].
        pose proof (evolve_part _ _ _ _ (F1' ++ own OIf es ++ F2') [] E3) as X. rewrite !app_nil_r in X. rewrite <- !app_assoc in *. exact X.
    Qed.

    Lemma loop_ok (cb : S -> option (option plugin) -> Z -> aprog S) k : forall s c hc m F, crep m c hc F -> NoDup F ->
      match apply_loop walk (on_values cb) k s c with
      | AOk s' l' => exists sl' m' F', h_loop spare hwalk cb k s hc m = HOk s' sl' m' /\ rep_slice m' sl' l' F' /\ NoDup F' /\ evolve m F m' F'
      | APanic => h_loop spare hwalk cb k s hc m = HPanic
      | AFuel => h_loop spare hwalk cb k s hc m = HFuel
      end.
    Proof.
      induction k as [|k IH]; intros s c hc m F R D; pose proof R as (Rs & Ei & Es); destruct (slice_inv _ _ _ _ Rs) as (G & EF & Hf & Rn & Len).
      - cbn [apply_loop h_loop]. rewrite Ei, <- Len. destruct (_ <=? _)%Z; [|reflexivity]. exists (hc_parent hc), m, F. split; [reflexivity|]. split; [exact Rs|]. split; [exact D|apply evolve_refl].
      - cbn [apply_loop h_loop]. rewrite Ei, <- Len. destruct (Z.leb_spec (Z.of_nat (List.length (k_parent c))) (k_index c)) as [L|L].
        { exists (hc_parent hc), m, F. split; [reflexivity|]. split; [exact Rs|]. split; [exact D|apply evolve_refl]. }
        set (c1 := Cursor (k_parent c) (k_index c) 1). set (hc1 := HCur (hc_parent hc) (k_index c) 1).
        assert (R1 : crep m c1 hc1 F) by exact (conj Rs (conj eq_refl eq_refl)).
        assert (NEXT : forall s' c' hc' m' F', crep m' c' hc' F' -> NoDup F' -> evolve m F m' F' ->
          match apply_loop walk (on_values cb) k s' (Cursor (k_parent c') (k_index c' + k_step c')%Z (k_step c')) with
          | AOk s'' l' => exists sl' m'' F'', h_loop spare hwalk cb k s' (HCur (hc_parent hc') (hc_index hc' + hc_step hc')%Z (hc_step hc')) m' = HOk s'' sl' m'' /\ rep_slice m'' sl' l' F'' /\ NoDup F'' /\ evolve m F m'' F''
          | APanic => h_loop spare hwalk cb k s' (HCur (hc_parent hc') (hc_index hc' + hc_step hc')%Z (hc_step hc')) m' = HPanic
          | AFuel => h_loop spare hwalk cb k s' (HCur (hc_parent hc') (hc_index hc' + hc_step hc')%Z (hc_step hc')) m' = HFuel
          end).
        { intros s' c' hc' m' F' (Q1 & Q2 & Q3) D' E'. specialize (IH s' (Cursor (k_parent c') (k_index c' + k_step c')%Z (k_step c')) (HCur (hc_parent hc') (hc_index hc' + hc_step hc')%Z (hc_step hc')) m' F').
          specialize (IH ltac:(split; [exact Q1|]; cbn; split; congruence) D').
          destruct (apply_loop _ _ _ _ _) as [s'' l'| |]; [|exact IH|exact IH]. destruct IH as (sl' & m'' & F'' & X1 & X2 & X3 & X4). exists sl', m'', F''. split; [exact X1|]. split; [exact X2|]. split; [exact X3|]. eapply evolve_trans; eassumption. }
        pose proof (at_ok m c1 hc1 F R1 D) as X. destruct (at_index c1) as [x|] eqn:Ex; [|now rewrite X]. destruct X as (h & Gh & Eh & Rh). rewrite Eh.
        assert (PL : h_plugin m hc1 = cursor_plugin c1) by (eapply plugin_ok; eassumption).
        assert (CALL : match match run_prog (on_values cb s c1) c1 with
                     | Some (s', c') => apply_loop walk (on_values cb) k s' (Cursor (k_parent c') (k_index c' + k_step c')%Z (k_step c'))
                     | None => APanic end with
          | AOk s'' l' => exists sl' m'' F'', match run_aprog spare (cb s (h_plugin m hc1) (k_index c)) m hc1 with
                     | Some (s', m', c') => h_loop spare hwalk cb k s' (HCur (hc_parent c') (hc_index c' + hc_step c')%Z (hc_step c')) m'
                     | None => HPanic end = HOk s'' sl' m'' /\ rep_slice m'' sl' l' F'' /\ NoDup F'' /\ evolve m F m'' F''
          | APanic => match run_aprog spare (cb s (h_plugin m hc1) (k_index c)) m hc1 with
                     | Some (s', m', c') => h_loop spare hwalk cb k s' (HCur (hc_parent c') (hc_index c' + hc_step c')%Z (hc_step c')) m'
                     | None => HPanic end = HPanic
          | AFuel => match run_aprog spare (cb s (h_plugin m hc1) (k_index c)) m hc1 with
                     | Some (s', m', c') => h_loop spare hwalk cb k s' (HCur (hc_parent c') (hc_index c' + hc_step c')%Z (hc_step c')) m'
                     | None => HPanic end = HFuel
          end).
        { rewrite PL. unfold on_values at 1. change (k_index c1) with (k_index c). pose proof (prog_ok (cb s (cursor_plugin c1) (k_index c)) m c1 hc1 F R1 D) as X.
          destruct (run_prog _ c1) as [[s' c']|]; [|now rewrite X]. destruct X as (m' & hc' & F' & -> & R' & D' & E'). exact (NEXT s' c' hc' m' F' R' D' E'). }
        destruct x as [|p|p|i' es' e']; inversion Rh; subst h; [exact CALL|exact CALL|reflexivity|].
        clear CALL. destruct R1 as (_ & _ & _). unfold at_index in Ex. unfold h_at in Eh. cbn [c1 hc1 k_parent k_index hc_parent hc_index] in Ex, Eh. destruct (k_index c <? 0)%Z; [discriminate|].
        set (n := Z.to_nat (k_index c)) in *. subst F.
        destruct (reps_at _ _ _ _ _ _ Rn Eh) as (y & P1 & P2 & P3 & Ey & -> & Q1 & Q2 & Q3). assert (y = BBranch i' es' (ElB ep el ecom efoot)) by congruence. subst y.
        assert (D2 : NoDup (P2 ++ own ONode (hc_parent hc) ++ P1 ++ P3)).
        { eapply Permutation_NoDup; [|exact D]. rewrite (app_assoc _ P1 (P2 ++ P3)), (app_assoc _ P1 P3). apply Permutation_app_swap_app. }
        pose proof (branch_ok s i es (HEl ep be ecom efoot) i' es' (ElB ep el ecom efoot) m P2 Q2 ltac:(apply nodup_app in D2; tauto)) as X.
        destruct (walk_branch walk s i' es' (ElB ep el ecom efoot)) as [[[s' x]|]|]; [|now rewrite X|now rewrite X].
        destruct X as (h & m1 & G2 & -> & Rx & DG & E1).
        assert (CR : forall o, In o (own ONode (hc_parent hc) ++ P1 ++ P3) -> cell_of m o <> None).
        { intros o I. apply (proj1 (proj2 (proj2 (rep_cells m))) _ _ _ Rs). rewrite !in_app_iff in *. tauto. }
        destruct (evolve_rest _ _ _ _ _ E1 DG D2 CR) as (D1 & A1). assert (A1' : agree m m1 (own ONode (hc_parent hc) ++ P1 ++ P3)) by exact A1. rewrite !agree_app in A1'. destruct A1' as (Ao & AF1 & AF3).
        destruct (nodes_same _ _ _ Hf Ao) as (Hf1 & Ee). pose proof (part_length _ _ Hf) as PLn. fold (elems m (hc_parent hc)) in PLn.
        assert (Hn : n < sl_len (hc_parent hc)) by (rewrite <- PLn; apply nth_error_Some; congruence).
        assert (D4 : NoDup (own ONode (hc_parent hc) ++ P1 ++ G2 ++ P3)).
        { eapply Permutation_NoDup; [|exact D1]. rewrite (app_assoc _ P1 P3), (app_assoc _ P1 (G2 ++ P3)). apply Permutation_app_swap_app. }
        destruct (write_rep m1 (hc_parent hc) n h (firstn n (k_parent c) ++ x :: skipn (Datatypes.S n) (k_parent c)) (P1 ++ G2 ++ P3) Hf1 Hn) as (R4 & E4).
        { rewrite Ee. apply reps_app; [now apply (proj1 (proj2 (rep_agree m m1)))|]. constructor; [exact Rx|now apply (proj1 (proj2 (rep_agree m m1)))]. }
        { exact D4. }
        refine (NEXT s' (set_index c1 _) hc1 _ _ (conj R4 (conj eq_refl eq_refl)) D4 _). eapply evolve_trans; [|exact E4].
        pose proof (evolve_part _ _ _ _ (own ONode (hc_parent hc) ++ P1) P3 E1) as X. rewrite <- !app_assoc in X. exact X.
    Qed.
  End Walk.

  (** ApplyPlugins on memory does what it does on values. *)
  Theorem apply_rep {S} (cb : S -> option (option plugin) -> Z -> aprog S) d : forall s sl l m F, rep_slice m sl l F -> NoDup F ->
    match apply_plugins d (on_values cb) s l with
    | AOk s' l' => exists sl' m' F', h_apply spare d cb s sl m = HOk s' sl' m' /\ rep_slice m' sl' l' F' /\ NoDup F' /\ evolve m F m' F'
    | APanic => h_apply spare d cb s sl m = HPanic
    | AFuel => h_apply spare d cb s sl m = HFuel
    end.
  Proof.
    induction d as [|d IH]; intros s sl l m F R D; cbn [apply_plugins h_apply]; [reflexivity|].
    destruct (slice_inv _ _ _ _ R) as (G & _ & _ & _ & <-). apply loop_ok; [exact IH|exact (conj R (conj eq_refl eq_refl))|exact D].
  Qed.

  (** ** Callbacks that only replace *)
  Inductive replaces {S} : aprog S -> Prop :=
  | rp_done s : replaces (ADone s)
  | rp_panic : replaces APanicked
  | rp_do x k : (forall p i, replaces (k p i)) -> replaces (ADo (CReplace x) k).
  Lemma replaces_slice {S} (p : aprog S) : replaces p -> forall m c s m' c', run_aprog spare p m c = Some (s, m', c') -> hc_parent c' = hc_parent c.
  Proof.
    intros H. induction H as [s0| |x k _ IH]; intros m c s m' c' E; cbn in E; [congruence|discriminate|].
    unfold run_hcop in E. destruct (_ <? _)%Z; [discriminate|]. destruct (fresh_node x m) as [h m1]. destruct (_ <? _); [|discriminate]. exact (IH _ _ _ _ _ _ _ E).
  Qed.
  Lemma replaces_loop {S} (cb : S -> option (option plugin) -> Z -> aprog S) walk k : (forall s p i, replaces (cb s p i)) ->
    forall s c m s' sl' m', h_loop spare walk cb k s c m = HOk s' sl' m' -> sl' = hc_parent c.
  Proof.
    intros H. induction k as [|k IH]; intros s c m s' sl' m' E; cbn [h_loop] in E; destruct (_ <=? _)%Z; [congruence|discriminate|congruence|].
    destruct (h_at _ _) as [[p| |p|i es e]|]; [| |discriminate| |discriminate].
    - destruct (run_aprog _ _ _ _) as [[[s1 m1] c1]|] eqn:ER; [|discriminate]. apply IH in E. cbn in E. rewrite E. exact (replaces_slice _ (H _ _ _) _ _ _ _ _ ER).
    - destruct (run_aprog _ _ _ _) as [[[s1 m1] c1]|] eqn:ER; [|discriminate]. apply IH in E. cbn in E. rewrite E. exact (replaces_slice _ (H _ _ _) _ _ _ _ _ ER).
    - destruct (h_branch _ _ _ _ _ _) as [[[[s1 x] m1]|]|]; [|discriminate|discriminate]. apply IH in E. exact E.
  Qed.
  Lemma replaces_apply {S} (cb : S -> option (option plugin) -> Z -> aprog S) d : (forall s p i, replaces (cb s p i)) ->
    forall s sl m s' sl' m', h_apply spare d cb s sl m = HOk s' sl' m' -> sl' = sl.
  Proof. intros H s sl m s' sl' m' E. destruct d; [discriminate|]. exact (replaces_loop _ _ _ H _ _ _ _ _ _ E). Qed.
End Grow.
