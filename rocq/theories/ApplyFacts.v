(** ApplyPlugins and Cursor: specification and proofs. *)
From Coq Require Import List ZArith Bool Arith Lia.
From Verif Require Import Bytes F64 Ast AstInd Apply.
Import ListNotations.

(** ** Specification *)

(** Walk a list from left to right, passing a state along and collecting lists. *)
Definition thread {S A B} (f : S -> A -> S * list B) : S -> list A -> S * list B :=
  fix go s l :=
    match l with
    | [] => (s, [])
    | x :: l' => let '(s1, ys) := f s x in let '(s2, r) := go s1 l' in (s2, ys ++ r)
    end.

(** The tree in which every plugin and every nil entry [x] is replaced by the
    nodes [snd (g s x)], depth first in document order: the block of an if, the
    else-ifs in order, the else. *)
Section Rewrite.
  Context {S : Type}.
  Variable g : S -> bop -> S * list bop.
  Fixpoint rewrite_bop (s : S) (x : bop) : S * list bop :=
    match x with
    | BBranch (IfB p c l com foot) es (ElB ep el ecom efoot) =>
        let '(s1, l') := thread rewrite_bop s l in
        let '(s2, es') := thread (fun s e => match e with IfB p c l com foot =>
                             let '(s', l') := thread rewrite_bop s l in (s', [IfB p c l' com foot]) end) s1 es in
        let '(s3, el') := thread rewrite_bop s2 el in
        (s3, [BBranch (IfB p c l' com foot) es' (ElB ep el' ecom efoot)])
    | BPluginPtr _ => (s, [x])
    | _ => g s x
    end.
  Definition rewrite_bops := thread rewrite_bop.
End Rewrite.

(** No pointer-to-plugin entries (the parser creates none). *)
Fixpoint no_ptr (x : bop) : Prop :=
  match x with
  | BPluginPtr _ => False
  | BBranch (IfB _ _ l _ _) es (ElB _ el _ _) =>
      (fix all l := match l with [] => True | y :: l' => no_ptr y /\ all l' end) l
      /\ (fix alls es := match es with [] => True
          | IfB _ _ l _ _ :: es' =>
              (fix all l := match l with [] => True | y :: l' => no_ptr y /\ all l' end) l /\ alls es' end) es
      /\ (fix all l := match l with [] => True | y :: l' => no_ptr y /\ all l' end) el
  | _ => True
  end.

(** A callback that replaces the visited entry [x] by the nodes [snd (g s x)],
    wherever [x] stands. *)
Definition local_on {S} (ok : bop -> Prop) (cb : S -> cursor -> prog S) (g : S -> bop -> S * list bop) : Prop :=
  forall s x pre post,
    ok x -> (x = BNil \/ exists p, x = BPlugin p) ->
    let c := Cursor (pre ++ x :: post) (Z.of_nat (List.length pre)) 1 in
    run_prog (cb s c) c =
    Some (fst (g s x),
          Cursor (pre ++ snd (g s x) ++ post) (Z.of_nat (List.length pre))
                 (Z.of_nat (List.length (snd (g s x))))).
Definition local {S} := @local_on S (fun _ => True).

(** The plugins and nil entries of a tree in document order *)
Fixpoint entries (x : bop) : list bop :=
  match x with
  | BBranch (IfB _ _ l _ _) es (ElB _ el _ _) =>
      flat_map entries l ++ flat_map (fun e => match e with IfB _ _ l _ _ => flat_map entries l end) es
      ++ flat_map entries el
  | BPluginPtr _ => []
  | _ => [x]
  end.

(** Callbacks given by a list of cursor operations, and their effect: [ys] is
    what currently stands for the visited entry, the cursor being on its head.
    [None]: the operation would touch a following entry (after Delete). *)
Definition local_op (ys : list bop) (op : cop) : option (list bop) :=
  match op, ys with
  | CInsertBefore y, _ => Some (y :: ys)
  | CReplace y, _ :: r => Some (y :: r)
  | CInsertAfter y, x :: r => Some (x :: y :: r)
  | CDelete, _ :: r => Some r
  | _, [] => None
  end.
Fixpoint local_ops (ops : list cop) (ys : list bop) : option (list bop) :=
  match ops with
  | [] => Some ys
  | op :: ops' => match local_op ys op with Some ys' => local_ops ops' ys' | None => None end
  end.
Fixpoint do_ops {S} (ops : list cop) (s : S) : prog S :=
  match ops with [] => PDone s | op :: ops' => PDo op (fun _ => do_ops ops' s) end.

(** ** Proofs *)

Lemma no_ptr_branch i es e :
  no_ptr (BBranch i es e) <->
  Forall no_ptr (block i) /\ Forall (fun x => Forall no_ptr (block x)) es /\ Forall no_ptr (eblock e).
Proof.
  destruct i as [p c l com foot], e as [ep el ecom efoot]. cbn [block eblock no_ptr].
  assert (A : forall l, (fix all l := match l with [] => True | y :: l' => no_ptr y /\ all l' end) l <-> Forall no_ptr l).
  { clear. induction l as [|y l IH]; [split; constructor|]. rewrite IH. split.
    - intros [H1 H2]; constructor; auto.
    - intros H; inversion H; auto. }
  rewrite !A.
  assert (B : forall es, (fix alls es := match es with [] => True
          | IfB _ _ l _ _ :: es' =>
              (fix all l := match l with [] => True | y :: l' => no_ptr y /\ all l' end) l /\ alls es' end) es
       <-> Forall (fun x => Forall no_ptr (block x)) es).
  { clear - A. induction es as [|[p c l com foot] es IH]; [split; constructor|]. rewrite IH, A. split.
    - intros [H1 H2]; constructor; auto.
    - intros H; inversion H; auto. }
  now rewrite B.
Qed.

Lemma bop_depth_branch i es e :
  bop_depth (BBranch i es e) =
  S (Nat.max (bops_depth (block i))
       (Nat.max (fold_right (fun y n => Nat.max (bops_depth (block y)) n) 0 es) (bops_depth (eblock e)))).
Proof.
  destruct i, e. cbn [bop_depth block eblock]. do 3 f_equal.
  induction es as [|[] es IH]; [reflexivity|]. cbn. now rewrite IH.
Qed.

Lemma nth_error_pre {A} (pre post : list A) x : nth_error (pre ++ x :: post) (List.length pre) = Some x.
Proof. rewrite nth_error_app2 by lia. now rewrite Nat.sub_diag. Qed.
Lemma firstn_pre {A} (pre post : list A) : firstn (List.length pre) (pre ++ post) = pre.
Proof. rewrite firstn_app, Nat.sub_diag, firstn_all. cbn. now rewrite app_nil_r. Qed.
Lemma skipn_pre {A} (pre post : list A) : skipn (List.length pre) (pre ++ post) = post.
Proof. rewrite skipn_app, Nat.sub_diag, skipn_all. reflexivity. Qed.
Lemma skipn_pre_S {A} (pre post : list A) x : skipn (S (List.length pre)) (pre ++ x :: post) = post.
Proof.
  change (pre ++ x :: post) with (pre ++ [x] ++ post). rewrite app_assoc.
  replace (S (List.length pre)) with (List.length (pre ++ [x])) by (rewrite app_length; cbn; lia).
  apply skipn_pre.
Qed.

Lemma at_index_pre pre x post st :
  at_index (Cursor (pre ++ x :: post) (Z.of_nat (List.length pre)) st) = Some x.
Proof.
  unfold at_index. cbn. destruct (Z.ltb_spec (Z.of_nat (List.length pre)) 0); [lia|].
  rewrite Nat2Z.id. apply nth_error_pre.
Qed.

Lemma run_cop_local op ys ys' pre post :
  local_op ys op = Some ys' ->
  run_cop op (Cursor (pre ++ ys ++ post) (Z.of_nat (List.length pre)) (Z.of_nat (List.length ys)))
  = Some (Cursor (pre ++ ys' ++ post) (Z.of_nat (List.length pre)) (Z.of_nat (List.length ys'))).
Proof.
  intros H. unfold run_cop. cbn [k_parent k_index k_step].
  destruct (Z.ltb_spec (Z.of_nat (List.length pre)) 0); [lia|]. rewrite Nat2Z.id.
  destruct op, ys as [|z ys]; cbn in H; inversion H; subst; clear H.
  - replace (List.length pre <? _) with true by (symmetry; apply Nat.ltb_lt; rewrite app_length; cbn; lia).
    cbn [app]. rewrite firstn_pre, skipn_pre_S. do 2 f_equal. cbn [List.length]. lia.
  - replace (List.length pre <? _) with true by (symmetry; apply Nat.ltb_lt; rewrite app_length; cbn; lia).
    cbn [app]. rewrite firstn_pre, skipn_pre_S. reflexivity.
  - replace (List.length pre <=? _) with true by (symmetry; apply Nat.leb_le; rewrite app_length; cbn; lia).
    rewrite firstn_pre, skipn_pre. do 2 f_equal.
  - replace (List.length pre <=? _) with true by (symmetry; apply Nat.leb_le; rewrite app_length; cbn; lia).
    rewrite firstn_pre, skipn_pre. do 2 f_equal. cbn [List.length]. lia.
  - replace (List.length pre <? _) with true by (symmetry; apply Nat.ltb_lt; rewrite app_length; cbn; lia).
    cbn [app]. rewrite skipn_pre_S.
    change (pre ++ z :: ys ++ post) with (pre ++ [z] ++ ys ++ post). rewrite app_assoc.
    replace (S (List.length pre)) with (List.length (pre ++ [z])) by (rewrite app_length; cbn; lia).
    rewrite firstn_pre, <- app_assoc. do 2 f_equal. cbn [List.length]. lia.
Qed.

Lemma run_do_ops {S} ops (s : S) ys ys' pre post :
  local_ops ops ys = Some ys' ->
  run_prog (do_ops ops s) (Cursor (pre ++ ys ++ post) (Z.of_nat (List.length pre)) (Z.of_nat (List.length ys)))
  = Some (s, Cursor (pre ++ ys' ++ post) (Z.of_nat (List.length pre)) (Z.of_nat (List.length ys'))).
Proof.
  revert ys; induction ops as [|op ops IH]; intros ys H; cbn in *.
  - inversion H; subst. reflexivity.
  - destruct (local_op ys op) as [y1|] eqn:E; [|discriminate].
    rewrite (run_cop_local _ _ _ _ _ E). auto.
Qed.

(** Callbacks that choose operations by looking at the visited entry are local. *)
Lemma ops_local {S} (next : S -> bop -> S) (ops : S -> bop -> list cop) (g : S -> bop -> S * list bop) :
  (forall s x, local_ops (ops s x) [x] = Some (snd (g s x)) /\ fst (g s x) = next s x) ->
  local (fun s c => match at_index c with
                    | Some x => do_ops (ops s x) (next s x)
                    | None => PPanic end) g.
Proof.
  intros H s x pre post _ Hx c. subst c. rewrite at_index_pre.
  destruct (H s x) as [H1 ->]. exact (run_do_ops _ (next s x) [x] _ pre post H1).
Qed.

Section Correct.
  Context {S : Type}.
  Variable cb : S -> cursor -> prog S.
  Variable g : S -> bop -> S * list bop.
  Variable ok : bop -> Prop.
  Hypothesis Hlocal : local_on ok cb g.

  Definition walk_ok (walk : S -> list bop -> aout S) (l : list bop) : Prop :=
    forall s, walk s l = AOk (fst (rewrite_bops g s l)) (snd (rewrite_bops g s l)).

  Lemma walk_blocks_ok walk es :
    Forall (fun x => walk_ok walk (block x)) es ->
    forall s, walk_blocks walk s es =
      Some (Some (thread (fun s e => match e with IfB p c l com foot =>
                             let '(s', l') := thread (rewrite_bop g) s l in (s', [IfB p c l' com foot]) end) s es)).
  Proof.
    induction 1 as [|[p c l com foot] es H Hes IH]; intros s; [reflexivity|].
    cbn [block] in H. cbn [walk_blocks]. rewrite (H s). unfold rewrite_bops.
    cbn [thread]. fold (@thread S ifblock ifblock). destruct (thread (rewrite_bop g) s l) as [s1 l'] eqn:E. cbn [fst snd].
    rewrite IH. destruct (thread _ s1 es) as [s2 es2]. reflexivity.
  Qed.

  Lemma walk_branch_ok walk i es e :
    walk_ok walk (block i) -> Forall (fun x => walk_ok walk (block x)) es -> walk_ok walk (eblock e) ->
    forall s, exists x', rewrite_bop g s (BBranch i es e) = (fst (rewrite_bop g s (BBranch i es e)), [x']) /\
      walk_branch walk s i es e = Some (Some (fst (rewrite_bop g s (BBranch i es e)), x')).
  Proof.
    intros Hi Hes He s. destruct i as [p c l com foot], e as [ep el ecom efoot]. cbn [block eblock] in *.
    cbn [rewrite_bop walk_branch]. rewrite (Hi s). unfold rewrite_bops.
    destruct (thread (rewrite_bop g) s l) as [s1 l'] eqn:E1. cbn [fst snd].
    rewrite (walk_blocks_ok walk es Hes).
    destruct (thread _ s1 es) as [s2 es2] eqn:E2.
    rewrite (He s2). unfold rewrite_bops.
    destruct (thread (rewrite_bop g) s2 el) as [s3 el'] eqn:E3. cbn [fst snd]. eauto.
  Qed.

  Lemma apply_loop_ok walk todo :
    Forall (fun x => match x with
                     | BBranch i es e => walk_ok walk (block i) /\ Forall (fun y => walk_ok walk (block y)) es /\ walk_ok walk (eblock e)
                     | BPluginPtr _ => False
                     | _ => ok x end) todo ->
    forall k s pre st, List.length todo <= k ->
      apply_loop walk cb k s (Cursor (pre ++ todo) (Z.of_nat (List.length pre)) st)
      = AOk (fst (rewrite_bops g s todo)) (pre ++ snd (rewrite_bops g s todo)).
  Proof.
    induction 1 as [|x todo Hx Htodo IH]; intros k s pre st Hk.
    - destruct k; cbn [apply_loop k_parent k_index]; rewrite app_nil_r, Z.leb_refl; cbn; now rewrite app_nil_r.
    - destruct k as [|k]; [cbn in Hk; lia|]. cbn [List.length] in Hk.
      cbn [apply_loop k_parent k_index].
      destruct (Z.leb_spec (Z.of_nat (List.length (pre ++ x :: todo))) (Z.of_nat (List.length pre))) as [L|_];
        [rewrite app_length in L; cbn in L; lia|].
      rewrite at_index_pre.
      assert (K : forall s' ys, rewrite_bop g s x = (s', ys) ->
        apply_loop walk cb k s' (Cursor (pre ++ ys ++ todo) (Z.of_nat (List.length pre) + Z.of_nat (List.length ys))%Z (Z.of_nat (List.length ys)))
        = AOk (fst (rewrite_bops g s (x :: todo))) (pre ++ snd (rewrite_bops g s (x :: todo)))).
      { intros s' ys E. rewrite app_assoc, <- Nat2Z.inj_add, <- app_length, IH by lia.
        unfold rewrite_bops. cbn [thread]. rewrite E. fold (@thread S bop bop).
        destruct (thread (rewrite_bop g) s' todo) as [s2 r]. cbn. now rewrite app_assoc. }
      destruct x as [|p|p|i es e].
      + rewrite (Hlocal s BNil pre todo) by auto. cbn [k_parent k_index k_step].
        apply K. cbn. now destruct (g s BNil).
      + rewrite (Hlocal s (BPlugin p) pre todo) by eauto. cbn [k_parent k_index k_step].
        apply K. cbn. now destruct (g s (BPlugin p)).
      + contradiction.
      + destruct Hx as (H1 & H2 & H3). destruct (walk_branch_ok walk i es e H1 H2 H3 s) as (x' & E1 & E2).
        rewrite E2. unfold set_index. cbn [k_parent k_index k_step].
        rewrite Nat2Z.id, firstn_pre, skipn_pre_S. exact (K _ _ E1).
  Qed.

  Lemma max_forall (es : list ifblock) d :
    fold_right (fun y n => Nat.max (bops_depth (block y)) n) 0 es < d ->
    Forall (fun y => bops_depth (block y) < d) es.
  Proof. induction es; cbn; constructor; [|apply IHes]; lia. Qed.
  Lemma max_forall_bops (l : list bop) d : bops_depth l < d -> Forall (fun y => bop_depth y < d) l.
  Proof. induction l; cbn; constructor; [|apply IHl]; unfold bops_depth in *; lia. Qed.

  Lemma apply_plugins_on d : forall root s,
    Forall no_ptr root -> Forall ok (flat_map entries root) -> bops_depth root < d ->
    apply_plugins d cb s root = AOk (fst (rewrite_bops g s root)) (snd (rewrite_bops g s root)).
  Proof.
    induction d as [|d IH]; intros root s Hp Ho Hd; [lia|].
    cbn [apply_plugins].
    rewrite <- (app_nil_l (snd (rewrite_bops g s root))).
    apply (apply_loop_ok (apply_plugins d cb) root) with (pre := []); [|lia].
    pose proof (max_forall_bops root (Datatypes.S d) Hd) as Hm.
    rewrite Forall_flat_map in Ho.
    rewrite Forall_forall in *. intros x Hx. specialize (Hp x Hx). specialize (Hm x Hx). specialize (Ho x Hx).
    destruct x as [|p|p|i es e]; auto; try (cbn in Ho; inversion Ho; assumption).
    apply no_ptr_branch in Hp as (P1 & P2 & P3). rewrite bop_depth_branch in Hm.
    assert (O : Forall ok (flat_map entries (block i)) /\ Forall (fun y => Forall ok (flat_map entries (block y))) es
                /\ Forall ok (flat_map entries (eblock e))).
    { destruct i, e. cbn [entries block eblock] in *. apply Forall_app in Ho as [O1 O2]. apply Forall_app in O2 as [O2 O3].
      split; [exact O1|split; [|exact O3]]. apply Forall_flat_map in O2. eapply Forall_impl; [|exact O2]. now intros []. }
    destruct O as (O1 & O2 & O3).
    split; [|split].
    - intros s'. apply IH; [exact P1|exact O1|lia].
    - assert (M : Forall (fun y => bops_depth (block y) < d) es) by (apply max_forall; lia).
      rewrite Forall_forall in *. intros y Hy s'. apply IH; [exact (P2 y Hy)|exact (O2 y Hy)|exact (M y Hy)].
    - intros s'. apply IH; [exact P3|exact O3|lia].
  Qed.
End Correct.
Lemma apply_plugins_ok {S} (cb : S -> cursor -> prog S) g : local cb g -> forall d root s,
  Forall no_ptr root -> bops_depth root < d ->
  apply_plugins d cb s root = AOk (fst (rewrite_bops g s root)) (snd (rewrite_bops g s root)).
Proof. intros L d root s H1 H2. apply (apply_plugins_on _ _ _ L); auto. apply Forall_forall. auto. Qed.

(** ** Inspecting callbacks *)


Definition seen {S} (f : S -> bop -> S) (s : S) (x : bop) : S * list bop := (f s x, [x]).

Lemma thread_seen {S A B} (f : S -> A -> S * list B) (h : S -> A -> S) (k : A -> B) l :
  Forall (fun x => forall s, f s x = (h s x, [k x])) l ->
  forall s, thread f s l = (fold_left h l s, map k l).
Proof.
  induction 1 as [|x l Hx Hl IH]; intros s; [reflexivity|]. cbn [thread].
  rewrite Hx. fold (@thread S A B). rewrite IH. reflexivity.
Qed.

Lemma fold_left_flat_map {S A B} (f : S -> B -> S) (k : A -> list B) l s :
  fold_left f (flat_map k l) s = fold_left (fun s x => fold_left f (k x) s) l s.
Proof. revert s; induction l; intros s; cbn; [reflexivity|]. now rewrite fold_left_app. Qed.

Lemma rewrite_seen {S} (f : S -> bop -> S) x :
  forall s, rewrite_bop (seen f) s x = (fold_left f (entries x) s, [x]).
Proof.
  induction x as [|p|p|i es e Hi Hes He] using bop_ind'; intros s; try reflexivity.
  destruct i as [p c l com foot], e as [ep el ecom efoot]. cbn [block eblock] in *. cbn [rewrite_bop entries].
  rewrite (thread_seen _ (fun s x => fold_left f (entries x) s) (fun x => x) l Hi s), map_id.
  rewrite (thread_seen _ (fun s e => fold_left f (match e with IfB _ _ l _ _ => flat_map entries l end) s) (fun x => x) es).
  - rewrite (thread_seen _ (fun s x => fold_left f (entries x) s) (fun x => x) el He), !map_id.
    rewrite !fold_left_app, !fold_left_flat_map. reflexivity.
  - eapply Forall_impl; [|exact Hes]. intros [p1 c1 l1 com1 foot1] H1 s1. cbn [block] in H1.
    rewrite (thread_seen _ (fun s x => fold_left f (entries x) s) (fun x => x) l1 H1), map_id.
    now rewrite fold_left_flat_map.
Qed.

Lemma rewrite_seen_list {S} (f : S -> bop -> S) l s :
  rewrite_bops (seen f) s l = (fold_left f (flat_map entries l) s, l).
Proof.
  unfold rewrite_bops. rewrite (thread_seen _ (fun s x => fold_left f (entries x) s) (fun x => x)).
  - now rewrite map_id, fold_left_flat_map.
  - apply Forall_forall. intros x _ s'. apply rewrite_seen.
Qed.

Definition inspect {S} (f : S -> bop -> S) : S -> cursor -> prog S :=
  fun s c => match at_index c with Some x => PDone (f s x) | None => PPanic end.

Lemma inspect_local {S} (f : S -> bop -> S) : local (inspect f) (seen f).
Proof. intros s x pre post _ Hx c. subst c. unfold inspect. now rewrite at_index_pre. Qed.

Lemma apply_inspect {S} (f : S -> bop -> S) d root s :
  Forall no_ptr root -> bops_depth root < d ->
  apply_plugins d (inspect f) s root = AOk (fold_left f (flat_map entries root) s) root.
Proof.
  intros H1 H2. rewrite (apply_plugins_ok _ _ (inspect_local f) d root s H1 H2).
  now rewrite rewrite_seen_list.
Qed.

(** Visited sequence *)
Lemma fold_snoc {A} (l acc : list A) : fold_left (fun a x => a ++ [x]) l acc = acc ++ l.
Proof. revert acc; induction l; intros acc; cbn; [now rewrite app_nil_r|]. rewrite IHl, <- app_assoc. reflexivity. Qed.

(** ** The loop always terminates: the distance of the cursor from the end
    decreases by exactly one per iteration, whatever the callback does. *)
Definition dist (c : cursor) : Z := (Z.of_nat (List.length (k_parent c)) - k_index c - k_step c)%Z.

Lemma run_cop_dist op c c' : run_cop op c = Some c' -> dist c' = dist c /\ k_index c' = k_index c.
Proof.
  unfold run_cop, dist. destruct (Z.ltb_spec (k_index c) 0); [discriminate|].
  destruct op;
    (destruct (_ <? _) eqn:E || destruct (_ <=? _) eqn:E); intros K; try discriminate K;
    match type of K with Some ?a = Some _ => assert (A : c' = a) by congruence; subst c'; clear K end;
    (apply Nat.ltb_lt in E || apply Nat.leb_le in E); cbn [k_parent k_index k_step];
    (split; [|reflexivity]); rewrite app_length; cbn [List.length]; rewrite firstn_length, skipn_length; lia.
Qed.
Lemma run_prog_dist {S} (p : prog S) : forall c s c', run_prog p c = Some (s, c') ->
  dist c' = dist c /\ k_index c' = k_index c.
Proof.
  induction p as [s| |op k IH]; intros c s1 c' H; cbn in H.
  - inversion H; auto.
  - discriminate.
  - destruct (run_cop op c) as [c1|] eqn:E; [|discriminate].
    apply run_cop_dist in E as [E1 E2]. apply IH in H as [H1 H2]. split; congruence.
Qed.

Lemma apply_loop_terminates {S} (walk : S -> list bop -> aout S) (cb : S -> cursor -> prog S) k :
  (forall s l, walk s l <> AFuel) ->
  forall s c, (Z.of_nat (List.length (k_parent c)) - k_index c <= Z.of_nat k)%Z ->
    apply_loop walk cb k s c <> AFuel.
Proof.
  intros Hw. assert (Hb : forall s i es e, walk_branch walk s i es e <> None).
  { assert (Hes : forall es s, walk_blocks walk s es <> None).
    { induction es as [|[p c l com foot] es IH]; intros s; cbn; [discriminate|].
      pose proof (Hw s l). destruct (walk s l) as [s1 l1| |]; try congruence.
      specialize (IH s1). destruct (walk_blocks walk s1 es) as [[[s2 es2]|]|]; congruence. }
    intros s [p c l com foot] es [ep el ecom efoot]. cbn.
    pose proof (Hw s l). destruct (walk s l) as [s1 l1| |]; try congruence.
    pose proof (Hes es s1). destruct (walk_blocks walk s1 es) as [[[s2 es2]|]|]; try congruence.
    pose proof (Hw s2 el). destruct (walk s2 el); congruence. }
  induction k as [|k IH]; intros s c Hk.
  - cbn [apply_loop]. destruct (Z.leb_spec (Z.of_nat (List.length (k_parent c))) (k_index c)); [discriminate|].
    cbn in Hk. lia.
  - cbn [apply_loop]. destruct (Z.leb_spec (Z.of_nat (List.length (k_parent c))) (k_index c)) as [L|L]; [discriminate|].
    destruct (at_index _) as [x|] eqn:Ex; [|discriminate].
    assert (N : forall s' c', run_prog (cb s (Cursor (k_parent c) (k_index c) 1)) (Cursor (k_parent c) (k_index c) 1) = Some (s', c') ->
      apply_loop walk cb k s' (Cursor (k_parent c') (k_index c' + k_step c')%Z (k_step c')) <> AFuel).
    { intros s' c' E. apply run_prog_dist in E as [E1 E2]. apply IH. unfold dist in E1. cbn in *. lia. }
    destruct x as [|p|p|i es e].
    + destruct (run_prog _ _) as [[s' c']|] eqn:E; [apply (N _ _ eq_refl)|discriminate].
    + destruct (run_prog _ _) as [[s' c']|] eqn:E; [apply (N _ _ eq_refl)|discriminate].
    + discriminate.
    + pose proof (Hb s i es e). destruct (walk_branch walk s i es e) as [[[s' x]|]|]; try congruence.
      apply IH. unfold set_index. cbn [k_parent k_index k_step].
      unfold at_index in Ex. cbn in Ex. destruct (Z.ltb_spec (k_index c) 0); [discriminate|].
      assert (Z.to_nat (k_index c) < List.length (k_parent c)) by (apply nth_error_Some; congruence).
      rewrite app_length, firstn_length. cbn [List.length]. rewrite skipn_length. lia.
Qed.

(** ** What an inspecting callback sees: parent list and index at each visit *)
Fixpoint visits_bop (parent : list bop) (i : nat) (x : bop) : list cursor :=
  let all l := (fix go (j : nat) (m : list bop) : list cursor :=
     match m with [] => [] | y :: m' => visits_bop l j y ++ go (S j) m' end) 0 l in
  match x with
  | BBranch (IfB _ _ l _ _) es (ElB _ el _ _) =>
      all l ++ flat_map (fun e => match e with IfB _ _ l _ _ => all l end) es ++ all el
  | BPluginPtr _ => []
  | _ => [Cursor parent (Z.of_nat i) 1]
  end.
Fixpoint visits_from (parent : list bop) (j : nat) (m : list bop) : list cursor :=
  match m with [] => [] | y :: m' => visits_bop parent j y ++ visits_from parent (S j) m' end.
Definition visits (l : list bop) : list cursor := visits_from l 0 l.

Lemma visits_branch parent i ib es e :
  visits_bop parent i (BBranch ib es e) =
  visits (block ib) ++ flat_map (fun e => visits (block e)) es ++ visits (eblock e).
Proof.
  assert (G : forall l m j, (fix go (j : nat) (m : list bop) : list cursor :=
     match m with [] => [] | y :: m' => visits_bop l j y ++ go (S j) m' end) j m = visits_from l j m).
  { intros l. induction m as [|y m IH]; intros j; [reflexivity|]. cbn [visits_from]. now rewrite IH. }
  destruct ib as [p c l com foot], e as [ep el ecom efoot]. cbn [visits_bop block eblock].
  rewrite !G. unfold visits. do 2 f_equal.
  apply flat_map_ext. intros [p1 c1 l1 com1 foot1]. apply G.
Qed.

Section Visits.
  Context {S : Type}.
  Variable f : S -> cursor -> S.
  Let cb : S -> cursor -> prog S := fun s c => PDone (f s c).
  Definition visit_ok (walk : S -> list bop -> aout S) (l : list bop) : Prop :=
    forall s, walk s l = AOk (fold_left f (visits l) s) l.

  Lemma visit_blocks walk es : Forall (fun x => visit_ok walk (block x)) es ->
    forall s, walk_blocks walk s es = Some (Some (fold_left f (flat_map (fun e => visits (block e)) es) s, es)).
  Proof.
    induction 1 as [|[p c l com foot] es H Hes IH]; intros s; [reflexivity|].
    cbn [block flat_map] in *. cbn [walk_blocks]. rewrite (H s), IH, fold_left_app. reflexivity.
  Qed.
  Lemma visit_loop walk parent todo :
    Forall (fun x => match x with
                     | BBranch i es e => visit_ok walk (block i) /\ Forall (fun y => visit_ok walk (block y)) es /\ visit_ok walk (eblock e)
                     | BPluginPtr _ => False
                     | _ => True end) todo ->
    forall k s pre st, parent = pre ++ todo -> List.length todo <= k ->
      apply_loop walk cb k s (Cursor parent (Z.of_nat (List.length pre)) st)
      = AOk (fold_left f (visits_from parent (List.length pre) todo) s) parent.
  Proof.
    induction 1 as [|x todo Hx Htodo IH]; intros k s pre st -> Hk.
    - destruct k; cbn [apply_loop k_parent k_index]; rewrite app_nil_r, Z.leb_refl; reflexivity.
    - destruct k as [|k]; [cbn in Hk; lia|]. cbn [List.length] in Hk.
      cbn [apply_loop k_parent k_index].
      destruct (Z.leb_spec (Z.of_nat (List.length (pre ++ x :: todo))) (Z.of_nat (List.length pre))) as [L|_];
        [rewrite app_length in L; cbn in L; lia|].
      rewrite at_index_pre. cbn [visits_from]. rewrite fold_left_app.
      assert (K : forall s', apply_loop walk cb k s' (Cursor (pre ++ x :: todo) (Z.of_nat (List.length pre) + 1)%Z 1)
        = AOk (fold_left f (visits_from (pre ++ x :: todo) (Datatypes.S (List.length pre)) todo) s') (pre ++ x :: todo)).
      { intros s'. replace (Z.of_nat (List.length pre) + 1)%Z with (Z.of_nat (List.length (pre ++ [x])))
          by (rewrite app_length; cbn; lia).
        rewrite (IH k s' (pre ++ [x]) 1%Z) by (try lia; now rewrite <- app_assoc).
        do 2 f_equal. rewrite app_length; cbn. now rewrite Nat.add_1_r. }
      destruct x as [|p|p|i es e].
      + exact (K _).
      + exact (K _).
      + contradiction.
      + destruct Hx as (H1 & H2 & H3). unfold walk_branch. rewrite visits_branch.
        destruct i as [p c l com foot], e as [ep el ecom efoot]. cbn [block eblock] in *.
        rewrite (H1 s), (visit_blocks walk es H2), (H3 _). unfold set_index. cbn [k_parent k_index k_step].
        rewrite Nat2Z.id, firstn_pre, skipn_pre_S, !fold_left_app. exact (K _).
  Qed.
  Lemma apply_visits d : forall root s, Forall no_ptr root -> bops_depth root < d ->
    apply_plugins d cb s root = AOk (fold_left f (visits root) s) root.
  Proof.
    induction d as [|d IH]; intros root s Hp Hd; [lia|].
    cbn [apply_plugins]. unfold visits.
    apply (visit_loop (apply_plugins d cb) root root) with (pre := []); [|reflexivity|lia].
    pose proof (max_forall_bops root (Datatypes.S d) Hd) as Hm.
    rewrite Forall_forall in *. intros x Hx. specialize (Hp x Hx). specialize (Hm x Hx).
    destruct x as [|p|p|i es e]; auto.
    apply no_ptr_branch in Hp as (P1 & P2 & P3). rewrite bop_depth_branch in Hm.
    split; [|split].
    - intros s'. apply IH; [exact P1|lia].
    - assert (M : Forall (fun y => bops_depth (block y) < d) es) by (apply max_forall; lia).
      rewrite Forall_forall in *. intros y Hy s'. apply IH; [exact (P2 y Hy)|exact (M y Hy)].
    - intros s'. apply IH; [exact P3|lia].
  Qed.
End Visits.

Lemma map_flat_map {A B C} (f : B -> C) (g : A -> list B) l : map f (flat_map g l) = flat_map (fun x => map f (g x)) l.
Proof. induction l; cbn; [reflexivity|]. now rewrite map_app, IHl. Qed.

Lemma visits_entries l : map at_index (visits l) = map Some (flat_map entries l).
Proof.
  assert (G : forall x pre post, map at_index (visits_bop (pre ++ x :: post) (List.length pre) x) = map Some (entries x)).
  { intros x. induction x as [|p|p|i es e Hi Hes He] using bop_ind'; intros pre post.
    - cbn [visits_bop entries map]. now rewrite at_index_pre.
    - cbn [visits_bop entries map]. now rewrite at_index_pre.
    - reflexivity.
    - rewrite visits_branch.
      assert (K : forall l, Forall (fun x => forall pre post, map at_index (visits_bop (pre ++ x :: post) (List.length pre) x) = map Some (entries x)) l ->
         map at_index (visits l) = map Some (flat_map entries l)).
      { intros m Hm. unfold visits.
        assert (Q : forall m' pre', m = pre' ++ m' -> map at_index (visits_from m (List.length pre') m') = map Some (flat_map entries m')).
        { induction m' as [|y m' IH]; intros pre' E; [reflexivity|]. cbn [visits_from flat_map].
          rewrite !map_app. f_equal.
          - subst m. apply Forall_app in Hm as [_ Hm]. inversion Hm; auto.
          - specialize (IH (pre' ++ [y])). rewrite app_length in IH; cbn in IH.
            rewrite Nat.add_1_r in IH. apply IH. subst m. now rewrite <- app_assoc. }
        apply (Q m []). reflexivity. }
      destruct i as [p c l0 com foot], e as [ep el ecom efoot]. cbn [block eblock entries] in *.
      rewrite !map_app, (K l0 Hi), (K el He). do 2 f_equal.
      rewrite !map_flat_map. clear Hi He.
      induction Hes as [|[p1 c1 l1 com1 foot1] es H1 Hes IH]; [reflexivity|]. cbn [flat_map block] in *.
      now rewrite (K l1 H1), IH. }
  unfold visits. assert (Q : forall m' pre', l = pre' ++ m' -> map at_index (visits_from l (List.length pre') m') = map Some (flat_map entries m')).
  { induction m' as [|y m' IH]; intros pre' E; [reflexivity|]. cbn [visits_from flat_map].
    rewrite !map_app. f_equal.
    - subst l. apply G.
    - specialize (IH (pre' ++ [y])). rewrite app_length in IH; cbn in IH.
      rewrite Nat.add_1_r in IH. apply IH. subst l. now rewrite <- app_assoc. }
  apply (Q l []). reflexivity.
Qed.

Lemma apply_inspect_list d root :
  Forall no_ptr root -> bops_depth root < d ->
  apply_plugins d (inspect (fun l x => l ++ [x])) [] root = AOk (flat_map entries root) root.
Proof. intros H1 H2. rewrite apply_inspect by assumption. now rewrite fold_snoc. Qed.

Lemma apply_edits {S : Type} (next : S -> bop -> S) (ops : S -> bop -> list cop) (g : S -> bop -> S * list bop) :
  (forall s x, local_ops (ops s x) [x] = Some (snd (g s x)) /\ fst (g s x) = next s x) ->
  forall d root s, Forall no_ptr root -> bops_depth root < d ->
  apply_plugins d (fun s c => match at_index c with
                    | Some x => do_ops (ops s x) (next s x)
                    | None => PPanic end) s root
  = AOk (fst (rewrite_bops g s root)) (snd (rewrite_bops g s root)).
Proof. intros H d root s H1 H2. apply apply_plugins_ok; [now apply ops_local|exact H1|exact H2]. Qed.

(** The state threaded along and the produced nodes are independent when the
    nodes do not depend on the state. *)
Lemma thread_indep {S A B} (f : S -> A -> S * list B) (h : unit -> A -> unit * list B) (k : A -> list A) (u : S -> A -> S) l :
  Forall (fun x => forall s, f s x = (u s x, snd (h tt x))) l ->
  forall s, thread f s l = (fold_left u l s, snd (thread h tt l)).
Proof.
  induction 1 as [|x l Hx Hl IH]; intros s; [reflexivity|].
  cbn [thread fold_left]. fold (@thread S A B) (@thread unit A B).
  rewrite Hx, IH. destruct (h tt x) as [[] ys]. destruct (thread h tt l) as [[] r]. reflexivity.
Qed.
Lemma rewrite_indep {S} (u : S -> bop -> S) (h : bop -> list bop) x :
  forall s, rewrite_bop (fun s x => (u s x, h x)) s x
    = (fold_left u (entries x) s, snd (rewrite_bop (fun (_ : unit) x => (tt, h x)) tt x)).
Proof.
  induction x as [|p|p|i es e Hi Hes He] using bop_ind'; intros s; try reflexivity.
  destruct i as [p c l com foot], e as [ep el ecom efoot]. cbn [block eblock] in *. cbn [rewrite_bop entries].
  rewrite (thread_indep _ _ (fun x => [x]) (fun s x => fold_left u (entries x) s) l Hi s).
  destruct (thread _ tt l) as [[] l'] eqn:E1. cbn [snd].
  assert (G : forall s, thread (fun s e => match e with IfB p c l com foot =>
            let '(s', l') := thread (rewrite_bop (fun s x => (u s x, h x))) s l in (s', [IfB p c l' com foot]) end) s es
       = (fold_left (fun s e => fold_left u (match e with IfB _ _ l _ _ => flat_map entries l end) s) es s,
          snd (thread (fun (s : unit) e => match e with IfB p c l com foot =>
            let '(s', l') := thread (rewrite_bop (fun (_ : unit) x => (tt, h x))) s l in (s', [IfB p c l' com foot]) end) tt es))).
  { apply thread_indep; [exact (fun x => [x])|]. eapply Forall_impl; [|exact Hes].
    intros [p1 c1 l1 com1 foot1] H1 s1. cbn [block] in H1.
    rewrite (thread_indep _ _ (fun x => [x]) (fun s x => fold_left u (entries x) s) l1 H1 s1).
    destruct (thread _ tt l1) as [[] l1']. cbn [snd]. now rewrite fold_left_flat_map. }
  rewrite G. destruct (thread _ tt es) as [[] es'] eqn:E2. cbn [snd].
  rewrite (thread_indep _ _ (fun x => [x]) (fun s x => fold_left u (entries x) s) el He).
  destruct (thread _ tt el) as [[] el'] eqn:E3. cbn [snd].
  now rewrite !fold_left_app, !fold_left_flat_map.
Qed.
Lemma apply_one_edit (choose : bop -> option cop) d root :
  Forall no_ptr root -> bops_depth root < d ->
  apply_plugins d (fun l c => match at_index c with
                    | Some x => do_ops (match choose x with Some op => [op] | None => [] end) (l ++ [x])
                    | None => PPanic end) [] root
  = AOk (flat_map entries root)
        (snd (rewrite_bops (fun (_ : unit) x =>
           (tt, match choose x with
                | None => [x]
                | Some CDelete => []
                | Some (CReplace y) => [y]
                | Some (CInsertBefore y) => [y; x]
                | Some (CInsertAfter y) => [x; y]
                end)) tt root)).
Proof.
  intros H1 H2. set (h := fun x => match choose x with
                | None => [x]
                | Some CDelete => []
                | Some (CReplace y) => [y]
                | Some (CInsertBefore y) => [y; x]
                | Some (CInsertAfter y) => [x; y]
                end).
  rewrite (apply_edits (fun l x => l ++ [x]) (fun _ x => match choose x with Some op => [op] | None => [] end)
             (fun l x => (l ++ [x], h x))); [|..|exact H1|exact H2].
  - unfold rewrite_bops.
    rewrite (thread_indep _ (rewrite_bop (fun (_ : unit) x => (tt, h x))) (fun x => [x])
              (fun s x => fold_left (fun l x => l ++ [x]) (entries x) s)).
    + cbn [fst snd]. f_equal. rewrite <- fold_left_flat_map. now rewrite fold_snoc.
    + apply Forall_forall. intros x _ s. apply rewrite_indep.
  - intros s x. split; [|reflexivity]. cbn [snd]. unfold h. now destruct (choose x) as [[]|].
Qed.
