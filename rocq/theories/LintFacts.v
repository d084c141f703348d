(** The walk of lint over a configuration: which plugins are reported, and what
    auto-fix does to the tree.  Specification: [plugins_config], [skeleton_config],
    [missing], [duplicates], [fixed]. *)
From Coq Require Import List NArith ZArith Bool String Arith Lia.
From Verif Require Import Bytes F64 Ast Actions AstPrint AstUtil Apply App AstInd ApplyFacts EscapeFacts SimpleFacts Tree ItoaFacts.
Import ListNotations.

(** ** Specification *)

(** The plugins of a tree, nested ones included, in the order of the text within
    a section: the block of an if, the else-ifs, the else. *)
Fixpoint plugins (x : bop) : list plugin :=
  match x with
  | BNil => []
  | BPlugin p | BPluginPtr p => [p]
  | BBranch (IfB _ _ l _ _) es (ElB _ el _ _) =>
      flat_map plugins l ++ flat_map (fun e => match e with IfB _ _ l _ _ => flat_map plugins l end) es
      ++ flat_map plugins el
  end.
(** ... of a configuration: inputs, filters, outputs *)
Definition plugins_section (s : section) : list plugin := flat_map plugins (ps_bops s).
Definition plugins_config (c : config) : list plugin :=
  flat_map plugins_section (cf_input c ++ cf_filter c ++ cf_output c).

(** The tree around the plugins: everything but the plugins themselves *)
Fixpoint skeleton (x : bop) : bop :=
  match x with
  | BBranch (IfB p c l com foot) es (ElB ep el ecom efoot) =>
      BBranch (IfB p c (map skeleton l) com foot)
        (map (fun e => match e with IfB p c l com foot => IfB p c (map skeleton l) com foot end) es)
        (ElB ep (map skeleton el) ecom efoot)
  | _ => BNil
  end.
Definition skeleton_section (s : section) : section :=
  Section_ (ps_pos s) (ps_type s) (map skeleton (ps_bops s)) (ps_com s) (ps_foot s).
Definition skeleton_config (c : config) : config :=
  Config (map skeleton_section (cf_input c)) (map skeleton_section (cf_filter c))
         (map skeleton_section (cf_output c)) (cf_foot c) (cf_warnings c).

(** ID() fails *)
Definition missing (p : plugin) : bool := match plugin_id p with IdOk _ => false | _ => true end.
(** ID() of both succeeds with the same value *)
Definition same_id (p q : plugin) : bool :=
  match plugin_id p, plugin_id q with IdOk i, IdOk j => beqb i j | _, _ => false end.
(** The plugins that have the id of an earlier one *)
Fixpoint contexts (earlier ps : list plugin) : list (list plugin * plugin) :=
  match ps with [] => [] | p :: ps' => (earlier, p) :: contexts (earlier ++ [p]) ps' end.
Definition duplicates (ps : list plugin) : list plugin :=
  map snd (filter (fun x => existsb (same_id (snd x)) (fst x)) (contexts [] ps)).

(** The plugin number [k] (from 1) after auto-fix *)
Definition with_id (p : plugin) (id : bytes) : plugin :=
  match p with
  | Plugin q name l com foot => Plugin q name (l ++ [AtStr (StrAttr zero_pos (b "id") id DoubleQuoted [])]) com foot
  end.
Definition fix_plugin (k : nat) (p : plugin) : plugin :=
  if missing p then with_id p (plugin_name p ++ b "-" ++ itoa k) else p.
Fixpoint fixed (k : nat) (ps : list plugin) : list plugin :=
  match ps with [] => [] | p :: ps' => fix_plugin k p :: fixed (S k) ps' end.

(** ** Proofs *)
Fixpoint scan {S A B} (f : S -> A -> S * B) (s : S) (l : list A) : S * list B :=
  match l with
  | [] => (s, [])
  | x :: l' => let '(s1, y) := f s x in let '(s2, r) := scan f s1 l' in (s2, y :: r)
  end.
Lemma scan_app {S A B} (f : S -> A -> S * B) l1 l2 s :
  scan f s (l1 ++ l2) = (fst (scan f (fst (scan f s l1)) l2), snd (scan f s l1) ++ snd (scan f (fst (scan f s l1)) l2)).
Proof.
  revert s; induction l1 as [|x l1 IH]; intros s; cbn; [now destruct (scan f s l2)|].
  destruct (f s x) as [s1 y]. rewrite IH. destruct (scan f s1 l1) as [s2 r]. cbn. reflexivity.
Qed.

Section OneToOne.
  Context {S : Type}.
  Variable step : S -> plugin -> S * plugin.
  Variable wrap : S -> plugin -> bop.      (* BPlugin or BPluginPtr of the result *)
  Hypothesis Hwrap : forall s p, plugins (wrap s p) = [snd (step s p)] /\ skeleton (wrap s p) = BNil.
  Definition one (s : S) (x : bop) : S * list bop :=
    match x with BPlugin p => (fst (step s p), [wrap s p]) | _ => (s, [x]) end.

  Definition good (x : bop) : Prop := no_ptr x.
  (* the result of rewriting [l] *)
  Definition like {A} (ps : A -> list plugin) (sk : A -> A) (s : S) (l : list A) (r : S * list A) : Prop :=
    fst r = fst (scan step s (flat_map ps l)) /\
    flat_map ps (snd r) = snd (scan step s (flat_map ps l)) /\ map sk (snd r) = map sk l.

  Lemma thread_like {A} (ps : A -> list plugin) (sk : A -> A) f (l : list A) :
    Forall (fun x => forall s, like ps sk s [x] (f s x)) l -> forall s, like ps sk s l (thread f s l).
  Proof.
    induction 1 as [|x l Hx Hl IH]; intros s; [repeat split|]. cbn [thread].
    destruct (Hx s) as (E1 & E2 & E3). destruct (f s x) as [s1 ys]. cbn [fst snd] in *. fold (@thread S A A).
    specialize (IH s1). destruct (thread f s1 l) as [s2 r]. destruct IH as (I1 & I2 & I3). cbn [fst snd] in *.
    unfold like. cbn [flat_map map fst snd] in *. rewrite app_nil_r in E1, E2. rewrite scan_app, flat_map_app, map_app, I3, E3, I2, E2, I1, E1.
    repeat split.
  Qed.
  Lemma one_like x : no_ptr x -> forall s, like plugins skeleton s [x] (rewrite_bop one s x).
  Proof.
    induction x as [|p|p|i es e Hi Hes He] using bop_ind'; intros Hp s.
    - repeat split.
    - unfold like. cbn. destruct (Hwrap s p) as [W1 W2]. rewrite W1, W2. destruct (step s p). repeat split.
    - contradiction.
    - apply no_ptr_branch in Hp as (P1 & P2 & P3).
      destruct i as [p c l com foot], e as [ep el ecom efoot]. cbn [block eblock] in *. cbn [rewrite_bop].
      assert (L : forall l, Forall (fun x => no_ptr x -> forall s, like plugins skeleton s [x] (rewrite_bop one s x)) l -> Forall no_ptr l ->
                  forall s, like plugins skeleton s l (thread (rewrite_bop one) s l)).
      { intros l0 A B. apply thread_like. rewrite Forall_forall in *. auto. }
      pose proof (L l Hi P1 s) as L1. destruct (thread (rewrite_bop one) s l) as [s1 l']. destruct L1 as (A1 & A2 & A3). cbn [fst snd] in *.
      set (fe := fun s e => match e with IfB p c l com foot =>
                   let '(s', l') := thread (rewrite_bop one) s l in (s', [IfB p c l' com foot]) end).
      set (pe := fun e => match e with IfB _ _ l _ _ => flat_map plugins l end).
      set (ke := fun e => match e with IfB p c l com foot => IfB p c (map skeleton l) com foot end).
      assert (L2 : like pe ke s1 es (thread fe s1 es)).
      { apply thread_like. rewrite Forall_forall in *. intros [p1 c1 l1 com1 foot1] Hin s0.
        specialize (Hes _ Hin). specialize (P2 _ Hin). cbn [block] in *. cbn [fe].
        pose proof (L l1 Hes P2 s0) as L1. destruct (thread (rewrite_bop one) s0 l1) as [s3 l3]. destruct L1 as (B1 & B2 & B3). cbn [fst snd] in *.
        unfold like. cbn [flat_map map fst snd pe ke]. rewrite !app_nil_r, B3. auto. }
      destruct (thread fe s1 es) as [s2 es'] eqn:Ethr.
      destruct L2 as (B1 & B2 & B3). cbn [fst snd] in *.
      pose proof (L el He P3 s2) as L3. destruct (thread (rewrite_bop one) s2 el) as [s3 el']. destruct L3 as (C1 & C2 & C3). cbn [fst snd] in *.
      unfold like. cbn [flat_map map fst snd plugins skeleton]. rewrite !app_nil_r.
      fold pe ke. rewrite !scan_app. cbn [fst snd]. rewrite A3, B3, C3, A2, B2, C2, C1, B1, A1. auto.
  Qed.
  Lemma ones_like l : Forall no_ptr l -> forall s, like plugins skeleton s l (rewrite_bops one s l).
  Proof. intros H. apply thread_like. eapply Forall_impl; [|exact H]. intros x Hx. now apply one_like. Qed.
End OneToOne.

(** One visit of lint *)
Definition lint_next (v : validator) (p : plugin) : validator :=
  let n := S (v_count v) in
  match plugin_id p with
  | IdOk id =>
      if existsb (beqb id) (v_all v)
      then Validator n (v_noids v) (v_autofix v) (v_changed v) (v_dups v ++ [describe p]) (v_all v)
      else Validator n (v_noids v) (v_autofix v) (v_changed v) (v_dups v) (v_all v ++ [id])
  | _ => if v_autofix v then Validator n (v_noids v) true true (v_dups v) (v_all v)
         else Validator n (v_noids v ++ [describe p]) false (v_changed v) (v_dups v) (v_all v)
  end.
Definition lint_step (v : validator) (p : plugin) : validator * plugin :=
  (lint_next v p, if v_autofix v then fix_plugin (S (v_count v)) p else p).
Definition lint_wrap (v : validator) (p : plugin) : bop :=
  if missing p && v_autofix v then BPluginPtr (fix_plugin (S (v_count v)) p) else BPlugin p.
Lemma lint_wrap_ok v p : plugins (lint_wrap v p) = [snd (lint_step v p)] /\ skeleton (lint_wrap v p) = BNil.
Proof.
  unfold lint_wrap, lint_step, fix_plugin. destruct (missing p) eqn:E, (v_autofix v); cbn; auto.
Qed.
Lemma lint_local : local_on (fun x => x <> BNil) lint_walk (one lint_step lint_wrap).
Proof.
  intros s x pre post Hx [->|[p ->]] c; [congruence|]. subst c. unfold lint_walk, cursor_plugin. rewrite at_index_pre.
  cbn [one fst snd]. unfold lint_step, lint_wrap, lint_next, fix_plugin, missing. cbn [fst].
  destruct (plugin_id p) as [id|m|m] eqn:E; cbn [andb].
  - destruct (existsb _ _); reflexivity.
  - destruct (v_autofix s); [|reflexivity]. cbn [run_prog]. unfold run_cop. cbn [k_parent k_index k_step].
    destruct (Z.ltb_spec (Z.of_nat (List.length pre)) 0); [lia|]. rewrite ?Nat2Z.id.
    replace (_ <? _) with true by (symmetry; apply Nat.ltb_lt; rewrite app_length; cbn; lia).
    rewrite firstn_pre, skipn_pre_S. destruct p. reflexivity.
  - destruct (v_autofix s); [|reflexivity]. cbn [run_prog]. unfold run_cop. cbn [k_parent k_index k_step].
    destruct (Z.ltb_spec (Z.of_nat (List.length pre)) 0); [lia|]. rewrite ?Nat2Z.id.
    replace (_ <? _) with true by (symmetry; apply Nat.ltb_lt; rewrite app_length; cbn; lia).
    rewrite firstn_pre, skipn_pre_S. destruct p. reflexivity.
Qed.

Definition plain (x : bop) : Prop := no_ptr x /\ Forall (fun y => y <> BNil) (entries x).
Lemma wf_plain x : wf_bop x -> plain x.
Proof.
  induction x as [|p|p|i es e Hi Hes He] using bop_ind'; intros W.
  - contradiction.
  - split; [exact I|]. cbn. constructor; [discriminate|constructor].
  - contradiction.
  - destruct W as (W1 & W2 & W3).
    assert (K : forall l, Forall (fun x => wf_bop x -> plain x) l -> All wf_bop l ->
              Forall no_ptr l /\ Forall (fun y => y <> BNil) (flat_map entries l)).
    { intros l A B. apply All_Forall in B. rewrite Forall_flat_map. rewrite Forall_forall in A, B.
      split; apply Forall_forall; intros x Hx; apply A; auto. }
    destruct i as [p c l com foot], e as [ep el ecom efoot]. cbn [block eblock] in *.
    destruct W1 as (_ & _ & _ & W1). destruct (K l Hi W1) as [N1 M1]. destruct W3 as (_ & _ & W3 & _). destruct (K el He W3) as [N3 M3].
    assert (N2 : Forall (fun x => Forall no_ptr (block x) /\ Forall (fun y => y <> BNil) (flat_map entries (block x))) es).
    { apply All_Forall in W2. rewrite Forall_forall in *. intros x Hx. specialize (W2 x Hx). specialize (Hes x Hx). destruct x. cbn [block] in *. apply K; [exact Hes|apply W2]. }
    split.
    + apply no_ptr_branch. cbn [block eblock]. repeat split; auto. eapply Forall_impl; [|exact N2]. cbn. tauto.
    + cbn [entries]. rewrite !Forall_app. repeat split; auto. apply Forall_flat_map. eapply Forall_impl; [|exact N2]. intros []. cbn. tauto.
Qed.

Definition sections_like (v : validator) (l : list section) (r : validator * list section) : Prop :=
  fst r = fst (scan lint_step v (flat_map plugins_section l)) /\
  flat_map plugins_section (snd r) = snd (scan lint_step v (flat_map plugins_section l)) /\
  map skeleton_section (snd r) = map skeleton_section l.
Lemma lint_sections_ok t l : All (wf_section t) l -> forall v, exists r, lint_sections v l = Some r /\ sections_like v l r.
Proof.
  induction l as [|s l IH]; intros W v; [exists (v, []); repeat split|]. destruct W as (Ws & Wl). cbn [lint_sections].
  destruct Ws as (_ & _ & _ & Ws). apply All_Forall in Ws.
  assert (P : Forall no_ptr (ps_bops s) /\ Forall (fun y => y <> BNil) (flat_map entries (ps_bops s))).
  { rewrite Forall_flat_map. rewrite Forall_forall in Ws. split; apply Forall_forall; intros x Hx; apply wf_plain; auto. }
  destruct P as [P1 P2].
  rewrite (apply_plugins_on _ _ _ lint_local _ _ _ P1 P2) by lia.
  pose proof (ones_like _ _ lint_wrap_ok _ P1 v) as (A1 & A2 & A3).
  destruct (IH Wl (fst (rewrite_bops (one lint_step lint_wrap) v (ps_bops s)))) as ([v2 ss] & E & B1 & B2 & B3). rewrite E.
  cbn [fst snd] in *. eexists. split; [reflexivity|]. unfold sections_like.
  assert (X1 : forall s l, flat_map plugins_section (s :: l) = flat_map plugins (ps_bops s) ++ flat_map plugins_section l) by reflexivity.
  assert (X2 : forall s l, map skeleton_section (s :: l) = skeleton_section s :: map skeleton_section l) by reflexivity.
  cbn [fst snd]. rewrite !X1, !X2, scan_app. unfold skeleton_section at 1. cbn [fst snd ps_pos ps_type ps_bops ps_com ps_foot].
  rewrite A2, A3, B1, B2, B3, A1. auto.
Qed.

Lemma lint_config_scan af c : wf_config c -> exists va c',
  lint_config af c = Some (va, c') /\
  va = fst (scan lint_step (Validator 0 [] af false [] []) (plugins_config c)) /\
  plugins_config c' = snd (scan lint_step (Validator 0 [] af false [] []) (plugins_config c)) /\
  skeleton_config c' = skeleton_config c.
Proof.
  intros (W1 & W2 & W3 & _). unfold lint_config, plugins_config, skeleton_config. set (v0 := Validator 0 [] af false [] []).
  destruct (lint_sections_ok _ _ W1 v0) as ([v1 i] & -> & A1 & A2 & A3).
  destruct (lint_sections_ok _ _ W2 v1) as ([v2 f] & -> & B1 & B2 & B3).
  destruct (lint_sections_ok _ _ W3 v2) as ([v3 o] & -> & C1 & C2 & C3). cbn [fst snd] in *.
  eexists _, _. split; [reflexivity|]. cbn [cf_input cf_filter cf_output cf_foot cf_warnings].
  rewrite !flat_map_app, !scan_app. cbn [fst snd]. rewrite <- A1, <- B1, <- C1, A2, B2, C2, A3, B3, C3. auto.
Qed.

(** The state after the plugins [ps], coming from [pre] *)
Lemma dup_all_app (l : list bytes) id x : existsb (beqb id) (l ++ [x]) = existsb (beqb id) l || beqb id x.
Proof. rewrite existsb_app. cbn. now rewrite orb_false_r. Qed.
Definition ids_of (all : list bytes) (pre : list plugin) : Prop :=
  forall p id, plugin_id p = IdOk id -> existsb (beqb id) all = existsb (same_id p) pre.
Lemma ids_of_skip all pre p : ids_of all pre -> missing p = true -> ids_of all (pre ++ [p]).
Proof.
  intros H M q id E. rewrite existsb_app, <- (H q id E). cbn. unfold same_id, missing in *. rewrite E.
  destruct (plugin_id p); [discriminate| |]; now rewrite ?orb_false_r.
Qed.
Lemma ids_of_dup all pre p : ids_of all pre -> existsb (same_id p) pre = true -> ids_of all (pre ++ [p]).
Proof.
  intros H M q id E. rewrite existsb_app. cbn. rewrite orb_false_r, (H q id E). destruct (same_id q p) eqn:S; [|now rewrite orb_false_r].
  rewrite orb_true_r. apply existsb_exists in M as (r & Hr & M). apply existsb_exists. exists r. split; [exact Hr|].
  unfold same_id in *. rewrite E in *. destruct (plugin_id p); try discriminate. destruct (plugin_id r); try discriminate.
  apply beqb_eq in S, M. subst. apply beqb_refl.
Qed.
Lemma ids_of_new all pre p id : ids_of all pre -> plugin_id p = IdOk id -> ids_of (all ++ [id]) (pre ++ [p]).
Proof.
  intros H M q i E. rewrite dup_all_app, existsb_app. cbn. rewrite orb_false_r, (H q i E). f_equal. unfold same_id. now rewrite E, M.
Qed.

Lemma scan_state ps : forall v pre, ids_of (v_all v) pre ->
  let v' := fst (scan lint_step v ps) in
  v_autofix v' = v_autofix v /\
  v_count v' = v_count v + List.length ps /\
  v_noids v' = v_noids v ++ (if v_autofix v then [] else map describe (filter missing ps)) /\
  v_dups v' = v_dups v ++ map describe (map snd (filter (fun x => existsb (same_id (snd x)) (fst x)) (contexts pre ps))) /\
  v_changed v' = v_changed v || (v_autofix v && existsb missing ps) /\
  snd (scan lint_step v ps) = if v_autofix v then fixed (S (v_count v)) ps else ps.
Proof.
  induction ps as [|p ps IH]; intros v pre Hi; cbv zeta.
  - cbn. rewrite !app_nil_r, andb_false_r, orb_false_r. repeat split; auto. destruct (v_autofix v); reflexivity || now rewrite app_nil_r. destruct (v_autofix v); reflexivity.
  - cbn [scan lint_step contexts filter map fst snd fixed existsb]. set (v1 := lint_next v p).
    assert (H : v_autofix v1 = v_autofix v /\ v_count v1 = S (v_count v) /\ ids_of (v_all v1) (pre ++ [p]) /\
      v_noids v1 = v_noids v ++ (if v_autofix v then [] else if missing p then [describe p] else []) /\
      v_dups v1 = v_dups v ++ (if existsb (same_id p) pre then [describe p] else []) /\
      v_changed v1 = v_changed v || (v_autofix v && missing p)).
    { unfold v1, lint_next. destruct (plugin_id p) as [id|m|m] eqn:E.
      - assert (M : missing p = false) by (unfold missing; now rewrite E). rewrite M, andb_false_r, orb_false_r, (Hi p id E).
        assert (A : (if v_autofix v then [] else []) = @nil bytes) by (now destruct (v_autofix v)). rewrite A, app_nil_r.
        destruct (existsb (same_id p) pre) eqn:D; cbn; rewrite ?app_nil_r.
        + split; [reflexivity|split; [reflexivity|split; [now apply ids_of_dup|split; [reflexivity|split; reflexivity]]]].
        + split; [reflexivity|split; [reflexivity|split; [now apply ids_of_new|split; [reflexivity|split; reflexivity]]]].
      - assert (M : missing p = true) by (unfold missing; now rewrite E). rewrite M.
        assert (D : existsb (same_id p) pre = false).
        { destruct (existsb (same_id p) pre) eqn:D; [|reflexivity]. apply existsb_exists in D as (r & _ & D). unfold same_id in D. rewrite E in D. discriminate. }
        rewrite D. destruct (v_autofix v); cbn; rewrite ?app_nil_r, ?orb_true_r, ?orb_false_r;
        (split; [reflexivity|split; [reflexivity|split; [now apply ids_of_skip|split; [reflexivity|split; reflexivity]]]]).
      - assert (M : missing p = true) by (unfold missing; now rewrite E). rewrite M.
        assert (D : existsb (same_id p) pre = false).
        { destruct (existsb (same_id p) pre) eqn:D; [|reflexivity]. apply existsb_exists in D as (r & _ & D). unfold same_id in D. rewrite E in D. discriminate. }
        rewrite D. destruct (v_autofix v); cbn; rewrite ?app_nil_r, ?orb_true_r, ?orb_false_r;
        (split; [reflexivity|split; [reflexivity|split; [now apply ids_of_skip|split; [reflexivity|split; reflexivity]]]]). }
    destruct H as (E1 & E2 & E3 & E4 & E5 & E6). specialize (IH v1 (pre ++ [p]) E3). cbv zeta in IH.
    destruct (scan lint_step v1 ps) as [v2 r]. cbn [fst snd] in *. destruct IH as (I1 & I2 & I3 & I4 & I5 & I6).
    rewrite E1, E2, ?E4, ?E5, ?E6 in *. rewrite I1, I2, I3, I4, I5, I6.
    repeat split.
    + cbn. lia.
    + destruct (v_autofix v); [now rewrite !app_nil_r|]. rewrite <- app_assoc. destruct (missing p); reflexivity.
    + rewrite <- app_assoc. destruct (existsb (same_id p) pre); reflexivity.
    + now rewrite <- orb_assoc, <- andb_orb_distrib_r.
    + destruct (v_autofix v); reflexivity.
Qed.

Lemma lint_config_ok af c : wf_config c -> exists va c',
  lint_config af c = Some (va, c') /\
  v_noids va = (if af then [] else map describe (filter missing (plugins_config c))) /\
  v_dups va = map describe (duplicates (plugins_config c)) /\
  v_changed va = af && existsb missing (plugins_config c) /\
  plugins_config c' = (if af then fixed 1 (plugins_config c) else plugins_config c) /\
  skeleton_config c' = skeleton_config c.
Proof.
  intros W. destruct (lint_config_scan af c W) as (va & c' & E1 & E2 & E3 & E4). exists va, c'. split; [exact E1|].
  assert (I0 : ids_of (v_all (Validator 0 [] af false [] [])) []) by (intros p id _; reflexivity).
  destruct (scan_state (plugins_config c) _ _ I0) as (_ & _ & A & B & C & D). cbv zeta in *. cbn [v_autofix v_noids v_dups v_changed v_count app orb] in *.
  subst va. unfold duplicates. rewrite E3. auto.
Qed.

(** A tree without nil entries and pointers is determined by its skeleton and its
    plugins. *)
Lemma nil_or_not x : plain x -> (exists p, x = BPlugin p) \/ (exists i es e, x = BBranch i es e).
Proof. intros [A B]. destruct x; [|eauto|contradiction|eauto 6]. inversion B. congruence. Qed.

(** ** Ids after auto-fix *)
Lemma digits_sep_r u v x y : Forall (fun c => is_digit c = true) u -> Forall (fun c => is_digit c = true) v ->
  x ++ b "-" ++ u = y ++ b "-" ++ v -> u = v /\ x = y.
Proof.
  intros Hu Hv E. apply (f_equal (@rev N)) in E. rewrite !rev_app_distr, <- !app_assoc in E. cbn in E.
  assert (Ru : Forall (fun c => is_digit c = true) (rev u)) by (now apply Forall_rev).
  assert (Rv : Forall (fun c => is_digit c = true) (rev v)) by (now apply Forall_rev).
  assert (K : forall a c p q, Forall (fun c => is_digit c = true) a -> Forall (fun c => is_digit c = true) c ->
    a ++ 45%N :: p = c ++ 45%N :: q -> a = c /\ p = q).
  { induction a as [|z a IH]; intros [|z' c] p q Ha Hc E'; cbn in E'.
    - inversion E'. auto.
    - inversion E'; subst. inversion Hc. discriminate.
    - inversion E'; subst. inversion Ha. discriminate.
    - inversion E'; subst. inversion Ha; inversion Hc; subst. destruct (IH c p q) as [-> ->]; auto. }
  destruct (K _ _ _ _ Ru Rv E) as [A B]. split; [rewrite <- (rev_involutive u), A; apply rev_involutive|].
  rewrite <- (rev_involutive x), B. apply rev_involutive.
Qed.
Lemma auto_ids_differ n m i j : n ++ b "-" ++ itoa i = m ++ b "-" ++ itoa j -> i = j.
Proof. intros E. apply digits_sep_r in E as [E _]; auto using itoa_digit. now apply itoa_inj. Qed.

Lemma id_loop_snoc n l x : (forall id, id_loop n l <> IdOk id) -> (forall m, id_loop n l <> IdOther m) ->
  id_loop n (l ++ [AtStr (StrAttr zero_pos (b "id") x DoubleQuoted [])]) = IdOk x.
Proof.
  induction l as [|a l IH]; intros H1 H2; [reflexivity|]. cbn [app id_loop] in *.
  destruct (negb (is_nil a) && beqb (attr_name a) (b "id")); [|auto].
  destruct a; try (exfalso; now eapply H2); try (exfalso; now eapply H1).
Qed.
Lemma with_id_found p x m : plugin_id p = IdNotFound m -> plugin_id (with_id p x) = IdOk x.
Proof. destruct p as [q n l co f]. cbn [plugin_id with_id]. intros E. apply id_loop_snoc; rewrite E; discriminate. Qed.
Lemma fixed_length ps k : List.length (fixed k ps) = List.length ps.
Proof. revert k; induction ps; intros k; cbn; auto. Qed.
Lemma fixed_nth ps : forall k i, nth_error (fixed k ps) i = option_map (fix_plugin (k + i)) (nth_error ps i).
Proof.
  induction ps as [|p ps IH]; intros k [|i]; cbn; auto; [now rewrite Nat.add_0_r|]. rewrite IH. now rewrite <- Nat.add_succ_comm.
Qed.
