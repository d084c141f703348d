(** ApplyPlugins and the memory of the tree it is given. *)
From Coq Require Import List ZArith Bool Arith Lia Permutation String.
From Verif Require Import Bytes Ast AstInd Actions Engine Parser AstUtil Apply ApplyFacts App Tree LintFacts ParseTree ApplyMem ApplyMemFacts.
Import ListNotations.

(** ** C67: ApplyPlugins works in place *)

(** Let a slice hold a tree in which no two slices share an array.  Then ApplyPlugins ends as on
    values (Apply.v, C25, C26); the slice that it returns holds the tree of C26, its slices share no array
    either, and arrays that are not of the tree are unchanged - for every callback, whatever room the
    arrays have and however large append makes new ones. *)
Theorem C67_result : forall (spare : nat -> nat) {S : Type} (cb : S -> option (option plugin) -> Z -> aprog S) d s root l m F,
  rep_slice m root l F -> NoDup F ->
  match apply_plugins d (on_values cb) s l with
  | AOk s' l' => exists root' m' F', h_apply spare d cb s root m = HOk s' root' m' /\ rep_slice m' root' l' F' /\ NoDup F' /\
      (forall o, cell_of m o <> None -> ~ In o F -> cell_of m' o = cell_of m o)
  | APanic => h_apply spare d cb s root m = HPanic
  | AFuel => h_apply spare d cb s root m = HFuel
  end.
Proof.
  intros spare S cb d s root l m F R D. pose proof (apply_rep spare cb d s root l m F R D) as X. destruct (apply_plugins _ _ _ _) as [s' l'| |]; [|exact X|exact X].
  destruct X as (r & m' & F' & E & R' & D' & (_ & E2 & _)). exists r, m', F'. auto.
Qed.
Print Assumptions C67_result.

(** If the callback only replaces plugins, the slice that was given is the slice that is returned: the
    caller's tree is the changed tree. *)
Theorem C67_in_place : forall (spare : nat -> nat) {S : Type} (cb : S -> option (option plugin) -> Z -> aprog S) d s root l m F s' l',
  (forall s p i, replaces (cb s p i)) -> rep_slice m root l F -> NoDup F ->
  apply_plugins d (on_values cb) s l = AOk s' l' ->
  exists m' F', h_apply spare d cb s root m = HOk s' root m' /\ rep_slice m' root l' F' /\ NoDup F'.
Proof.
  intros spare S cb d s root l m F s' l' H R D E. pose proof (apply_rep spare cb d s root l m F R D) as X. rewrite E in X. destruct X as (r & m' & F' & E' & R' & D' & _).
  pose proof (replaces_apply spare cb d H _ _ _ _ _ _ E'). subst r. exists m', F'. auto.
Qed.
Print Assumptions C67_in_place.

(** The command lint drops the slice that ApplyPlugins returns and prints the tree that it gave: this
    tree is the one of C28, where the result is used. *)
Inductive rep_sections (m : amem) : list aslice -> list section -> list owner -> Prop :=
| rep_sec_nil : rep_sections m [] [] []
| rep_sec_cons sl sls s l F1 F2 : rep_slice m sl (ps_bops s) F1 -> rep_sections m sls l F2 -> rep_sections m (sl :: sls) (s :: l) (F1 ++ F2).
Lemma sections_agree m m' sls l F : rep_sections m sls l F -> agree m m' F -> rep_sections m' sls l F.
Proof. intros H. induction H; intros A; constructor; apply agree_app in A as (A1 & A2); [now apply (proj1 (proj2 (proj2 (rep_agree m m'))))|auto]. Qed.
Lemma sections_cells m sls l F : rep_sections m sls l F -> forall o, In o F -> cell_of m o <> None.
Proof. intros H. induction H; intros o I; [contradiction|]. apply in_app_or in I as [I|I]; [exact (proj1 (proj2 (proj2 (rep_cells m))) _ _ _ H o I)|auto]. Qed.

Lemma lint_values s c : on_values h_lint_walk s c = lint_walk s c.
Proof.
  unfold on_values, lint_walk, h_lint_walk. destruct (cursor_plugin c) as [[p|]|]; try reflexivity. destruct (plugin_id p); [destruct (existsb _ _); reflexivity|destruct (v_autofix s); reflexivity|destruct (v_autofix s); reflexivity].
Qed.
Lemma lint_local_values : local_on (fun x => x <> BNil) (on_values h_lint_walk) (one lint_step lint_wrap).
Proof. intros s x pre post Hx X c. rewrite lint_values. exact (lint_local s x pre post Hx X). Qed.
Lemma lint_replaces s p i : replaces (h_lint_walk s p i).
Proof.
  unfold h_lint_walk. destruct p as [[p|]|]; try constructor. destruct (plugin_id p); [destruct (existsb _ _); constructor|destruct (v_autofix s); constructor; constructor|destruct (v_autofix s); constructor; constructor].
Qed.

Lemma lint_sections_rep spare t d l : All (wf_section t) l -> Forall (fun s => bops_depth (ps_bops s) < d) l ->
  forall sls v m F R, rep_sections m sls l F -> NoDup (F ++ R) -> (forall o, In o R -> cell_of m o <> None) ->
  exists v' l' m' F', lint_sections v l = Some (v', l') /\ h_lint_sections spare d v sls m = Some (v', m') /\
    rep_sections m' sls l' F' /\ NoDup (F' ++ R) /\ agree m m' R.
Proof.
  induction l as [|s l IH]; intros W Hd sls v m F R Rs D C; inversion Rs as [|sl sls' s' l0 F1 F2 R1 R2]; subst.
  - exists v, [], m, []. split; [reflexivity|]. split; [reflexivity|]. split; [constructor|]. split; [exact D|]. intros o _. reflexivity.
  - destruct W as (Ws & Wl). inversion Hd as [|? ? Hs Hl]; subst. destruct Ws as (_ & _ & _ & Ws). apply All_Forall in Ws.
    assert (P : Forall no_ptr (ps_bops s) /\ Forall (fun y => y <> BNil) (flat_map entries (ps_bops s))).
    { rewrite Forall_flat_map. rewrite Forall_forall in Ws. split; apply Forall_forall; intros x Hx; apply wf_plain; auto. }
    destruct P as [P1 P2].
    cbn [lint_sections h_lint_sections]. rewrite (apply_plugins_on _ _ _ lint_local _ _ _ P1 P2) by lia. set (v1 := fst _). set (l1 := snd _).
    assert (E1 : apply_plugins d (on_values h_lint_walk) v (ps_bops s) = AOk v1 l1) by (apply (apply_plugins_on _ _ _ lint_local_values); auto).
    rewrite <- app_assoc in D. pose proof (apply_rep spare h_lint_walk d v sl (ps_bops s) m F1 R1 ltac:(apply nodup_app in D; tauto)) as X. rewrite E1 in X.
    destruct X as (r & m1 & F1' & Eh & R1' & D1 & Ev). pose proof (replaces_apply spare _ d lint_replaces _ _ _ _ _ _ Eh). subst r. rewrite Eh.
    assert (C' : forall o, In o (F2 ++ R) -> cell_of m o <> None) by (intros o I; apply in_app_or in I as [I|I]; [exact (sections_cells _ _ _ _ R2 o I)|auto]).
    destruct (evolve_rest _ _ _ _ _ Ev D1 D C') as (DD & A). assert (A' : agree m m1 (F2 ++ R)) by exact A. apply agree_app in A' as (A2 & AR).
    pose proof (sections_agree _ _ _ _ _ R2 A2) as R2'.
    assert (C1 : forall o, In o F1' -> cell_of m1 o <> None) by exact (proj1 (proj2 (proj2 (rep_cells m1))) _ _ _ R1').
    destruct (IH Wl Hl sls' v1 m1 F2 (F1' ++ R) R2') as (v' & l' & m' & F' & E2 & E3 & R3 & D3 & A3).
    { apply nodup_mid. exact DD. }
    { intros o I. apply in_app_or in I as [I|I]; [auto|]. rewrite AR by exact I. auto. }
    apply agree_app in A3 as (A31 & A3R). rewrite E2. eexists v', _, m', (F1' ++ F'). split; [reflexivity|]. split; [exact E3|]. split; [|split].
    + constructor; [cbn [ps_bops]; now apply (proj1 (proj2 (proj2 (rep_agree m1 m'))))|exact R3].
    + rewrite <- app_assoc. apply nodup_mid. exact D3.
    + intros o I. rewrite A3R, AR; auto.
Qed.

Theorem C67_lint : forall spare d autofix c inputs filters outputs m F1 F2 F3,
  wf_config c -> Forall (fun s => bops_depth (ps_bops s) < d) (cf_input c ++ cf_filter c ++ cf_output c) ->
  rep_sections m inputs (cf_input c) F1 -> rep_sections m filters (cf_filter c) F2 -> rep_sections m outputs (cf_output c) F3 ->
  NoDup (F1 ++ F2 ++ F3) ->
  exists v c' m' F1' F2' F3', lint_config autofix c = Some (v, c') /\ h_lint_config spare d autofix inputs filters outputs m = Some (v, m') /\
    rep_sections m' inputs (cf_input c') F1' /\ rep_sections m' filters (cf_filter c') F2' /\ rep_sections m' outputs (cf_output c') F3'.
Proof.
  intros spare d af c i f o m F1 F2 F3 (W1 & W2 & W3 & _) Hd R1 R2 R3 D. rewrite !Forall_app in Hd. destruct Hd as (H1 & H2 & H3). unfold lint_config, h_lint_config.
  destruct (lint_sections_rep spare _ d _ W1 H1 i (Validator 0 [] af false [] []) m F1 (F2 ++ F3) R1 D) as (v1 & l1 & m1 & F1' & -> & -> & R1' & D1 & A1).
  { intros x I. apply in_app_or in I as [I|I]; match goal with H : rep_sections ?m _ _ ?F, J : In x ?F |- cell_of ?m x <> None => exact (sections_cells _ _ _ _ H x J) end. }
  apply agree_app in A1 as (A12 & A13). pose proof (sections_agree _ _ _ _ _ R2 A12) as R2'. pose proof (sections_agree _ _ _ _ _ R3 A13) as R3'.
  destruct (lint_sections_rep spare _ d _ W2 H2 f v1 m1 F2 (F1' ++ F3) R2') as (v2 & l2 & m2 & F2' & -> & -> & R2'' & D2 & A2).
  { apply nodup_mid. exact D1. }
  { intros x I. apply in_app_or in I as [I|I]; match goal with H : rep_sections ?m _ _ ?F, J : In x ?F |- cell_of ?m x <> None => exact (sections_cells _ _ _ _ H x J) end. }
  apply agree_app in A2 as (A21 & A23). pose proof (sections_agree _ _ _ _ _ R1' A21) as R1''. pose proof (sections_agree _ _ _ _ _ R3' A23) as R3''.
  destruct (lint_sections_rep spare _ d _ W3 H3 o v2 m2 F3 (F1' ++ F2') R3'') as (v3 & l3 & m3 & F3' & -> & -> & R3''' & D3 & A3).
  { eapply Permutation_NoDup; [|exact D2]. rewrite (app_assoc F2' F1' F3). etransitivity; [apply Permutation_app_comm|]. apply Permutation_app_head, Permutation_app_comm. }
  { intros x I. apply in_app_or in I as [I|I]; match goal with H : rep_sections ?m _ _ ?F, J : In x ?F |- cell_of ?m x <> None => exact (sections_cells _ _ _ _ H x J) end. }
  apply agree_app in A3 as (A31 & A32). eexists v3, _, m3, F1', F2', F3'. split; [reflexivity|]. split; [reflexivity|]. cbn [cf_input cf_filter cf_output].
  split; [eapply sections_agree; eassumption|]. split; [eapply sections_agree; eassumption|exact R3'''].
Qed.
Print Assumptions C67_lint.

(** *** Cases *)
Definition mem_plugin (n : string) : plugin := Plugin zero_pos (b n) [] [] [].
Definition mem_p (n : string) : hnode := HPlugin (mem_plugin n).
(** A memory with a tree: p1, if { p2 } else if { p3, p4 } else { }, p5; the root has room for one more. *)
Definition mem_if (sl : aslice) : hif := HIf zero_pos (Cond []) sl [] [].
Definition mem_tree : amem :=
  AMem [[mem_p "p1"; HBranch (mem_if (Sl 1 0 1 1)) (Sl 0 0 1 1) (HEl zero_pos (Sl 0 0 0 0) [] []); mem_p "p5"; HNil]; [mem_p "p2"]; [HNil; mem_p "p3"; mem_p "p4"]]
       [[mem_if (Sl 2 1 2 2)]].
Definition mem_list : list bop :=
  let p n := BPlugin (mem_plugin n) in
  [p "p1"; BBranch (IfB zero_pos (Cond []) [p "p2"] [] []) [IfB zero_pos (Cond []) [p "p3"; p "p4"] [] []] (ElB zero_pos [] [] []); p "p5"]%string.
Example C67_case : exists F, rep_slice mem_tree (Sl 0 0 3 4) mem_list F /\ NoDup F.
Proof.
  eexists. split; [constructor|].
  - split; [cbn; lia|]. intros _. eexists. split; [reflexivity|cbn; lia].
  - cbn. apply rl_cons; [constructor|]. apply rl_cons; [|apply rl_cons; [constructor|constructor]]. eapply rn_branch.
    + constructor. constructor; [split; [cbn; lia|intros _; eexists; split; [reflexivity|cbn; lia]]|]. cbn. apply rl_cons; constructor.
    + split; [cbn; lia|intros _; eexists; split; [reflexivity|cbn; lia]].
    + cbn. apply rf_cons; [|constructor]. constructor. constructor; [split; [cbn; lia|intros _; eexists; split; [reflexivity|cbn; lia]]|]. cbn. apply rl_cons; [constructor|]. apply rl_cons; constructor.
    + constructor; [split; [cbn; lia|cbn; congruence]|]. constructor.
  - cbn. repeat (constructor; [cbn; intuition discriminate|]). constructor.
Qed.

(** After an edit that is not Replace the argument is not the changed tree any more. *)
Definition mem_delete (s : nat) (x : option (option plugin)) (i : Z) : aprog nat :=
  match s with 0 => ADo CDelete (fun _ _ => ADone 1) | _ => ADone s end.
(** Delete of the first of three plugins: the result has the other two, the argument shows the last one twice. *)
Example C67_delete : exists root' m', h_apply (fun n => n) 1 mem_delete 0 (Sl 0 0 3 3) (AMem [[mem_p "a"; mem_p "b"; mem_p "c"]] []) = HOk 1 root' m' /\
  elems m' root' = [mem_p "b"; mem_p "c"] /\ elems m' (Sl 0 0 3 3) = [mem_p "b"; mem_p "c"; mem_p "c"].
Proof. eexists _, _. repeat split; vm_compute; reflexivity. Qed.
(** InsertAfter into a part of a larger slice: without room, the result has a new array and the argument is
    unchanged; with room, the insertion overwrites the next element of the larger slice.  So the hypothesis that no
    slices share an array is needed. *)
Definition mem_insert (s : nat) (x : option (option plugin)) (i : Z) : aprog nat :=
  match s with 0 => ADo (CInsertAfter (BPlugin (mem_plugin "x"))) (fun _ _ => ADone 1) | _ => ADone s end.
Example C67_insert : exists root' m', h_apply (fun n => n) 1 mem_insert 0 (Sl 0 0 1 1) (AMem [[mem_p "a"; mem_p "b"]] []) = HOk 1 root' m' /\
  elems m' root' = [mem_p "a"; mem_p "x"] /\ elems m' (Sl 0 0 2 2) = [mem_p "a"; mem_p "b"].
Proof. eexists _, _. repeat split; vm_compute; reflexivity. Qed.
Example C67_overwrite : exists root' m', h_apply (fun n => n) 1 mem_insert 0 (Sl 0 0 1 2) (AMem [[mem_p "a"; mem_p "b"]] []) = HOk 1 root' m' /\
  elems m' root' = [mem_p "a"; mem_p "x"] /\ elems m' (Sl 0 0 2 2) = [mem_p "a"; mem_p "x"].
Proof. eexists _, _. repeat split; vm_compute; reflexivity. Qed.

(** lint on an accepted file: the hypotheses of C67_lint, and what the caller's slice holds afterwards. *)
Definition lint_text : bytes := b "input { a { } b { id => ""x"" } }".
Definition lint_conf : config :=
  Eval vm_compute in match fst (parse [] [] lint_text) with Returned (VConfig c) [] => c | _ => Config [] [] [] [] [] end.
Definition lint_mem : amem := Eval vm_compute in AMem [map HPlugin (plugins_config lint_conf)] [].
Example C67_lint_case :
  wf_config lint_conf /\ Forall (fun s => bops_depth (ps_bops s) < 1) (cf_input lint_conf ++ cf_filter lint_conf ++ cf_output lint_conf) /\
  rep_sections lint_mem [Sl 0 0 2 2] (cf_input lint_conf) ([ONode 0] ++ []) /\ rep_sections lint_mem [] (cf_filter lint_conf) [] /\ rep_sections lint_mem [] (cf_output lint_conf) [] /\
  exists v m', h_lint_config (fun n => n) 1 true [Sl 0 0 2 2] [] [] lint_mem = Some (v, m') /\ v_changed v = true /\
    map (fun h => match h with HPtr p => Some (plugin_id p) | _ => None end) (elems m' (Sl 0 0 2 2)) = [Some (IdOk (b "a-1")); None].
Proof.
  split; [|split; [|split; [|split; [|split]]]].
  - eapply (parse_tree [] [] lint_text); [reflexivity|]. vm_compute. reflexivity.
  - repeat constructor.
  - constructor; [|constructor]. change [ONode 0] with (own ONode (Sl 0 0 2 2) ++ []). constructor; [split; [cbn; lia|intros _; eexists; split; [reflexivity|cbn; lia]]|].
    cbn. apply (rl_cons _ _ _ _ _ [] []); [constructor|]. apply (rl_cons _ _ _ _ _ [] []); constructor.
  - constructor.
  - constructor.
  - eexists _, _. split; [vm_compute; reflexivity|]. split; vm_compute; reflexivity.
Qed.
