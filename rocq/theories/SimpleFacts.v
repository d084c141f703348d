(** Plugin.ID, the parser options, and MultiErr. *)
From Coq Require Import List NArith ZArith Bool String Arith Lia.
From Verif Require Import Bytes Utf8 F64 Ast Actions Engine Parser AstPrint AstUtil Apply App.
Import ListNotations.

Lemma beqb_eq x y : beqb x y = true <-> x = y.
Proof.
  revert y; induction x as [|c x IH]; intros [|d y]; cbn; try (split; congruence).
  rewrite andb_true_iff, N.eqb_eq, IH. split; [intros [-> ->]; reflexivity|intros H; inversion H; auto].
Qed.
Lemma beqb_refl x : beqb x x = true.
Proof. now apply beqb_eq. Qed.
Lemma beqb_neq x y : beqb x y = false <-> x <> y.
Proof.
  split.
  - intros H E. apply beqb_eq in E. congruence.
  - intros H. destruct (beqb x y) eqn:E; [|reflexivity]. apply beqb_eq in E. congruence.
Qed.

(** ** Plugin.ID *)

Definition named_id (a : attr) : Prop := a <> AtNil /\ attr_name a = b "id".
(** [a] is the first attribute of the list named id *)
Definition first_id (l : list attr) (a : attr) : Prop :=
  exists x y, l = x ++ a :: y /\ named_id a /\ Forall (fun c => ~ named_id c) x.

Lemma named_id_dec a : (negb (is_nil a) && beqb (attr_name a) (b "id"))%bool = true <-> named_id a.
Proof.
  unfold named_id. rewrite andb_true_iff, negb_true_iff, beqb_eq.
  destruct a; cbn [is_nil]; split; intros [H1 H2]; split; congruence.
Qed.

Lemma id_loop_spec name l :
  (exists a, first_id l a /\
     id_loop name l = match a with AtStr s => IdOk (sa_val s)
                      | _ => IdOther (b "attribut id is not of type string attribute") end)
  \/ (Forall (fun c => ~ named_id c) l /\
      id_loop name l = IdNotFound (b "not found: plugin " ++ name ++ b " does not contain an id attribute")).
Proof.
  induction l as [|x l IH]; [right; split; [constructor|reflexivity]|].
  cbn [id_loop]. destruct (negb (is_nil x) && beqb (attr_name x) (b "id"))%bool eqn:E.
  - left. exists x. split; [|reflexivity]. exists [], l. repeat split; try constructor; now apply named_id_dec.
  - assert (Hx : ~ named_id x) by (rewrite <- named_id_dec; congruence).
    destruct IH as [(a & (y & z & -> & Ha & Hy) & IH)|[H IH]].
    + left. exists a. split; [|exact IH]. exists (x :: y), z. repeat split; auto; apply Ha.
    + right. split; [constructor; auto|exact IH].
Qed.

Lemma first_id_fun l a c : first_id l a -> first_id l c -> a = c.
Proof.
  intros (x & y & E & Ha & Hx) (x' & y' & E' & Hc & Hx'). subst l. revert x' E' Hx'.
  induction x as [|e x IH]; intros [|e' x'] E' Hx'; cbn in E'; inversion E'; subst; auto.
  - inversion Hx'; contradiction.
  - inversion Hx; contradiction.
  - inversion Hx; inversion Hx'; subst. eauto.
Qed.

(** ** Options *)

Lemma entry_nonempty opts : k_entry (config_of opts) <> ""%string.
Proof.
  unfold config_of. assert (G : forall k, k_entry k <> ""%string ->
    k_entry (fold_left (fun k x => fst (apply_opt x k)) opts k) <> ""%string).
  { induction opts as [|x opts IH]; intros k Hk; [exact Hk|]. cbn [fold_left]. apply IH.
    destruct x; cbn; auto. destruct (String.eqb name "") eqn:E; [discriminate|].
    apply String.eqb_neq in E. exact E. }
  apply G. discriminate.
Qed.

Lemma option_restores k x : k_entry k <> ""%string ->
  fst (apply_opt (snd (apply_opt x k)) (fst (apply_opt x k))) = k.
Proof.
  intros H. destruct k, x; cbn in *; try reflexivity.
  apply String.eqb_neq in H. rewrite H. reflexivity.
Qed.

Lemma config_of_snoc opts x : config_of (opts ++ [x]) = fst (apply_opt x (config_of opts)).
Proof. unfold config_of. now rewrite fold_left_app. Qed.

Lemma option_restores_config opts x :
  config_of (opts ++ [x; snd (apply_opt x (config_of opts))]) = config_of opts.
Proof.
  change [x; snd (apply_opt x (config_of opts))] with ([x] ++ [snd (apply_opt x (config_of opts))]).
  rewrite app_assoc, config_of_snoc, config_of_snoc. apply option_restores, entry_nonempty.
Qed.

(** ** MultiErr *)

(** Reading a MultiErr text back: the first line is the header; a line
    tab-star-blank starts an error, tab-blank-blank continues one. *)
Definition read_line (l : bytes) (acc : list bytes * list (list bytes)) : list bytes * list (list bytes) :=
  match l with
  | 9%N :: 42%N :: 32%N :: t => ([], (t :: fst acc) :: snd acc)
  | 9%N :: 32%N :: 32%N :: t => (t :: fst acc, snd acc)
  | _ => acc
  end.
Definition read_multi_err (t : bytes) : list bytes :=
  match split NL t with
  | [] => []
  | _ :: ls => map (join [NL]) (snd (fold_right read_line ([], []) ls))
  end.

Lemma split_nonempty c s : split c s <> [].
Proof.
  destruct s as [|d s]; cbn; [discriminate|]. destruct (d =? c)%N; [discriminate|].
  destruct (split c s); discriminate.
Qed.
Lemma split_app c x y : split c (x ++ c :: y) = split c x ++ split c y.
Proof.
  induction x as [|d x IH]; cbn.
  - rewrite N.eqb_refl. reflexivity.
  - destruct (d =? c)%N; [now rewrite IH|]. rewrite IH.
    destruct (split c x) as [|l ls] eqn:E; [now apply split_nonempty in E|]. reflexivity.
Qed.
Lemma split_none c x : ~ In c x -> split c x = [x].
Proof.
  induction x as [|d x IH]; intros H; [reflexivity|]. cbn.
  destruct (N.eqb_spec d c) as [->|_]; [exfalso; apply H; now left|].
  rewrite IH; [reflexivity|]. intros K; apply H; now right.
Qed.
Lemma join_split c x : join [c] (split c x) = x.
Proof.
  induction x as [|d x IH]; [reflexivity|]. cbn.
  destruct (N.eqb_spec d c) as [->|_].
  - destruct (split c x) as [|l ls] eqn:E; [now apply split_nonempty in E|].
    cbn in *. now rewrite IH.
  - destruct (split c x) as [|l ls] eqn:E; [now apply split_nonempty in E|].
    destruct ls; cbn in *; now rewrite IH.
Qed.
Lemma split_no_sep c x l : In l (split c x) -> ~ In c l.
Proof.
  revert l; induction x as [|d x IH]; intros l; cbn.
  - intros [<-|[]] [].
  - destruct (N.eqb_spec d c) as [->|Hd].
    + intros [<-|H]; [intros []|auto].
    + destruct (split c x) as [|k ks] eqn:E; [now apply split_nonempty in E|].
      intros [<-|H].
      * intros [K|K]; [congruence|]. apply (IH k); [now left|exact K].
      * apply IH. now right.
Qed.

Lemma digits_no_nl k n acc : ~ In NL acc -> ~ In NL (digits_fuel k n acc).
Proof.
  revert n acc; induction k as [|k IH]; intros n acc H; [exact H|]. cbn [digits_fuel].
  assert (K : ~ In NL ((48 + n mod 10)%N :: acc)).
  { intros [E|E]; [|now apply H]. unfold NL in E. generalize dependent (n mod 10)%N. intros; lia. }
  destruct (n <? 10)%N; auto.
Qed.
Lemma itoa_no_nl n : ~ In NL (itoa n).
Proof. apply digits_no_nl. intros []. Qed.

Definition cont_line (l : bytes) : bytes := [TAB] ++ b "  " ++ l.
Definition head_line (l : bytes) : bytes := [TAB] ++ b "* " ++ l.

Lemma err_prefix_split s y l ls :
  split NL (trim_right [NL] s) = l :: ls ->
  split NL (err_prefix s ++ y) = head_line l :: map cont_line ls ++ split NL y.
Proof.
  intros E. unfold err_prefix. rewrite E.
  assert (H : forall k, In k (l :: ls) -> ~ In NL k).
  { intros k Hk. apply (split_no_sep NL (trim_right [NL] s)). now rewrite E. }
  change (([TAB] ++ b "* " ++ l ++ [NL]) ++ flat_map (fun l => [TAB] ++ b "  " ++ l ++ [NL]) ls)
    with ((head_line l ++ [NL]) ++ flat_map (fun l => cont_line l ++ [NL]) ls).
  rewrite <- !app_assoc. cbn [app]. rewrite split_app.
  rewrite (split_none NL (head_line l)).
  2:{ intros K. unfold head_line in K. cbn in K.
      destruct K as [K|[K|[K|K]]]; try discriminate. apply (H l); [now left|exact K]. }
  cbn [app]. f_equal. assert (H' : forall k, In k ls -> ~ In NL k) by (intros k Hk; apply H; now right).
  clear H E. induction ls as [|k ls IH]; [reflexivity|]. cbn [flat_map map app].
  rewrite <- !app_assoc. cbn [app]. rewrite split_app, (split_none NL (cont_line k)).
  - cbn [app]. f_equal. apply IH. intros m Hm; apply H'; now right.
  - intros K. unfold cont_line in K. cbn in K.
    destruct K as [K|[K|[K|K]]]; try discriminate. apply (H' k); [now left|exact K].
Qed.

Lemma read_cont ls acc :
  fold_right read_line acc (map cont_line ls) = (ls ++ fst acc, snd acc).
Proof.
  induction ls as [|l ls IH]; [destruct acc; reflexivity|]. cbn [map fold_right]. rewrite IH. reflexivity.
Qed.

Lemma read_points es y :
  fst (fold_right read_line ([], []) (split NL y)) = [] ->
  snd (fold_right read_line ([], []) (split NL y)) = [] ->
  fold_right read_line ([], []) (split NL (join [NL] (map err_prefix es) ++ y))
  = ([], map (fun e => split NL (trim_right [NL] e)) es).
Proof.
  intros H1 H2. induction es as [|e es IH].
  - cbn [map join app]. destruct (fold_right read_line ([], []) (split NL y)); cbn in *; congruence.
  - destruct (split NL (trim_right [NL] e)) as [|l ls] eqn:E; [now apply split_nonempty in E|].
    destruct es as [|e2 es].
    + cbn [map join]. rewrite (err_prefix_split e y l ls E).
      cbn [fold_right]. rewrite fold_right_app, read_cont. cbn. rewrite E, H1, H2, app_nil_r. reflexivity.
    + change (join [NL] (map err_prefix (e :: e2 :: es)))
        with (err_prefix e ++ [NL] ++ join [NL] (map err_prefix (e2 :: es))).
      rewrite <- !app_assoc, (err_prefix_split e _ l ls E).
      cbn [fold_right]. rewrite fold_right_app.
      change (split NL ([NL] ++ join [NL] (map err_prefix (e2 :: es)) ++ y))
        with ([] :: split NL (join [NL] (map err_prefix (e2 :: es)) ++ y)).
      cbn [fold_right]. rewrite IH, read_cont. cbn. rewrite app_nil_r, E. reflexivity.
Qed.

Lemma read_multi_err_multi_err es : read_multi_err (multi_err es) = map (trim_right [NL]) es.
Proof.
  assert (G : forall h, ~ In NL h ->
     read_multi_err (h ++ [NL] ++ join [NL] (map err_prefix es) ++ [NL]) = map (trim_right [NL]) es).
  { intros h Hh. unfold read_multi_err. cbn [app]. rewrite split_app, (split_none NL h Hh). cbn [app].
    rewrite read_points by reflexivity. cbn [snd]. rewrite map_map. apply map_ext.
    intros e. apply join_split. }
  unfold multi_err. destruct es as [|e [|e2 es]].
  - rewrite app_assoc. apply G. rewrite in_app_iff. intros [H|H]; [now apply itoa_no_nl in H|].
    cbn in H. repeat destruct H as [H|H]; try discriminate; exact H.
  - rewrite <- G with (h := b "1 error occurred:"); [reflexivity|].
    cbn. intros H. repeat destruct H as [H|H]; try discriminate; exact H.
  - rewrite app_assoc. apply G. rewrite in_app_iff. intros [H|H]; [now apply itoa_no_nl in H|].
    cbn in H. repeat destruct H as [H|H]; try discriminate; exact H.
Qed.

(** trim_right removes exactly the trailing newlines *)
Lemma trim_left_split cut s : exists w, s = w ++ trim_left cut s /\ Forall (fun c => mem c cut = true) w.
Proof.
  induction s as [|c s (w & E & H)]; [exists []; split; constructor|]. cbn.
  destruct (mem c cut) eqn:M.
  - exists (c :: w). split; [cbn; now rewrite <- E|constructor; auto].
  - exists []. split; [reflexivity|constructor].
Qed.
Lemma trim_right_split cut s : exists w, s = trim_right cut s ++ w /\ Forall (fun c => mem c cut = true) w.
Proof.
  unfold trim_right. destruct (trim_left_split cut (rev s)) as (w & E & H).
  exists (rev w). split.
  - rewrite <- rev_app_distr, <- E. symmetry; apply rev_involutive.
  - now apply Forall_rev.
Qed.

Lemma plugin_id_first pos name l com foot a : first_id l a ->
  plugin_id (Plugin pos name l com foot) =
  match a with AtStr s => IdOk (sa_val s)
  | _ => IdOther (b "attribut id is not of type string attribute") end.
Proof.
  intros H. cbn. destruct (id_loop_spec name l) as [(a' & H' & ->)|[H' _]].
  - now rewrite (first_id_fun l a a' H H').
  - exfalso. destruct H as (x & y & -> & Ha & _). apply Forall_app in H' as [_ H']. inversion H'; auto.
Qed.
Lemma plugin_id_not_found pos name l com foot :
  (exists m, plugin_id (Plugin pos name l com foot) = IdNotFound m) <-> ~ exists a, In a l /\ named_id a.
Proof.
  cbn. destruct (id_loop_spec name l) as [(a & H & E)|[H E]]; rewrite E.
  - split.
    + intros [m Hm]. destruct a; discriminate.
    + intros K. exfalso. apply K. destruct H as (x & y & -> & Ha & _). exists a. split; [|exact Ha].
      rewrite in_app_iff. right. now left.
  - split; [|eauto]. intros _ (a & Ha & Hn). rewrite Forall_forall in H. exact (H a Ha Hn).
Qed.

Lemma option_restores_parse opts x ff data :
  parse (opts ++ [x; snd (apply_opt x (config_of opts))]) ff data = parse opts ff data.
Proof. unfold parse. now rewrite option_restores_config. Qed.

Lemma multi_err_count es : exists r, multi_err es =
  itoa (List.length es) ++ (if Nat.eqb (List.length es) 1 then b " error occurred:" else b " errors occurred:") ++ NL :: r.
Proof. destruct es as [|e [|e2 es]]; eexists; reflexivity. Qed.

Lemma trim_right_nl s : exists w, s = trim_right [NL] s ++ w /\ Forall (fun c => c = NL) w.
Proof.
  destruct (trim_right_split [NL] s) as (w & E & H). exists w. split; [exact E|].
  eapply Forall_impl; [|exact H]. intros c Hc. cbn in Hc. rewrite orb_false_r in Hc. now apply N.eqb_eq.
Qed.
