(** Runs of the parser respect the types of Types.v: the reasons of every error
    and panic. *)
From Coq Require Import List NArith Bool String Arith Lia.
From Verif Require Import Bytes Utf8 F64 Ast Peg Actions Engine Parser GrammarGen QuoteFacts PosFacts Run EngineFacts
  Termination Matches RunInv Sim HistFacts ParseFacts Utf8Facts InputFacts Rules Tree SoundLex Types.
Import ListNotations.

Ltac inv_num H := repeat match type of H with
  | (match ?x with _ => _ end) = true => destruct x; try discriminate H
  end.
Lemma is_num_eq e : is_num e = true -> e = number_text_e.
Proof.
  intros H. unfold is_num in H. inv_num H. rewrite !andb_true_iff, !String.eqb_eq in H.
  destruct H as [[[-> ->] ->] ->]. reflexivity.
Qed.

(** ** Reasons *)

Definition lost (errs : list perror) : Prop := Exists (fun e => unsupported (e_msg e)) errs.

Section Reasons.
  Variable o : settings.
  Variable data : bytes.
  (** Why an error follows the errors [before] *)
  Inductive reason (before : list perror) (m : emsg) : Prop :=
  | r_encoding : o_invalid o = false -> ~ utf8_text data -> m = MText (b "invalid encoding") -> reason before m
  | r_range pre text post : data = pre ++ text ++ post -> number_text text -> parse_float text = None ->
      m = range_error text -> reason before m
  | r_unsupported : unsupported m -> reason before m
  | r_lost : lost before -> m = lost_element -> reason before m.
  Inductive reasons : list perror -> Prop :=
  | rs_nil : reasons []
  | rs_snoc l e : reasons l -> reason l (e_msg e) -> reasons (l ++ [e]).
  (** Why the parser panics *)
  Inductive panic_reason (m : emsg) : Prop :=
  | p_limit : o_max o <> None -> m = max_expr_msg -> panic_reason m
  | p_fatal msg p off text : In msg fatal_texts ->
      m = MText (failure_head p off text ++ failure_line (b msg)) -> panic_reason m
  | p_plugin : plugin_conversion m -> panic_reason m.
End Reasons.

Section Sound.
  Variable o : settings.
  Variable g : grammar.
  Variable data : bytes.
  Variable R : string -> option ty.
  Hypothesis Hg : grammar_lits_ok g = true.
  Hypothesis HR : forall n t, R n = Some t ->
    exists e u ae, find_rule n g = Some e /\ tyof R e [] = Some (u, ae) /\ subty u t = true.
  Notation okerrs s := (reasons o data (s_errs s)).
  Notation L s := (lost (s_errs s)).

  (** The errors of [s'] continue those of [s]. *)
  Definition more (s s' : st) : Prop := exists l, s_errs s' = s_errs s ++ l.
  Lemma more_refl s s' : s_errs s' = s_errs s -> more s s'.
  Proof. intros E. exists []. now rewrite app_nil_r. Qed.
  Lemma more_trans s1 s2 s3 : more s1 s2 -> more s2 s3 -> more s1 s3.
  Proof. intros [l E] [m F]. exists (l ++ m). rewrite F, E. now rewrite app_assoc. Qed.
  Lemma more_lost s s' : more s s' -> L s -> L s'.
  Proof. intros [l E] H. rewrite E. apply Exists_app. now left. Qed.
  Lemma add_ok rule m p s : okerrs s -> reason o data (s_errs s) m -> okerrs (add_err_at rule m p s).
  Proof. intros H K. cbn. now constructor. Qed.

  Lemma fail_at_errs x p w s : s_errs (fail_at x p w s) = s_errs s.
  Proof. unfold fail_at. destruct (Bool.eqb _ _); [|reflexivity]. destruct (_ <? _); [reflexivity|]. now destruct (_ <? _). Qed.
  Lemma restore_errs p s : s_errs (restore p s) = s_errs s.
  Proof. unfold restore. now destruct (_ =? _). Qed.
  Definition utf8_here (p : point) : Prop := utf8_text data -> utf8_text (pt_rest p).
  Lemma reach_utf8 p : Reach data p -> utf8_here p.
  Proof. intros H U. now apply (reach_good data). Qed.
  Lemma utf8_next p : utf8_here p -> utf8_here (advance_pt p).
  Proof.
    intros H U. specialize (H U). rewrite advance_rest. apply utf8_inv in H as [->|(r & t & Hr & -> & Ht)]; [rewrite skipn_nil; apply utf8_nil|].
    rewrite decode_encode by exact Hr. cbn [snd]. now rewrite skipn_app, skipn_all, Nat.sub_diag.
  Qed.
  Lemma read_ok rule s : utf8_here (s_pt s) -> okerrs s -> okerrs (read o rule s) /\ more s (read o rule s).
  Proof.
    intros G H. unfold read, check_rune. destruct (bad_rune _ && _) eqn:B; [|split; [exact H|now apply more_refl]].
    apply andb_true_iff in B as [B0 B]. apply negb_true_iff in B. split.
    - apply add_ok; [exact H|]. apply r_encoding; auto. intros U. apply utf8_next in G. cbn [s_pt set_pt] in B0. rewrite (utf8_not_bad _ (G U)) in B0. discriminate.
    - now eexists.
  Qed.

  (** What a run satisfies *)
  Definition good (s : st) (t : ty) (ae : aenv) (r : out) : Prop :=
    match r with
    | OOk v en s' => more s s' /\ okerrs s' /\ has (L s') t v /\ env_has (L s') en ae
    | OFail _ s' => more s s' /\ okerrs s'
    | OPanic m _ s' => more s s' /\ okerrs s' /\ panic_reason o m
    | OFuel => True
    end.
  (** ... without environment, for the parts that ignore it *)
  Definition good0 (s : st) (t : ty) (r : out) : Prop :=
    match r with
    | OOk v _ s' => more s s' /\ okerrs s' /\ has (L s') t v
    | OFail _ s' => more s s' /\ okerrs s'
    | OPanic m _ s' => more s s' /\ okerrs s' /\ panic_reason o m
    | OFuel => True
    end.
  Lemma good_good0 s t ae r : good s t ae r -> good0 s t r.
  Proof. destruct r; cbn; tauto. Qed.

  Ltac four := split; [|split; [|split]]; auto.
  Ltac three := split; [|split]; auto.
  Lemma bytes_has (P : Prop) t : has P (one TBytes) (VBytes t).
  Proof. now apply has_one. Qed.
  Lemma nil_has (P : Prop) : has P (one TNil) VNil.
  Proof. now apply has_one. Qed.
  Lemma lit_good rule want p rs en ae : forall s, utf8_here (s_pt s) -> okerrs s -> env_has (L s) en ae ->
    good s (one TBytes) ae (lit_loop o rule want p rs en s).
  Proof.
    induction rs as [|r rs IH]; intros s G H E; cbn [lit_loop].
    - cbn. rewrite fail_at_errs. four; [now apply more_refl, fail_at_errs|apply bytes_has].
    - destruct (_ =? r)%N.
      + destruct (read_ok (Some rule) s G H) as [H1 H2]. specialize (IH (read o (Some rule) s)).
        rewrite read_pt in IH. specialize (IH (utf8_next _ G) H1).
        assert (E1 : env_has (L (read o (Some rule) s)) en ae) by (eapply env_later; [apply more_lost; exact H2|exact E]).
        specialize (IH E1). destruct (lit_loop _ _ _ _ _ _ _); cbn in *; intuition eauto using more_trans.
      + cbn. rewrite restore_errs, fail_at_errs. split; [|exact H]. apply more_refl. now rewrite restore_errs, fail_at_errs.
  Qed.
  Lemma limit_some s : over_limit o s = true -> o_max o <> None.
  Proof. unfold over_limit. destruct (o_max o); congruence. Qed.
  Lemma prim_good rule e en s r t ae ae' : tyof R e ae = Some (t, ae') -> prim_out o g rule e en s = Some r ->
    Reach data (s_pt s) -> okerrs s -> env_has (L s) en ae -> good s t ae' r.
  Proof.
    intros T P Hs H E. destruct e; cbn [prim_out] in P; try discriminate P; try (injection P as <-).
    - destruct p; cbn [tyof] in T.
      + injection T as <- <-. cbn. four; [now apply more_refl|apply nil_has].
      + injection T as <- <-. cbn. rewrite push_error_errs. split; [|exact H]. apply more_refl, push_error_errs.
      + destruct (existsb _ _) eqn:X; [|discriminate T]. cbn. three; [now apply more_refl|].
        apply existsb_exists in X as (x & X & Y). apply String.eqb_eq in Y. subst x. eapply p_fatal; [exact X|reflexivity].
    - injection T as <- <-. cbn. assert (Er : s_errs (run_state o c s) = s_errs s).
      { destruct c; cbn; [now destruct (s_warns s)|now destruct (_ && _)]. }
      rewrite Er. four; [now apply more_refl|apply nil_has].
    - injection T as <- <-. destruct (at_eof s); cbn; rewrite fail_at_errs.
      + split; [|exact H]. apply more_refl, fail_at_errs.
      + destruct (read_ok (Some rule) s (reach_utf8 _ Hs) H) as [H1 H2]. four.
        * eapply more_trans; [exact H2|]. apply more_refl, fail_at_errs.
        * apply bytes_has.
        * eapply env_later; [apply more_lost; exact H2|exact E].
    - injection T as <- <-. destruct (_ && _); cbn; rewrite fail_at_errs.
      + destruct (read_ok (Some rule) s (reach_utf8 _ Hs) H) as [H1 H2]. four.
        * eapply more_trans; [exact H2|]. apply more_refl, fail_at_errs.
        * apply bytes_has.
        * eapply env_later; [apply more_lost; exact H2|exact E].
      + split; [|exact H]. apply more_refl, fail_at_errs.
    - injection T as <- <-. apply lit_good; auto using reach_utf8.
    - cbn in T. destruct (R name) as [u|] eqn:Rn; [|discriminate T]. apply HR in Rn as (e & x & y & F & _). rewrite F in P. discriminate P.
  Qed.

  (** Sequences and alternatives *)
  Definition seq_ty := fix go (l : list expr) (ae : aenv) : option (list tag * aenv) :=
    match l with
    | [] => Some ([], ae)
    | x :: l' =>
        match tyof R x ae with
        | Some (t, ae') =>
            match go l' ae' with Some (ts, ae2) => Some (fst t ++ ts, ae2) | None => None end
        | None => None
        end
    end.
  Definition choice_ty := fix go (l : list expr) : option ty :=
    match l with
    | [] => Some ([], [])
    | x :: l' => match tyof R x [], go l' with Some (t, _), Some u => Some (join t u) | _, _ => None end
    end.
  Lemma dedup_in x l : In x l -> In x (dedup l).
  Proof.
    induction l as [|y l IH]; cbn; [tauto|]. intros [->|H]; destruct (mem _ _) eqn:M; cbn; auto. apply mem_in in M. auto.
  Qed.
  Lemma join_l (P : Prop) t u v : has P t v -> has P (join t u) v.
  Proof. apply has_mono; auto; intros x H; apply dedup_in, in_or_app; now left. Qed.
  Lemma join_r (P : Prop) t u v : has P u v -> has P (join t u) v.
  Proof. apply has_mono; auto; intros x H; apply dedup_in, in_or_app; now right. Qed.

  Definition elems (P : Prop) (ts : list tag) (l : list val) : Prop := Forall (tagged P ts) l.
  Lemma elems_mono (P Q : Prop) ts us l : (P -> Q) -> (forall x, In x ts -> In x us) -> elems P ts l -> elems Q us l.
  Proof. intros HP Hi H. eapply Forall_impl; [|exact H]. intros v. now apply tagged_mono. Qed.

  Lemma reach_infix p q : Reach data p -> Steps p q -> exists pre post, data = pre ++ seg p q ++ post.
  Proof.
    intros Hp Hq. apply reach_steps in Hp. apply steps_rest in Hp as [E _]. rewrite start_rest in E.
    apply steps_rest in Hq as [F _]. rewrite F in E. eexists _, _. exact E.
  Qed.

  Lemma sound_all :
    (forall rule e en s r, ev o g rule e en s r -> forall t ae ae', tyof R e ae = Some (t, ae') -> lits_ok e = true ->
       Reach data (s_pt s) -> okerrs s -> env_has (L s) en ae -> good s t ae' r) /\
    (forall rule pt w es acc en s r, evs o g rule pt w es acc en s r -> forall ts us ae ae', seq_ty es ae = Some (ts, ae') ->
       forallb lits_ok es = true -> Reach data (s_pt s) -> okerrs s -> env_has (L s) en ae -> elems (L s) us acc ->
       good s ([TList], us ++ ts) ae' r) /\
    (forall rule es en s r, evc o g rule es en s r -> forall t, choice_ty es = Some t -> forallb lits_ok es = true ->
       Reach data (s_pt s) -> okerrs s -> good0 s t r /\ (forall v en' s', r = OOk v en' s' -> en' = en)) /\
    (forall rule e acc en s r, evt o g rule e acc en s r -> forall t ae1, tyof R e [] = Some (t, ae1) -> lits_ok e = true ->
       Reach data (s_pt s) -> okerrs s -> elems (L s) (fst t) acc ->
       good0 s ([TList], fst t) r /\ (forall v en' s', r = OOk v en' s' -> en' = en)).
  Proof.
    apply ev_mutind.
    - intros rule e en s Hl t ae ae' T He Hs H E. cbn. three; [now apply more_refl|]. apply p_limit; [|reflexivity]. eapply limit_some; eauto.
    - intros rule e en s r _ P t ae ae' T He Hs H E. apply (prim_good rule e en (tick s) r t ae ae'); auto.
    - (* action *)
      intros rule a e en s r _ Hv IH t ae ae' T He Hs H E. cbn [tyof] in T.
      destruct (tyof R e ae) as [[t1 ae1]|] eqn:T1; [|discriminate T].
      destruct (act_ok a ae1 (minlen e) && _) eqn:K; [|discriminate T]. injection T as <- <-. apply andb_true_iff in K as [K1 K2].
      specialize (IH _ _ _ T1 He Hs H E). destruct r as [v en' s'|en' s'|m x s'|]; cbn [act_out]; auto.
      cbn in IH. destruct IH as (M & H' & _ & E').
      pose proof (ev_track o g data Hg _ _ _ _ _ Hv He Hs) as Tr. cbn in Tr.
      pose proof (ev_matches o g data Hg _ _ _ _ _ _ _ Hv He Hs) as Mt. cbn in Mt.
      rewrite slice_seg. change (s_pt (tick s)) with (s_pt s) in *.
      set (text := seg (s_pt s) (s_pt s')) in *. set (s2 := set_cur _ _ s').
      pose proof (run_ok (o_ignore o) (s_warns s2) (L s') a en' ae1 (pt_pos (s_pt s)) text (minlen e) E' (proj1 (minlen_all g) _ _ Mt) K1) as B.
      destruct (run_action _ _ _ _ _ _) as [v'|v' m|m]; cbn in B.
      + cbn. auto.
      + destruct B as [B1 B2]. cbn. split; [|split; [|split]].
        * eapply more_trans; [exact M|]. now eexists.
        * constructor; [exact H'|]. cbn. destruct B1 as [(-> & -> & B)|[B|[-> B]]].
          -- apply is_num_eq in K2. subst e. destruct (reach_infix _ _ Hs Tr) as (pre & post & D).
             eapply r_range; [exact D| |exact B|reflexivity]. eapply number_matches. exact Mt.
          -- now apply r_unsupported.
          -- now apply r_lost.
        * eapply has_later; [|exact B2]. intros [X|X]; unfold lost; rewrite Exists_app; [now left|right]. now constructor.
        * eapply env_later; [|exact E']. intros X. unfold lost. rewrite Exists_app. now left.
      + cbn. three. now apply p_plugin.
    - (* label *)
      intros rule l e en s r _ _ IH t ae ae' T He Hs H E. cbn [tyof] in T. destruct (tyof R e []) as [[t1 ae1]|] eqn:T1; [|discriminate T].
      injection T as <- <-. specialize (IH _ _ _ T1 He Hs H (env_nil _)). destruct r as [v en' s'|en' s'|m x s'|]; cbn in IH |- *; auto.
      destruct IH as (M & H' & V & _). four.
      apply env_bind; [exact V|]. eapply env_later; [apply more_lost; exact M|exact E].
    - (* not *)
      intros rule e en s r _ _ IH t ae ae' T He Hs H E. cbn [tyof] in T. destruct (tyof R e []) as [[t1 ae1]|] eqn:T1; [|discriminate T].
      injection T as <- <-. specialize (IH _ _ _ T1 He Hs H (env_nil _)). destruct r as [v en' s'|en' s'|m x s'|]; cbn in IH |- *; auto.
      + rewrite restore_errs. cbn. destruct IH as (M & H' & _). split; [|exact H']. eapply more_trans; [exact M|]. apply more_refl. now rewrite restore_errs.
      + rewrite restore_errs. cbn. destruct IH as (M & H'). split; [|split; [exact H'|split]].
        * eapply more_trans; [exact M|]. apply more_refl. now rewrite restore_errs.
        * now apply has_one.
        * eapply env_later; [apply more_lost; exact M|exact E].
    - (* option *)
      intros rule e en s r _ _ IH t ae ae' T He Hs H E. cbn [tyof] in T. destruct (tyof R e []) as [[t1 ae1]|] eqn:T1; [|discriminate T].
      injection T as <- <-. specialize (IH _ _ _ T1 He Hs H (env_nil _)). destruct r as [v en' s'|en' s'|m x s'|]; cbn in IH |- *; auto.
      + destruct IH as (M & H' & V & _). split; [exact M|]. split; [exact H'|]. split; [now apply (join_r _ (one TNil))|].
        eapply env_later; [apply more_lost; exact M|exact E].
      + destruct IH as (M & H'). split; [exact M|]. split; [exact H'|]. split; [|eapply env_later; [apply more_lost; exact M|exact E]].
        apply (join_l _ (one TNil)). now apply has_one.
    - (* rule *)
      intros rule n e en s r _ F _ IH t ae ae' T _ Hs H E. cbn [tyof] in T. destruct (R n) as [t1|] eqn:Rn; [|discriminate T].
      injection T as <- <-. apply HR in Rn as (e1 & u & ae1 & F1 & T1 & S1). rewrite F in F1. injection F1 as <-.
      assert (He : lits_ok e = true).
      { apply find_rule_in in F. unfold grammar_lits_ok in Hg. rewrite forallb_forall in Hg. exact (Hg _ F). }
      specialize (IH _ _ _ T1 He Hs H (env_nil _)). destruct r as [v en' s'|en' s'|m x s'|]; cbn in IH |- *; auto.
      destruct IH as (M & H' & V & _). split; [exact M|]. split; [exact H'|]. split; [eapply has_sub; eauto|].
      eapply env_later; [apply more_lost; exact M|exact E].
    - (* sequence *)
      intros rule es en s r _ _ IH t ae ae' T He Hs H E. cbn [tyof] in T. fold seq_ty in T. destruct (seq_ty es ae) as [[ts ae1]|] eqn:T1; [|discriminate T].
      injection T as <- <-. specialize (IH _ [] _ _ T1 He Hs H E (Forall_nil _)). destruct r as [v en' s'|en' s'|m x s'|]; auto.
      destruct IH as (M & H' & V & E'). four. split; [exact (proj1 V)|].
      destruct V as [_ V]. destruct v; auto. eapply Forall_impl; [|exact V]. intros v. apply tagged_mono; auto. intros x. apply dedup_in.
    - (* choice *)
      intros rule es en s r _ _ IH t ae ae' T He Hs H E. cbn [tyof] in T. fold choice_ty in T. destruct (choice_ty es) as [t1|] eqn:T1; [|discriminate T].
      injection T as <- <-. destruct (IH _ eq_refl He Hs H) as [G En]. destruct r as [v en' s'|en' s'|m x s'|]; auto.
      specialize (En _ _ _ eq_refl). subst en'. destruct G as (M & H' & V). split; [exact M|]. split; [exact H'|]. split; [exact V|].
      eapply env_later; [apply more_lost; exact M|exact E].
    - (* star *)
      intros rule e en s r _ _ IH t ae ae' T He Hs H E. cbn [tyof] in T. destruct (tyof R e []) as [[t1 ae1]|] eqn:T1; [|discriminate T].
      injection T as <- <-. destruct (IH _ _ eq_refl He Hs H (Forall_nil _)) as [G En]. destruct r as [v en' s'|en' s'|m x s'|]; auto.
      specialize (En _ _ _ eq_refl). subst en'. destruct G as (M & H' & V). split; [exact M|]. split; [exact H'|]. split; [exact V|].
      eapply env_later; [apply more_lost; exact M|exact E].
    - (* plus *)
      intros rule e en s r _ _ IH t ae ae' T He Hs H E. cbn [tyof] in T. destruct (tyof R e []) as [[t1 ae1]|] eqn:T1; [|discriminate T].
      injection T as <- <-. destruct (IH _ _ eq_refl He Hs H (Forall_nil _)) as [G En]. destruct r as [v en' s'|en' s'|m x s'|]; auto.
      specialize (En _ _ _ eq_refl). subst en'. destruct G as (M & H' & V).
      assert (K : good s ([TList], fst t1) ae (OOk v en s')).
      { split; [exact M|]. split; [exact H'|]. split; [exact V|]. eapply env_later; [apply more_lost; exact M|exact E]. }
      cbn [plus_out]. destruct v; auto. destruct l; auto. now split.
    - (* end of a sequence *)
      intros rule pt w acc en s ts us ae ae' T _ Hs H E A. injection T as <- <-. cbn. split; [now apply more_refl|]. split; [exact H|]. split; [|exact E].
      split; [left; now left|]. rewrite app_nil_r. apply Forall_rev. exact A.
    - intros rule pt w e es acc en s v en' s' r H1 IH1 _ IH2 ts us ae ae' T He Hs H E A. cbn in T, He. apply andb_true_iff in He as [He1 He2].
      destruct (tyof R e ae) as [[t1 ae1]|] eqn:T1; [|discriminate T]. fold seq_ty in T. destruct (seq_ty es ae1) as [[ts2 ae2]|] eqn:T2; [|discriminate T].
      injection T as <- <-. destruct (IH1 _ _ _ T1 He1 Hs H E) as (M & H' & V & E').
      pose proof (ev_track o g data Hg _ _ _ _ _ H1 He1 Hs) as Tr. cbn in Tr.
      assert (A' : elems (L s') (us ++ fst t1) (v :: acc)).
      { constructor.
        - eapply tagged_mono; [..|exact (proj1 V)]; auto. intros x X. apply in_or_app. now right.
        - eapply elems_mono; [..|exact A]; [apply more_lost; exact M|]. intros x X. apply in_or_app. now left. }
      specialize (IH2 _ _ _ _ T2 He2 (steps_reach _ _ _ Hs Tr) H' E' A'). rewrite <- app_assoc in IH2.
      destruct r as [v2 en2 s2|en2 s2|m x s2|]; cbn in IH2 |- *; auto; destruct IH2 as [M2 K]; (split; [exact (more_trans _ _ _ M M2)|exact K]).
    - intros rule pt w e es acc en s en' s' _ IH ts us ae ae' T He Hs H E A. cbn in T, He. apply andb_true_iff in He as [He1 He2].
      destruct (tyof R e ae) as [[t1 ae1]|] eqn:T1; [|discriminate T]. destruct (IH _ _ _ T1 He1 Hs H E) as (M & H').
      cbn. rewrite restore_errs. split; [|exact H']. eapply more_trans; [exact M|]. apply more_refl. now rewrite restore_errs.
    - intros rule pt w e es acc en s m x s' _ IH ts us ae ae' T He Hs H E A. cbn in T, He. apply andb_true_iff in He as [He1 He2].
      destruct (tyof R e ae) as [[t1 ae1]|] eqn:T1; [|discriminate T]. exact (IH _ _ _ T1 He1 Hs H E).
    - intros rule en s t T _ Hs H. split; [|discriminate]. cbn. split; [now apply more_refl|exact H].
    - intros rule e es en s v en' s' _ IH t T He Hs H. cbn in T, He. apply andb_true_iff in He as [He1 He2].
      destruct (tyof R e []) as [[t1 ae1]|] eqn:T1; [|discriminate T]. fold choice_ty in T. destruct (choice_ty es) as [t2|]; [|discriminate T]. injection T as <-.
      destruct (IH _ _ _ T1 He1 Hs H (env_nil _)) as (M & H' & V & _). split; [|congruence]. cbn. split; [exact M|]. split; [exact H'|]. now apply join_l.
    - intros rule e es en s en' s' r H1 IH1 _ IH2 t T He Hs H. cbn in T, He. apply andb_true_iff in He as [He1 He2].
      destruct (tyof R e []) as [[t1 ae1]|] eqn:T1; [|discriminate T]. fold choice_ty in T. destruct (choice_ty es) as [t2|] eqn:T2; [|discriminate T]. injection T as <-.
      destruct (IH1 _ _ _ T1 He1 Hs H (env_nil _)) as (M & H').
      destruct (ev_track o g data Hg _ _ _ _ _ H1 He1 Hs) as [P _].
      destruct (IH2 _ eq_refl He2) as [G En]; [cbn; now rewrite P|exact H'|]. split; [|exact En].
      destruct r as [v2 en2 s2|en2 s2|m x s2|]; cbn in G |- *; auto; destruct G as [M2 K]; (split; [exact (more_trans _ _ _ M M2)|]); auto.
      destruct K as [K V]. split; [exact K|]. now apply join_r.
    - intros rule e es en s m x s' _ IH t T He Hs H. cbn in T, He. apply andb_true_iff in He as [He1 He2].
      destruct (tyof R e []) as [[t1 ae1]|] eqn:T1; [|discriminate T]. split; [|discriminate]. exact (IH _ _ _ T1 He1 Hs H (env_nil _)).
    - intros rule e acc en s en' s' _ IH t ae1 T He Hs H A. destruct (IH _ _ _ T He Hs H (env_nil _)) as (M & H'). split; [|congruence].
      cbn. split; [exact M|]. split; [exact H'|]. split; [left; now left|]. apply Forall_rev. eapply elems_mono; [..|exact A]; auto. apply more_lost; exact M.
    - intros rule e acc en s v en' s' r H1 IH1 _ IH2 t ae1 T He Hs H A. destruct (IH1 _ _ _ T He Hs H (env_nil _)) as (M & H' & V & _).
      pose proof (ev_track o g data Hg _ _ _ _ _ H1 He Hs) as Tr. cbn in Tr.
      destruct (IH2 _ _ T He (steps_reach _ _ _ Hs Tr) H') as [G En].
      { constructor; [exact (proj1 V)|]. eapply elems_mono; [..|exact A]; auto. apply more_lost; exact M. }
      split; [|exact En]. destruct r as [v2 en2 s2|en2 s2|m x s2|]; cbn in G |- *; auto; destruct G as [M2 K]; (split; [exact (more_trans _ _ _ M M2)|exact K]).
    - intros rule e acc en s m x s' _ IH t ae1 T He Hs H A. split; [|discriminate]. exact (IH _ _ _ T He Hs H (env_nil _)).
  Qed.
End Sound.

(** ** The package's grammar *)

Lemma gen_rule_types n t : table rule_types n = Some t ->
  exists e u ae, find_rule n gen_grammar = Some e /\ tyof (table rule_types) e [] = Some (u, ae) /\ subty u t = true.
Proof.
  intros H. assert (I : In (n, t) rule_types).
  { revert H. generalize rule_types. intros l. induction l as [|[k x] l IH]; cbn; [discriminate|].
    destruct (String.eqb_spec k n) as [->|_]; [intros [= ->]; now left|right; auto]. }
  pose proof gen_typed as G. rewrite forallb_forall in G. specialize (G _ I). unfold rule_typed in G. cbn [fst snd] in G.
  destruct (find_rule n gen_grammar) as [e|]; [|discriminate]. destruct (tyof _ e []) as [[u ae]|] eqn:T; [|discriminate].
  exists e, u, ae. auto.
Qed.
Lemma all_rules_typed n e : find_rule n gen_grammar = Some e -> exists t, table rule_types n = Some t.
Proof.
  intros F. apply find_rule_in in F.
  assert (K : forallb (fun r : string * expr => match table rule_types (fst r) with Some _ => true | None => false end) gen_grammar = true)
    by (vm_compute; reflexivity).
  rewrite forallb_forall in K. specialize (K _ F). cbn [fst] in K. destruct (table rule_types n); [now eexists|discriminate].
Qed.

Lemma run_typed o ff data n e r : find_rule n gen_grammar = Some e -> ev o gen_grammar n e [] (init_st o ff data) r ->
  exists t, table rule_types n = Some t /\
  match r with
  | OOk v _ s => reasons o data (s_errs s) /\ has (lost (s_errs s)) t v
  | OFail _ s => reasons o data (s_errs s)
  | OPanic m _ s => reasons o data (s_errs s) /\ panic_reason o m
  | OFuel => True
  end.
Proof.
  intros F H. destruct (all_rules_typed n e F) as [t T]. exists t. split; [exact T|].
  destruct (gen_rule_types n t T) as (e' & u & ae & F' & T' & Sb). rewrite F in F'. injection F' as <-.
  assert (He : lits_ok e = true) by exact (forallb_rule _ _ gen_lits_ok F).
  assert (Hs : Reach data (s_pt (init_st o ff data))) by (unfold init_st, check_rune; destruct (_ && _); constructor).
  assert (Hr : reasons o data (s_errs (init_st o ff data))).
  { unfold init_st, check_rune. destruct (_ && _) eqn:B; [|constructor]. apply andb_true_iff in B as [B0 B]. apply negb_true_iff in B.
    cbn. apply (rs_snoc o data []); [constructor|]. apply r_encoding; auto. intros U. cbn in B0. rewrite start_rest in B0.
    rewrite (utf8_not_bad _ U) in B0. discriminate. }
  pose proof (proj1 (sound_all o gen_grammar data (table rule_types) gen_lits_ok gen_rule_types) _ _ _ _ _ H _ _ _ T' He Hs Hr (env_nil _)) as G.
  destruct r as [v en s|en s|m x s|]; cbn in G; try tauto. destruct G as (_ & G & V & _). split; [exact G|]. eapply has_sub; eauto.
Qed.
