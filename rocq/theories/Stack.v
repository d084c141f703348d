(** The nesting of the parser's calls.

    Go's stack grows on demand up to a limit (1 GB on 64 bit systems); a goroutine over
    the limit ends the program, and no deferred recover runs.  Every parse*Expr function
    of the package calls parseExpr (logstash_config.go:12693-12757) for its parts, and at
    most four Go frames stand between one parseExpr and the next, so the number of nested
    calls of parseExpr is the size of the stack up to constants. *)
From Coq Require Import List NArith ZArith Bool String Arith Lia.
From Verif Require Import Bytes Utf8 F64 Ast Peg Actions Engine Parser GrammarGen QuoteFacts PosFacts Run EngineFacts
  Termination LimitFacts AstInd.
Import ListNotations.

(** logstash_config.go:12693-12757 with a stack that has room for [d] calls of parseExpr;
    [k] bounds the turns of a loop, which need no stack.  [OFuel]: no room. *)
Fixpoint call (o : settings) (g : grammar) (d k : nat) : string -> expr -> env -> st -> out :=
  match d with
  | 0 => fun _ _ _ _ => OFuel
  | S d' => step o g (call o g d' k) k
  end.

(** logstash_config.go:12587-12651 [parse] with such a stack; [None]: no room *)
Definition parse_stack (d k : nat) (opts : list popt) (ff : list failure) (data : bytes) : option (result * list failure) :=
  let c := config_of opts in
  match find_rule (k_entry c) gen_grammar with
  | None => Some (Returned VNil [PError (Pos 1 0 0) None (MText (b "invalid entrypoint"))], ff)
  | Some e =>
      match call (settings_of c) gen_grammar d k (k_entry c) e [] (init_st (settings_of c) ff data) with
      | OFuel => None
      | r => Some (finish c r ff)
      end
  end.

Section Stack.
  Variable o : settings.
  Variable g : grammar.

  Lemma call_ev d k : forall rule e en s, call o g d k rule e en s <> OFuel -> ev o g rule e en s (call o g d k rule e en s).
  Proof.
    induction d as [|d IH]; intros rule e en s H; [cbn in H; congruence|]. exact (step_ev o g (call o g d k) IH k rule e en s H).
  Qed.

  (** More room gives the same result. *)
  Definition below (r r' : out) : Prop := r = OFuel \/ r = r'.
  Section Step.
    Variables f f' : string -> expr -> env -> st -> out.
    Hypothesis Hf : forall rule e en s, below (f rule e en s) (f' rule e en s).
    Lemma seq_below rule pt w es : forall acc en s, below (seq_loop (f rule) pt w es acc en s) (seq_loop (f' rule) pt w es acc en s).
    Proof.
      induction es as [|e es IH]; intros acc en s; cbn [seq_loop]; [now right|]. destruct (Hf rule e en s) as [-> | ->]; [now left|].
      destruct (f' rule e en s); try (now right). apply IH.
    Qed.
    Lemma choice_below rule es : forall en s, below (choice_loop (f rule) es en s) (choice_loop (f' rule) es en s).
    Proof.
      induction es as [|e es IH]; intros en s; cbn [choice_loop]; [now right|]. destruct (Hf rule e [] s) as [-> | ->]; [now left|].
      destruct (f' rule e [] s); try (now right). apply IH.
    Qed.
    Lemma star_below rule e k : forall k' acc en s, k <= k' -> below (star_loop (f rule e []) k acc en s) (star_loop (f' rule e []) k' acc en s).
    Proof.
      induction k as [|k IH]; intros [|k'] acc en s L; try lia; try (now left). cbn [star_loop]. destruct (Hf rule e [] s) as [-> | ->]; [now left|].
      destruct (f' rule e [] s); try (now right). apply IH. lia.
    Qed.
    Lemma step_below k k' rule e en s : k <= k' -> below (step o g f k rule e en s) (step o g f' k' rule e en s).
    Proof.
      intros L. unfold step. destruct (over_limit o (tick s)); [now right|].
      destruct e; try (now right).
      - destruct (Hf rule e en (tick s)) as [-> | ->]; [now left|now right].
      - apply choice_below.
      - apply seq_below.
      - destruct (Hf rule e [] (tick s)) as [-> | ->]; [now left|now right].
      - cbv zeta. destruct (Hf rule e [] (set_mfinv (negb (s_mfinv (tick s))) (tick s))) as [-> | ->]; [now left|now right].
      - destruct (star_below rule e k k' [] en (tick s) L) as [-> | ->]; [now left|now right].
      - now apply star_below.
      - destruct (Hf rule e [] (tick s)) as [-> | ->]; [now left|now right].
      - destruct (find_rule name g) as [x|]; [|now right]. destruct (Hf name x [] (tick s)) as [-> | ->]; [now left|now right].
    Qed.
  End Step.
  Lemma eval_below n : forall d k rule e en s, n <= d -> n <= k -> below (eval o g n rule e en s) (call o g d k rule e en s).
  Proof.
    induction n as [|n IH]; intros [|d] k rule e en s Hd Hk; try lia; try (now left). cbn [eval call]. apply step_below; [|lia]. intros. apply IH; lia.
  Qed.

  (** The limit on the number of expressions is a limit on their nesting. *)
  Lemma limit_room m : o_max o = Some m -> forall n rule e en s, N.to_nat m + 2 <= n + N.to_nat (s_cnt s) -> 1 <= n -> eval o g n rule e en s <> OFuel.
  Proof.
    intros Hm. assert (Ov : forall s, over_limit o s = false -> (s_cnt s <= m)%N) by (intros s; unfold over_limit; rewrite Hm; apply N.ltb_ge).
    assert (Ov' : forall n rule e en s, (m <= s_cnt s)%N -> exists x y z, eval o g (S n) rule e en s = OPanic x y z).
    { intros n rule e en s H. cbn [eval]. unfold step. replace (over_limit o (tick s)) with true; [eauto|]. symmetry. unfold over_limit. rewrite Hm. apply N.ltb_lt. cbn. lia. }
    assert (Cn : forall n rule e en s, match eval o g n rule e en s with OFuel => True | r => (s_cnt s < out_cnt r)%N end).
    { intros n rule e en s. pose proof (eval_ev o g n rule e en s) as R. destruct (eval o g n rule e en s) eqn:E; auto;
        (assert (R' := R ltac:(discriminate)); apply (proj1 (cnt_mono_all o g)) in R'; exact R'). }
    induction n as [|n IH]; intros rule e en s H Hn; [lia|]. cbn [eval]. unfold step. destruct (over_limit o (tick s)) eqn:L; [discriminate|].
    apply Ov in L. cbn [tick s_cnt set_cnt] in L.
    assert (P1 : 1 <= n) by lia.
    assert (F : forall rule e en s', (s_cnt s < s_cnt s')%N -> eval o g n rule e en s' <> OFuel) by (intros; apply IH; lia).
    assert (T : (s_cnt s < s_cnt (tick s))%N) by (cbn; lia).
    assert (Star : forall rule e k acc en s', (s_cnt s < s_cnt s')%N -> 1 <= k -> N.to_nat m + 2 <= k + N.to_nat (s_cnt s') -> star_loop (eval o g n rule e []) k acc en s' <> OFuel).
    { intros rule' e'. induction k as [|k IHk]; intros acc en' s' Hs Hk K; [lia|]. cbn [star_loop].
      pose proof (F rule' e' [] s' Hs) as F1. pose proof (Cn n rule' e' [] s') as C1. destruct n as [|n0]; [lia|]. pose proof (Ov' n0 rule' e' [] s') as O1.
      destruct (eval o g (S n0) rule' e' [] s') as [v ? s2|? s2|? ? s2|]; try discriminate; [|congruence]. cbn [out_cnt] in C1.
      destruct (N.leb_spec m (s_cnt s')) as [G|G]; [destruct (O1 G) as (? & ? & ? & ?); discriminate|]. apply IHk; lia. }
    destruct e; try discriminate.
    - specialize (F rule e en (tick s) T). destruct (eval o g n rule e en (tick s)); try discriminate; [|congruence]. cbv zeta. destruct (run_action _ _ _ _ _ _); discriminate.
    - destruct p; discriminate.
    - destruct (at_eof _); discriminate.
    - destruct (_ && _); discriminate.
    - clear. generalize (s_pt (tick s)). intros pt. generalize (tick s). induction runes as [|c rs IHr]; intros s'; cbn [lit_loop]; [discriminate|]. destruct (_ =? _)%N; [apply IHr|discriminate].
    - clear H. generalize en as en0. revert T. generalize (tick s). induction l as [|e l IHe]; intros s' T en0; cbn [choice_loop]; [discriminate|].
      pose proof (F rule e [] s' T) as F1. pose proof (Cn n rule e [] s') as C1. destruct (eval o g n rule e [] s') as [v ? s2|? s2|? ? s2|]; try discriminate; [|congruence]. apply IHe. cbn [set_warns s_cnt out_cnt] in *. lia.
    - clear H. cbv zeta. generalize (s_pt (tick s)), (s_warns (tick s)), (@nil val). intros pt w. generalize en as en0. revert T. generalize (tick s). induction l as [|e l IHe]; intros s' T en0 acc; cbn [seq_loop]; [discriminate|].
      pose proof (F rule e en0 s' T) as F1. pose proof (Cn n rule e en0 s') as C1. destruct (eval o g n rule e en0 s') as [v ? s2|? s2|? ? s2|]; try discriminate; [|congruence]. apply IHe. cbn [out_cnt] in *. lia.
    - specialize (F rule e [] (tick s) T). destruct (eval o g n rule e [] (tick s)); try discriminate. congruence.
    - cbv zeta. specialize (F rule e [] (set_mfinv (negb (s_mfinv (tick s))) (tick s)) T). destruct (eval o g n rule e [] _); try discriminate. congruence.
    - assert (Sx : star_loop (eval o g n rule e []) n [] en (tick s) <> OFuel) by (apply Star; [exact T|exact P1|cbn; lia]). destruct (star_loop _ _ _ _ _) as [[]| | |]; try discriminate; [|congruence]. destruct l; discriminate.
    - apply Star; [exact T|exact P1|cbn; lia].
    - specialize (F rule e [] (tick s) T). destruct (eval o g n rule e [] (tick s)); try discriminate. congruence.
    - destruct (find_rule name g) as [x|]; [|discriminate]. specialize (F name x [] (tick s) T). destruct (eval o g n name x [] (tick s)); try discriminate. congruence.
  Qed.
End Stack.

(** ** Arrays in arrays *)
Fixpoint adep (a : attr) : nat := match a with AtArr _ _ l _ _ => S (list_max (map adep l)) | _ => 0 end.
Definition pdep (p : plugin) : nat := match p with Plugin _ _ l _ _ => list_max (map adep l) end.
Definition bdep (x : bop) : nat := match x with BPlugin p | BPluginPtr p => pdep p | _ => 0 end.
Definition sdep (s : section) : nat := list_max (map bdep (ps_bops s)).
(** how deep arrays are nested in the plugins of the sections (not in those of branches) *)
Definition cdep (c : config) : nat := list_max (map sdep (cf_input c ++ cf_filter c ++ cf_output c)).
Fixpoint vdep (v : val) : nat :=
  match v with
  | VList l => list_max (map vdep l)
  | VAttr a => adep a
  | VAttrs l => list_max (map adep l)
  | VPlugin p => pdep p
  | VSection s => sdep s
  | VConfig c => cdep c
  | _ => 0
  end.
Definition edep (e : env) : nat := list_max (map (fun x => vdep (snd x)) e).

Lemma lookup_dep l e : vdep (lookup l e) <= edep e.
Proof. induction e as [|[k v] e IH]; [apply Nat.le_0_l|]. unfold edep in *. cbn [lookup map list_max snd]. change (list_max (vdep v :: ?x)) with (Nat.max (vdep v) (list_max x)). destruct (String.eqb k l); lia. Qed.
Lemma max_cons x l : list_max (x :: l) = Nat.max x (list_max l). Proof. reflexivity. Qed.
Lemma max_app l m : list_max (l ++ m) = Nat.max (list_max l) (list_max m). Proof. apply list_max_app. Qed.
Lemma slice_dep v : list_max (map vdep (iface_slice v)) <= vdep v.
Proof. destruct v; cbn [iface_slice map vdep]; rewrite ?max_cons; cbn [vdep list_max]; try (cbn; lia). Qed.
Lemma bops_dep l bs : all_some as_bop l = Some bs -> list_max (map bdep bs) <= list_max (map vdep l).
Proof.
  revert bs. induction l as [|v l IH]; intros bs E; cbn [all_some] in E; [injection E as <-; apply Nat.le_0_l|].
  destruct v; cbn [as_bop] in E; try discriminate E; (destruct (all_some as_bop l); [|discriminate E]; injection E as <-; specialize (IH _ eq_refl); cbn [map]; rewrite !max_cons; cbn [bdep vdep]; lia).
Qed.
Lemma attrs_dep l : match attributes_loop l with inl x => list_max (map adep x) <= list_max (map vdep l) | inr _ => True end.
Proof. induction l as [|v l IH]; [apply Nat.le_0_l|]. destruct v; cbn [attributes_loop]; auto. destruct (attributes_loop l); [|exact I]. cbn [map]. rewrite !max_cons. cbn [vdep]. lia. Qed.
Lemma set_com_dep a c : adep (set_attr_com a c) = adep a.
Proof. destruct a; reflexivity. Qed.
Lemma config_dep com : forall vs first i f o, match config_loop com first vs i f o with
  | inl (i', f', o') => list_max (map sdep (i' ++ f' ++ o')) <= Nat.max (list_max (map sdep (i ++ f ++ o))) (list_max (map vdep vs)) | inr _ => True end.
Proof.
  induction vs as [|v vs IH]; intros first i f o; cbn [config_loop]; [lia|].
  destruct v; auto. set (s' := if first then set_ps_com s com else s). assert (E : sdep s' = sdep s) by (unfold s'; now destruct first).
  destruct (ps_type s'); auto; (match goal with |- context[config_loop com false vs ?a ?b ?c] => specialize (IH false a b c); destruct (config_loop com false vs a b c) as [[[i' f'] o']|]; auto end;
    cbn [map]; rewrite max_cons; cbn [vdep]; rewrite !map_app, !max_app in *; cbn [map] in IH; rewrite max_cons in IH; cbn [list_max fold_right] in IH; rewrite E in IH; lia).
Qed.

(** An action puts at most one array around its parts. *)
Ltac vars L := repeat match goal with |- context[lookup ?l ?e] => let v := fresh "v" in pose proof (L l); set (v := lookup l e) in *; clearbody v end; clear L.
Ltac cases := repeat match goal with |- context[match ?x with _ => _ end] => lazymatch x with context[match _ with _ => _ end] => fail | _ => destruct x end end.
Lemma action_dep ign w a e pos text :
  match run_action ign w a e pos text with RVal v | RErr v _ => vdep v <= S (edep e) | RPanic _ => True end.
Proof.
  assert (L : forall l, vdep (lookup l e) <= edep e) by (intros; apply lookup_dep).
  destruct a; cbn [run_action]; try exact (Nat.le_0_l _); try (etransitivity; [apply L|apply Nat.le_succ_diag_r]); vars L.
  all: try solve [cbv beta iota zeta delta [act_ret_config act_config_section act_string act_regexp act_number act_bop_comment act_branch act_else_block act_else_comment act_else_if_comment act_if_block act_condition act_cond_expr act_expression act_in act_compare act_regexp_expr act_rvalue act_neg_selector act_compare_op act_regexp_op act_boolean_op act_selector act_selector_element act_comment conv_panic slice_panic act_hash act_hashentry act_hashentries];
    cases; try exact I; try exact (Nat.le_0_l _); cbn [vdep adep pdep bdep] in *; lia].
  - unfold act_ret_config. destruct v; cbn [vdep cdep cf_input cf_filter cf_output] in *; try apply Nat.le_0_l. exact (Nat.le_trans _ _ _ ltac:(eassumption) (Nat.le_succ_diag_r _)).
  - unfold act_config_section. destruct v; cbn [vdep] in *; try apply Nat.le_0_l. unfold sdep in *. cbn [set_ps_com ps_bops]. lia.
  - unfold act_config. pose proof (config_dep (comment_block v1 false true) (iface_slice v ++ iface_slice v0) true [] [] []) as C.
    destruct (config_loop _ _ _ _ _ _) as [[[i f] o']|m]; [|apply Nat.le_0_l]. cbn [vdep]. unfold cdep. cbn [cf_input cf_filter cf_output]. rewrite (map_app vdep), max_app in C.
    pose proof (slice_dep v). pose proof (slice_dep v0). change (list_max (map sdep ([] ++ [] ++ []))) with 0 in C. lia.
  - unfold act_array, conv_panic. destruct v; try exact I; cbn [vdep adep] in *; [cbn; lia|lia].
  - unfold act_attribute. destruct (match v with VAttr (AtStr _) => _ | _ => _ end); [|apply Nat.le_0_l]. destruct v0; try apply Nat.le_0_l. destruct a; cbn [vdep adep] in *; try apply Nat.le_0_l. lia.
  - unfold act_attribute_comment. destruct v; try apply Nat.le_0_l. cbn [vdep] in *. rewrite set_com_dep. lia.
  - unfold act_attributes. assert (F : vdep (match act_attribute_comment v v1 false with RVal x => x | RErr x _ => x | RPanic _ => VNil end) <= edep e).
    { unfold act_attribute_comment. destruct v; try apply Nat.le_0_l. cbn [vdep] in *. rewrite set_com_dep. lia. }
    set (x := match act_attribute_comment v v1 false with RVal y => y | RErr y _ => y | RPanic _ => VNil end) in *. clearbody x.
    pose proof (attrs_dep (iface_slice x ++ iface_slice v0)) as A. destruct (attributes_loop _); [|apply Nat.le_0_l]. cbn [vdep]. rewrite map_app, max_app in A. pose proof (slice_dep x). pose proof (slice_dep v0). lia.
  - unfold act_plugin, conv_panic. destruct v0; try exact I; (destruct v; try exact I; destruct a; try exact I); cbn [vdep pdep] in *; first [apply Nat.le_0_l | lia].
  - unfold act_plugin_section, conv_panic. destruct v; try exact I. destruct (all_some as_bop (iface_slice v0)) as [l|] eqn:E; [|exact I].
    cbn [vdep]. unfold sdep. cbn [ps_bops]. pose proof (bops_dep _ _ E). pose proof (slice_dep v0). lia.
  - unfold act_selector, conv_panic. destruct (all_some _ _); [apply Nat.le_0_l|exact I].
Qed.

Section Depth.
  Variable o : settings.
  Variable g : grammar.
  Definition shallow (d : nat) (M : nat) (r : out) : Prop :=
    match r with OOk v en' _ => vdep v <= Nat.max (S M) d /\ edep en' <= Nat.max M d | _ => True end.

  Lemma call_dep d k : forall rule e en s, shallow d (edep en) (call o g d k rule e en s).
  Proof.
    induction d as [|d IH]; intros rule e en s; [exact I|]. cbn [call]. unfold step. destruct (over_limit o (tick s)); [exact I|]. cbv zeta.
    set (f := call o g d k) in *. clearbody f.
    assert (N : forall rule e s v en' s', f rule e [] s = OOk v en' s' -> vdep v <= S d).
    { intros r0 e0 s0 v en' s' E. specialize (IH r0 e0 [] s0). rewrite E in IH. cbn [shallow edep map list_max fold_right] in IH. lia. }
    assert (Star : forall rule e k acc en0 s, list_max (map vdep acc) <= S d -> shallow (S d) (edep en0) (star_loop (f rule e []) k acc en0 s)).
    { intros r0 e0 k0. induction k0 as [|k0 IHk]; intros acc en0 s0 A; [exact I|]. cbn [star_loop]. destruct (f r0 e0 [] s0) as [v ? ?|? ?|? ? ?|] eqn:E; try exact I.
      - apply IHk. cbn [map]. rewrite max_cons. apply N in E. lia.
      - cbn [shallow vdep]. rewrite map_rev. split; [|lia]. enough (forall l, list_max (rev l) = list_max l) as -> by lia. intros l. induction l as [|x l IHl]; [reflexivity|]. cbn [rev]. rewrite max_app, !max_cons, IHl. change (list_max []) with 0. lia. }
    destruct e.
    - destruct (f rule e en (tick s)) as [v en' s'|? ?|? ? ?|] eqn:E; try exact I. specialize (IH rule e en (tick s)). rewrite E in IH. destruct IH as [_ IH].
      match goal with |- context[run_action ?i ?w ?a ?en ?p ?t] => pose proof (action_dep i w a en p t) as A; destruct (run_action i w a en p t) end; cbn [shallow] in *; try exact I; lia.
    - destruct p; cbn [run_predicate shallow vdep]; try (split; lia); try exact I.
    - cbn [shallow vdep]. split; lia.
    - destruct (at_eof _); cbn [shallow vdep]; [exact I|split; lia].
    - destruct (_ && _); cbn [shallow vdep]; [split; lia|exact I].
    - generalize (s_pt (tick s)). intros pt. generalize (tick s). induction runes as [|c rs IHr]; intros s'; cbn [lit_loop]; [cbn [shallow vdep]; split; lia|]. destruct (_ =? _)%N; [apply IHr|exact I].
    - generalize (tick s). induction l as [|e l IHl]; intros s'; cbn [choice_loop]; [exact I|]. destruct (f rule e [] s') as [v ? ?|? ?|? ? ?|] eqn:E; try exact I; [|apply IHl]. apply N in E. cbn [shallow]. split; lia.
    - enough (Sq : forall pt w l acc en0 s', edep en0 <= Nat.max (edep en) d -> list_max (map vdep acc) <= Nat.max (S (edep en)) (S d) -> shallow (S d) (edep en) (seq_loop (f rule) pt w l acc en0 s')) by (apply Sq; [lia|apply Nat.le_0_l]).
      clear l. intros pt w l. induction l as [|e l IHl]; intros acc en0 s' He Ha; cbn [seq_loop].
      + cbn [shallow vdep]. rewrite map_rev. split; [|lia]. enough (forall l, list_max (rev l) = list_max l) as -> by lia. intros l. induction l as [|x l IHl]; [reflexivity|]. cbn [rev]. rewrite max_app, !max_cons, IHl. change (list_max []) with 0. lia.
      + specialize (IH rule e en0 s'). destruct (f rule e en0 s') as [v en1 s1|? ?|? ? ?|]; try exact I. cbn [shallow] in IH. apply IHl; [lia|]. cbn [map]. rewrite max_cons. lia.
    - destruct (f rule e [] (tick s)) as [v ? ?|? ?|? ? ?|] eqn:E; try exact I. apply N in E. cbn [shallow]. unfold bind, edep in *. cbn [map snd]. rewrite max_cons. split; lia.
    - destruct (f rule e [] _) as [v ? ?|? ?|? ? ?|]; try exact I. cbn [shallow vdep]. split; lia.
    - assert (A := Star rule e k [] en (tick s) (Nat.le_0_l _)). destruct (star_loop _ _ _ _ _) as [[]| | |]; try exact A. destruct l; exact A || exact I.
    - apply Star. apply Nat.le_0_l.
    - destruct (f rule e [] (tick s)) as [v ? ?|? ?|? ? ?|] eqn:E; try exact I; [apply N in E|]; cbn [shallow vdep]; split; lia.
    - destruct (find_rule name g) as [x|]; [|exact I]. destruct (f name x [] (tick s)) as [v ? ?|? ?|? ? ?|] eqn:E; try exact I. apply N in E. cbn [shallow]. split; lia.
  Qed.
End Depth.

(** the depth does not depend on positions and comments *)
