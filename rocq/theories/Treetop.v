(** The language of the Logstash grammar, /repo/grammar.treetop.

    The README and the head of logstash_config.peg give this file as the definition of
    the language the parser is for.  Treetop generates packrat parsers from parsing
    expression grammars; [tm] is the usual meaning of such grammars (Ford, 2004), with
    nothing of the parser of logstash_config.go in it.  TreetopGen.v is the file
    itself, translated rule by rule by tools/gen_treetop.py.

    Treetop runs a grammar on the characters of a text, not on its bytes: [chars] are
    the characters of a text in UTF-8. *)
From Coq Require Import List NArith Bool String Arith Lia.
From Verif Require Import Bytes Utf8.
Import ListNotations.

(** The operators that grammar.treetop uses *)
Inductive tx :=
| TLit (t : list N)
| TClass (inverted : bool) (chars : list N) (ranges : list (N * N))
| TAny
| TSeq (l : list tx)
| TAlt (l : list tx)
| TStar (e : tx)
| TPlus (e : tx)
| TOpt (e : tx)
| TNot (e : tx)
| TRef (n : string).

Definition in_class (inv : bool) (cs : list N) (rs : list (N * N)) (c : N) : bool :=
  xorb inv (existsb (N.eqb c) cs || existsb (fun r => (fst r <=? c)%N && (c <=? snd r)%N) rs).
Fixpoint rule_of (n : string) (g : list (string * tx)) : option tx :=
  match g with [] => None | (k, e) :: g' => if String.eqb k n then Some e else rule_of n g' end.

(** The characters of a text in UTF-8, as code points *)
Fixpoint chars_upto (n : nat) (s : bytes) : list N :=
  match n, s with
  | S n', _ :: _ => fst (decode_rune s) :: chars_upto n' (skipn (snd (decode_rune s)) s)
  | _, _ => []
  end.
Definition chars (s : bytes) : list N := chars_upto (List.length s) s.

Section Match.
  Variable g : list (string * tx).
  (** [tm e s (Some r)]: the expression [e] matches a part of [s] and leaves [r];
      [tm e s None]: it does not match at the start of [s]. *)
  Inductive tm : tx -> list N -> option (list N) -> Prop :=
  | tm_lit t r : tm (TLit t) (t ++ r) (Some r)
  | tm_lit_no t s : (forall r, s <> t ++ r) -> tm (TLit t) s None
  | tm_class i cs rs c r : in_class i cs rs c = true -> tm (TClass i cs rs) (c :: r) (Some r)
  | tm_class_no i cs rs c r : in_class i cs rs c = false -> tm (TClass i cs rs) (c :: r) None
  | tm_class_end i cs rs : tm (TClass i cs rs) [] None
  | tm_any c r : tm TAny (c :: r) (Some r)
  | tm_any_end : tm TAny [] None
  | tm_seq_end s : tm (TSeq []) s (Some s)
  | tm_seq e es s s' o : tm e s (Some s') -> tm (TSeq es) s' o -> tm (TSeq (e :: es)) s o
  | tm_seq_no e es s : tm e s None -> tm (TSeq (e :: es)) s None
  | tm_alt e es s r : tm e s (Some r) -> tm (TAlt (e :: es)) s (Some r)
  | tm_alt_next e es s o : tm e s None -> tm (TAlt es) s o -> tm (TAlt (e :: es)) s o
  | tm_alt_none s : tm (TAlt []) s None
  | tm_star e s s' o : tm e s (Some s') -> tm (TStar e) s' o -> tm (TStar e) s o
  | tm_star_end e s : tm e s None -> tm (TStar e) s (Some s)
  | tm_plus e s s' o : tm e s (Some s') -> tm (TStar e) s' o -> tm (TPlus e) s o
  | tm_plus_no e s : tm e s None -> tm (TPlus e) s None
  | tm_opt e s r : tm e s (Some r) -> tm (TOpt e) s (Some r)
  | tm_opt_none e s : tm e s None -> tm (TOpt e) s (Some s)
  | tm_not e s r : tm e s (Some r) -> tm (TNot e) s None
  | tm_not_none e s : tm e s None -> tm (TNot e) s (Some s)
  | tm_ref n e s o : rule_of n g = Some e -> tm e s o -> tm (TRef n) s o.

  (** Treetop accepts a text if the first rule matches all of it. *)
  Definition taccepts (data : bytes) : Prop := tm (TRef "config") (chars data) (Some []).

  (** No expression has two results. *)
  Theorem tm_fun e s o : tm e s o -> forall o', tm e s o' -> o = o'.
  Proof.
    induction 1; intros o' H'; inversion H'; subst; try congruence; auto;
      try match goal with A : _ ++ _ = _ ++ _ |- _ => apply app_inv_head in A; congruence end;
      try match goal with A : forall r, ?t ++ ?s <> ?t ++ r |- _ => now elim (A s) end;
      try match goal with A : forall r, ?s <> ?t ++ r, B : ?t ++ ?x = ?s |- _ => now elim (A x) end;
      repeat match goal with
      | IH : forall o', tm ?e ?s o' -> _ = o', K : tm ?e ?s _ |- _ => let E := fresh in pose proof (IH _ K) as E; clear K; try discriminate E; try (injection E as <-)
      end; try congruence; auto.
    assert (e0 = e) by congruence. subst. auto.
  Qed.
End Match.

(** An interpreter, for the examples *)
Section Run.
  Variable g : list (string * tx).
  Fixpoint cut (t s : list N) : option (list N) :=
    match t, s with
    | [], _ => Some s
    | x :: t', y :: s' => if (x =? y)%N then cut t' s' else None
    | _, [] => None
    end.
  Fixpoint trun (f : nat) (e : tx) (s : list N) {struct f} : option (option (list N)) :=
    match f with
    | O => None
    | S f' =>
      match e with
      | TLit t => Some (cut t s)
      | TClass i cs rs => Some (match s with c :: r => if in_class i cs rs c then Some r else None | [] => None end)
      | TAny => Some (match s with _ :: r => Some r | [] => None end)
      | TSeq [] => Some (Some s)
      | TSeq (e :: es) => match trun f' e s with Some (Some s') => trun f' (TSeq es) s' | o => o end
      | TAlt [] => Some None
      | TAlt (e :: es) => match trun f' e s with Some None => trun f' (TAlt es) s | o => o end
      | TStar e => match trun f' e s with Some (Some s') => trun f' (TStar e) s' | Some None => Some (Some s) | None => None end
      | TPlus e => match trun f' e s with Some (Some s') => trun f' (TStar e) s' | o => o end
      | TOpt e => match trun f' e s with Some None => Some (Some s) | o => o end
      | TNot e => match trun f' e s with Some None => Some (Some s) | Some (Some _) => Some None | None => None end
      | TRef n => match rule_of n g with Some e => trun f' e s | None => None end
      end
    end.
  Lemma cut_some t s r : cut t s = Some r -> s = t ++ r.
  Proof.
    revert s. induction t as [|x t IH]; intros s H; [now inversion H|]. destruct s as [|y s]; [discriminate|]. cbn in H.
    destruct (N.eqb_spec x y) as [->|]; [|discriminate]. cbn. f_equal. auto.
  Qed.
  Lemma cut_app t r : cut t (t ++ r) = Some r.
  Proof. induction t as [|x t IH]; [reflexivity|]. cbn. now rewrite N.eqb_refl. Qed.
  Theorem trun_tm f : forall e s o, trun f e s = Some o -> tm g e s o.
  Proof.
    induction f as [|f IH]; intros e s o H; [discriminate|]. destruct e as [t|i cs rs| |[|e es]|[|e es]|e|e|e|e|n]; cbn [trun] in H.
    - inversion H; subst. destruct (cut t s) as [r|] eqn:E; [apply cut_some in E as ->; constructor|]. constructor. intros r ->. rewrite cut_app in E. discriminate.
    - inversion H; subst. destruct s as [|c r]; [constructor|]. destruct (in_class i cs rs c) eqn:E; now constructor.
    - inversion H; subst. destruct s; constructor.
    - inversion H; subst. constructor.
    - destruct (trun f e s) as [[s'|]|] eqn:E; try discriminate; [econstructor; eauto|]. inversion H; subst. apply tm_seq_no; auto.
    - inversion H; subst. constructor.
    - destruct (trun f e s) as [[s'|]|] eqn:E; try discriminate; [inversion H; subst; apply tm_alt; auto|apply tm_alt_next; auto].
    - destruct (trun f e s) as [[s'|]|] eqn:E; try discriminate; [eapply tm_star; eauto|inversion H; subst; apply tm_star_end; auto].
    - destruct (trun f e s) as [[s'|]|] eqn:E; try discriminate; [eapply tm_plus; eauto|inversion H; subst; apply tm_plus_no; auto].
    - destruct (trun f e s) as [[s'|]|] eqn:E; try discriminate; inversion H; subst; [apply tm_opt; auto|apply tm_opt_none; auto].
    - destruct (trun f e s) as [[s'|]|] eqn:E; try discriminate; inversion H; subst; [eapply tm_not; eauto|apply tm_not_none; auto].
    - destruct (rule_of n g) as [e|] eqn:E; [|discriminate]. econstructor; eauto.
  Qed.
End Run.

(** A grammar with a rule replaced *)
Definition with_rule (n : string) (e : tx) (g : list (string * tx)) : list (string * tx) :=
  map (fun r => if String.eqb (fst r) n then (n, e) else r) g.
