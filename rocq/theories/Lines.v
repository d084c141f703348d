(** Logical lines and [prefix] (ast/ast_helper.go).  Specification: [balanced],
    [line], [indented]; result: [prefix_lines]. *)
From Coq Require Import List NArith Bool String Arith Lia.
From Verif Require Import Bytes F64 Ast Actions Regex AstPrint EscapeFacts.
Import ListNotations.

(** ** Specification *)
(** Text in which every quote belongs to a complete quoted literal, and line
    breaks occur only inside such literals. *)
Inductive balanced : bytes -> Prop :=
| bal_nil : balanced []
| bal_chr c t : ~ In c [DQ; SQ; NL] -> balanced t -> balanced (c :: t)
| bal_lit q v t : In q [DQ; SQ] -> literal_value q v -> balanced t -> balanced ((q :: v ++ [q]) ++ t).
Definition space (c : N) : Prop := In c [9; 10; 12; 13; 32]%N.
(** A logical line: an empty one; a comment; or text that starts with neither
    white space nor a hash sign.  Comments and text may be indented. *)
Inductive line : bytes -> Prop :=
| line_empty : line [NL]
| line_comment k t : ~ In NL t -> line (repeat SP k ++ HASH :: t ++ [NL])
| line_text k c t : ~ space c -> c <> HASH -> balanced (c :: t) -> line (repeat SP k ++ (c :: t) ++ [NL]).
(** two more spaces in front, unless the line is empty *)
Definition indented (l : bytes) : bytes := if beqb l [NL] then l else [SP; SP] ++ l.

(** ** Bodies of literals, chunk by chunk *)
Inductive lbody (q : N) : bytes -> Prop :=
| lb_nil : lbody q []
| lb_esc v : lbody q v -> lbody q ([BSL; q] ++ v)
| lb_chr c v : c <> q -> (c = BSL -> exists d v', v = d :: v' /\ d <> q) -> lbody q v -> lbody q ([c] ++ v).
Lemma literal_lbody q v : q <> BSL -> literal_value q v -> lbody q v.
Proof.
  intros Hq H. apply is_literal_spec in H. unfold is_literal in H.
  assert (G : forall n v p, List.length v <= n -> p <> BSL -> literal_from q p v = true -> lbody q v).
  2: { eapply (G (List.length v)); [reflexivity| |exact H]. discriminate. }
  clear v H. induction n as [|n IH]; intros v p L Hp H.
  - destruct v; [constructor|cbn in L; lia].
  - destruct v as [|c v]; [constructor|]. cbn [literal_from] in H. apply andb_true_iff in H as [H1 H2].
    destruct (N.eqb_spec c q) as [->|Hc].
    { cbn in H1. apply N.eqb_neq in Hp. rewrite Hp in H1. discriminate. }
    destruct (N.eq_dec c BSL) as [->|Hb].
    + destruct v as [|d v]; [cbn in H2; discriminate|]. cbn [literal_from] in H2. destruct (N.eqb_spec d q) as [->|Hd].
      * apply (lb_esc q v). apply andb_true_iff in H2 as [_ H2]. apply (IH v q); [cbn in L; lia|exact Hq|exact H2].
      * apply (lb_chr q BSL (d :: v)); [exact Hc|eauto|]. cbn [orb negb andb] in H2.
        destruct (N.eq_dec d BSL) as [->|Hdb].
        -- apply (IH (BSL :: v) 0%N); [cbn in *; lia|discriminate|]. cbn [literal_from]. apply N.eqb_neq in Hd. rewrite Hd. exact H2.
        -- apply (IH (d :: v) 0%N); [cbn in *; lia|discriminate|]. cbn [literal_from]. apply N.eqb_neq in Hd. rewrite Hd. exact H2.
    + apply (lb_chr q c v); [exact Hc|congruence|]. apply (IH v c); [cbn in L; lia|exact Hb|exact H2].
Qed.

(** ** First choices of a regular expression *)
(** The first attempt of [x] on [t ++ s] takes [t]. *)
Definition first (x : re) (t s : bytes) : Prop := forall k y, k s = Some y -> rmatch x (t ++ s) k = Some y.
Definition never (x : re) (s : bytes) : Prop := forall k, rmatch x s k = None.

Lemma first_set p c s : p c = true -> first (RSet p) [c] s.
Proof. intros H k y E. cbn. now rewrite H. Qed.
Lemma first_chr c s : first (chr c) [c] s.
Proof. apply first_set. apply N.eqb_refl. Qed.
Lemma first_seq x y t u s : first x t (u ++ s) -> first y u s -> first (RSeq x y) (t ++ u) s.
Proof. intros H1 H2 k z E. rewrite <- app_assoc. cbn. apply H1. now apply H2. Qed.
Lemma first_alt_l x y t s : first x t s -> first (RAlt x y) t s.
Proof. intros H k z E. cbn. now rewrite (H k z E). Qed.
Lemma first_alt_r x y t s : never x (t ++ s) -> first y t s -> first (RAlt x y) t s.
Proof. intros N H k z E. cbn. rewrite N. now apply H. Qed.
Lemma never_set p c s : p c = false -> never (RSet p) (c :: s).
Proof. intros H k. cbn. now rewrite H. Qed.
Lemma never_set_nil p : never (RSet p) [].
Proof. intros k. reflexivity. Qed.
Lemma never_seq x y s : never x s -> never (RSeq x y) s.
Proof. intros H k. apply H. Qed.
Lemma never_alt x y s : never x s -> never y s -> never (RAlt x y) s.
Proof. intros H1 H2 k. cbn. now rewrite H1, H2. Qed.

Definition star_loop (x : re) (k : bytes -> option bytes) : nat -> bytes -> option bytes :=
  fix loop (n : nat) (s : bytes) {struct n} : option bytes :=
  match n with
  | 0 => k s
  | S n' =>
      match rmatch x s (fun s' => if List.length s' <? List.length s then loop n' s' else None) with
      | Some t => Some t
      | None => k s
      end
  end.
Lemma star_0 x k s : star_loop x k 0 s = k s.
Proof. reflexivity. Qed.
Lemma star_S x k n s : star_loop x k (S n) s =
  match rmatch x s (fun s' => if List.length s' <? List.length s then star_loop x k n s' else None) with Some t => Some t | None => k s end.
Proof. reflexivity. Qed.
Lemma rmatch_star x s k : rmatch (RStar x) s k = star_loop x k (List.length s) s.
Proof. reflexivity. Qed.

(** the chunks a star takes one after the other *)
Inductive chunks (x : re) : list bytes -> bytes -> Prop :=
| chunks_nil s : never x s -> chunks x [] s
| chunks_cons t ts s : t <> [] -> first x t (List.concat ts ++ s) -> chunks x ts s -> chunks x (t :: ts) s.
Lemma first_star x ts s : chunks x ts s -> first (RStar x) (List.concat ts) s.
Proof.
  intros H k y E. rewrite rmatch_star.
  assert (G : forall n, List.length (List.concat ts ++ s) <= n -> star_loop x k n (List.concat ts ++ s) = Some y); [|now apply G].
  induction H as [s N|t ts s Ht F H IH]; intros n L.
  - cbn [List.concat app]. destruct n; [exact E|]. rewrite star_S. now rewrite N.
  - cbn [List.concat] in *. rewrite <- app_assoc in *. destruct n; [destruct t; [congruence|cbn in L; lia]|].
    rewrite star_S. erewrite F; [reflexivity|]. cbn beta.
    assert (Lt : List.length (List.concat ts ++ s) < List.length (t ++ List.concat ts ++ s)) by (rewrite (app_length t); destruct t; [congruence|cbn; lia]).
    rewrite (proj2 (Nat.ltb_lt _ _) Lt). apply IH; [exact E|lia].
Qed.
Lemma first_star_set p t s : Forall (fun c => p c = true) t -> match s with [] => True | c :: _ => p c = false end -> first (RStar (RSet p)) t s.
Proof.
  intros F N. replace t with (List.concat (map (fun c => [c]) t)) by (clear; induction t; cbn; congruence).
  apply first_star. induction F as [|c t Hc F IH]; cbn [map].
  - constructor. destruct s; [apply never_set_nil|now apply never_set].
  - constructor; [discriminate|now apply first_set|exact IH].
Qed.
(** a star of characters followed by something that never matches *)
Lemma never_star_set p y s : (forall t u, s = t ++ u -> Forall (fun c => p c = true) t -> never y u) -> never (RSeq (RStar (RSet p)) y) s.
Proof.
  intros H k. cbn [rmatch]. change (rmatch (RStar (RSet p)) s (fun s' => rmatch y s' k) = None). rewrite rmatch_star.
  generalize (List.length s) as n. intros n.
  assert (G : forall n t u, s = t ++ u -> Forall (fun c => p c = true) t -> star_loop (RSet p) (fun s' => rmatch y s' k) n u = None).
  2: { apply (G n [] s); [reflexivity|constructor]. }
  clear n. induction n as [|n IH]; intros t u E F; rewrite ?star_0, ?star_S.
  - now apply (H _ _ E F).
  - cbn [rmatch]. destruct u as [|c u]; [now apply (H _ _ E F)|]. destruct (p c) eqn:Pc; [|now apply (H _ _ E F)].
    destruct (List.length u <? List.length (c :: u)); [|now apply (H _ _ E F)].
    rewrite (IH (t ++ [c]) u); [now apply (H _ _ E F)|now rewrite <- app_assoc|]. apply Forall_app. split; [exact F|]. now constructor.
Qed.

(** ** Lines *)
Lemma mem_in c l : mem c l = true <-> In c l.
Proof. unfold mem. rewrite existsb_exists. split; [intros (d & H & E); apply N.eqb_eq in E; now subst|intros H; exists c; split; [exact H|apply N.eqb_refl]]. Qed.
Lemma mem_not c l : mem c l = false <-> ~ In c l.
Proof. rewrite <- mem_in. destruct (mem c l); split; congruence. Qed.
Lemma none_in c l : negb (mem c l) = true <-> ~ In c l.
Proof. rewrite negb_true_iff. apply mem_not. Qed.
Lemma none_not c l : negb (mem c l) = false <-> In c l.
Proof. rewrite negb_false_iff. apply mem_in. Qed.

Lemma first_quoted q v s : In q [DQ; SQ] -> literal_value q v -> first (quoted q) (q :: v ++ [q]) s.
Proof.
  intros Hq Hv. assert (Hb : q <> BSL) by (destruct Hq as [<-|[<-|[]]]; discriminate). unfold quoted.
  change (q :: v ++ [q]) with ([q] ++ (v ++ [q])). apply first_seq; [apply first_chr|]. apply first_seq; [|apply first_chr].
  apply literal_lbody in Hv; [|exact Hb].
  assert (C : exists ts, v = List.concat ts /\ chunks (RAlt (RSeq (chr BSL) (chr q)) (none_of [q])) ts ([q] ++ s)).
  2: { destruct C as (ts & -> & C). now apply first_star. }
  induction Hv as [|v Hv (ts & -> & IH)|c v Hc Hn Hv (ts & E & IH)].
  - exists []. split; [reflexivity|]. constructor. apply never_alt; [apply never_seq, never_set; now apply N.eqb_neq, not_eq_sym|]. apply never_set. apply none_not. now left.
  - exists ([BSL; q] :: ts). split; [reflexivity|]. constructor; [discriminate| |exact IH]. apply first_alt_l.
    change [BSL; q] with ([BSL] ++ [q]). apply first_seq; apply first_chr.
  - exists ([c] :: ts). split; [cbn; now rewrite E|]. constructor; [discriminate| |exact IH]. rewrite <- E. apply first_alt_r.
    + destruct (N.eq_dec c BSL) as [->|Hcb].
      * destruct (Hn eq_refl) as (d & v' & -> & Hd). intros k. cbn [app rmatch chr]. rewrite N.eqb_refl. apply not_eq_sym, N.eqb_neq in Hd. now rewrite Hd.
      * apply never_seq, never_set. now apply N.eqb_neq, not_eq_sym.
    + apply first_set. apply none_in. intros [E1|[]]. congruence.
Qed.

Lemma NL_plain : negb (mem NL [DQ; SQ; NL]) = false.
Proof. reflexivity. Qed.
(** text without quotes, then the rest *)
Inductive parts : bytes -> list bytes -> Prop :=
| parts_nil : parts [] []
| parts_cons q v p ps t : In q [DQ; SQ] -> literal_value q v -> Forall (fun c => ~ In c [DQ; SQ; NL]) p -> parts t ps ->
    parts ((q :: v ++ [q]) ++ p ++ t) (((q :: v ++ [q]) ++ p) :: ps).
Lemma balanced_parts t : balanced t -> exists p u ps, t = p ++ u /\ Forall (fun c => ~ In c [DQ; SQ; NL]) p /\ parts u ps.
Proof.
  induction 1 as [|c t Hc B (p & u & ps & -> & F & P)|q v t Hq Hv B (p & u & ps & -> & F & P)].
  - exists [], [], []. repeat constructor.
  - exists (c :: p), u, ps. split; [reflexivity|]. split; [now constructor|exact P].
  - exists [], ((q :: v ++ [q]) ++ p ++ u), (((q :: v ++ [q]) ++ p) :: ps). split; [reflexivity|]. split; [constructor|]. now constructor.
Qed.
Lemma parts_head u ps r : parts u ps -> match u ++ NL :: r with [] => True | c :: _ => In c [DQ; SQ; NL] end.
Proof. destruct 1; cbn; [tauto|]. destruct H as [<-|[<-|[]]]; auto. Qed.
Definition item_re : re := RSeq plain (RSeq (RAlt (quoted DQ) (quoted SQ)) plain).
Lemma never_item r : never item_re (NL :: r).
Proof.
  apply never_star_set. intros t u E F. destruct t as [|c t].
  - cbn in E. subst u. apply never_seq, never_alt; apply never_seq, never_set; reflexivity.
  - inversion E; subst. inversion F; subst. match goal with H : negb (mem NL _) = true |- _ => discriminate H end.
Qed.
Lemma first_lit q v s : In q [DQ; SQ] -> literal_value q v -> first (RAlt (quoted DQ) (quoted SQ)) (q :: v ++ [q]) s.
Proof.
  intros Hq Hv. destruct Hq as [<-|[<-|[]]].
  - apply first_alt_l, first_quoted; [now left|exact Hv].
  - apply first_alt_r; [apply never_seq, never_set; reflexivity|]. apply first_quoted; [right; now left|exact Hv].
Qed.
Lemma first_item p0 q v p s : Forall (fun c => ~ In c [DQ; SQ; NL]) p0 -> In q [DQ; SQ] -> literal_value q v ->
  Forall (fun c => ~ In c [DQ; SQ; NL]) p -> match s with [] => True | c :: _ => In c [DQ; SQ; NL] end ->
  first item_re (p0 ++ (q :: v ++ [q]) ++ p) s.
Proof.
  intros F0 Hq Hv F N. assert (Q : forall t, Forall (fun c => ~ In c [DQ; SQ; NL]) t -> Forall (fun c => negb (mem c [DQ; SQ; NL]) = true) t).
  { intros t. apply Forall_impl. intros c. apply none_in. }
  apply first_seq; [apply first_star_set; [now apply Q|]|].
  - cbn [app]. apply none_not. destruct Hq as [<-|[<-|[]]]; cbn; auto.
  - apply first_seq; [now apply first_lit|]. apply first_star_set; [now apply Q|]. destruct s; [exact I|]. now apply none_not.
Qed.
Lemma parts_chunks u ps r : parts u ps -> List.concat ps = u /\ chunks item_re ps (NL :: r).
Proof.
  induction 1 as [|q v p ps t Hq Hv F P [E C]].
  - split; [reflexivity|]. constructor. apply never_item.
  - split; [cbn; rewrite E; now rewrite <- !app_assoc|]. constructor; [discriminate| |exact C]. rewrite E.
    apply (first_item []); try assumption; [constructor|]. exact (parts_head _ _ r P).
Qed.

Lemma space_is c : mem c [9; 10; 12; 13; 32]%N = true <-> space c.
Proof. apply mem_in. Qed.
Lemma in_app_split {A} (t u x y : list A) : t ++ u = x ++ y -> (exists z, x = t ++ z /\ u = z ++ y) \/ (exists z, t = x ++ z /\ y = z ++ u).
Proof.
  revert x. induction t as [|c t IH]; intros x E.
  - left. exists x. auto.
  - destruct x as [|d x]; [right; exists (c :: t); auto|]. cbn in E. inversion E; subst. destruct (IH _ H1) as [(z & -> & ->)|(z & -> & ->)]; [left|right]; exists z; auto.
Qed.

Lemma line_first l r : line l -> first lines_re l r.
Proof.
  intros H. destruct H as [|k t Ht|k c t Hs Hh B]; unfold lines_re.
  - apply first_alt_l, first_chr.
  - apply first_alt_r. { destruct k; cbn; apply never_set; reflexivity. } apply first_alt_l.
    apply first_seq; [apply first_star_set|].
    + apply Forall_forall. intros c Hc. apply repeat_spec in Hc. subst. reflexivity.
    + reflexivity.
    + change (HASH :: t ++ [NL]) with ([HASH] ++ t ++ [NL]). apply first_seq; [apply first_chr|]. apply first_seq; [|apply first_chr].
      apply first_star_set; [|reflexivity]. apply Forall_forall. intros c Hc. apply none_in. intros [E|[]]. congruence.
  - assert (Hn : c <> NL) by (intros ->; apply Hs; right; now left).
    apply first_alt_r.
    { destruct k; cbn; apply never_set; [now apply N.eqb_neq, not_eq_sym|reflexivity]. }
    apply first_alt_r.
    { apply never_star_set. intros x u E F. rewrite <- app_assoc in E. apply never_seq. symmetry in E. apply in_app_split in E as [(z & E1 & ->)|(z & -> & E2)].
      - destruct z as [|d z].
        + cbn. apply never_set. now apply N.eqb_neq, not_eq_sym.
        + cbn. assert (d = SP) as ->. { assert (I : In d (repeat SP k)) by (rewrite E1; apply in_or_app; right; now left). now apply repeat_spec in I. } now apply never_set.
      - destruct z as [|d z].
        + cbn in E2. subst u. cbn. apply never_set. now apply N.eqb_neq, not_eq_sym.
        + cbn in E2. inversion E2; subst d. apply Forall_app in F as [_ F]. inversion F; subst. match goal with H : mem c _ = true |- _ => apply mem_in in H end. contradiction. }
    destruct (balanced_parts _ B) as (p & u & ps & E & F & P). assert (Fk : Forall (fun c => ~ In c [DQ; SQ; NL]) (repeat SP k ++ p)).
    { apply Forall_app. split; [|exact F]. apply Forall_forall. intros d Hd. apply repeat_spec in Hd. subst. intros [E1|[E1|[E1|[]]]]; discriminate. }
    assert (Q : forall t, Forall (fun c => ~ In c [DQ; SQ; NL]) t -> Forall (fun c => negb (mem c [DQ; SQ; NL]) = true) t).
    { intros t'. apply Forall_impl. intros c'. apply none_in. }
    rewrite E. destruct P as [|q v p1 ps u Hq Hv F1 P].
    + apply first_alt_l. rewrite app_nil_r, app_assoc. apply first_seq; [apply first_star_set; [now apply Q|reflexivity]|apply first_chr].
    + apply first_alt_r.
      { apply never_star_set. intros x y E1 Fx. rewrite <- !app_assoc in E1. rewrite app_assoc in E1. symmetry in E1. apply in_app_split in E1 as [(z & E2 & ->)|(z & -> & E2)].
        - destruct z as [|d z]; [cbn; apply never_set; destruct Hq as [<-|[<-|[]]]; reflexivity|].
          assert (I : In d (repeat SP k ++ p)) by (rewrite E2; apply in_or_app; right; now left).
          rewrite Forall_forall in Fk. specialize (Fk _ I). cbn. apply never_set, N.eqb_neq. intros <-. apply Fk. cbn; auto.
        - destruct z as [|d z]; [cbn in E2; subst y; cbn; apply never_set; destruct Hq as [<-|[<-|[]]]; reflexivity|].
          cbn in E2. inversion E2; subst d. apply Forall_app in Fx as [_ Fx]. inversion Fx; subst.
          match goal with H : negb (mem q _) = true |- _ => apply none_in in H; exfalso; apply H; destruct Hq as [<-|[<-|[]]]; cbn; auto end. }
      destruct (parts_chunks _ _ r P) as [Ep C].
      replace (repeat SP k ++ (p ++ (q :: v ++ [q]) ++ p1 ++ u) ++ [NL]) with (List.concat (((repeat SP k ++ p) ++ (q :: v ++ [q]) ++ p1) :: ps) ++ [NL]).
      2: { cbn [List.concat]. rewrite Ep. now rewrite <- !app_assoc. }
      apply first_seq; [|apply first_chr]. apply first_star. change ([NL] ++ r) with (NL :: r). constructor; [destruct (repeat SP k ++ p); discriminate| |exact C].
      rewrite Ep. apply first_item; try assumption. exact (parts_head _ _ r P).
Qed.

Lemma find_all_lines ls : Forall line ls -> forall n, List.length (List.concat ls) < n -> find_all n lines_re (List.concat ls) = ls.
Proof.
  induction 1 as [|l ls Hl H IH]; intros n L.
  - destruct n; [lia|]. reflexivity.
  - destruct n; [lia|]. cbn [List.concat find_all] in *. unfold match_at. rewrite (line_first _ _ Hl _ _ eq_refl).
    rewrite app_length in *. replace (List.length l + List.length (List.concat ls) - List.length (List.concat ls)) with (List.length l) by lia.
    rewrite firstn_app, Nat.sub_diag, firstn_all. cbn [firstn]. rewrite app_nil_r, IH; [reflexivity|].
    assert (0 < List.length l); [|lia]. destruct Hl; rewrite ?app_length; cbn; rewrite ?app_length; cbn; lia.
Qed.
Lemma find_lines_concat ls : Forall line ls -> find_lines (List.concat ls) = ls.
Proof. intros H. unfold find_lines. apply find_all_lines; [exact H|lia]. Qed.

Lemma line_indent l : line l -> match trim_left [SP; NL] l with [] => [NL] | _ => [SP; SP] ++ l end = indented l.
Proof.
  intros H. unfold indented. destruct H as [|k t Ht|k c t Hs Hh B].
  - reflexivity.
  - assert (E : trim_left [SP; NL] (repeat SP k ++ HASH :: t ++ [NL]) = HASH :: t ++ [NL]) by (induction k; [reflexivity|exact IHk]).
    rewrite E. destruct k; reflexivity.
  - assert (Hn : c <> NL) by (intros ->; apply Hs; right; now left). assert (Hp : c <> SP) by (intros ->; apply Hs; cbn; auto 6).
    assert (E : trim_left [SP; NL] (repeat SP k ++ (c :: t) ++ [NL]) = (c :: t) ++ [NL]).
    { induction k; [|exact IHk]. cbn. apply N.eqb_neq in Hn, Hp. rewrite Hn, Hp. reflexivity. }
    rewrite E. destruct k; cbn; [|reflexivity]. apply N.eqb_neq in Hn. now rewrite Hn.
Qed.
(** ** Main result: indentation of a sequence of lines, the last one not empty *)
Lemma trim_right_nls x k : (forall y, x <> y ++ [NL]) -> trim_right [NL] (x ++ repeat NL k) = x.
Proof.
  intros H. unfold trim_right. rewrite rev_app_distr. assert (R : rev (repeat NL k) = repeat NL k).
  { induction k; cbn; [reflexivity|]. rewrite IHk. clear. induction k; cbn; congruence. }
  rewrite R. clear R. assert (E : trim_left [NL] (repeat NL k ++ rev x) = rev x).
  { induction k; [|exact IHk]. cbn. destruct (rev x) as [|c r] eqn:Ex; [reflexivity|]. cbn. destruct (N.eqb_spec c NL) as [->|Hc]; [|reflexivity].
    exfalso. apply (H (rev r)). rewrite <- (rev_involutive x), Ex. reflexivity. }
  rewrite E. apply rev_involutive.
Qed.
Lemma trim_right_nls_all k : trim_right [NL] (repeat NL k) = [].
Proof. apply (trim_right_nls [] k). intros [|? ?]; discriminate. Qed.
Lemma line_nonempty_end l : line l -> l <> [NL] -> exists x c, l = x ++ [c; NL] /\ c <> NL.
Proof.
  intros H N. destruct H as [|k t Ht|k c t Hs Hh B]; [congruence| |].
  - destruct (snoc_cases t) as [->|(y & c & ->)].
    + exists (repeat SP k), HASH. split; [reflexivity|discriminate].
    + exists (repeat SP k ++ HASH :: y), c. split; [now rewrite <- !app_assoc|]. intros ->. apply Ht. apply in_or_app. right. now left.
  - destruct (snoc_cases (c :: t)) as [E|(y & d & E)]; [discriminate|].
    exists (repeat SP k ++ y), d. split; [rewrite E; now rewrite <- !app_assoc|]. rewrite E in B.
    assert (Z : forall u y d, balanced u -> u = y ++ [d] -> d <> NL).
    { clear. intros u y d B. revert y. induction B as [|c t Hc B IH|q v t Hq Hv B IH]; intros y E.
      - now destruct y.
      - destruct y; [inversion E; subst; intros ->; apply Hc; cbn; auto|]. inversion E; subst. now apply (IH y).
      - destruct t as [|e t] using rev_ind.
        + rewrite app_nil_r in E. change (q :: v ++ [q]) with ((q :: v) ++ [q]) in E. apply app_inj_tail in E as [_ <-]. destruct Hq as [<-|[<-|[]]]; discriminate.
        + rewrite app_assoc in E. apply app_inj_tail in E as [_ <-]. now apply (IH t). }
    now apply (Z _ y d B).
Qed.
Theorem prefix_lines ls l k e : Forall line ls -> line l -> l <> [NL] ->
  prefix (List.concat ls ++ l ++ repeat NL k) e = NL :: flat_map indented (ls ++ [l]).
Proof.
  intros F Hl N. destruct (line_nonempty_end _ Hl N) as (x & c & E & Hc).
  assert (T : trim_right [NL] (List.concat ls ++ l ++ repeat NL k) ++ [NL] = List.concat (ls ++ [l])).
  { rewrite E. replace (List.concat ls ++ (x ++ [c; NL]) ++ repeat NL k) with ((List.concat ls ++ x ++ [c]) ++ repeat NL (S k)).
    - rewrite trim_right_nls; [rewrite concat_app; cbn; rewrite app_nil_r; now rewrite <- !app_assoc|].
      intros y Ey. rewrite !app_assoc in Ey. apply app_inj_tail in Ey as [_ Ey]. congruence.
    - rewrite <- !app_assoc. cbn. reflexivity. }
  assert (NE : List.concat ls ++ l ++ repeat NL k <> []).
  { intros Z. apply app_eq_nil in Z as [_ Z]. apply app_eq_nil in Z as [-> _]. destruct x; discriminate. }
  unfold prefix. destruct (List.concat ls ++ l ++ repeat NL k) as [|c0 s0] eqn:Es; [congruence|]. rewrite T.
  assert (F2 : Forall line (ls ++ [l])) by (apply Forall_app; auto).
  rewrite (find_lines_concat _ F2). cbn [app]. f_equal. rewrite !flat_map_concat_map. f_equal. apply map_ext_in.
  intros a Ha. rewrite Forall_forall in F2. apply line_indent. now apply F2.
Qed.
