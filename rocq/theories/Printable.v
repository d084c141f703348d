(** The printable trees of Layout.v are decidable: [printableb]. *)
From Coq Require Import List NArith ZArith Bool String Arith Lia.
From Verif Require Import Bytes F64 Ast Actions AstPrint AstInd EscapeFacts QuoteFacts ParseFacts LexFacts Tree Lines NumFacts Layout.
Import ListNotations.

Definition space_at (c : N) (t : bytes) : bool := match t with d :: _ => (d =? c)%N | [] => false end.
Definition startb (c : N) : bool := ((65 <=? c) && (c <=? 90) || (97 <=? c) && (c <=? 122) || (c =? 95))%N.
Definition digitb (c : N) : bool := ((48 <=? c) && (c <=? 57))%N.
Definition wcharb (c : N) : bool := startb c || digitb c || (c =? 45)%N.
Lemma startb_iff c : startb c = true <-> bareword_start c.
Proof. unfold startb, bareword_start. rewrite !orb_true_iff, !andb_true_iff, !N.leb_le, N.eqb_eq. tauto. Qed.
Lemma digitb_iff c : digitb c = true <-> digit c.
Proof. unfold digitb, digit. rewrite andb_true_iff, !N.leb_le. tauto. Qed.
Lemma wcharb_iff c : wcharb c = true <-> word_char c.
Proof. unfold wcharb, word_char, bareword_char. rewrite !orb_true_iff, startb_iff, digitb_iff, N.eqb_eq. unfold digit. tauto. Qed.
Lemma forallb_iff {A} (p : A -> bool) (P : A -> Prop) l : (forall x, p x = true <-> P x) -> forallb p l = true <-> Forall P l.
Proof. intros H. rewrite forallb_forall, Forall_forall. split; intros K x I; apply H; auto. Qed.
Definition is_empty (t : bytes) : bool := match t with [] => true | _ => false end.
Lemma is_empty_iff t : is_empty t = true <-> t = []. Proof. destruct t; split; (reflexivity || discriminate). Qed.
Lemma nonempty_iff t : negb (is_empty t) = true <-> t <> []. Proof. destruct t; split; (reflexivity || discriminate || congruence). Qed.
Definition wordb (t : bytes) : bool := negb (is_empty t) && forallb wcharb t.
Lemma wordb_iff t : wordb t = true <-> word t.
Proof. unfold wordb, word. rewrite andb_true_iff, nonempty_iff, (forallb_iff _ _ _ wcharb_iff). tauto. Qed.
Definition quotedb (t : bytes) : bool :=
  match t with
  | q :: r => ((q =? DQ) || (q =? SQ))%N && match rev r with q' :: v => (q' =? q)%N && is_literal q (rev v) | [] => false end
  | [] => false
  end.
Lemma quotedb_iff t : quotedb t = true <-> quoted_lit t.
Proof.
  unfold quotedb, quoted_lit. split.
  - destruct t as [|q r]; [discriminate|]. rewrite andb_true_iff, orb_true_iff, !N.eqb_eq. intros [Q H]. destruct (rev r) as [|q' v] eqn:E; [discriminate|].
    apply andb_true_iff in H as [H1 H2]. apply N.eqb_eq in H1. subst q'. apply is_literal_spec in H2. exists q, (rev v). split; [destruct Q as [-> | ->]; cbn; auto|]. split; [exact H2|].
    cbn [app]. f_equal. apply (f_equal (@rev N)) in E. rewrite rev_involutive in E. exact E.
  - intros (q & v & Q & H & ->). cbn [app]. rewrite rev_app_distr. cbn [rev app]. rewrite rev_involutive, N.eqb_refl. apply is_literal_spec in H. rewrite H.
    destruct Q as [<- | [<- | []]]; reflexivity.
Qed.
Definition nameb (t : bytes) : bool := wordb t || quotedb t.
Lemma nameb_iff t : nameb t = true <-> name_ok t.
Proof. unfold nameb, name_ok. now rewrite orb_true_iff, wordb_iff, quotedb_iff. Qed.
Definition barewordb (t : bytes) : bool := match t with c :: r => startb c && negb (is_empty r) && forallb (fun x => startb x || digitb x) r | [] => false end.
Lemma barewordb_iff t : barewordb t = true <-> bareword t.
Proof.
  assert (C : forall x, startb x || digitb x = true <-> bareword_char x) by (intros x; rewrite orb_true_iff, startb_iff, digitb_iff; reflexivity).
  unfold barewordb, bareword. split.
  - destruct t as [|c r]; [discriminate|]. rewrite !andb_true_iff, startb_iff, nonempty_iff, (forallb_iff _ _ _ C). intros [[H1 H2] H3]. exists c, r. repeat split; assumption.
  - intros (c & r & -> & H1 & H2 & H3). rewrite !andb_true_iff, startb_iff, nonempty_iff, (forallb_iff _ _ _ C). auto.
Qed.
Definition strb (t : sat) (v : bytes) : bool :=
  match t with DoubleQuoted => is_literal DQ v | SingleQuoted => is_literal SQ v | Bareword => barewordb v | SatUndef => false end.
Lemma strb_iff t v : strb t v = true <-> str_ok t v.
Proof. destruct t; cbn [strb str_ok]; [apply is_literal_spec|apply is_literal_spec|apply barewordb_iff|split; intros K; [discriminate K|destruct K]]. Qed.
Definition comb1 (c : comment) : bool :=
  forallb (fun x => negb (x =? 13) && negb (x =? 10))%N (c_text c) && negb (space_at SP (c_text c)) && negb (space_at SP (rev (c_text c))).
Lemma space_at_iff t : negb (space_at SP t) = true <-> forall u, t <> SP :: u.
Proof.
  destruct t as [|c t]; cbn [space_at]; [split; [intros _ u E; discriminate E|reflexivity]|]. rewrite negb_true_iff, N.eqb_neq. split; [congruence|]. intros H E. subst. now elim (H t).
Qed.
Lemma comb1_iff c : comb1 c = true <-> comment_ok c.
Proof.
  unfold comb1, comment_ok, no_break. rewrite !andb_true_iff, !space_at_iff. rewrite (forallb_iff _ (fun c => c <> 13%N /\ c <> 10%N)).
  - split.
    + intros [[H1 H2] H3]. split; [exact H1|]. split; [exact H2|]. intros t E. rewrite E, rev_app_distr in H3. now elim (H3 (rev t)).
    + intros (H1 & H2 & H3). split; [split; assumption|]. intros u E. apply (f_equal (@rev N)) in E. rewrite rev_involutive in E. now elim (H3 (rev u)).
  - intros x. now rewrite andb_true_iff, !negb_true_iff, !N.eqb_neq.
Qed.
Definition comb (l : cblock) : bool := forallb comb1 l.
Lemma comb_iff l : comb l = true <-> com_ok l. Proof. apply forallb_iff, comb1_iff. Qed.
Definition no_com (l : cblock) : bool := match l with [] => true | _ => false end.
Lemma no_com_iff l : no_com l = true <-> l = []. Proof. destruct l; split; (reflexivity || discriminate). Qed.
(** *** Quotes *)
Fixpoint balb (st : option (N * N)) (t : bytes) : bool :=
  match t with
  | [] => match st with None => true | _ => false end
  | c :: t' =>
      match st with
      | None => if (c =? DQ)%N || (c =? SQ)%N then balb (Some (c, 0%N)) t' else negb (c =? NL)%N && balb None t'
      | Some (q, p) => if (c =? q)%N && negb (p =? BSL)%N then balb None t' else balb (Some (q, c)) t'
      end
  end.
Lemma balb_iff t : (balb None t = true <-> balanced t) /\
  forall q p, In q [DQ; SQ] -> balb (Some (q, p)) t = true <-> exists v u, t = v ++ q :: u /\ literal_from q p v = true /\ balanced u.
Proof.
  induction t as [|c t [IH1 IH2]].
  - split; [split; [constructor|reflexivity]|]. intros q p Q. cbn. split; [discriminate|]. intros ([|] & u & E & _); discriminate E.
  - split.
    + cbn [balb]. destruct ((c =? DQ) || (c =? SQ))%N eqn:E.
      * assert (Q : In c [DQ; SQ]) by (apply orb_true_iff in E as [E|E]; apply N.eqb_eq in E; subst; cbn; auto).
        rewrite (IH2 c 0%N Q). split.
        -- intros (v & u & -> & H1 & H2). change (c :: v ++ c :: u) with ((c :: v) ++ [c] ++ u). rewrite app_assoc. apply is_literal_spec in H1. now apply (bal_lit c v u).
        -- intros H. inversion H as [|c' t' N0 B|q v t' Q' L B]; subst; [cbn in Q, N0; tauto|]. exists v, t'. split; [now rewrite <- app_assoc|]. split; [now apply is_literal_spec|exact B].
      * assert (Q : ~ In c [DQ; SQ]) by (apply orb_false_iff in E as [E1 E2]; apply N.eqb_neq in E1, E2; intros [K|[K|[]]]; congruence).
        rewrite andb_true_iff, IH1, negb_true_iff, N.eqb_neq. split.
        -- intros [H1 H2]. constructor; [|exact H2]. intros [K|[K|[K|[]]]]; [apply Q; left; exact K|apply Q; right; left; exact K|congruence].
        -- intros H. inversion H as [|c' t' N0 B|q v t' Q' L B]; subst; [|contradiction]. split; [|exact B]. intros ->. apply N0. cbn. auto.
    + intros q p Q. cbn [balb]. destruct ((c =? q)%N && negb (p =? BSL)%N) eqn:E.
      * apply andb_true_iff in E as [E1 E2]. apply N.eqb_eq in E1. subst c. rewrite IH1. split.
        -- intros H. exists [], t. split; [reflexivity|]. split; [exact E2|exact H].
        -- intros ([|d v] & u & E & H1 & H2); [now injection E as ->|]. injection E as <- E. cbn [literal_from] in H1. rewrite N.eqb_refl in H1. cbn in H1. apply andb_true_iff in H1 as [H1 _]. rewrite H1 in E2. discriminate.
      * rewrite (IH2 q c Q). split.
        -- intros (v & u & -> & H1 & H2). exists (c :: v), u. split; [reflexivity|]. split; [|exact H2]. cbn [literal_from]. rewrite H1, andb_true_r.
           destruct (c =? q)%N; [|reflexivity]. cbn in E. apply negb_false_iff in E. now rewrite E.
        -- intros ([|d v] & u & Et & H1 & H2).
           ++ injection Et as -> ->. rewrite N.eqb_refl in E. cbn in E, H1. rewrite H1 in E. discriminate.
           ++ injection Et as <- ->. cbn [literal_from] in H1. apply andb_true_iff in H1 as [_ H1]. eauto.
Qed.
(** *** Numbers *)
Definition f64_eqb (x y : f64) : bool :=
  match x, y with
  | Fin s m e, Fin s' m' e' => Bool.eqb s s' && (m =? m')%Z && (e =? e')%Z
  | Inf s, Inf s' => Bool.eqb s s'
  | NaN, NaN => true
  | _, _ => false
  end.
Lemma f64_eqb_iff x y : f64_eqb x y = true <-> x = y.
Proof.
  destruct x as [s m e|s|], y as [s' m' e'|s'|]; cbn [f64_eqb]; try (split; discriminate).
  - rewrite !andb_true_iff, eqb_true_iff, !Z.eqb_eq. split; [intros [[-> ->] ->]; reflexivity|intros E; now injection E].
  - rewrite eqb_true_iff. split; [intros ->; reflexivity|intros E; now injection E].
  - split; reflexivity.
Qed.
Definition unsigned (t : bytes) : bytes := match t with 45%N :: r => r | _ => t end.
Definition numtextb (t : bytes) : bool :=
  let (ip, r) := span_digits (unsigned t) in
  negb (is_empty ip) && match r with [] => true | 46%N :: f => forallb digitb f | _ => false end.

Lemma is_digitb c : is_digit c = digitb c. Proof. reflexivity. Qed.
Lemma span_digits_spec t : forall ip r, span_digits t = (ip, r) -> t = ip ++ r /\ Forall digit ip /\ match r with c :: _ => ~ digit c | [] => True end.
Proof.
  induction t as [|c t IH]; intros ip r E; cbn [span_digits] in E; [injection E as <- <-; auto|].
  destruct (is_digit c) eqn:D.
  - destruct (span_digits t) as [d r0]. injection E as <- <-. destruct (IH _ _ eq_refl) as (-> & H1 & H2). split; [reflexivity|]. split; [constructor; [now apply digitb_iff|exact H1]|exact H2].
  - injection E as <- <-. split; [reflexivity|]. split; [constructor|]. rewrite <- digitb_iff. rewrite is_digitb in D. congruence.
Qed.
Lemma span_digits_app ip r : Forall digit ip -> match r with c :: _ => ~ digit c | [] => True end -> span_digits (ip ++ r) = (ip, r).
Proof.
  intros H K. induction H as [|c ip Hc H IH]; cbn [app span_digits].
  - destruct r as [|c r]; [reflexivity|]. cbn [span_digits]. rewrite is_digitb. destruct (digitb c) eqn:D; [apply digitb_iff in D; contradiction|reflexivity].
  - rewrite is_digitb, (proj2 (digitb_iff c) Hc), IH. reflexivity.
Qed.
Lemma numtextb_iff t : numtextb t = true <-> number_text t.
Proof.
  unfold numtextb, number_text. split.
  - intros H. assert (S : exists sg, t = sg ++ unsigned t /\ (sg = [] \/ sg = [45%N])).
    { destruct t as [|c t]; [exists []; auto|]. destruct (N.eq_dec c 45) as [-> | N0]; [exists [45%N]; auto|]. exists []. split; [|auto].
      assert (E : unsigned (c :: t) = c :: t) by (destruct c as [|p]; [reflexivity|]; do 6 (destruct p as [p|p|]; try reflexivity); now elim N0). now rewrite E. }
    destruct S as (sg & E & S). destruct (span_digits (unsigned t)) as [ip r] eqn:D. apply span_digits_spec in D as (D & D1 & D2).
    apply andb_true_iff in H as [H1 H2]. apply nonempty_iff in H1. exists sg, ip, r. split; [now rewrite <- D|]. split; [exact S|]. split; [exact H1|]. split; [exact D1|].
    destruct r as [|c f]; [now left|]. right. exists f.
    assert (X : c = 46%N /\ forallb digitb f = true) by (destruct c as [|p]; [discriminate|]; do 6 (destruct p as [p|p|]; try discriminate); auto).
    destruct X as [-> X]. split; [reflexivity|]. exact (proj1 (forallb_iff _ _ _ digitb_iff) X).
  - intros (sg & ip & fp & -> & S & N0 & D & F).
    assert (E : unsigned (sg ++ ip ++ fp) = ip ++ fp).
    { destruct S as [-> | ->]; [|reflexivity]. destruct D as [|c ip Hc D]; [congruence|]. cbn [app]. unfold digit in Hc. assert (c <> 45%N) by lia.
      destruct c as [|p]; [reflexivity|]; do 6 (destruct p as [p|p|]; try reflexivity); now elim H. }
    rewrite E, span_digits_app; [|exact D|destruct F as [-> | (f & -> & _)]; [exact I|unfold digit; lia]].
    rewrite (proj2 (nonempty_iff ip) N0). cbn [andb]. destruct F as [-> | (f & -> & F)]; [reflexivity|]. now apply (forallb_iff _ _ _ digitb_iff).
Qed.
Definition numb (v : f64) : bool := numtextb (number_string v) && match parse_float (number_string v) with Some w => f64_eqb w v | None => false end.
Lemma numb_iff v : numb v = true <-> pr_num v.
Proof.
  unfold numb, pr_num. rewrite andb_true_iff, numtextb_iff. destruct (parse_float (number_string v)) as [w|].
  - rewrite f64_eqb_iff. split; intros [H K]; (split; [exact H|congruence]).
  - split; [intros [_ K]; discriminate K|intros [_ K]; discriminate K].
Qed.
(** *** Attributes *)
Definition allb {A} (p : A -> bool) : list A -> bool := fix all l := match l with [] => true | x :: l' => p x && all l' end.
Lemma allb_iff {A} (p : A -> bool) (P : A -> Prop) l : Forall (fun x => p x = true <-> P x) l -> allb p l = true <-> All P l.
Proof. induction 1 as [|x l Hx H IH]; cbn; [tauto|]. now rewrite andb_true_iff, Hx, IH. Qed.
Definition keyb (k : hkey) : bool :=
  match k with
  | HKStr s => is_empty (sa_name s) && strb (sa_type s) (sa_val s) && no_com (sa_com s)
  | HKNum n => is_empty (na_name n) && numb (na_val n) && no_com (na_com n)
  end.
Lemma keyb_iff k : keyb k = true <-> pr_key k.
Proof. destruct k; cbn [keyb pr_key]; rewrite !andb_true_iff, is_empty_iff, no_com_iff, ?strb_iff, ?numb_iff; tauto. Qed.
Definition namedb (nm : bool) (n : bytes) : bool := if nm then nameb n else is_empty n.
Lemma namedb_iff nm n : namedb nm n = true <-> named nm n.
Proof. destruct nm; [apply nameb_iff|apply is_empty_iff]. Qed.
Fixpoint attrb (nm : bool) (a : attr) : bool :=
  match a with
  | AtNil => false
  | AtStr s => namedb nm (sa_name s) && strb (sa_type s) (sa_val s) && comb (sa_com s)
  | AtNum n => namedb nm (na_name n) && numb (na_val n) && comb (na_com n)
  | AtArr _ n l c f => namedb nm n && comb c && comb f && allb (attrb false) l
  | AtHash _ n l c f => namedb nm n && comb c && comb f && allb hentryb l
  | AtPlug _ n v c => nm && nameb n && comb c && pluginb v && match v with Plugin _ _ _ vc _ => no_com vc end
  end
with hentryb (e : hentry) : bool := match e with HEntry _ k v com => keyb k && comb com && attrb false v && no_com (attr_com v) end
with pluginb (x : plugin) : bool := match x with Plugin _ n l c f => nameb n && comb c && comb f && allb (attrb true) l end.
Lemma attrb_iff a : forall nm, attrb nm a = true <-> pr_attr nm a.
Proof.
  induction a as [|s|v|p n l c f IH|p n l c f IH|p n v c IH] using attr_ind'; intros nm; cbn [attrb pr_attr].
  - split; [discriminate|tauto].
  - rewrite !andb_true_iff, namedb_iff, strb_iff, comb_iff. tauto.
  - rewrite !andb_true_iff, namedb_iff, numb_iff, comb_iff. tauto.
  - rewrite !andb_true_iff, namedb_iff, !comb_iff, (allb_iff (attrb false) (pr_attr false)); [tauto|]. eapply Forall_impl; [|exact IH]. auto.
  - rewrite !andb_true_iff, namedb_iff, !comb_iff, (allb_iff hentryb pr_hentry); [tauto|]. eapply Forall_impl; [|exact IH]. intros [hp k v com] K. cbn [hval hentryb pr_hentry] in *.
    rewrite !andb_true_iff, keyb_iff, comb_iff, no_com_iff. specialize (K false). change (attrb false v = true <-> pr_attr false v) in K. tauto.
  - destruct v as [vp vn vl vc vf]. cbn [pluginb pr_plugin pattrs] in *. rewrite !andb_true_iff, !nameb_iff, !comb_iff, no_com_iff, (allb_iff (attrb true) (pr_attr true)); [tauto|]. eapply Forall_impl; [|exact IH]. auto.
Qed.
Lemma attrsb_iff nm l : allb (attrb nm) l = true <-> All (pr_attr nm) l.
Proof. apply allb_iff, Forall_forall. intros x _. apply attrb_iff. Qed.
Lemma pluginb_iff x : pluginb x = true <-> pr_plugin x.
Proof. destruct x as [vp vn vl vc vf]. cbn [pluginb pr_plugin]. rewrite !andb_true_iff, nameb_iff, !comb_iff, attrsb_iff. tauto. Qed.
(** *** Conditions *)
Definition selelb (e : selel) : bool := negb (is_empty (se_name e)) && forallb (fun c => negb (mem c [91; 93; 44]%N)) (se_name e).
Definition selb (s : selector) : bool := match sel_els s with [] => false | l => allb selelb l end && balb None (selector_string s).
Lemma selelb_iff e : selelb e = true <-> selel_ok e.
Proof.
  unfold selelb, selel_ok. rewrite andb_true_iff, nonempty_iff, (forallb_iff _ (fun c => ~ In c [91; 93; 44]%N)); [tauto|]. intros c. rewrite negb_true_iff. rewrite <- not_true_iff_false, mem_in. tauto.
Qed.
Lemma selb_iff s : selb s = true <-> pr_sel s.
Proof.
  unfold selb, pr_sel, sel_ok. rewrite andb_true_iff, (proj1 (balb_iff (selector_string s))). destruct (sel_els s) as [|e l]; [split; [intros [K _]; discriminate K|intros [[K _] _]; congruence]|].
  rewrite (allb_iff selelb selel_ok); [|apply Forall_forall; intros x _; apply selelb_iff]. assert (N0 : e :: l <> []) by discriminate. tauto.
Qed.
Definition reb (r : regexp) : bool := is_literal SLASH (re_text r) && balb None (re_text r).
Lemma reb_iff r : reb r = true <-> pr_re r.
Proof. unfold reb, pr_re, re_ok. now rewrite andb_true_iff, is_literal_spec, (proj1 (balb_iff (re_text r))). Qed.
Definition notselb (l : list attr) (f : cblock) : bool :=
  match l, f with [], [] => true | _, _ => false end ||
  match filter mark (attr_value (AtArr zero_pos [] l [] f)) with _ :: c :: _ => negb (c =? 93)%N | _ => false end.
Lemma notselb_iff l f : notselb l f = true <-> not_selector l f.
Proof.
  unfold notselb, not_selector. rewrite orb_true_iff.
  assert (A : (match l, f with [], [] => true | _, _ => false end = true) <-> (l = [] /\ f = [])) by (destruct l, f; split; intros; intuition discriminate).
  rewrite A. assert (B : forall u : bytes, match u with _ :: c :: _ => negb (c =? 93)%N | _ => false end = true <-> match u with _ :: c :: _ => c <> 93%N | _ => False end).
  { intros [|x [|c u]]; try (split; [discriminate|tauto]). now rewrite negb_true_iff, N.eqb_neq. }
  now rewrite B.
Qed.
Definition is_bare (t : sat) : bool := match t with Bareword => true | _ => false end.
Definition cstrb (s : strattr) : bool := is_empty (sa_name s) && strb (sa_type s) (sa_val s) && negb (is_bare (sa_type s)) && no_com (sa_com s).
Lemma cstrb_iff s : cstrb s = true <-> cstr_ok s.
Proof.
  unfold cstrb, cstr_ok. rewrite !andb_true_iff, is_empty_iff, strb_iff, no_com_iff. assert (B : negb (is_bare (sa_type s)) = true <-> sa_type s <> Bareword) by (destruct (sa_type s); split; (discriminate || reflexivity || congruence)). rewrite B. tauto.
Qed.
Definition rvalueb (r : rvalue) : bool :=
  match r with
  | RVNil => false
  | RVStr s => cstrb s
  | RVNum n => is_empty (na_name n) && numb (na_val n) && no_com (na_com n)
  | RVSel s => selb s
  | RVArr _ n l c f => is_empty n && no_com c && comb f && allb (attrb false) l && notselb l f
  | RVRe r => reb r
  end.
Lemma rvalueb_iff r : rvalueb r = true <-> pr_rvalue r.
Proof.
  destruct r; cbn [rvalueb pr_rvalue]; rewrite ?andb_true_iff, ?is_empty_iff, ?no_com_iff, ?comb_iff, ?attrsb_iff, ?notselb_iff, ?numb_iff; [split; [discriminate|tauto]|apply cstrb_iff|tauto|apply selb_iff|tauto|apply reb_iff].
Qed.
Definition strorreb (r : strorre) : bool := match r with SRNil => false | SRStr s => cstrb s | SRRe r => reb r end.
Lemma strorreb_iff r : strorreb r = true <-> pr_strorre r.
Proof. destruct r; cbn [strorreb pr_strorre]; [split; [discriminate|tauto]|apply cstrb_iff|apply reb_iff]. Qed.
Definition bob (first : bool) (o : boolopn) : bool :=
  match bo_op o with BoNone => first | BoUndef => false | _ => negb first end.
Lemma bob_iff first o : bob first o = true <-> bo_ok first o.
Proof. unfold bob, bo_ok. destruct first, (bo_op o); split; intros; try reflexivity; try discriminate; try (split; discriminate); destruct H; congruence. Qed.
Definition cob (o : cmpop) : bool := match o with CoUndef => false | _ => true end.
Definition rob (o : reop) : bool := match o with RoUndef => false | _ => true end.
Fixpoint cexprb (first : bool) (e : cexpr) : bool :=
  match e with
  | ExNil => false
  | ExCond _ bo c | ExNeg _ bo c => bob first bo && condb c
  | ExNegSel _ bo s => bob first bo && selb s
  | ExIn _ bo l r | ExNotIn _ bo l r => bob first bo && rvalueb l && rvalueb r
  | ExRv _ bo r => bob first bo && rvalueb r
  | ExCmp _ bo l o r => bob first bo && rvalueb l && cob (co_op o) && rvalueb r
  | ExRe _ bo l o r => bob first bo && rvalueb l && rob (ro_op o) && strorreb r
  end
with condb (c : condition) : bool :=
  match c with Cond l => match l with [] => false | e :: l' => cexprb true e && allb (cexprb false) l' end end.
Lemma condb_from l : Forall (fun e => forall first, cexprb first e = true <-> pr_cexpr first e) l -> condb (Cond l) = true <-> pr_cond (Cond l).
Proof.
  intros H. destruct H as [|e l He H]; cbn [condb pr_cond]; [split; [discriminate|tauto]|]. rewrite andb_true_iff, (He true), (allb_iff (cexprb false) (pr_cexpr false)); [tauto|]. eapply Forall_impl; [|exact H]. auto.
Qed.
Lemma cexprb_iff e : forall first, cexprb first e = true <-> pr_cexpr first e.
Proof.
  assert (C : forall o, cob o = true <-> o <> CoUndef) by (intros []; split; (discriminate || reflexivity || congruence)).
  assert (R : forall o, rob o = true <-> o <> RoUndef) by (intros []; split; (discriminate || reflexivity || congruence)).
  induction e as [|q bo c IH|q bo c IH|q bo s|q bo l r|q bo l r|q bo r|q bo l o r|q bo l o r] using cexpr_ind'; intros first; cbn [cexprb pr_cexpr]; rewrite ?andb_true_iff, ?bob_iff, ?rvalueb_iff, ?strorreb_iff, ?selb_iff, ?C, ?R; try tauto.
  - split; [discriminate|tauto].
  - destruct c as [l]. cbn [exprs] in IH. rewrite (condb_from l IH). tauto.
  - destruct c as [l]. cbn [exprs] in IH. rewrite (condb_from l IH). tauto.
Qed.
Lemma condb_iff c : condb c = true <-> pr_cond c.
Proof. destruct c as [l]. apply condb_from, Forall_forall. intros e _. apply cexprb_iff. Qed.
(** *** Blocks *)
Definition numeralb (t : bytes) : bool := match t with c :: u => digitb c || (c =? 45)%N && match u with d :: _ => digitb d | [] => false end | [] => false end.
Lemma numeralb_iff t : numeralb t = true <-> numeral t.
Proof.
  unfold numeralb, numeral. split.
  - destruct t as [|c u]; [discriminate|]. rewrite orb_true_iff, andb_true_iff, digitb_iff, N.eqb_eq. intros [H|[-> H]]; [exists c, u; auto|]. destruct u as [|d u]; [discriminate|]. rewrite digitb_iff in H. exists d, u. auto.
  - intros (d & u & H & [-> | ->]); apply digitb_iff in H; rewrite H; reflexivity.
Qed.
Definition starts (k t : bytes) : bool := beqb (firstn (List.length k) t) k && numeralb (skipn (List.length k) t).
Definition ifnameb (n : bytes) : bool := starts (b "if") n.
Definition elsenameb (n : bytes) : bool := beqb n (b "else") || starts (b "elseif") n.
Lemma starts_iff k t : starts k t = true <-> exists u, t = k ++ u /\ numeral u.
Proof.
  unfold starts. rewrite andb_true_iff, beqb_true, numeralb_iff. split.
  - intros [E H]. exists (skipn (List.length k) t). split; [|exact H]. rewrite <- E at 1. symmetry. apply firstn_skipn.
  - intros (u & -> & H). rewrite firstn_app, firstn_all, Nat.sub_diag, skipn_app, skipn_all, Nat.sub_diag. cbn [firstn skipn app]. rewrite app_nil_r. auto.
Qed.
Lemma ifnameb_iff n : ifnameb n = true <-> if_like n.
Proof. apply starts_iff. Qed.
Lemma elsenameb_iff n : elsenameb n = true <-> else_like n.
Proof. unfold elsenameb, else_like. now rewrite orb_true_iff, beqb_true, starts_iff. Qed.
Definition itemb (x : plugin) : bool := pluginb x && negb (ifnameb (pname x)).
Lemma itemb_iff x : itemb x = true <-> pr_item x.
Proof. unfold itemb, pr_item. rewrite andb_true_iff, pluginb_iff, negb_true_iff, <- not_true_iff_false, ifnameb_iff. tauto. Qed.
Definition bare_elseb (e : elseblock) : bool := match e with ElB _ [] [] [] => true | _ => false end.
Lemma bare_elseb_iff e : bare_elseb e = true <-> else_empty e.
Proof. destruct e as [p [|x l] [|c com] [|f foot]]; cbn; split; auto; try discriminate; intros (H1 & H2 & H3); discriminate. Qed.
Definition besideb (x y : bop) : bool :=
  match x, y with BBranch _ _ e, (BPlugin p | BPluginPtr p) => negb (bare_elseb e) || negb (elsenameb (pname p)) | _, _ => true end.
Lemma besideb_iff x y : besideb x y = true <-> beside x y.
Proof.
  assert (G : forall e n, negb (bare_elseb e) || negb (elsenameb n) = true <-> (else_empty e -> ~ else_like n)).
  { intros e n. rewrite <- bare_elseb_iff, <- elsenameb_iff. destruct (bare_elseb e), (elsenameb n); cbn; intuition congruence. }
  destruct x, y; cbn [besideb beside]; try tauto; apply G.
Qed.
Fixpoint apartb (l : list bop) : bool :=
  match l with x :: l' => match l' with y :: _ => besideb x y | [] => true end && apartb l' | [] => true end.
Lemma apartb_iff l : apartb l = true <-> apart l.
Proof. induction l as [|x l IH]; [cbn; tauto|]. cbn [apartb apart]. rewrite andb_true_iff, IH. destruct l; [tauto|]. now rewrite besideb_iff. Qed.
Fixpoint bopb (x : bop) : bool :=
  match x with
  | BNil => false
  | BPlugin p | BPluginPtr p => itemb p
  | BBranch i es e => ifb i && allb ifb es && elseb e
  end
with ifb (x : ifblock) : bool := match x with IfB _ c l com foot => condb c && comb com && comb foot && allb bopb l && apartb l end
with elseb (x : elseblock) : bool := match x with ElB _ l com foot => comb com && comb foot && allb bopb l && apartb l end.
Lemma bopb_iff x : bopb x = true <-> pr_bop x.
Proof.
  induction x as [|q|q|i es e IHi IHes IHe] using bop_ind'; cbn [bopb pr_bop]; [split; [discriminate|tauto]|apply itemb_iff|apply itemb_iff|].
  change (ifb i && allb ifb es && elseb e = true <-> pr_if i /\ All pr_if es /\ pr_else e).
  assert (I : forall i, Forall (fun x => bopb x = true <-> pr_bop x) (block i) -> ifb i = true <-> pr_if i).
  { intros [p c l com foot] K. cbn [ifb pr_if block] in *. rewrite !andb_true_iff, condb_iff, !comb_iff, (allb_iff _ _ _ K), apartb_iff. tauto. }
  rewrite !andb_true_iff, (I _ IHi), (allb_iff ifb pr_if).
  - destruct e as [p l com foot]. cbn [elseb pr_else eblock] in *. rewrite !andb_true_iff, !comb_iff, (allb_iff _ _ _ IHe), apartb_iff. tauto.
  - eapply Forall_impl; [|exact IHes]. exact I.
Qed.
Definition ptypeb (x y : ptype) : bool := match x, y with PTInput, PTInput | PTFilter, PTFilter | PTOutput, PTOutput | PTUndef, PTUndef => true | _, _ => false end.
Definition sectionb (t : ptype) (s : section) : bool := ptypeb (ps_type s) t && comb (ps_com s) && comb (ps_foot s) && allb bopb (ps_bops s) && apartb (ps_bops s).
Lemma sectionb_iff t s : sectionb t s = true <-> pr_section t s.
Proof.
  unfold sectionb, pr_section. rewrite !andb_true_iff, !comb_iff, apartb_iff, (allb_iff bopb pr_bop); [|apply Forall_forall; intros x _; apply bopb_iff].
  assert (P : ptypeb (ps_type s) t = true <-> ps_type s = t) by (destruct (ps_type s), t; split; (discriminate || reflexivity)). rewrite P. tauto.
Qed.
Definition is_none {A} (l : list A) : bool := match l with [] => true | _ => false end.
Definition printableb (c : config) : bool :=
  allb (sectionb PTInput) (cf_input c) && allb (sectionb PTFilter) (cf_filter c) && allb (sectionb PTOutput) (cf_output c) && comb (cf_foot c) &&
  (negb (is_none (cf_input c) && is_none (cf_filter c) && is_none (cf_output c)) || no_com (cf_foot c)).
Theorem printableb_iff c : printableb c = true <-> printable c.
Proof.
  assert (A : forall t l, allb (sectionb t) l = true <-> All (pr_section t) l) by (intros t l; apply allb_iff, Forall_forall; intros x _; apply sectionb_iff).
  unfold printableb, printable. rewrite !andb_true_iff, !A, comb_iff, orb_true_iff, no_com_iff.
  assert (Z : forall l : list section, l = [] <-> is_none l = true) by (intros []; split; (reflexivity || discriminate)).
  rewrite !Z, negb_true_iff. destruct (is_none (cf_input c)), (is_none (cf_filter c)), (is_none (cf_output c)); cbn; split; intros; intuition discriminate.
Qed.
