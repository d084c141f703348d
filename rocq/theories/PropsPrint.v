(** Properties of the printed form.  Each theorem is followed by
    [Print Assumptions] and a concrete instance. *)
From Coq Require Import List NArith Bool String Arith Lia.
From Verif Require Import Bytes F64 Ast Actions Regex AstPrint NilFacts.
Import ListNotations.

(** * C38 nil entries do not influence String() *)
(** [drop_config] is the tree without the nil entries of its lists.  [elses_ok]
    excludes else blocks made of nil entries only; for those the claim is false
    of the code (below). *)
Theorem C38_nil_entries_invisible_partial :
  forall c, elses_ok c -> config_string (drop_config c) = config_string c.
Proof. exact drop_config_string. Qed.
Print Assumptions C38_nil_entries_invisible_partial.

Definition c38_plugin : plugin :=
  Plugin zero_pos (b "mutate")
    [AtNil; AtArr zero_pos (b "a") [AtNil; AtStr (StrAttr zero_pos [] (b "x") Bareword []); AtNil] [] []; AtNil] [] [].
Definition c38_tree (els : list bop) : config :=
  Config [] [Section_ zero_pos PTFilter
    [BNil; BBranch (IfB zero_pos (Cond [ExNil; ExRv zero_pos (BoolOp BoNone zero_pos) (RVStr (StrAttr zero_pos [] (b "y") DoubleQuoted []))])
              [BNil; BPlugin c38_plugin; BNil] [] [])
             [] (ElB zero_pos els [] []); BNil] [] []] [] [] [].
Example C38_nonvacuous :
  elses_ok (c38_tree [BNil; BPlugin c38_plugin]) /\ drop_config (c38_tree [BNil; BPlugin c38_plugin]) <> c38_tree [BNil; BPlugin c38_plugin].
Proof.
  split; [|discriminate]. repeat constructor. cbn. intros _ _ _. exists (BPlugin c38_plugin). split; [auto|discriminate].
Qed.

(** The full claim fails: an else block whose only entry is nil is printed as an
    empty block, without the entry it is not printed at all. *)
Theorem C38_refuted : exists c, config_string (drop_config c) <> config_string c.
Proof. exists (c38_tree [BNil]). vm_compute. discriminate. Qed.
Print Assumptions C38_refuted.

(** * Numbers *)
From Coq Require Import ZArith QArith.
From Verif Require Import NumFacts NumPrint NumRound.
Local Open Scope list_scope.
(** The (exact) value of a finite float64 *)
Definition value_of (v : f64) (q : Q) : Prop :=
  match v with Fin neg m e => (q == (if neg then -1 else 1) * (inject_Z m * (2 # 1) ^ e))%Q | _ => False end.

(** ** C39 integers are printed as their digits and read back *)
(** For every integer literal (digits, possibly with leading zeros, possibly a
    minus sign) of absolute value at most 2^53. *)
Theorem C39_integers : forall neg ip, digits ip -> ip <> [] -> (digits_val ip <= 2 ^ 53)%Z ->
  exists v, parse_float (sign neg ++ ip) = Some v /\
            value_of v (inject_Z (if neg then - digits_val ip else digits_val ip)) /\
            number_string v = sign neg ++ itoa_Z (digits_val ip) /\
            parse_float (number_string v) = Some v.
Proof.
  intros neg ip H N L. pose proof (digits_val_nonneg ip H) as P. destruct (int_printed neg (digits_val ip) (conj P L)) as (m & e & C & V & R & S).
  exists (Fin neg m e). split; [now apply R|]. split; [|split; [exact S|]].
  - cbn [value_of]. transitivity ((if neg then -1 else 1) * fval m e)%Q; [|reflexivity]. rewrite V. destruct neg; [rewrite inject_Z_opp|]; ring.
  - rewrite S. apply R; [now apply itoa_Z_digit|apply itoa_Z_nonempty|now apply digits_val_itoa].
Qed.
Print Assumptions C39_integers.
(** The parser stores exactly this number in the tree. *)
Theorem C39_node : forall neg ip, digits ip -> ip <> [] -> (digits_val ip <= 2 ^ 53)%Z ->
  exists n, act_number (sign neg ++ ip) = RVal (VAttr (AtNum n)) /\
            value_of (na_val n) (inject_Z (if neg then - digits_val ip else digits_val ip)) /\
            attr_value (AtNum n) = sign neg ++ itoa_Z (digits_val ip).
Proof.
  intros neg ip H N L. destruct (C39_integers neg ip H N L) as (v & E & V & S & _). exists (NumAttr zero_pos [] v []). unfold act_number. rewrite E. auto.
Qed.
Print Assumptions C39_node.
Example C39_nonvacuous : digits (b "0009007199254740991") /\ digits_val (b "0009007199254740991") = 9007199254740991%Z
  /\ number_string (Fin false 9007199254740991 0) = b "9007199254740991" /\ (exists v, parse_float (b "-100000") = Some v /\ number_string v = b "-100000").
Proof. split; [repeat constructor|]. split; [reflexivity|]. split; [reflexivity|]. eexists. split; [vm_compute; reflexivity|vm_compute; reflexivity]. Qed.

(** ** C40 numbers survive printing *)
(** Every literal with at most ten decimals, and every literal that denotes a
    number of absolute value at least 10^-4 (with any number of digits), provided
    it is in the range of float64. *)
Theorem C40_literals_partial : forall neg ip fp v, is_literal ip fp -> parse_float (literal neg ip fp) = Some v ->
  (List.length (match fp with Some f => f | None => [] end) <= 10)%nat \/ (1 # 10000 <= inject_Z (lit_num ip fp) / inject_Z (lit_den fp))%Q ->
  parse_float (number_string v) = Some v.
Proof. exact literal_survives. Qed.
Print Assumptions C40_literals_partial.
(** Every finite float64 that is zero or of absolute value at least 10^-4.
    [canon]: mantissa below 2^53, exponent from -1074 to 971, normalised. *)
Theorem C40_floats_partial : forall neg m e, canon m e -> m = 0%Z \/ (p10 (-4) <= inject_Z m * p2 e)%Q ->
  parse_float (number_string (Fin neg m e)) = Some (Fin neg m e).
Proof. exact number_survives. Qed.
Print Assumptions C40_floats_partial.
(** Below 10^-4 the printed form denotes the nearest multiple of 10^-10 (half to
    even), so it is read back as that number rounded to float64. *)
Theorem C40_small_numbers : forall neg m e, (0 < m)%Z -> canon m e -> (inject_Z m * p2 e < p10 (-4))%Q ->
  exists r, (inject_Z r - (1 # 2) <= inject_Z m * p2 e * inject_Z (10 ^ 10) <= inject_Z r + (1 # 2))%Q /\
    parse_float (number_string (Fin neg m e)) = match round64 r (10 ^ 10) with Some (m', e') => Some (Fin neg m' e') | None => None end.
Proof.
  intros neg m e Hm C L. destruct (frac m e) as [n d] eqn:Ef. pose proof (frac_q _ _ _ _ Ef) as [Hd Q]. exists (rhe (n * 10 ^ 10) d). split.
  - pose proof (rhe_near (n * 10 ^ 10) d Hd) as R. assert (E : (qz (n * 10 ^ 10) d == inject_Z m * p2 e * inject_Z (10 ^ 10))%Q).
    { rewrite <- Q. unfold qz. rewrite inject_Z_mult. unfold Qdiv. ring. } now rewrite E in R.
  - now apply small_read.
Qed.
Print Assumptions C40_small_numbers.
(** What is read is the correctly rounded value of the literal: [in_iv], between
    the half-way points to the neighbouring floats. *)
Theorem C40_reading : forall neg ip fp v, is_literal ip fp -> parse_float (literal neg ip fp) = Some v ->
  exists m e, v = Fin neg m e /\ canon m e /\ ((0 < m)%Z -> in_iv m e (inject_Z (lit_num ip fp) / inject_Z (lit_den fp))%Q).
Proof. exact parse_literal_canon. Qed.
Print Assumptions C40_reading.
Example C40_nonvacuous : is_literal (b "1234567") (Some (b "890625")) /\
  (exists v, parse_float (literal true (b "1234567") (Some (b "890625"))) = Some v /\ number_string v = b "-1234567.890625") /\
  (exists v, parse_float (b "0.3") = Some v /\ number_string v = b "0.3").
Proof. split; [repeat split; repeat constructor; discriminate|]. split; eexists; (split; [vm_compute; reflexivity|vm_compute; reflexivity]). Qed.
(** The full claim is false: a tiny number is printed as zero with a trailing point. *)
Theorem C40_refuted : exists v, parse_float (b "0.00000000001") = Some v /\ number_string v = b "0." /\ parse_float (number_string v) <> Some v.
Proof. eexists. split; [vm_compute; reflexivity|]. split; [vm_compute; reflexivity|]. vm_compute. discriminate. Qed.
Print Assumptions C40_refuted.
