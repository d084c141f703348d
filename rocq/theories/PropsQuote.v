(** Quoted values in files: C47, and C20 to C23 in terms of the parser. *)
From Coq Require Import List NArith Bool String Arith Lia.
From Verif Require Import Bytes Utf8 F64 Ast Peg Actions Engine Parser AstPrint AstUtil AstInd EscapeFacts QuoteFacts LexFacts Utf8Facts HistFacts ParseFacts InputFacts
  Tree ParseTree Lines NumPrint Layout Comments Blank Printable Accepted Utf8Tree LintFacts LintTree PropsUtil PropsRound PropsFormat.
Import ListNotations.

(** A file with one plugin with one attribute, whose value is written as [lit] *)
Definition file_with (lit : bytes) : bytes :=
  b ("input {" ++ nl ++ "  p {" ++ nl ++ "    a => ") ++ lit ++ b (nl ++ "  }" ++ nl ++ "}" ++ nl).
(** The parser accepts that file and reads a string of kind [t] and value [v]. *)
Definition read_as (lit : bytes) (t : sat) (v : bytes) : Prop :=
  exists c ff q pos, parse [] [] (file_with lit) = (Returned (VConfig c) [], ff) /\
    plugins_config c = [Plugin q (b "p") [AtStr (StrAttr pos (b "a") v t [])] [] []].
Definition written (t : sat) (v : bytes) : bytes :=
  match t with DoubleQuoted => [DQ] ++ v ++ [DQ] | SingleQuoted => [SQ] ++ v ++ [SQ] | _ => v end.

Definition one_attr (t : sat) (v : bytes) : config :=
  Config [Section_ zero_pos PTInput [BPlugin (Plugin zero_pos (b "p") [AtStr (StrAttr zero_pos (b "a") v t [])] [] [])] [] []] [] [] [] [].
Lemma letter_word c : (97 <= c <= 122)%N -> name_ok [c].
Proof. intros H. left. split; [discriminate|]. constructor; [|constructor]. unfold word_char, bareword_char, bareword_start. lia. Qed.
Lemma one_printable t v : str_ok t v -> printable (one_attr t v).
Proof.
  intros H. unfold printable, one_attr. cbn [cf_input cf_filter cf_output cf_foot All]. split; [|split; [exact I|split; [exact I|split; [constructor|discriminate]]]].
  split; [|exact I]. split; [reflexivity|]. split; [constructor|]. split; [constructor|]. cbn [ps_bops All apart]. split; [|auto]. split; [|exact I].
  split; [split; [apply (letter_word 112); lia|split; [constructor|split; [constructor|]]]|].
  - cbn [All]. split; [|exact I]. split; [apply (letter_word 97); lia|]. split; [exact H|constructor].
  - intros (x & E & _). discriminate.
Qed.
Lemma one_text t v : str_ok t v -> config_string (one_attr t v) = file_with (written t v).
Proof.
  intros H. rewrite (config_layout _ (one_printable t v H)). unfold one_attr, tconfig, tsections. cbn [cf_input cf_filter cf_output cf_foot map join tcoms flat_map ps_com app].
  unfold tsection, tbops. cbn [ps_bops ps_foot map join tcoms flat_map app tbop tplugin attr_com sa_com attr_name sa_name tval].
  unfold file_with, written, sa_value_string. destruct t; cbn [sa_type sa_val sat_string]; try contradiction; rewrite ?app_nil_r; cbn; rewrite <- ?app_assoc; reflexivity.
Qed.
Lemma wf_plugins x p : wf_bop x -> In p (plugins x) -> wf_plugin p.
Proof.
  induction x as [|q|q|i es e IHi IHes IHe] using bop_ind'; intros W I; try contradiction.
  - destruct I as [<-|[]]. exact W.
  - assert (L : forall l, Forall (fun x => wf_bop x -> In p (plugins x) -> wf_plugin p) l -> All wf_bop l -> In p (flat_map plugins l) -> wf_plugin p).
    { intros l H K J. apply in_flat_map in J as (x & J & J'). apply All_F in K. rewrite Forall_forall in *. eauto. }
    rewrite branch_plugins, !in_app_iff in I. destruct W as (W1 & W2 & W3). destruct I as [I|[I|I]].
    + destruct i. apply (L _ IHi); [apply W1|exact I].
    + apply in_flat_map in I as (x & J & J'). apply All_F in W2. rewrite Forall_forall in *. specialize (IHes x J). specialize (W2 x J). destruct x. apply (L _ IHes); [apply W2|exact J'].
    + destruct e. apply (L _ IHe); [apply W3|exact I].
Qed.
Lemma wf_plugins_config c p : wf_config c -> In p (plugins_config c) -> wf_plugin p.
Proof.
  intros (W1 & W2 & W3 & _) I. unfold plugins_config in I. apply in_flat_map in I as (s & J & I). unfold plugins_section in I. apply in_flat_map in I as (x & K & I).
  apply (wf_plugins x); [|exact I]. rewrite !in_app_iff in J. apply All_F in W1, W2, W3. rewrite Forall_forall in *.
  destruct J as [J|[J|J]]; [apply W1 in J|apply W2 in J|apply W3 in J]; destruct J as (_ & _ & _ & J); apply All_F in J; rewrite Forall_forall in J; auto.
Qed.

(** ** C47: the parser reads a written string as that string, exactly when it is one *)
Theorem C47_reads_back : forall t v, utf8_text v ->
  (read_as (written t v) t v <-> str_ok t v).
Proof.
  intros t v V0. split.
  - intros (c & ff & q & pos & E & P). destruct (parse_tree _ _ _ _ _ (proj1 default_plain) E) as [W _].
    assert (K : wf_plugin (Plugin q (b "p") [AtStr (StrAttr pos (b "a") v t [])] [] [])) by (apply (wf_plugins_config c); [exact W|]; rewrite P; now left).
    destruct K as (_ & _ & _ & K & _). apply K.
  - intros H. assert (V : readable [] (config_string (one_attr t v))).
    { left. apply printed_utf8; [now apply one_printable|]. change (U [b "p"; b "a"; v]). rewrite !U_cons. split; [apply ascii_b; reflexivity|]. split; [apply ascii_b; reflexivity|]. split; [exact V0|apply U_nil]. }
    destruct (C12_round_trip [] [] (one_attr t v) (one_printable t v H)) as (c & ff & E & P); [|exact default_plain|exact V|].
    { split; [|split; intros ? ? []]. intros x y [<-|[]] [<-|[]]. reflexivity. }
    rewrite (one_text t v H) in E. apply (f_equal plugins_config) in P. unfold plain_config in P. rewrite !g_plugins_config in P.
    change (plugins_config (drop_warnings c)) with (plugins_config c) in P. cbn in P.
    exists c, ff. clear -E P. destruct (plugins_config c) as [|[q n l com foot] [|]]; cbn in P; try discriminate P. inversion P as [[P1 P2 P3 P4]].
    destruct com; [|discriminate P3]. destruct foot; [|discriminate P4]. destruct l as [|a [|]]; try discriminate P2. cbn in P2. destruct a as [|[pos n' v' t' co]| | | |]; try discriminate P2.
    cbn in P2. inversion P2 as [[Q1 Q2 Q3 Q4]]. destruct co; [|discriminate Q4]. exists q, pos. split; [exact E|reflexivity].
Qed.
Print Assumptions C47_reads_back.
Example C47_case : ~ read_as (b "'it''s'") SingleQuoted (b "it''s").
Proof. intros H. apply (C47_reads_back SingleQuoted (b "it''s")) in H; [|apply ascii_b; reflexivity]. apply is_literal_spec in H. discriminate. Qed.
Example C47_case_good : read_as (b """a \"" b""") DoubleQuoted (b "a \"" b") /\ read_as (b "it_is") Bareword (b "it_is").
Proof.
  split; [apply (C47_reads_back DoubleQuoted (b "a \"" b"))|apply (C47_reads_back Bareword (b "it_is"))]; try (apply ascii_b; reflexivity).
  - apply is_literal_spec. reflexivity.
  - apply is_bareword_spec. reflexivity.
Qed.

(** ** C20 to C23 in terms of files *)
Lemma backslashed_utf8 q v w : (q < 128)%N -> backslashed q v w -> forall x, utf8_text (x ++ v) -> utf8_text (x ++ w).
Proof.
  intros Q H. induction H as [|c v w _ IH|v w _ IH]; intros x V; [exact V| |].
  - change (c :: w) with ([c] ++ w). rewrite app_assoc. apply IH. now rewrite <- app_assoc.
  - apply utf8_at in V as [V1 V2]; [|exact Q]. apply utf8_at; [reflexivity|]. split; [exact V1|]. apply utf8_hd; [exact Q|]. exact (IH [] V2).
Qed.
Lemma escape_utf8 s : forall x, utf8_text (x ++ s) -> utf8_text (x ++ escape s).
Proof.
  induction s as [|c s IH]; intros x V; [exact V|]. cbn [escape flat_map]. change (flat_map escape_byte s) with (escape s).
  assert (E : escape_byte c = [c] \/ (c < 128)%N /\ Forall (fun d => d < 128)%N (escape_byte c)).
  { unfold escape_byte. destruct ((c =? DQ) || (c =? SQ) || (c =? BSL))%N eqn:E1.
    - right. assert (c < 128)%N. { rewrite !orb_true_iff, !N.eqb_eq in E1. unfold DQ, SQ, BSL in *. lia. } repeat constructor; auto.
    - destruct (c =? NL)%N eqn:E2; [|destruct (c =? CR)%N eqn:E3; [|destruct (c =? TAB)%N eqn:E4; [|now left]]]; right;
      (split; [apply N.eqb_eq in E2 || apply N.eqb_eq in E3 || apply N.eqb_eq in E4; subst; reflexivity|repeat constructor]). }
  destruct E as [->|[C E]].
  - rewrite app_assoc. apply IH. now rewrite <- app_assoc.
  - apply utf8_at in V as [V1 V2]; [|exact C]. apply utf8_app; [exact V1|]. apply utf8_app; [now apply utf8_ascii|]. exact (IH [] V2).
Qed.
Lemma written_char t q v : quote_char t q -> written t v = [q] ++ v ++ [q].
Proof. intros [[-> ->]|[-> ->]]; reflexivity. Qed.
Lemma str_ok_char t q v : quote_char t q -> (str_ok t v <-> literal_value q v).
Proof. intros [[-> ->]|[-> ->]]; reflexivity. Qed.
Lemma char_ascii t q : quote_char t q -> (q < 128)%N.
Proof. intros [[-> ->]|[-> ->]]; reflexivity. Qed.
Lemma reads_quoted t q v : quote_char t q -> utf8_text v -> (read_as ([q] ++ v ++ [q]) t v <-> literal_value q v).
Proof. intros Q V. rewrite <- (written_char t q v Q), C47_reads_back by exact V. now apply str_ok_char. Qed.
(** an escaped text in quotes is read as the escaped text, from which Unescape gives the text *)
Theorem C20_in_file : forall t q s, quote_char t q -> utf8_text s ->
  (read_as ([q] ++ escape s ++ [q]) t (escape s) <-> forall x, s <> x ++ [BSL]) /\ unescape (escape s) = s.
Proof.
  intros t q s Q V. split; [|apply C18_unescape_inverts_escape]. rewrite (reads_quoted t q _ Q (escape_utf8 s [] V)). apply C20_escape_literal. destruct Q as [[_ ->]|[_ ->]]; auto.
Qed.
Print Assumptions C20_in_file.
(** a quoted value is read as the value, outside the families of C21 *)
Theorem C21_in_file_partial : forall t q v r, quote_char t q -> utf8_text v ->
  ~ bare_quote_at q v 0 -> ~ bare_quote_at q v 1 -> (forall x, v <> x ++ [BSL]) -> quote v t = QOk r -> read_as r t v.
Proof. intros t q v r Q V H0 H1 H2 E. apply (C21_partial t q v r Q H0 H1 H2) in E as [-> L]. now apply (reads_quoted t q v Q V). Qed.
Print Assumptions C21_in_file_partial.
(** and Quote accepts every value that some file can hold *)
Theorem C21_accepts_in_file : forall t q v, quote_char t q -> utf8_text v -> read_as ([q] ++ v ++ [q]) t v -> quote v t = QOk ([q] ++ v ++ [q]).
Proof. intros t q v Q V R. apply C21_accepts_quotable; [exact Q|]. now apply (reads_quoted t q v Q V). Qed.
Print Assumptions C21_accepts_in_file.
(** QuoteWithEscape *)
Theorem C22_in_file_partial : forall t q v, quote_char t q -> utf8_text v ->
  exists w, quote_with_escape v t = QOk ([q] ++ w ++ [q]) /\ backslashed q v w /\
    (read_as ([q] ++ w ++ [q]) t w <-> (forall x, v <> x ++ [BSL]) /\ ~ (exists c y, v = c :: q :: y /\ c <> q /\ c <> BSL)).
Proof.
  intros t q v Q V. destruct (C22_partial t q v Q) as (w & E & L & B & _). exists w. split; [exact E|]. split; [exact B|]. rewrite <- L. apply (reads_quoted t q w Q).
  exact (backslashed_utf8 q v w (char_ascii t q Q) B [] V).
Qed.
Print Assumptions C22_in_file_partial.
(** barewords *)
Lemma bareword_utf8 v : bareword v -> utf8_text v.
Proof.
  intros (c & w & -> & _ & H1 & H2). apply utf8_ascii. constructor; [unfold bareword_start in H1; lia|]. eapply Forall_impl; [|exact H2].
  intros d Hd. unfold bareword_char, bareword_start in Hd. lia.
Qed.
Theorem C23_in_file : forall v r, quote v Bareword = QOk r -> read_as r Bareword v.
Proof. intros v r E. apply C23_quote_bareword in E as [B ->]. apply (C47_reads_back Bareword v (bareword_utf8 v B)). exact B. Qed.
Print Assumptions C23_in_file.
Theorem C23_escaped_in_file : forall v w n, rune_count v n -> quote_with_escape v Bareword = QOk w -> (2 <= n)%nat -> read_as w Bareword w.
Proof.
  intros v w n R E N. destruct (C23_escape_bareword v n R) as (w' & E' & _ & B & _). rewrite E in E'. inversion E'; subst w'. apply B in N.
  now apply (C47_reads_back Bareword w (bareword_utf8 w N)).
Qed.
Print Assumptions C23_escaped_in_file.
