(** C70: ParseReader and ParseFile parse exactly what is read, and the file is closed once. *)
From Coq Require Import List NArith ZArith Bool String Arith Lia.
From Verif Require Import Bytes Ast Actions Engine Parser App Termination Reader.
Import ListNotations.

(** ** Specification *)
Section Spec.
  Context {St : Type}.
  Variable read : reader St.
  (** what one call [Read p] delivers: the first n bytes of p after it *)
  Definition piece (s : St) (p : bytes) : bytes := firstn (Z.to_nat (an_n (read s p))) (fit p (an_bytes (read s p))).
  (** the documented contract of io.Reader on the count (0 <= n <= len(p)) *)
  Definition honest : Prop := forall s p, (0 <= an_n (read s p) <= Z.of_nat (List.length p))%Z.
  (** [session s cs e s']: a sequence of calls of Read, each with a slice that is not empty, delivers
      the pieces [cs]; only the last one has an error, [e] *)
  Inductive session : St -> list bytes -> rerr -> St -> Prop :=
  | session_last s p e : p <> [] -> an_err (read s p) = Some e -> session s [piece s p] e (an_st (read s p))
  | session_more s p cs e s' : p <> [] -> an_err (read s p) = None -> session (an_st (read s p)) cs e s' ->
      session s (piece s p :: cs) e s'.
  (** [serves e s d]: however long the slices are that it is given, the reader delivers [d], in
      finitely many pieces, and then (or with the last piece) the error [e] *)
  Inductive serves (e : rerr) : St -> bytes -> Prop :=
  | Serves s d :
      (forall p, p <> [] -> (0 <= an_n (read s p) <= Z.of_nat (List.length p))%Z) ->
      (forall p x, p <> [] -> an_err (read s p) = Some x -> x = e /\ piece s p = d) ->
      (forall p, p <> [] -> an_err (read s p) = None -> d = piece s p ++ skipn (List.length (piece s p)) d) ->
      (forall p, p <> [] -> an_err (read s p) = None -> serves e (an_st (read s p)) (skipn (List.length (piece s p)) d)) ->
      serves e s d.
End Spec.

(** What is returned when [e] ends the input [d]: the result of Parse on all of it, or nil and the error *)
Definition outcome (e : rerr) (opts : list popt) (ff : list failure) (d : bytes) : fres * list failure :=
  match e with
  | EOF => let '(r, ff') := parse opts ff d in (of_parse r, ff')
  | Broken t => (FReturn VNil (Some (ERead t)), ff)
  end.

(** ** Proofs *)
Lemma fit_len p q : List.length (fit p q) = List.length p.
Proof. unfold fit. rewrite app_length, firstn_length, skipn_length. lia. Qed.

Lemma first_part (l : nat) (a q : bytes) n : l <= List.length a -> n <= List.length q ->
  firstn (l + n) (firstn l a ++ q) = firstn l a ++ firstn n q.
Proof.
  intros L N. rewrite firstn_app, firstn_firstn, firstn_length, (Nat.min_r (l + n) l), (Nat.min_l l) by lia.
  f_equal. f_equal. lia.
Qed.
Definition err_of (e : rerr) : option bytes := match e with EOF => None | Broken t => Some t end.
Definition reads_only (cs : list call) : Prop := Forall (fun c => exists k, c = CRead (S k)) cs.

Section Step.
  Context {St : Type}.
  Variable grow : nat -> nat.
  Variable read : reader St.
  (** one round of the loop *)
  Lemma loop_round s arr len : len < List.length arr ->
    let p := skipn len arr in
    (0 <= an_n (read s p) <= Z.of_nat (List.length p))%Z ->
    exists arr' len', len' < List.length arr' /\ firstn len' arr' = firstn len arr ++ piece read s p /\
      forall n, read_loop grow read (S n) s arr len =
      let '(r, cs) := match an_err (read s p) with
                      | Some e => (RDone (firstn len arr ++ piece read s p) (err_of e) (an_st (read s p)), [])
                      | None => read_loop grow read n (an_st (read s p)) arr' len' end in
      (r, CRead (List.length p) :: cs).
  Proof.
    intros L p H.
    set (arr1 := firstn len arr ++ fit p (an_bytes (read s p))).
    assert (Lp : List.length p = List.length arr - len) by (subst p; apply skipn_length).
    assert (L1 : List.length arr1 = List.length arr).
    { subst arr1. rewrite app_length, fit_len, firstn_length. lia. }
    set (n0 := Z.to_nat (an_n (read s p))).
    assert (En : Z.to_nat (Z.of_nat len + an_n (read s p)) = len + n0) by (subst n0; lia).
    assert (F : firstn (len + n0) arr1 = firstn len arr ++ piece read s p).
    { subst arr1. unfold piece. fold n0. rewrite first_part; [reflexivity|lia|rewrite fit_len; subst n0; lia]. }
    assert (B : ((Z.of_nat len + an_n (read s p) <? 0) || (Z.of_nat (List.length arr1) <? Z.of_nat len + an_n (read s p)))%Z = false).
    { apply orb_false_intro; apply Z.ltb_ge; lia. }
    destruct (Nat.eqb_spec (len + n0) (List.length arr1)) as [Eq|Nq].
    - exists (arr1 ++ repeat 0%N (S (grow (len + n0)))), (len + n0). rewrite app_length, repeat_length.
      split; [lia|]. split.
      + rewrite firstn_app. replace (len + n0 - List.length arr1) with 0 by lia. cbn [firstn]. now rewrite app_nil_r.
      + intros n. cbn [read_loop]. fold p. fold arr1. rewrite B, En, F, (proj2 (Nat.eqb_eq _ _) Eq).
        destruct (an_err _) as [[|t]|]; reflexivity.
    - exists arr1, (len + n0). split; [|split; [exact F|]].
      + subst n0. lia.
      + intros n. cbn [read_loop]. fold p. fold arr1. rewrite B, En, F, (proj2 (Nat.eqb_neq _ _) Nq).
        destruct (an_err _) as [[|t]|]; reflexivity.
  Qed.

  Lemma nonempty len (arr : bytes) : len < List.length arr -> skipn len arr <> [].
  Proof. intros L E. apply (f_equal (@List.length N)) in E. rewrite skipn_length in E. cbn in E. lia. Qed.

  Lemma loop_sound : honest read -> forall n s arr len r cs, len < List.length arr -> read_loop grow read n s arr len = (r, cs) ->
    reads_only cs /\
    match r with
    | RDone data err s' => exists ps e, session read s ps e s' /\ data = firstn len arr ++ List.concat ps /\ err = err_of e /\ List.length ps = List.length cs
    | RPanic _ => False
    | RMore => True
    end.
  Proof.
    intros H. induction n as [|n IH]; intros s arr len r cs L E.
    { injection E as <- <-. split; [constructor|exact I]. }
    destruct (loop_round s arr len L (H _ _)) as (arr' & len' & L' & F & E'). rewrite E' in E. clear E'.
    pose proof (nonempty _ _ L) as Ne. set (p := skipn len arr) in *.
    destruct (List.length p) as [|k] eqn:Lp; [destruct p; [congruence|discriminate]|].
    destruct (an_err (read s p)) as [e|] eqn:Er.
    - injection E as <- <-. split; [constructor; [now exists k|constructor]|]. exists [piece read s p], e.
      split; [now apply session_last|]. split; [cbn; now rewrite app_nil_r|]. split; reflexivity.
    - destruct (read_loop grow read n (an_st (read s p)) arr' len') as [r0 cs0] eqn:E0. injection E as -> <-.
      specialize (IH _ _ _ _ _ L' E0) as [Q R]. split; [constructor; [now exists k|exact Q]|].
      destruct r as [data err s'|s'|]; [|exact R|exact I]. destruct R as (ps & e & S & -> & -> & Ln).
      exists (piece read s p :: ps), e. split; [now apply session_more|]. rewrite F, <- app_assoc. split; [reflexivity|].
      split; [reflexivity|cbn; now rewrite Ln].
  Qed.

  Lemma loop_total e s d : serves read e s d -> forall arr len, len < List.length arr ->
    exists n0 s', forall n, n0 <= n -> exists cs, read_loop grow read n s arr len = (RDone (firstn len arr ++ d) (err_of e) s', cs) /\ reads_only cs.
  Proof.
    induction 1 as [s d B Fin Pre Rec IH]. intros arr len L. pose proof (nonempty _ _ L) as Ne.
    assert (K : exists k, List.length (skipn len arr) = S k). { destruct (skipn len arr); [congruence|now eexists]. }
    destruct K as [k K].
    destruct (loop_round s arr len L (B _ Ne)) as (arr' & len' & L' & F & E).
    destruct (an_err (read s (skipn len arr))) as [x|] eqn:Er.
    - destruct (Fin _ _ Ne Er) as [-> P]. exists 1, (an_st (read s (skipn len arr))). intros [|n] Hn; [lia|].
      rewrite E, P, K. eexists. split; [reflexivity|]. constructor; [now exists k|constructor].
    - destruct (IH _ Ne Er _ _ L') as (n0 & s' & T). exists (S n0), s'. intros [|n] Hn; [lia|].
      destruct (T n ltac:(lia)) as (cs & T' & R). rewrite E, T', F, <- app_assoc, <- (Pre _ Ne Er). eexists. split; [reflexivity|].
      constructor; [rewrite K; now exists k|exact R].
  Qed.
End Step.

Lemma start_len : 0 < List.length (repeat 0%N 512). Proof. rewrite repeat_length. lia. Qed.
Lemma of_parse_ends opts ff data : of_parse (fst (parse opts ff data)) <> FEndless.
Proof.
  pose proof (parse_terminates opts ff data) as T. destruct (fst (parse opts ff data)) as [v [|]| |]; cbn; congruence.
Qed.

(** ** C70 *)
(** ParseReader, for every reader that delivers [d] and then the error [e] (io.EOF or another
    one), in whatever pieces, with counts of zero, with or without data in the last call, however
    it uses the rest of the slices, and however append grows its arrays: the result of Parse on the
    whole of [d], or no value and the error, in which case nothing is parsed (the farthest failure is
    untouched). *)
Theorem C70_reader : forall St (read : reader St) grow e s d opts ff, serves read e s d ->
  exists n0 s', forall n, n0 <= n -> exists cs,
    parse_reader grow read n s opts ff = (fst (outcome e opts ff d), snd (outcome e opts ff d), cs, Some s').
Proof.
  intros St read grow e s d opts ff H. destruct (loop_total grow read _ _ _ H _ _ start_len) as (n0 & s' & T).
  exists n0, s'. intros n Hn. destruct (T n Hn) as (cs & E & _). exists cs. unfold parse_reader, read_all. rewrite E.
  change (firstn 0 (repeat 0%N 512) ++ d) with d. destruct e; cbn [err_of outcome].
  - now destruct (parse opts ff d).
  - reflexivity.
Qed.
Print Assumptions C70_reader.

(** Conversely, whatever a reader with counts in range does, if ParseReader returns, then it has
    parsed exactly the pieces that a session of Reads delivered, up to the first error: every Read
    has room for at least one byte, and their number is that of the pieces. *)
Theorem C70_pieces : forall St (read : reader St) grow n s opts ff r ff' cs s', honest read ->
  parse_reader grow read n s opts ff = (r, ff', cs, Some s') ->
  exists pieces e, session read s pieces e s' /\ (r, ff') = outcome e opts ff (List.concat pieces) /\
    reads_only cs /\ List.length cs = List.length pieces.
Proof.
  intros St read grow n s opts ff r ff' cs s' H E. unfold parse_reader, read_all in E.
  destruct (read_loop grow read n s (repeat 0%N 512) 0) as [rr cs0] eqn:L. destruct (loop_sound grow read H _ _ _ _ _ _ start_len L) as [Q R].
  destruct rr as [data [t|] s0|s0|]; [| |destruct R|discriminate].
  - injection E as <- <- <- <-. destruct R as (ps & [|x] & S & _ & Er & Ln); [discriminate|]. injection Er as ->.
    exists ps, (Broken x). repeat split; auto.
  - destruct (parse opts ff data) as [r0 ff0] eqn:P. injection E as <- <- <- <-.
    destruct R as (ps & [|x] & S & D & Er & Ln); [|discriminate]. exists ps, EOF. split; [exact S|].
    cbn [outcome]. change (firstn 0 (repeat 0%N 512) ++ List.concat ps) with (List.concat ps) in D. rewrite <- D, P. repeat split; auto.
Qed.
Print Assumptions C70_pieces.

(** Every list of pieces is delivered by a reader: it gives the next piece, cut to the length of
    the slice; what does not fit it keeps for the next call. *)
Definition next_piece (l : list bytes) (p : bytes) : answer (list bytes) :=
  match l with
  | [] => Answer [] [] 0 (Some EOF)
  | c :: l' =>
      let k := Nat.min (List.length p) (List.length c) in
      Answer (match skipn k c with [] => l' | c' => c' :: l' end) (firstn k c) (Z.of_nat k) None
  end.
Lemma fit_first p q : List.length q <= List.length p -> firstn (List.length q) (fit p q) = q.
Proof.
  intros L. unfold fit. rewrite (firstn_all2 q) by lia. rewrite firstn_app, Nat.sub_diag, firstn_all. cbn. apply app_nil_r.
Qed.
Lemma next_serves : forall l, serves next_piece EOF l (List.concat l).
Proof.
  assert (G : forall n l, List.length l + List.length (List.concat l) <= n -> serves next_piece EOF l (List.concat l)).
  2: { intros l. exact (G _ l (le_n _)). }
  induction n as [|n IH]; intros l Hn.
  - destruct l; [|cbn in Hn; lia]. constructor; cbn; try discriminate; try lia. intros p x _ E. injection E as <-. split; reflexivity.
  - destruct l as [|c l].
    { constructor; cbn; try discriminate; try lia. intros p x _ E. injection E as <-. split; reflexivity. }
    assert (Pc : forall p, piece next_piece (c :: l) p = firstn (Nat.min (List.length p) (List.length c)) c).
    { intros p. unfold piece. cbn [next_piece an_n an_bytes]. rewrite Nat2Z.id.
      set (k := Nat.min _ _). assert (Lk : List.length (firstn k c) = k) by (rewrite firstn_length; lia).
      rewrite <- Lk at 1. apply fit_first. lia. }
    constructor.
    + intros p _. cbn. lia.
    + discriminate.
    + intros p _ _. rewrite Pc. set (k := Nat.min _ _). assert (Lk : List.length (firstn k c) = k) by (rewrite firstn_length; lia).
      rewrite Lk. cbn [List.concat]. rewrite skipn_app. replace (k - List.length c) with 0 by lia. cbn [skipn].
      now rewrite app_assoc, firstn_skipn.
    + intros p Np _. rewrite Pc. set (k := Nat.min _ _). assert (Lk : List.length (firstn k c) = k) by (rewrite firstn_length; lia).
      rewrite Lk. cbn [next_piece an_st List.concat]. fold k.
      rewrite skipn_app. replace (k - List.length c) with 0 by lia. cbn [skipn].
      assert (Q : forall c', skipn k c = c' -> serves next_piece EOF (match c' with [] => l | _ => c' :: l end) (c' ++ List.concat l)).
      { intros c' Ec. pose proof (f_equal (@List.length N) Ec) as Lc. rewrite skipn_length in Lc. cbn [List.length List.concat] in Hn. rewrite app_length in Hn.
        assert (Kp : forall x c'', c' = x :: c'' -> 0 < k).
        { intros x c'' ->. assert (Nc : c <> []) by (intros ->; rewrite skipn_nil in Ec; discriminate).
          destruct p as [|y p]; [congruence|]. destruct c as [|z c]; [congruence|]. subst k. cbn [List.length]. lia. }
        destruct c' as [|x c'].
        - apply IH. cbn [app]. lia.
        - change ((x :: c') ++ List.concat l) with (List.concat ((x :: c') :: l)). apply IH. cbn [List.concat]. rewrite app_length.
          cbn [List.length]. specialize (Kp x c' eq_refl). cbn [List.length] in *. lia. }
      specialize (Q _ eq_refl). destruct (skipn k c); exact Q.
Qed.
(** So the pieces do not matter: *)
Theorem C70_any_pieces : forall pieces grow opts ff,
  exists n0 s', forall n, n0 <= n -> exists cs,
    parse_reader grow next_piece n pieces opts ff =
    (of_parse (fst (parse opts ff (List.concat pieces))), snd (parse opts ff (List.concat pieces)), cs, Some s').
Proof.
  intros l grow opts ff. destruct (C70_reader _ next_piece grow EOF l _ opts ff (next_serves l)) as (n0 & s' & H).
  exists n0, s'. intros n Hn. destruct (H n Hn) as (cs & E). exists cs. rewrite E. cbn [outcome]. now destruct (parse opts ff _).
Qed.
Print Assumptions C70_any_pieces.

(** ParseFile.  What the operating system delivers for the open file, [d], and then [e]; the
    result is that of Parse on [d] or the error of reading, unless closing fails: then the error is that of
    closing, and the value is the one Parse returned. *)
Definition closed (c : option bytes) (r : fres) : fres :=
  match c, r with Some t, FReturn v _ => FReturn v (Some (EClosing t)) | _, _ => r end.
Theorem C70_file : forall St (sys : file_system St) grow path e s d opts ff,
  fsy_open sys path = inl s -> serves (fsy_read sys) e s d ->
  exists n0 s', forall n, n0 <= n -> exists cs,
    parse_file_sys grow sys n path opts ff =
    (closed (fsy_close sys s') (fst (outcome e opts ff d)), snd (outcome e opts ff d), COpen path :: cs ++ [CClose]).
Proof.
  intros St sys grow path e s d opts ff O H. destruct (C70_reader _ _ grow e s d opts ff H) as (n0 & s' & T). exists n0, s'.
  intros n Hn. destruct (T n Hn) as (cs & E). exists cs. unfold parse_file_sys. rewrite O, E.
  unfold closed. destruct (fst (outcome e opts ff d)), (fsy_close sys s'); reflexivity.
Qed.
Print Assumptions C70_file.
Theorem C70_no_file : forall St (sys : file_system St) grow path t n opts ff, fsy_open sys path = inr t ->
  parse_file_sys grow sys n path opts ff = (FReturn VNil (Some (EOpen t)), ff, [COpen path]).
Proof. intros St sys grow path t n opts ff O. unfold parse_file_sys. now rewrite O. Qed.
Print Assumptions C70_no_file.

(** Every call of ParseFile that ends - with a value, errors or a panic (Recover(false)) - has opened
    the file once, read only in between, and closed it once, at the end; if it could not open it, it
    has done nothing else. *)
Theorem C70_closed_once : forall St (sys : file_system St) grow n path opts ff r ff' cs, honest (fsy_read sys) ->
  parse_file_sys grow sys n path opts ff = (r, ff', cs) -> r <> FEndless ->
  (exists t, fsy_open sys path = inr t /\ cs = [COpen path]) \/
  (exists s reads, fsy_open sys path = inl s /\ reads_only reads /\ reads <> [] /\ cs = COpen path :: reads ++ [CClose]).
Proof.
  intros St sys grow n path opts ff r ff' cs H E Ne. unfold parse_file_sys in E. destruct (fsy_open sys path) as [s|t].
  2: { injection E as <- <- <-. left. eauto. }
  right. destruct (parse_reader grow (fsy_read sys) n s opts ff) as [[[r0 ff0] cs0] [s'|]] eqn:P.
  - destruct (C70_pieces _ _ _ _ _ _ _ _ _ _ _ H P) as (ps & e & S & _ & Q & L). injection E as _ _ <-.
    exists s, cs0. repeat split; auto. destruct S, cs0; discriminate.
  - injection E as <- <- <-. unfold parse_reader in P. destruct (read_all grow (fsy_read sys) n s) as [rr cs1].
    destruct rr as [data [t|] s1|s1|]; try discriminate.
    + destruct (parse opts ff data); discriminate.
    + injection P as <- _ _. congruence.
Qed.
Print Assumptions C70_closed_once.

(** The function [parse_file] of App.v, on which C27-C34 rest, is ParseFile on a file system that
    serves the file's content, and whose Close does not fail. *)
Definition seen (S : os) (p : bytes) (r : fres) : pfile :=
  match r with
  | FReturn v None => PFOk v
  | FReturn _ (Some (EParse errs)) => PFErr (errors_text (os_fmt S) p errs)
  | FReturn _ (Some (ERead t | EOpen t | EClosing t)) => PFErr t
  | _ => PFPanic
  end.
Theorem C70_commands : forall St (sys : file_system St) grow (S : os) (w : world) p opts,
  match w_fs w p with
  | NFile content true _ => exists s, fsy_open sys p = inl s /\ serves (fsy_read sys) EOF s content
  | NFile _ false _ | NAbsent => fsy_open sys p = inr (os_open S p)
  | NDir => exists s, fsy_open sys p = inl s /\ serves (fsy_read sys) (Broken (os_open S p)) s []
  end -> (forall s, fsy_close sys s = None) ->
  exists n0, forall n, n0 <= n -> exists r ff cs, parse_file_sys grow sys n p opts (w_ff w) = (r, ff, cs) /\
    parse_file S opts w p = (seen S p r, ff).
Proof.
  intros St sys grow S w p opts H C. unfold parse_file. destruct (w_fs w p) as [| |content [] wr].
  - exists 0. intros n _. eexists _, _, _. split; [apply C70_no_file, H|reflexivity].
  - destruct H as (s & O & H). destruct (C70_file _ sys grow p _ s [] opts (w_ff w) O H) as (n0 & s' & T). exists n0. intros n Hn.
    destruct (T n Hn) as (cs & E). eexists _, _, _. split; [exact E|]. rewrite C. reflexivity.
  - destruct H as (s & O & H). destruct (C70_file _ sys grow p _ s content opts (w_ff w) O H) as (n0 & s' & T). exists n0. intros n Hn.
    destruct (T n Hn) as (cs & E). eexists _, _, _. split; [exact E|]. rewrite C. cbn [outcome closed].
    destruct (parse opts (w_ff w) content) as [r ff]. cbn [fst snd closed]. destruct r as [v [|x l]| |]; reflexivity.
  - exists 0. intros n _. eexists _, _, _. split; [apply C70_no_file, H|reflexivity].
Qed.
Print Assumptions C70_commands.

(** ** Cases *)
Definition text_pieces : list bytes :=
  [b "inp"; []; b "ut { stdin { id => ""x"; [195%N]; []; [164%N]; b """ } }" ++ repeat SP 700; [NL]].
Definition a_text : bytes := List.concat text_pieces.
(** pieces that cut a keyword and a character of two bytes; more than the first array holds *)
Example C70_case_pieces : exists s c cs, parse_reader (fun n => n) next_piece 20 text_pieces [] [] = (FReturn (VConfig c) None, snd (parse [] [] a_text), cs, Some s) /\
  Returned (VConfig c) [] = fst (parse [] [] a_text) /\ List.length (cf_input c) = 1 /\ List.length cs = 10.
Proof.
  destruct (parse_reader (fun n => n) next_piece 20 text_pieces [] []) as [[[r ff] cs] s] eqn:E. vm_compute in E.
  injection E as <- <- <- <-. eexists _, _, _. split; [reflexivity|]. vm_compute. repeat split.
Qed.
(** files: one that is served in pieces; Close may fail *)
Definition a_sys (l : list bytes) (c : option bytes) : file_system (list bytes) :=
  FileSystem (fun p => if beqb p (b "f") then inl l else inr (b "no such file")) next_piece (fun _ => c).
Example C70_case_file : exists c, fst (fst (parse_file_sys (fun n => n) (a_sys text_pieces None) 20 (b "f") [] [])) = FReturn (VConfig c) None.
Proof.
  destruct (parse_file_sys (fun n => n) (a_sys text_pieces None) 20 (b "f") [] []) as [[r ff] cs] eqn:E. vm_compute in E. injection E as <- <- <-.
  eexists. reflexivity.
Qed.
(** an error of Close hides the syntax error *)
Example C70_case_close : parse_file_sys (fun n => n) (a_sys [b "input"; b " {"] (Some (b "disk quota exceeded"))) 9 (b "f") [OptMaxExpressions 4] [] =
  (FReturn VNil (Some (EClosing (b "disk quota exceeded"))), [], [COpen (b "f"); CRead 512; CRead 507; CRead 505; CClose]).
Proof. vm_compute. reflexivity. Qed.
(** a panic passes through, and the file is closed *)
Example C70_case_panic : exists m ff, parse_file_sys (fun n => n) (a_sys [b "input { a {"] (Some (b "late"))) 9 (b "f") [OptRecover false] [] =
  (FPanic m, ff, [COpen (b "f"); CRead 512; CRead 501; CClose]).
Proof. eexists _, _. vm_compute. reflexivity. Qed.
(** an error of reading: nothing is parsed, although what was read is a complete file *)
Definition broken_reader (l : list bytes) (p : bytes) : answer (list bytes) :=
  match l with [] => Answer [] [] 0 (Some (Broken (b "bad disk"))) | _ => next_piece l p end.
Example C70_case_broken : exists cs, parse_reader (fun n => n) broken_reader 9 [b "input "; b "{ }"] [] [] = (FReturn VNil (Some (ERead (b "bad disk"))), [], cs, Some []).
Proof. eexists. vm_compute. reflexivity. Qed.
(** the hypothesis on the counts is needed: more bytes than the slice has *)
Example C70_case_lying : exists s cs, parse_reader (fun n => n) (fun (_ : unit) _ => Answer tt [] 513 None) 9 tt [] [] = (FBounds, [], cs, Some s).
Proof. eexists _, _. vm_compute. reflexivity. Qed.
