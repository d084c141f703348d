(** What is spelled is written: the text of an accepted file is a layout of its tree. *)
From Coq Require Import List NArith ZArith Bool String Arith Lia.
From Verif Require Import Bytes Utf8 F64 Ast Actions AstPrint LexFacts Tree Layout Spelled Written.
Import ListNotations.

Lemma writes_mono (L L' : bool -> bytes -> bytes -> Prop) : (forall m t u, L m t u -> L' m t u) -> forall l t r, writes L l t r -> writes L' l t r.
Proof.
  intros H. induction l as [|x l IH]; intros t r W; [exact W|]. destruct x; cbn [writes] in *.
  - destruct W as (u & E & W). eauto.
  - destruct W as (x & u & E & A & B & W). eauto 8.
  - destruct W as (x & u & E & A & W). eauto 8.
  - destruct W as (x & u & E & A & W). eauto 8.
  - destruct W as (x & u & E & A & B & W). eauto 8.
  - destruct W as (A & W). auto.
  - destruct W as (u & A & W). eauto.
Qed.
Lemma lost_step n : forall m t u, lost n m t u -> lost (S n) m t u.
Proof.
  induction n as [|n IH]; intros m t u H; [left; exact H|]. destruct H as [->|(c & x & W & H)]; [left; reflexivity|].
  right. exists c, x. split; [exact W|]. eapply writes_mono; [exact IH|exact H].
Qed.
Lemma skipn_text {A} (t u data : list A) lo : skipn lo data = t ++ u -> skipn (lo + List.length t) data = u.
Proof.
  intros H. revert lo H. induction t as [|c t IH]; intros lo H; [now rewrite Nat.add_0_r|].
  cbn [List.length]. rewrite <- Nat.add_succ_comm. apply IH. clear IH.
  revert data H. induction lo as [|lo IH]; intros data H; [cbn in H; subst; reflexivity|].
  destruct data as [|d data]; [discriminate H|]. cbn [skipn] in H |- *. apply IH, H.
Qed.
Theorem spelled_writes ign data lo l t hs : spelled ign data lo l t hs -> forall r, skipn lo data = t ++ r -> exists n, writes (lost n) l (t ++ r) r.
Proof.
  induction 1 as [lo|lo t l u hs H IH|lo v t l u hs Ht Hv H IH|lo k c t l u hs G E H IH|lo p t l u hs G Hp Ho H IH|lo t l u hs Nt Ft H IH
    |lo l u hs N H IH|lo m l u hs H IH|lo c x l u hs W H IH|lo c x d l u hs W H IH]; intros r D.
  - exists 0. reflexivity.
  - rewrite <- app_assoc in D |- *. destruct (IH r (skipn_text _ _ _ _ D)) as (n & K). exists n. cbn [writes]. eauto.
  - rewrite <- app_assoc in D |- *. destruct (IH r (skipn_text _ _ _ _ D)) as (n & K). exists n. cbn [writes]. eauto 8.
  - rewrite <- app_assoc in D |- *. rewrite (skipn_text _ _ _ _ D) in G. destruct (IH r (skipn_text _ _ _ _ D)) as (n & K). exists n. cbn [writes]. eauto 8.
  - rewrite <- app_assoc in D |- *. rewrite (skipn_text _ _ _ _ D) in G. destruct (IH r (skipn_text _ _ _ _ D)) as (n & K). exists n. cbn [writes]. eauto 8.
  - rewrite <- app_assoc in D |- *. destruct (IH r (skipn_text _ _ _ _ D)) as (n & K). exists n. cbn [writes]. eauto 8.
  - destruct (IH r D) as (n & K). exists n. cbn [writes]. rewrite D in N. auto.
  - destruct (IH r D) as (n & K). exists n. cbn [writes]. exists (u ++ r). split; [|exact K]. destruct n; [reflexivity|now left].
  - destruct (IH r D) as (n & K). exists (S n). change (PGap Plain c :: pc_plugin x ++ l) with ((PGap Plain c :: pc_plugin x) ++ l) in K.
    apply written_app in K as (w & K1 & K2). exists w. split; [right; exists c, x; split; [exact W|]; rewrite app_nil_r; exact K1|].
    eapply writes_mono; [apply lost_step|exact K2].
  - destruct (IH r D) as (n & K). exists (S n).
    change (PGap Plain c :: pc_plugin x ++ [PHid; tok ","] ++ PGap Next d :: l) with ((PGap Plain c :: pc_plugin x) ++ [PHid; tok ","] ++ PGap Next d :: l) in K. rewrite app_assoc in K.
    apply written_app in K as (w & K1 & K2). exists w. split; [right; exists c, x; split; [exact W|exact K1]|].
    eapply writes_mono; [apply lost_step|exact K2].
Qed.
