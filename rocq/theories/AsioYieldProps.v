(** C99: waiting in a fiber for an asynchronous operation of Boost.Asio. *)
From Coq Require Import List Arith Bool Lia.
From Verif Require Import Base AsioYield AsioYieldSpec AsioYieldFacts.
Import ListNotations.

(** Every call returns at most once, after its handler has been called, with the arguments of the handler; a suspended fiber is scheduled once, by the handler, and never when it is not suspended; nothing is accessed after it was destroyed and the completion is deleted at most once.
    Missing from C99: an operation whose handler is destroyed without being called. *)
Theorem C99_legal_partial : forall s, reachable step init_state s -> legal (log s).
Proof. intros s R. exact (i_legal s (reach_inv s R)). Qed.
Print Assumptions C99_legal_partial.

Lemma legal_return : forall l f n r, legal l -> In (EReturn f n r) l -> exists b ec v, In (EStart f n b) l /\ In (EInvoke n ec v) l /\ r = delivered b ec v.
Proof.
  induction l as [|e l IH]; simpl; intros f n r L X; [tauto|]. destruct L as [J L]. destruct X as [->|X].
  - destruct J as [(b & ec & v & A & B & C) _]. exists b, ec, v. auto.
  - destruct (IH f n r L X) as (b & ec & v & A & B & C). exists b, ec, v. auto.
Qed.
Lemma log_mono : forall s l s' e, step s l = Some s' -> In e (log s) -> In e (log s').
Proof.
  intros s l s' e H X. destruct l; simpl in H.
  - destruct (busy s f); inversion H. simpl. auto.
  - destruct (copies (ops s n)); inversion H. auto.
  - assert (D : s' = drop s n) by (destruct (copies (ops s n)) as [|[|c]]; try discriminate; destruct (h (ops s n)); inversion H; auto).
    subst s'. unfold drop. destruct (release (ops s n) n) as [[r d] es]. simpl. apply in_app_iff. auto.
  - destruct (copies (ops s n)); try discriminate. destruct (h (ops s n)); inversion H. simpl. auto.
  - unfold hstep in H. destruct (h (ops s n)) as [| | |[]|]; try destruct (fp (ops s n)); inversion H; simpl; try apply in_app_iff; auto.
  - unfold fstep in H. destruct (fp (ops s n)); try discriminate.
    + destruct (stt (ops s n)); inversion H; simpl; try right; apply in_app_iff; auto.
    + destruct (release (ops s n) n) as [[c d] es]. inversion H. simpl. rewrite <- app_assoc. apply in_app_iff. right. simpl. auto.
Qed.
Definition todo (o : op_t) : nat :=
  (match h o with HNone => 4 | HValue => 3 | HLock => 2 | HWake _ => 1 | HDone => 0 end) + (match fp o with FNone => 4 | FStarted => 3 | FBlocked => 2 | FResumed => 1 | FGone => 0 end).
Lemma advance : forall s n, inv s -> n < count s -> h (ops s n) <> HNone -> fp (ops s n) <> FGone ->
  exists l s', (l = Hnd n \/ l = Fib n) /\ step s l = Some s' /\ todo (ops s' n) < todo (ops s n).
Proof.
  intros s n I N H F. destruct (i_old s I n N) as [O _]. pose proof (ok_fits _ O) as T.
  destruct (running (h (ops s n))) eqn:R.
  - exists (Hnd n). cbn [step]. unfold hstep. destruct (h (ops s n)) as [| | |[]|] eqn:E; try discriminate R; simpl in T.
    + eexists. splits; [auto|reflexivity|]. simpl. upds. unfold todo. simpl. rewrite E. lia.
    + eexists. splits; [auto|reflexivity|]. simpl. upds. unfold todo. simpl. rewrite E. lia.
    + destruct T as [_ T]. rewrite T. eexists. splits; [auto|reflexivity|]. simpl. upds. unfold todo. simpl. rewrite E, T. lia.
    + eexists. splits; [auto|reflexivity|]. simpl. upds. unfold todo. simpl. rewrite E. lia.
  - exists (Fib n). cbn [step]. unfold fstep. destruct (h (ops s n)) as [| | |[]|] eqn:E; try discriminate R; try congruence; simpl in T.
    destruct T as [T1 [T2|[T2|T2]]]; try congruence; rewrite T2.
    + rewrite T1. eexists. splits; [auto|reflexivity|]. simpl. upds. unfold todo. simpl. rewrite E, T2. lia.
    + destruct (release (ops s n) n) as [[c d] es]. eexists. splits; [auto|reflexivity|]. simpl. upds. unfold todo. simpl. rewrite E, T2. lia.
Qed.
(** Once the handler has been called, the fiber returns with its arguments: no wake-up is lost, whatever the order of the steps was. *)
Theorem C99_completes_partial : forall s f n b ec v, reachable step init_state s -> In (EStart f n b) (log s) -> In (EInvoke n ec v) (log s) ->
  exists ls s', (forall l, In l ls -> l = Hnd n \/ l = Fib n) /\ exec step s ls = Some s' /\ In (EReturn f n (delivered b ec v)) (log s').
Proof.
  intros s f n b ec v R A B. remember (todo (ops s n)) as k eqn:K. revert s R A B K.
  induction k as [k IH] using lt_wf_ind. intros s R A B K.
  pose proof (reach_inv s R) as I.
  assert (N : n < count s). { destruct (le_lt_dec (count s) n) as [L|L]; auto. exfalso. apply (i_fresh s I n _ L B). auto. }
  destruct (i_old s I n N) as [O S].
  assert (HN : h (ops s n) <> HNone) by (apply (se_inv _ _ _ S) in B; tauto).
  assert (D : fp (ops s n) = FGone \/ fp (ops s n) <> FGone) by (destruct (fp (ops s n)); auto; right; discriminate).
  destruct D as [G|G].
  - exists [], s. splits; auto; [intros l []|]. apply (se_ret _ _ _ S) in G as (f' & r & X).
    destruct (legal_return _ _ _ _ (i_legal s I) X) as (b' & ec' & v' & A' & B' & ->).
    apply (se_start _ _ _ S) in A. apply (se_start _ _ _ S) in A'. apply (se_inv _ _ _ S) in B. apply (se_inv _ _ _ S) in B'.
    destruct A as [-> ->], A' as [-> ->], B as (_ & -> & ->), B' as (_ & -> & ->). auto.
  - destruct (advance s n I N HN G) as (l & s1 & L & ST & LT). subst k.
    destruct (IH _ LT s1 (reachable_step _ _ _ _ _ R ST) (log_mono _ _ _ _ ST A) (log_mono _ _ _ _ ST B) eq_refl) as (ls & s' & Q & EX & RT).
    exists (l :: ls), s'. splits; auto.
    + intros x [<-|X]; auto.
    + simpl. rewrite ST. auto.
Qed.
Print Assumptions C99_completes_partial.

(** The completion is deleted when the call has returned and the last handler object has been destroyed. *)
Theorem C99_deleted_partial : forall s f n r, reachable step init_state s -> In (EReturn f n r) (log s) -> (copies (ops s n) = 0 <-> In (EDelete n) (log s)).
Proof.
  intros s f n r R X. pose proof (reach_inv s R) as I.
  assert (N : n < count s). { destruct (le_lt_dec (count s) n) as [L|L]; auto. exfalso. apply (i_fresh s I n _ L X). auto. }
  destruct (i_old s I n N) as [O S]. assert (G : fp (ops s n) = FGone) by (apply (se_ret _ _ _ S); eauto).
  rewrite (se_del _ _ _ S), (ok_del _ O), (ok_refs _ O), (ok_alive _ O), G. simpl. lia.
Qed.
Print Assumptions C99_deleted_partial.

(** Lost operations: the handler objects are destroyed without a call (the io_context is destroyed); the fiber is never resumed. *)
Definition lost (s : st) : Prop := copies (ops s 0) = 0 /\ h (ops s 0) = HNone /\ fp (ops s 0) = FBlocked /\ count s > 0 /\ forall f r, ~ In (EReturn f 0 r) (log s).
Lemma lost_step : forall s l s', lost s -> step s l = Some s' -> lost s'.
Proof.
  intros s l s' (C & H & F & N & X) E. unfold lost. destruct l; simpl in E.
  - destruct (busy s f); inversion E. simpl. rewrite upd_other by lia. splits; auto. intros g r [Y|Y]; [discriminate|eapply X; eauto].
  - destruct (copies (ops s n)) eqn:Z; inversion E. assert (D : n <> 0) by congruence. simpl. rewrite upd_other by auto. splits; auto.
  - assert (copies (ops s n) <> 0 /\ s' = drop s n) as [Z ->] by (destruct (copies (ops s n)) as [|[|c]]; try discriminate; destruct (h (ops s n)); inversion E; auto).
    assert (D : n <> 0) by congruence. unfold drop, release. destruct (refs (ops s n)) as [|[|q]]; simpl; rewrite upd_other by auto; splits; auto.
    intros g r [Y|Y]; [discriminate|eapply X; eauto].
  - destruct (copies (ops s n)) eqn:Z; try discriminate. assert (D : n <> 0) by congruence. destruct (h (ops s n)); inversion E. simpl. rewrite upd_other by auto. splits; auto.
    intros g r [Y|Y]; [discriminate|eapply X; eauto].
  - assert (D : n <> 0) by (intros ->; unfold hstep in E; rewrite H in E; discriminate).
    unfold hstep in E. destruct (h (ops s n)) as [| | |[]|]; try destruct (fp (ops s n)); inversion E; simpl; rewrite upd_other by auto; splits; auto;
      intros g r Y; destruct (alive (ops s n)); try destruct (deleted (ops s n)); simpl in Y; intuition (try discriminate; eauto).
  - assert (D : n <> 0) by (intros ->; unfold fstep in E; rewrite F in E; discriminate).
    unfold fstep in E. destruct (fp (ops s n)); try discriminate.
    + destruct (stt (ops s n)); inversion E; simpl; rewrite upd_other by auto; splits; auto; intros g r; destruct (deleted (ops s n)); simpl; intuition (try discriminate; eauto).
    + unfold release in E. destruct (refs (ops s n)) as [|[|q]]; inversion E; simpl; rewrite upd_other by auto; splits; auto; intros g r; simpl; intuition (try congruence; eauto).
Qed.
Theorem C99_refuted : exists s, reachable step init_state s /\ In (ESuspend 0 0) (log s) /\
  forall s', reachable step s s' -> forall f r, ~ In (EReturn f 0 r) (log s').
Proof.
  destruct (reach_by step init_state [Start 0 false; Fib 0; Drop 0] (fun s => In (ESuspend 0 0) (log s) /\ lost s)) as (s & R & X & L).
  { vm_compute. splits; auto. intros f r X. intuition discriminate. }
  exists s. splits; auto. intros s' R'. assert (Z : lost s') by (eapply reachable_inv2; eauto using lost_step). apply Z.
Qed.
Print Assumptions C99_refuted.

(** Two fibers; operation 0 completes while the fiber is suspended, operation 1 with an error before the fiber waits; a copy of the handler outlives the call. *)
Example C99_example : exists s, reachable step init_state s /\
  log s = [EDelete 0; EReturn 0 0 (RValue 7 0); EWake 0; EReturn 1 1 (RThrow 5); EInvoke 1 5 9; EInvoke 0 0 7; ESuspend 0 0; EStart 1 1 false; EStart 0 0 false] /\ copies (ops s 1) = 2.
Proof.
  apply (reach_by step init_state [Start 0 false; Start 1 false; Fib 0; Invoke 0 0 7; Copy 1; Invoke 1 5 9; Hnd 0; Hnd 1; Hnd 1; Hnd 1; Fib 1; Fib 1; Hnd 0; Hnd 0; Drop 0; Fib 0]).
  vm_compute. auto.
Qed.
(** The hypotheses of C99_completes_partial and C99_deleted_partial are met. *)
Example C99_completes_example : exists s, reachable step init_state s /\ In (EStart 0 0 true) (log s) /\ In (EInvoke 0 3 4) (log s) /\ In (ESuspend 0 0) (log s) /\ ~ In (EWake 0) (log s).
Proof. apply (reach_by step init_state [Start 0 true; Invoke 0 3 4; Hnd 0; Fib 0]). vm_compute. splits; auto. intuition discriminate. Qed.
