(** C134: push() and pop() of an open unbuffered channel under the C++ memory model. *)
From Coq Require Import List Arith Bool Lia.
From Verif Require Import Base UnbufWeak UnbufWeakSpec UnbufWeakFacts.
Import ListNotations.

Lemma stuck_quiet : forall s, (forall t k, step s (Run t k) = None) -> quiet s.
Proof.
  intros s H t. specialize (H t 0). simpl in H. unfold run in H. unfold quiet, producer_waits, consumer_waits. destruct (pc s t) eqn:E; auto; try discriminate;
  try (unfold load in H; simpl in H; discriminate); try (destruct (slotv s p); discriminate); destruct (woke s t) eqn:W; try discriminate; eauto 8.
Qed.

Theorem C134_no_race : forall s, reachable step init_state s -> race_free (log s).
Proof. intros s R. apply (i_race s (reach_inv s R)). Qed.
Theorem C134_sync : forall s, reachable step init_state s -> sync (log s).
Proof. intros s R. apply (i_sync s (reach_inv s R)). Qed.
Theorem C134_no_lost_wakeup : forall s, reachable step init_state s -> (forall t k, step s (Run t k) = None) ->
  (forall t, ~ producer_waits s t) \/ (forall t, ~ consumer_waits s t).
Proof.
  intros s R Q. apply stuck_quiet in Q. pose proof (reach_inv s R) as I. pose proof (i_J s I) as J. unfold nolost in J.
  assert (forall u n, ~ actC s u n) as NC.
  { intros u n X. unfold actC in X. destruct (Q u) as [Y|[(Y0 & v & [Y|Y])|(Y0 & Y)]]; rewrite Y in X; auto. destruct X as (w & X & _). congruence. }
  assert (forall u n, ~ actP s u n) as NP.
  { intros u n X. unfold actP in X. destruct (Q u) as [Y|[(Y0 & v & [Y|Y])|(Y0 & Y)]]; rewrite Y in X; auto. destruct X as (w & X & _). congruence. }
  assert (forall u, holds (pc s u) = None) as NH.
  { intros u. destruct (Q u) as [Y|[(Y0 & v & [Y|Y])|(Y0 & Y)]]; rewrite Y; auto. }
  destruct (who (top s)) as [p|] eqn:T.
  - right. intros t (W & P). destruct J as [(v & J)|(_ & [J|(u & J)])].
    + destruct (Q p) as [Y|[(Y0 & v' & [Y|Y])|(Y0 & Y)]]; congruence.
    + assert (In t (qC s)) as X by (apply (i_qc s I); auto). rewrite J in X. destruct X.
    + destruct (NC _ _ J).
  - left. intros t (W & v & P). destruct J as [(c & p & J & _)|(_ & J)].
    + specialize (NH c). rewrite J in NH. discriminate.
    + destruct P as [P|P].
      * pose proof (i_own s I t) as O. unfold own in O. rewrite P, W in O. destruct O as [O|(c & O)]; [congruence|]. rewrite NH in O. discriminate.
      * destruct J as [J|(u & J)]; [|destruct (NP _ _ J)]. assert (In t (qP s)) as X by (apply (i_qp s I); eauto). rewrite J in X. destruct X.
Qed.
(** Consumer 3 waits; producer 1 publishes its value and wakes it; producer 2 reads an old slot_, fails and waits; the rendezvous of 1 and 3 wakes 2; producer 2 remains without a consumer. *)
Definition ex_run : list label :=
  [Act 3; Pop 3; Run 3 0; Run 3 0; Act 1; Push 1 10; Run 1 0; Run 1 0; Run 1 0; Push 2 20; Run 2 0; Run 2 1; Run 2 0; Run 2 0; Run 2 0;
   Run 1 0; Run 3 0; Run 3 0; Run 3 0; Run 3 0; Run 3 0; Run 3 0; Run 1 0; Run 1 0; Run 2 0; Run 2 0; Run 2 0; Run 2 0; Run 2 0].
Example ex_C134 : exists s, reachable step init_state s /\
  In (EAct 1 2) (log s) /\ In (EAct 3 1) (log s) /\ (exists w, In (EGot 3 1 10 w) (log s) /\ In 2 w) /\ (exists w, In (EOk 1 w) (log s) /\ In 1 w) /\
  producer_waits s 2 /\ (forall t k, step s (Run t k) = None).
Proof.
  apply (reach_by step init_state ex_run). vm_compute. splits; auto 20.
  - exists [9; 5; 4; 3; 2; 5; 4; 3; 2; 7; 6; 8; 5; 4; 3; 2; 5; 4; 3; 2; 1; 5; 4; 3; 2; 1]. splits; auto 20.
  - exists [10; 9; 5; 4; 3; 2; 5; 4; 3; 2; 7; 6; 8; 5; 4; 3; 2; 5; 4; 3; 2; 1; 5; 4; 3; 2; 1; 1; 5; 4; 3; 2]. splits; auto 30.
  - eauto.
  - intros t k. destruct t as [|[|[|[|t]]]]; reflexivity.
Qed.
Print Assumptions C134_no_race.
Print Assumptions C134_sync.
Print Assumptions C134_no_lost_wakeup.
