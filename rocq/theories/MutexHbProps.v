(** C135: synchronization with mutexes. *)
From Coq Require Import List Arith Bool.
From Verif Require Import Base MutexHb MutexHbSpec MutexHbFacts.
Import ListNotations.

Theorem C135_synchronizes : forall rec s, reachable (step rec) init_state s -> synchronizes (log s).
Proof. intros rec s R. apply (i_sync s (reach_inv rec s R)). Qed.
Theorem C135_race_free : forall rec s, reachable (step rec) init_state s -> race_free (log s) /\ exclusive (log s).
Proof. intros rec s R. split; [apply (i_race s (reach_inv rec s R)) | apply (i_ex s (reach_inv rec s R))]. Qed.
(** Fiber 1 locks twice, waits with the condition variable, 2 times out, 3 takes the mutex with try_lock(). *)
Example ex_C135 : exists s, reachable (step true) init_state s /\
  released 1 0 (log s) /\ (exists w, In (EAcq 3 w) (log s) /\ In 0 w) /\ (exists w, In (EAcq 1 w) (log s) /\ In 2 w) /\ In (EAct 3 2) (log s) /\ In (EFail 2) (log s) /\ In (ETouch 1) (log s) /\ In (ETouch 3) (log s).
Proof.
  apply (reach_by (step true) init_state [Call 1 OLock; Run 1; Call 1 OLock; Run 1; Act 1; Touch 1; Call 2 OUntil; Run 2; Time 2; Call 1 OUnlock; Run 1; Call 1 OWait; Run 1;
    Act 3; Call 3 OTry; Run 3; Touch 3; Call 3 ONotify; Run 3; Wake 1; Run 1; Call 3 OUnlock; Run 3; Wake 1; Run 1; Touch 1]).
  vm_compute. splits; auto 20.
  - exists [ETouch 1; EAcq 1 [1; 0; 1; 0; 2; 1; 0; 1; 0; 1; 0; 3; 1; 0; 1; 0; 2; 1; 0; 1; 0; 2; 1; 0; 1; 0]; ERel 3; ETouch 3; EAcq 3 [1; 0; 1; 0; 2]; EAct 3 2].
    exists [EFail 2; ETouch 1; EAct 1 0; EAcq 1 []]. simpl. auto 20.
  - exists [1; 0; 1; 0; 2]. simpl. auto 20.
  - exists [1; 0; 1; 0; 2; 1; 0; 1; 0; 1; 0; 3; 1; 0; 1; 0; 2; 1; 0; 1; 0; 2; 1; 0; 1; 0]. simpl. auto 20.
Qed.
Example ex_C135_error : exists s, reachable (step false) init_state s /\ In (EErr 1) (log s) /\ In (EErr 2) (log s) /\ In (ETouch 1) (log s).
Proof.
  apply (reach_by (step false) init_state [Call 1 OLock; Run 1; Call 1 OLock; Run 1; Touch 1; Call 2 OUnlock; Run 2]).
  vm_compute. auto 20.
Qed.
Print Assumptions C135_synchronizes.
Print Assumptions C135_race_free.
