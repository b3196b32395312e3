(** C109: the promise may be destroyed when get() has returned. *)
From Coq Require Import List Arith Bool Lia.
From Verif Require Import Base PromLife PromLifeSpec PromLifeFacts.
Import ListNotations.

(** C109 is false: fiber 1 on another thread sees the result between the unlock and the notification of set_value(), destroys the promise and its future, and with them the shared state; set_value() notifies a condition variable that has been freed. *)
Theorem C109_refuted : exists s, reachable (step (fun f => f)) (init_state [1]) s /\ ~ safe (log s) /\
  log s = [ESetDone; EBad 0; EDestroy 1; EGot 1; EStored; ESet].
Proof.
  apply (reach_by (step (fun f => f)) (init_state [1]) [Pick 0; Pick 1; Go 0; Go 0; Go 0; Go 0; Go 1; Go 1; Go 1; Destroy 1; Go 1; Go 1; Drop 1; Go 0]). vm_compute. split; auto.
  intros H. apply (H 0). auto.
Qed.
Print Assumptions C109_refuted.

(** C109, for all executions: the only access to a destroyed object is that of set_value(), and only if another fiber has destroyed the promise. *)
Theorem C109_only_partial : forall thr fs s, reachable (step thr) (init_state fs) s ->
  after_get (log s) /\ forall f, In (EBad f) (log s) -> f = 0 /\ exists g, g <> 0 /\ In (EDestroy g) (log s).
Proof.
  intros thr fs s R. pose proof (inv_reach thr fs s R) as I. split; [exact (i_when thr s I)|]. intros f X. destruct (i_bad thr s I f X) as (A & B & _). auto.
Qed.
Print Assumptions C109_only_partial.

(** C109, if all fibers run on the same thread: nobody accesses a destroyed object. *)
Theorem C109_one_thread_partial : forall thr fs s, reachable (step thr) (init_state fs) s -> (forall f, thr f = thr 0) -> safe (log s).
Proof. intros thr fs s R T f X. destruct (i_bad thr s (inv_reach thr fs s R) f X) as (_ & _ & C). auto. Qed.
Print Assumptions C109_one_thread_partial.

(** C109, if the promise is destroyed by the fiber that calls set_value() (as in examples/adapt_callbacks.cpp:158-163): nobody accesses a destroyed object, on any number of threads. *)
Theorem C109_setter_partial : forall thr fs s, reachable (step thr) (init_state fs) s -> by_setter (log s) -> safe (log s).
Proof. intros thr fs s R B f X. destruct (i_bad thr s (inv_reach thr fs s R) f X) as (_ & (g & N & D) & _). exact (N (B g D)). Qed.
Print Assumptions C109_setter_partial.

(** Cases: one thread, where fiber 2 destroys the promise after it has waited; two threads, where fiber 0 destroys it. *)
Example C109_case_one : exists s, reachable (step (fun _ => 0)) (init_state [1; 2]) s /\
  log s = [EGot 1; EDestroy 2; EGot 2; ESetDone; EStored; ESet] /\ held s = [1].
Proof.
  apply (reach_by (step (fun _ => 0)) (init_state [1; 2]) [Pick 2; Go 2; Go 2; Go 2; Pick 1; Go 1; Go 1; Go 1; Pick 0; Go 0; Go 0; Go 0; Go 0; Go 0; Yield 0; Pick 2; Go 2; Go 2; Destroy 2; Go 2; Go 2; Drop 2; Yield 2; Pick 1; Go 1; Go 1]). vm_compute. auto.
Qed.
Example C109_case_setter : exists s, reachable (step (fun f => f)) (init_state [1]) s /\ by_setter (log s) /\
  log s = [EDestroy 0; ESetDone; EGot 1; EStored; ESet] /\ freed s = true.
Proof.
  apply (reach_by (step (fun f => f)) (init_state [1]) [Pick 0; Pick 1; Go 0; Go 0; Go 0; Go 0; Go 1; Go 1; Go 1; Drop 1; Go 0; Destroy 0; Go 0; Go 0]). vm_compute. splits; auto.
  intros g H. repeat destruct H as [H|H]; try discriminate H; try (inversion H; auto); contradiction.
Qed.
