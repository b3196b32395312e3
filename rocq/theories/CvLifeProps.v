(** C108: a condition variable can be destroyed when all waiting fibers have been notified. *)
From Coq Require Import List Arith Bool Lia.
From Verif Require Import Base CvLife CvLifeSpec CvLifeFacts.
Import ListNotations.

(** C108 is false: the deadline of fiber 1 passes, then fiber 0 calls notify_all() and destroys the condition variable; fiber 1 still has to take its spinlock to remove its waker from the queue. *)
Theorem C108_refuted : exists s, reachable step init_state s /\ proper (log s) /\ log s = [EBad 1; EDestroy 0; ENotifyAll 0; ETimeout 1; EWait 1 true].
Proof.
  apply (reach_by step init_state [Wait 1 true; Expire 1; NotifyAll 0; Destroy 0; Remove 1]). vm_compute. split; auto.
  intros a b g E. destruct a as [|x a]; [discriminate|]. destruct a as [|y a].
  - inversion E; subst. split; [reflexivity|]. intros e [<-|[]]; simpl; auto.
  - exfalso. destruct a as [|? [|? [|? [|? ?]]]]; try discriminate E; repeat (destruct a; try discriminate E).
Qed.
Print Assumptions C108_refuted.

(** C108, for every use that respects the documented precondition: the queue is empty when the destructor runs, and a destroyed condition variable is accessed only by fibers whose deadline has passed. *)
Theorem C108_expired_partial : forall s, reachable step init_state s -> proper (log s) ->
  ~ In EAssert (log s) /\ forall f, In (EBad f) (log s) -> In (ETimeout f) (log s).
Proof. intros s R P. pose proof (late_reach s R) as D. split; [exact (d_assert s D P)|exact (d_bad s D P)]. Qed.
Print Assumptions C108_expired_partial.

(** C108, if no fiber is in wait_for() or wait_until() when the condition variable is destroyed: nobody accesses it any more, although calls of wait() need not have returned. *)
Theorem C108_untimed_partial : forall s, reachable step init_state s -> proper (log s) -> no_timed (log s) -> safe (log s).
Proof. intros s R P N. pose proof (late_reach s R) as D. split; [exact (d_safe s D P N)|exact (d_assert s D P)]. Qed.
Print Assumptions C108_untimed_partial.

(** A case: fibers 1 and 2 wait, fiber 3 has timed out and returned; fiber 0 notifies one of them, then all, and destroys the condition variable before they return. *)
Example C108_case : exists s, reachable step init_state s /\ proper (log s) /\ no_timed (log s) /\
  log s = [EReturn 2 true; EDestroy 0; EWoken 2; ENotifyAll 0; EWoken 1; ENotifyOne 0; EReturn 3 false; ETimeout 3; EWait 2 false; EWait 1 false; EWait 3 true].
Proof.
  apply (reach_by step init_state [Wait 3 true; Wait 1 false; Wait 2 false; Expire 3; Remove 3; Return 3; NotifyOne 0; NotifyAll 0; Destroy 0; Return 2]). vm_compute.
  assert (X : forall a b g, [EReturn 2 true; EDestroy 0; EWoken 2; ENotifyAll 0; EWoken 1; ENotifyOne 0; EReturn 3 false; ETimeout 3; EWait 2 false; EWait 1 false; EWait 3 true] = a ++ EDestroy g :: b ->
     a = [EReturn 2 true] /\ b = [EWoken 2; ENotifyAll 0; EWoken 1; ENotifyOne 0; EReturn 3 false; ETimeout 3; EWait 2 false; EWait 1 false; EWait 3 true]).
  { intros a b g E. destruct a as [|x a]; [discriminate|]. destruct a as [|y a]; [inversion E; auto|]. exfalso. inversion E; subst; clear E. repeat (destruct a as [|? a]; [discriminate|simpl in *; match goal with H : _ = _ |- _ => inversion H; subst; clear H end]). }
  splits; auto; intros a b g E; destruct (X a b g E) as (-> & ->).
  - split.
    + intros f. destruct f as [|[|[|f]]]; reflexivity.
    + intros e [<-|[]]; simpl; auto.
  - intros f. simpl. destruct f as [|[|[|[|f]]]]; reflexivity.
Qed.
