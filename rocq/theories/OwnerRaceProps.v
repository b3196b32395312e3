(** C110: the members of a mutex are accessed without data races. *)
From Coq Require Import List Arith Bool Lia.
From Verif Require Import Base OwnerRace OwnerRaceSpec OwnerRaceFacts.
Import ListNotations.

(** C110 is false: fiber 1 is about to read owner_ at the end of try_lock(), after the release of the spinlock, while fiber 0 is about to set it to nullptr in unlock(). *)
Theorem C110_refuted : exists s, reachable step init_state s /\ race s 0 1 /\ fib s 0 = Write Unlock /\ fib s 1 = Again false.
Proof.
  apply (reach_by step init_state [Call 0 Lock; Go 0; Go 0; Go 0; Go 0; Go 0; Call 1 TryLock; Go 1; Go 1; Go 1; Go 1; Call 0 Unlock; Go 0; Go 0]). vm_compute. splits; eauto. discriminate.
Qed.
Print Assumptions C110_refuted.

(** C110, for all executions: the only racing access is the last read of try_lock(). *)
Theorem C110_where_partial : forall s, reachable step init_state s -> forall f g, race s f g -> exists t, fib s g = Again t.
Proof.
  intros s R f g (N & A & w & B). pose proof (i_in s (inv_reach s R)) as Ii.
  assert (X : splk s = Some f) by (apply Ii; destruct (fib s f); try discriminate; reflexivity).
  destruct (fib s g) eqn:G; try discriminate; eauto; exfalso; apply N; specialize (Ii g); rewrite G in Ii; specialize (Ii eq_refl); congruence.
Qed.
Print Assumptions C110_where_partial.

(** C110, without try_lock() there is no data race. *)
Theorem C110_no_try_partial : forall s, no_try s -> forall f g, ~ race s f g.
Proof.
  intros s P f g (N & A & w & B). destruct (no_try_inv s P) as (I & Q). pose proof (i_in s I) as Ii.
  assert (X : splk s = Some f) by (apply Ii; destruct (fib s f); try discriminate; reflexivity).
  specialize (Q g). destruct (fib s g) eqn:G; try discriminate; apply N; specialize (Ii g); rewrite G in Ii; specialize (Ii eq_refl); congruence.
Qed.
Print Assumptions C110_no_try_partial.

(** C110, the racing read is harmless where it yields one of the values stored: try_lock() returns true exactly if it has taken the mutex. *)
Theorem C110_result : forall s, reachable step init_state s -> forall f t r, In (ERet f TryLock t false r) (log s) -> r = t.
Proof. intros s R. exact (i_ret s (inv_reach s R)). Qed.
Print Assumptions C110_result.

(** A case: try_lock() fails, succeeds later, and a third fiber has to wait; no race in an execution with lock() and unlock() only, where a fiber is about to write. *)
Example C110_case : exists s, reachable step init_state s /\ fib s 2 = Susp Lock /\ log s = [ERet 1 TryLock true false true; ERet 0 Unlock true false true; ERet 1 TryLock false false false; ERet 0 Lock true false true].
Proof.
  apply (reach_by step init_state [Call 0 Lock; Go 0; Go 0; Go 0; Go 0; Go 0; Call 1 TryLock; Go 1; Go 1; Go 1; Go 1; Go 1; Call 0 Unlock; Go 0; Go 0; Go 0; Go 0; Call 1 TryLock; Go 1; Go 1; Go 1; Go 1; Go 1; Call 2 Lock; Go 2; Go 2; Go 2; Go 1]). vm_compute. auto.
Qed.
Example C110_case_no_try : exists s, no_try s /\ access (fib s 0) = Some true /\ fib s 1 = At0 Lock /\ fib s 2 = At0 TryUntil.
Proof.
  destruct (exec step init_state [Call 0 Lock; Go 0; Go 0; Go 0; Call 1 Lock; Call 2 TryUntil]) as [s|] eqn:E; [|vm_compute in E; discriminate].
  exists s. split.
  - cbn [exec] in E. assert (P := n_init).
    repeat match type of E with
    | (match step ?x ?l with Some _ => _ | None => _ end) = _ =>
        let y := fresh "y" in let Y := fresh "Y" in destruct (step x l) as [y|] eqn:Y; [|discriminate];
        apply (n_step _ _ _ P) in Y; [|intros f; discriminate]; clear P; rename Y into P
    end. injection E as <-. exact P.
  - vm_compute in E. injection E as <-. splits; reflexivity.
Qed.
