(** C144: the timer of the Asio scheduler is used by one thread at a time. *)
From Coq Require Import List Arith Bool Lia.
From Verif Require Import Base AsioTimer AsioTimerSpec AsioTimerFacts.
Import ListNotations.

(** False: while the dispatcher sets the timer, a thread that wakes one of its fibers is in the same object;
    and so are two threads that wake fibers. *)
Theorem C144_refuted :
  (exists s, reachable step init s /\ overlap (log s) /\
     inside (log s) 0 = Some (TExpires 5) /\ inside (log s) 1 = Some (TWait (1, 0))) /\
  (exists s, reachable step init s /\ overlap (log s) /\
     inside (log s) 0 = None /\ inside (log s) 1 = Some (TExpires 0) /\ inside (log s) 2 = Some (TWait (2, 0))).
Proof.
  split.
  - apply (reach_by step init [LSuspend 5; LNotify 1; LRun 1; LRun 0]). vm_compute. splits; auto.
    exists 0, 1. splits; simpl; discriminate.
  - apply (reach_by step init [LNotify 1; LNotify 2; LRun 1; LRun 1; LRun 1; LRun 2]). vm_compute. splits; auto.
    exists 1, 2. splits; simpl; discriminate.
Qed.

(** As long as no other thread wakes a fiber of the scheduler there is no overlap.
    (Missing from the full C144: wake-ups by other threads.) *)
Theorem C144_local_partial : forall s, reachable step init s -> local_only (log s) -> ~ overlap (log s).
Proof.
  intros s R L (i & j & D & A & B). apply inv_reach in R. rewrite (i_in _ R) in A, B.
  assert (X : forall k, pc_in k (num s k) (pcs s k) <> None -> k = 0).
  { intros k K. destruct (is_n (pcs s k)) eqn:N; [apply (i_n _ R) in N; destruct N as [_ N]; destruct (L _ N)|].
    apply (i_s _ R). destruct (pcs s k); simpl in *; congruence. }
  apply X in A. apply X in B. congruence.
Qed.

(** If the member functions of the timer were atomic, nothing would be lost: when notify() has returned, the
    handler of its wait is ready, so run_one() returns. *)
Theorem C144_notify_partial : forall s h1 i w h0,
  reachable step init s -> log s = h1 ++ ERetNotify i w :: h0 -> fst w = i /\ In w (handlers h0).
Proof.
  intros s h1 i w h0 R E. apply inv_reach in R. pose proof (i_good _ R) as G. rewrite E in G. eapply good_split; eauto.
Qed.

(** Every call has its own wait, and the handler of a wait becomes ready at most once and only after the wait was started. *)
Theorem C144_once_partial : forall s, reachable step init s ->
  NoDup (returned (log s)) /\ NoDup (handlers (log s)) /\ incl (handlers (log s)) (started (log s)).
Proof.
  intros s R. apply inv_reach in R. splits.
  - apply (i_rd _ R).
  - pose proof (i_nd _ R) as N. revert N. induction (pend s); simpl; auto. intros N. inversion N; auto.
  - intros w A. apply (i_acc _ R). auto.
Qed.

(** After suspend_until( t) has returned, its handler is ready or the timer fires at t at the latest, whatever other
    threads have done to the timer. *)
Theorem C144_deadline_partial : forall s t w,
  reachable step init s -> last_suspend (log s) = Some (t, w) -> t <= now s ->
  In w (handlers (log s)) \/ exists s', step s LExpire = Some s' /\ In w (handlers (log s')).
Proof.
  intros s t w R L T. apply inv_reach in R. destruct (i_last _ R _ _ L) as (_ & A & B).
  apply (i_acc _ R) in A. destruct A as [A|A]; auto. right. simpl.
  rewrite (proj2 (Nat.leb_le _ _)) by lia. destruct (pend s) eqn:E; [contradiction|].
  eexists. split; [reflexivity|]. unfold expire. cbn [log]. rewrite E, h_app. apply in_or_app. auto.
Qed.

(** A notification in the middle of suspend_until(), which itself returns later; then the time comes. *)
Example C144_partial_ex : exists s, reachable step init s /\
  (last_suspend (log s) = Some (2, (0, 1)) /\ 2 <= now s /\ ~ In (0, 1) (handlers (log s)) /\
   exists h1 h0, log s = h1 ++ ERetNotify 1 (1, 0) :: h0 /\ length h1 > 2).
Proof.
  apply (reach_by step init [LSuspend 5; LRun 0; LRun 0; LRun 0; LRun 0; LSuspend 2; LNotify 1; LRun 1; LRun 0; LRun 1; LRun 1; LRun 0; LRun 1; LRun 0; LRun 0; LTick; LTick]).
  vm_compute. splits; auto.
  - intros [A|[A|[]]]; discriminate.
  - eexists [_; _; _], _. split; [reflexivity|]. simpl. lia.
Qed.
Example C144_local_ex : exists s, reachable step init s /\
  (local_only (log s) /\ inside (log s) 0 = Some (TExpires 7) /\ handlers (log s) = [] /\ last_suspend (log s) = None).
Proof.
  apply (reach_by step init [LSuspend 5; LRun 0; LRun 0; LRun 0; LRun 0; LSuspend 7; LRun 0]).
  vm_compute. splits; auto. intros i A. repeat destruct A as [A|A]; discriminate || contradiction.
Qed.

Definition all_c144 := (@C144_refuted, @C144_local_partial, @C144_notify_partial, @C144_once_partial, @C144_deadline_partial).
Print Assumptions all_c144.
