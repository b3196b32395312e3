(** C136: synchronization with a barrier. *)
From Coq Require Import List Arith Bool Lia.
From Verif Require Import Base MutexHb BarrierHb BarrierHbSpec BarrierHbFacts.
Import ListNotations.

(** The constructor rejects 0 (barrier.cpp:24). *)
Theorem C136_all_before : forall n s, n <> 0 -> reachable (bstep n) (binit n) s -> all_before n (blog s) /\ numbered (blog s).
Proof. intros n s N R. assert (1 <= n) as N1 by lia. pose proof (breach_inv n s N1 R) as I. split; [apply (b_all n s I)|]. exists (arr s). apply (b_num n s I). Qed.
Theorem C136_race_free : forall n s, n <> 0 -> reachable (bstep n) (binit n) s -> race_free (blog s).
Proof. intros n s N R. apply (b_race n s (breach_inv n s ltac:(lia) R)). Qed.
(** Two fibers and two rounds; 2 is resumed too early once. *)
Definition ex_run : list blabel :=
  [BAct 1; BAct 2; BCall 2; BRun 2; BRun 2; BRun 2; BRun 2; BWake 2; BRun 2; BRun 2; BRun 2; BCall 1; BRun 1; BRun 1; BRun 1; BRun 1; BAct 1; BCall 1; BRun 1;
   BWake 2; BRun 2; BRun 1; BRun 1; BRun 1; BRun 2; BRun 2; BRun 2; BCall 2; BRun 2; BRun 2; BRun 2; BRun 2; BWake 1; BRun 1; BRun 1; BRun 1].
(** The returns, and whether the actions 0 (of 1) and 1 (of 2) happen before them. *)
Definition rets (l : list aevent) : list (nat * nat * bool * bool * bool) := flat_map (fun e => match e with ARet t k b w => [(t, k, b, mem 0 w, mem 1 w)] | _ => [] end) l.
Example ex_C136 : exists s, reachable (bstep 2) (binit 2) s /\
  arrivals (blog s) = [3; 2; 1; 0] /\ In (AAct 1 0) (blog s) /\ In (AAct 2 1) (blog s) /\
  rets (blog s) = [(1, 2, false, true, true); (2, 3, true, true, true); (2, 0, false, true, true); (1, 1, true, true, true)].
Proof. apply (reach_by (bstep 2) (binit 2) ex_run). vm_compute. splits; auto 20. Qed.
Print Assumptions C136_all_before.
Print Assumptions C136_race_free.
