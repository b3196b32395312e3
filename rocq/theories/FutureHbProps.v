(** C137: synchronization with a shared state. *)
From Coq Require Import List Arith Bool.
From Verif Require Import Base MutexHb FutureHb FutureHbSpec FutureHbFacts.
Import ListNotations.

Theorem C137_passed : forall s, reachable fstep finit s -> passed (flog s) /\ once (flog s).
Proof. intros s R. pose proof (freach_inv s R) as I. split; [apply (f_pass s I)|]. red. rewrite (f_res s I). destruct (ready s); simpl; auto. Qed.
Theorem C137_race_free : forall s, reachable fstep finit s -> race_free (flog s).
Proof. intros s R. apply (f_race s (freach_inv s R)). Qed.
(** 2 waits in get(), 3 times out, 1 sets the value, 4 fails to set it, 2 and 3 read it. *)
Definition ex_run : list flabel :=
  [FGetC 2 MGet; FRun 2; FRun 2; FRun 2; FGetC 3 MUntil; FRun 3; FRun 3; FRun 3; FTimeout 3; FRun 3; FRun 3; FRun 3; LAct 1; FSetC 1 (RVal 7); FRun 1; FRun 1; FRun 1; FRun 1;
   FSetC 4 (RExc 1); FRun 4; FRun 4; FRun 4; FGetC 5 MWait; FRun 5; FRun 5; FRun 5; FWake 2; FRun 2; FRun 2; FRun 2; FGetC 3 MGet; FRun 3; FRun 3; FRun 3; FRun 3; FRun 2].
(** What is returned, and whether the action of 1 happens before it. *)
Definition ends (l : list fevent) : list (nat * option res * bool) :=
  flat_map (fun e => match e with FGot t r w => [(t, Some r, mem 3 w)] | FReady t w => [(t, None, mem 3 w)] | _ => [] end) l.
Example ex_C137 : exists s, reachable fstep finit s /\ results (flog s) = [RVal 7] /\ In (FAct 1 3) (flog s) /\ In (FThrow 4) (flog s) /\ In (FTime 3) (flog s) /\
  ends (flog s) = [(2, Some (RVal 7), true); (3, Some (RVal 7), true); (5, None, true)].
Proof. apply (reach_by fstep finit ex_run). vm_compute. splits; auto 20. Qed.
Print Assumptions C137_passed.
Print Assumptions C137_race_free.
