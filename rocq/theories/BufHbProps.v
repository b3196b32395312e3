(** C139: what push() and pop() of a buffered channel synchronize. *)
From Coq Require Import List Arith Bool.
From Verif Require Import Base MutexHb BufHb BufHbSpec BufHbFacts.
Import ListNotations.

Theorem C139_delivered : forall cap s, 2 <= cap -> reachable (bstep cap) binit s -> delivered (blog s) /\ distinct (blog s).
Proof. intros cap s C R. pose proof (breach_inv cap s C R) as I. split; [apply (i_del cap s I) | apply (i_num cap s I)]. Qed.
Theorem C139_bounded : forall cap s, 2 <= cap -> reachable (bstep cap) binit s -> bounded cap (blog s).
Proof. intros cap s C R. apply (i_bnd cap s (breach_inv cap s C R)). Qed.
Theorem C139_closed : forall cap s, 2 <= cap -> reachable (bstep cap) binit s -> close_seen (blog s) /\ shut (blog s).
Proof. intros cap s C R. pose proof (breach_inv cap s C R) as I. split; [apply (i_seen cap s I) | apply (i_shut cap s I)]. Qed.
Theorem C139_race_free : forall cap s, 2 <= cap -> reachable (bstep cap) binit s -> race_free (blog s).
Proof. intros cap s C R. apply (i_race cap s (breach_inv cap s C R)). Qed.
(** Capacity 2, so one value at a time: 3 finds the channel empty and waits; 1 acts and pushes; 2 acts, finds the channel full and waits; 4 times out in a push; 3 acts, pops, 2 goes on and pushes; 5 acts on its own; 1 acts and closes the channel; 3 pops, then finds it closed, as 4 does. *)
Definition ex_run : list blabel :=
  [LCall 3 OPop; LRun 3; LAct 1; LCall 1 (OPush 11); LRun 1; LAct 2; LCall 2 (OPush 12); LRun 2; LCall 4 (OPushUntil 13); LRun 4; LLate 4; LRun 4; LWake 3; LRun 3; LAct 3; LCall 3 OTryPop; LRun 3; LWake 2; LRun 2;
   LAct 5; LAct 1; LCall 1 OClose; LRun 1; LCall 3 OPopUntil; LRun 3; LCall 3 OPop; LRun 3; LCall 4 (OTryPush 14); LRun 4; LCall 2 OIsClosed; LRun 2].
(** Values with the actions that happen before the return. *)
Definition seen_by (l : list bevent) (x : nat * list nat * list nat) : nat * list nat := (fst (fst x), filter (fun n => mem n (snd x)) (all_acts l)).
Definition closed_by (l : list bevent) : list (nat * list nat) := flat_map (fun e => match e with BClosed t w => [(t, filter (fun n => mem n w) (all_acts l))] | _ => [] end) l.
Example ex_C139 : exists s, reachable (bstep 2) binit s /\ all_acts (blog s) = [12; 11; 8; 3; 1] /\
  map (seen_by (blog s)) (pushes (blog s)) = [(11, [1]); (12, [8; 3; 1])] /\ map (seen_by (blog s)) (pops (blog s)) = [(11, [3; 1]); (12, [12; 8; 3; 1])] /\
  closed_by (blog s) = [(2, [12; 8; 3; 1]); (4, [12; 8; 3; 1]); (3, [12; 8; 3; 1])] /\ In (BTime 4) (blog s) /\ In (BEmpty 3) (blog s).
Proof. apply (reach_by (bstep 2) binit ex_run). vm_compute. splits; auto 20. Qed.
Print Assumptions C139_delivered.
Print Assumptions C139_bounded.
Print Assumptions C139_closed.
Print Assumptions C139_race_free.
