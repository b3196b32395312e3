(** Specification vocabulary for idle threads (Idle.v). *)
From Coq Require Import List Arith Bool.
From Verif Require Import Base Algo Drive Idle.
Import ListNotations.

(** Thread [t] waits at the condition variable of its algorithm. *)
Definition asleep (s : ist) (t : nat) : Prop := exists dl, idle s t = Asleep dl.
(** ... and nothing that has happened so far will wake it. *)
Definition sound_asleep (s : ist) (t : nat) : Prop := idle s t = Asleep false /\ flag s t = false /\ forall u, note s u <> Some t.
(** A worker context that is ready, in a queue that pick_next() of thread [t] looks at. *)
Definition can_run (kind : nat -> akind) (sched : nat -> nat -> option nat) (s : ist) (t k : nat) : Prop :=
  match kind t with
  | RoundRobin => In (fiber k) (q (al (dr s)) t)
  | SharedWork => In (fiber k) (shq (al (dr s))) \/ In (fiber k) (q (al (dr s)) t)
  | Stealing own local remote => In (fiber k) (q (al (dr s)) t) \/ exists i a, In i (local ++ remote) /\ i <> own /\ sched t i = Some a /\ In (fiber k) (q (al (dr s)) a)
  end.
(** The thread has a scheduler, and is not idle. *)
Definition at_work (s : ist) (t : nat) : Prop := idle s t = Busy /\ mode (dr s) t <> Off /\ mode (dr s) t <> Gone.
(** The thread that makes a step. *)
Definition actor (l : ilabel) : nat := match l with D l => who l | Notify t | Enter t _ | Rouse t | Timeout t => t end.
