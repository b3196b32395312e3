(** Specification for the Asio scheduling algorithm (C100, C101). *)
From Coq Require Import List Arith.
From Verif Require Import AsioRR.
Import ListNotations.

(** The thread sleeps in run_one() waiting for a handler. *)
Definition thread_blocked (s : st) : Prop := run s = Svc /\ lpc s = LRunOne /\ hq s = [].
(** A worker sleeps until d. *)
Definition sleeping (s : st) (i d : nat) : Prop := In (d, i) (sleeps s).
(** suspend_timer_ ends the wait of the thread at time d at the latest. *)
Definition timer_set (s : st) (d : nat) : Prop := pend s > 0 /\ expiry s <= d.
(** What handlers of the application and other threads do not do: suspend the service fiber; wake fibers of this thread from other threads. *)
Definition plain (l : label) : bool := match l with SYield | SBlock | Unblock | Push _ | Notify => false | _ => true end.
Definition no_block (l : label) : bool := match l with SBlock => false | _ => true end.
Definition restrict (p : label -> bool) (s : st) (l : label) : option st := if p l then step s l else None.
(** Before each suspend_until() a ready fiber has been found since the previous one. *)
Fixpoint polled (l : list event) : bool := match l with [] => false | ESuspend :: _ => false | EPoll :: _ => true | ERunOne :: t => polled t end.
Fixpoint no_spin (l : list event) : Prop := match l with [] => True | e :: t => (e = ESuspend -> polled t = true) /\ no_spin t end.
Definition suspends (l : list event) : nat := length (filter (fun e => match e with ESuspend => true | _ => false end) l).
