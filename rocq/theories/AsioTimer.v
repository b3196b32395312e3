(** Model: the object suspend_timer_ of the scheduling algorithm that embeds Boost.Asio (examples/asio/round_robin.hpp:36-184) as it is used by several threads: suspend_until() (lines 129-157) is called by the thread of the scheduler (src/scheduler.cpp:170), notify() (lines 161-182) by any other thread that wakes a fiber of this scheduler (src/scheduler.cpp:195-214).
    Simplified: a member function of the timer is a begin step and an end step, its effect happens at the end (where two calls overlap the real effect is undefined; the overlap itself is an observable event). Handlers that have become ready are only counted as posted, not executed. The condition variable (line 156) and the remote ready queue (src/scheduler.cpp:205-211) are not part of this model. Times are numbers; the clock is read by notify() just before expires_at() (line 181). *)
From Coq Require Import List Arith Bool.
From Verif Require Import Base.
Import ListNotations.

(** Threads; 0 is the thread of the scheduler. *)
Definition tid := nat.
(** A call of async_wait(): the thread and the number of the call in this thread. *)
Definition wid := (tid * nat)%type.
(** Member functions of suspend_timer_ (round_robin.hpp:152-155, 178-181). *)
Inductive top := TExpires (t : nat) | TWait (w : wid).
(** Where a thread is: outside; in suspend_until() before and inside expires_at() (line 152), before and inside async_wait() (153-155); in notify() before and inside async_wait() (178-180), before and inside expires_at() (181). *)
Inductive pc := Out
  | S1 (t : nat) | S1in (t : nat) | S2 (t : nat) | S2in (t : nat)
  | N1 | N1in | N2 | N2in (t : nat).
(** Observable events, newest first. *)
Inductive event :=
  | ECallSuspend (t : nat)              (* suspend_until( t) is called, t is not time_point::max() *)
  | ERetSuspend (t : nat) (w : wid)     (* and returns, w is its async_wait() *)
  | ECallNotify (i : tid)
  | ERetNotify (i : tid) (w : wid)
  | EBegin (i : tid) (o : top) | EEnd (i : tid) (o : top)   (* a member function of the timer *)
  | EHandler (w : wid).                 (* the handler of w becomes ready: expired or cancelled *)
(** The timer: its expiry time, the outstanding waits; the threads; the number of async_wait() calls of each thread. *)
Record st := mkSt { expiry : nat; pend : list wid; pcs : tid -> pc; num : tid -> nat; now : nat; log : list event }.
(** round_robin.hpp:74-75: a timer without expiry time and without waits. *)
Definition init : st := mkSt 0 [] (fun _ => Out) (fun _ => 0) 0 [].

(** The dispatcher calls suspend_until() (scheduler.cpp:170), another thread calls notify() (scheduler.cpp:213), a thread executes its next step, the timer expires, time passes. *)
Inductive label := LSuspend (t : nat) | LNotify (i : tid) | LRun (i : tid) | LExpire | LTick.

(** Field updates, no counterpart in the code. *)
Definition go (s : st) (i : tid) (p : pc) : st := mkSt (expiry s) (pend s) (upd (pcs s) i p) (num s) (now s) (log s).
Definition emit (s : st) (e : event) : st := mkSt (expiry s) (pend s) (pcs s) (num s) (now s) (e :: log s).
(** basic_waitable_timer::expires_at(): pending waits are cancelled, their handlers become ready (round_robin.hpp:152, 181). *)
Definition expires_at (s : st) (t : nat) : st :=
  mkSt t [] (pcs s) (num s) (now s) (map EHandler (pend s) ++ log s).
(** basic_waitable_timer::async_wait() (round_robin.hpp:153-155, 178-180). *)
Definition async_wait (s : st) (i : tid) : st :=
  mkSt (expiry s) ((i, num s i) :: pend s) (pcs s) (upd (num s) i (S (num s i))) (now s) (log s).
(** The expiry time has come: the handlers of the pending waits become ready. *)
Definition expire (s : st) : st := mkSt (expiry s) [] (pcs s) (num s) (now s) (map EHandler (pend s) ++ log s).

(** Next step of thread [i] in suspend_until() (round_robin.hpp:152-155) or notify() (178-181). *)
Definition run_step (s : st) (i : tid) : option st :=
  match pcs s i with
  | Out => None
  | S1 t => Some (emit (go s i (S1in t)) (EBegin i (TExpires t)))
  | S1in t => Some (emit (expires_at (go s i (S2 t)) t) (EEnd i (TExpires t)))
  | S2 t => Some (emit (go s i (S2in t)) (EBegin i (TWait (i, num s i))))
  | S2in t => Some (emit (emit (async_wait (go s i Out) i) (EEnd i (TWait (i, num s i)))) (ERetSuspend t (i, num s i)))
  | N1 => Some (emit (go s i N1in) (EBegin i (TWait (i, num s i))))
  | N1in => Some (emit (async_wait (go s i N2) i) (EEnd i (TWait (i, num s i))))
  | N2 => Some (emit (go s i (N2in (now s))) (EBegin i (TExpires (now s))))
  | N2in t => Some (emit (emit (expires_at (go s i Out) t) (EEnd i (TExpires t))) (ERetNotify i (i, pred (num s i))))
  end.

(** All steps. suspend_until() with time_point::max() does not touch the timer (round_robin.hpp:133) and is left out. *)
Definition step (s : st) (l : label) : option st :=
  match l with
  | LSuspend t => match pcs s 0 with Out => Some (emit (go s 0 (S1 t)) (ECallSuspend t)) | _ => None end
  | LNotify i =>
      if i =? 0 then None     (* context.cpp:310-314: fibers of the own thread are woken by schedule() *)
      else match pcs s i with Out => Some (emit (go s i N1) (ECallNotify i)) | _ => None end
  | LRun i => run_step s i
  | LExpire => match pend s with [] => None | _ => if expiry s <=? now s then Some (expire s) else None end
  | LTick => Some (mkSt (expiry s) (pend s) (pcs s) (num s) (S (now s)) (log s))
  end.
